(** Batches of vector-valued variables: the categorical, Dirichlet and
    multinomial log-probabilities of /repo/aeppl/logprob.py 546-577 and
    613-649 on arrays of any rank, with NumPy's broadcasting. *)
From Coq Require Import Reals List Arith ZArith Bool.
From Verif Require Import XR Special ModelDist ModelVec ModelIdx ModelTen ModelSub.
Import ListNotations.
Open Scope nat_scope.

(** An element-wise operation of two arrays (Aesara's Elemwise) *)
Definition elem2 {A B C} (f : A -> B -> C) (a : nd A) (b : nd B) : res (nd C) :=
  bind (bcast_all [nshp a; nshp b]) (fun s =>
  Val {| nshp := s; nelt := fun i => f (nelt a (align (nshp a) i)) (nelt b (align (nshp b) i)) |}).
Definition elem1 {A B} (f : A -> B) (a : nd A) : nd B := {| nshp := nshp a; nelt := fun i => f (nelt a i) |}.
(** the vector along the last axis at batch position [i] *)
Definition row {A} (a : nd A) (i : list nat) : list A := map (fun k => nelt a (i ++ [k])) (seq 0 (last (nshp a) 1)).
(** [at.sum(..., axis=-1)], [at.all(..., axis=-1)]: a reduction over the last axis *)
Definition reduce {A B} (f : list A -> B) (a : nd A) : nd B := {| nshp := removelast (nshp a); nelt := fun i => f (row a i) |}.
(** [at.all] *)
Definition all_of (a : nd bool) : bool := forallb (nelt a) (positions (nshp a)).
(** [CheckParameterValue] *)
Definition check_nd {A} (r : res (nd A)) (conds : list bool) : res (nd A) :=
  bind r (fun a => if forallb (fun b => b) conds then Val a else Raise).
(** [at.switch(c, res, -np.inf)] *)
Definition switch_nd (c : nd bool) (r : nd xr) : res (nd xr) := elem2 (fun (b : bool) x => if b then x else NInf) c r.

(** logprob.py:613-628; chains of element-wise operations of the same two
    arrays (614-615) are one element-wise operation. *)
Definition dirichlet_nd (alpha value : nd xr) : res (nd xr) :=
  check_nd
    (bind (elem2 (fun a v => xsub (xlogy0 (xsub a (Fin 1)) v) (xgammaln a)) alpha value) (fun t =>
     bind (elem2 xadd (reduce xsum t) (elem1 xgammaln (reduce xsum alpha))) (fun res =>
     bind (elem2 andb (reduce (forallb (fun v => xle (Fin 0) v)) value) (reduce (forallb (fun v => xle v (Fin 1))) value)) (fun c =>
     switch_nd c res))))
    [all_of (elem1 (fun a => xlt (Fin 0) a) alpha)].

(** logprob.py:631-649 *)
Definition multinomial_nd (n p value : nd xr) : res (nd xr) :=
  check_nd
    (bind (elem2 (fun v q => xadd (xneg (xgammaln (xadd v (Fin 1)))) (xlogy0 v q)) value p) (fun t =>
     bind (elem2 xadd (elem1 (fun x => xgammaln (xadd x (Fin 1))) n) (reduce xsum t)) (fun res =>
     bind (elem2 xeq (reduce xsum value) n) (fun e =>
     bind (elem2 andb (reduce (forallb (fun v => xle (Fin 0) v)) value) e) (fun c =>
     switch_nd c res)))))
    [all_of (elem1 (fun q => xle q (Fin 1)) p); all_of (elem1 (fun s => xeq s (Fin 1)) (reduce xsum p)); all_of (elem1 (fun x => xge x (Fin 0)) n)].

(** [at.shape_padleft(a, k)] *)
Definition padleft {A} (k : nat) (a : nd A) : nd A :=
  {| nshp := repeat 1 k ++ nshp a; nelt := fun i => nelt a (skipn k i) |}.
(** Indexing with integer arrays broadcast to shape [s]: every position is
    read, so one index out of range raises. *)
Definition fancy (s : list nat) (at_pos : list nat -> res xr) : res (nd xr) :=
  bind (rseq (map at_pos (positions s))) (fun _ =>
  Val {| nshp := s; nelt := fun o => match at_pos o with Val a => a | Raise => NaN end |}).
(** [at.take_along_axis(arr, indices)] on axis 0 by NumPy's contract: the other
    axes are indexed by their own ranges, all index arrays broadcast, and
    integers are read as NumPy reads them (negative ones from the end). *)
Definition take_along (arr : nd xr) (ind : nd Z) : res (nd xr) :=
  match nshp arr with
  | [] => Raise
  | K :: rest =>
      bind (bcast_all [nshp ind; 1 :: rest]) (fun s =>
      fancy s (fun o => np_index (map (fun k => nelt arr (k :: align rest o)) (seq 0 K)) (nelt ind (align (nshp ind) o))))
  end.
(** logprob.py:546-577: 551 normalises, 553-570 is the branch [p.ndim > 1],
    571-572 the other one, 574-579 the rest. *)
Definition categorical_nd (p : nd xr) (value : nd Z) : res (nd xr) :=
  bind (elem2 xdiv p {| nshp := removelast (nshp p) ++ [1]; nelt := fun i => xsum (row p (removelast i)) |}) (fun p =>
  let np := length (nshp p) in
  let nv := length (nshp value) in
  let batched := 1 <? np in
  let value := if batched && (nv <? np) then padleft (np - nv) value else value in
  let p := if batched && (np <? nv) then padleft (nv - np) p else p in
  let n := length (nshp p) in
  let pattern := Some (n - 1) :: map Some (seq 0 (n - 1)) in
  bind (if batched then take_along (dimshuffle pattern p) value
        else fancy (nshp value) (fun o => np_index (row p []) (nelt value o))) (fun t =>
  let K := last (nshp p) 1 in
  check_nd (switch_nd (elem1 (fun z => (0 <=? z) && (z <? Z.of_nat K))%Z value) (elem1 xlog t))
    [all_of (elem1 (fun x => xge x (Fin 0)) p); all_of (elem1 (fun x => xle x (Fin 1)) p)])).
