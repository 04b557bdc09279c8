(** Batches of discrete Markov chains: /repo/aeppl/dists.py 128-209
    (create_discrete_mc_op) and 212-289 (discrete_markov_chain), with NumPy's
    broadcasting.  Random draws are finite distributions (ModelChain). *)
From Coq Require Import Reals List Arith.
From Verif Require Import XR ModelVec ModelIdx ModelTen ModelSub ModelBatch ModelMvnB ModelChain.
Import ListNotations.
Open Scope nat_scope.

(** [at.broadcast_to(a, s)] *)
Definition broadcast_nd {A} (s : list nat) (a : nd A) : res (nd A) :=
  bind (bcast_all [nshp a; s]) (fun t =>
  if list_eq_dec Nat.eq_dec t s then Val {| nshp := s; nelt := fun i => nelt a (align (nshp a) i) |} else Raise).
(** Independent draws at the positions [ps], by [srng.categorical] (dists.py:166
    and 185) *)
Fixpoint draws (ps : list (list nat)) (p : list nat -> list R) : dist (list nat -> nat) :=
  match ps with
  | [] => dret (fun _ => 0)
  | i :: ps =>
      dbind (categorical (p i)) (fun k =>
      dbind (draws ps p) (fun f => dret (fun j => if list_eq_dec Nat.eq_dec j i then k else f j)))
  end.
(** [srng.categorical(p)]: one draw for every vector along the last axis *)
Definition draw (p : nd R) : dist (nd nat) :=
  let s := removelast (nshp p) in
  dbind (draws (positions s) (row p)) (fun f => dret {| nshp := s; nelt := f |}).
(** [at.ogrid[[slice(None, d) for d in s]]], dists.py:181: one range per axis,
    along that axis *)
Definition ogrid (s : list nat) : list (nd nat) :=
  map (fun k => {| nshp := map (fun j => if j =? k then nth k s 1 else 1) (seq 0 (length s)); nelt := fun i => nth k i 0 |})
    (seq 0 (length s)).
(** [Gammas_inner[..., n, :, :]], dists.py:180; [r] axes precede *)
Definition at_step {A} (r n : nat) (G : nd A) : nd A :=
  {| nshp := firstn r (nshp G) ++ skipn (S r) (nshp G); nelt := fun i => nelt G (firstn r i ++ n :: skipn r i) |}.
(** [gamma_t[idx]] for a tuple of integer arrays broadcast to the shape [s],
    dists.py:184.  Simplification: the entries are read inside the array (the
    states are, when the matrices are square and as large as [gamma_0]). *)
Definition pick {A} (s : list nat) (a : nd A) (idx : list (nd nat)) : nd A :=
  {| nshp := s ++ skipn (length idx) (nshp a);
     nelt := fun i => nelt a (map (fun t => nelt t (align (nshp t) (firstn (length s) i))) idx ++ skipn (length s) i) |}.
(** dists.py:179-195, the scan over [ns = arange(N)]: the states are carried
    transposed.  [s0] is the shape of [state_0] and [s] the broadcast shape of
    the index tuple. *)
Fixpoint loop_nd (s0 s : list nat) (G : nd R) (ns : list nat) (state_nm1 : nd nat) : dist (list (nd nat)) :=
  match ns with
  | [] => dret []
  | n :: ns =>
      let gamma_t := at_step (length s0) n G in
      let idx := ogrid s0 ++ [transpose state_nm1] in
      dbind (draw (pick s gamma_t idx)) (fun state_n =>
      dbind (loop_nd s0 s G ns (transpose state_n)) (fun rest => dret (transpose state_n :: rest)))
  end.
(** the output of the scan: the states stacked along a new first axis *)
Definition stacked (s : list nat) (l : list (nd nat)) : nd nat :=
  {| nshp := length l :: s;
     nelt := fun i => match i with n :: i => nelt (nth n l {| nshp := []; nelt := fun _ => 0 |}) i | [] => 0 end |}.
(** dists.py:146-209 and 263-289.  262-264 require three axes of [Gammas];
    [gamma_0] has a vector axis.  157-162 [broadcast_params]: the axes before
    the matrices and the vector are broadcast (Aesara takes maxima, and
    [broadcast_to] then fails; empty batches excepted).  [size]: normalized. *)
Definition discrete_markov_chain_nd (size : list nat) (Gammas gamma_0 : nd R) : res (dist (nd nat)) :=
  match rev (nshp Gammas), rev (nshp gamma_0) with
  | k2 :: k1 :: N :: rg, m :: rh =>
      bind (bcast_all [rev rg; rev rh]) (fun b =>
      bind (broadcast_nd (b ++ [N; k1; k2]) Gammas) (fun G =>
      bind (broadcast_nd (b ++ [m]) gamma_0) (fun g =>
      let s0 := size ++ b in
      bind (broadcast_nd (s0 ++ [m]) g) (fun g =>
      bind (broadcast_nd (s0 ++ [N; k1; k2]) G) (fun G =>
      bind (bcast_all (map nshp (ogrid s0) ++ [nshp (transpose {| nshp := rev s0; nelt := fun _ => 0 |})])) (fun s =>
      Val (dbind (draw g) (fun state_0 =>
           dbind (loop_nd s0 s G (seq 0 N) (transpose state_0)) (fun l =>
           dret (transpose (stacked (rev s0) l)))))))))))
  | _, _ => Raise
  end.
