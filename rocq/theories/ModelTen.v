(** Dimension shuffles, stacks, joins and cumulative sums:
    /repo/aeppl/tensor.py 19-192 and /repo/aeppl/cumsum.py 15-85. *)
From Coq Require Import Reals List Arith ZArith Bool Lia.
From Verif Require Import XR ModelVec ModelMix.
Import ListNotations.
Open Scope nat_scope.

(** An array: shape and elements by multi-index (read inside the shape only). *)
Record nd (A : Type) := { nshp : list nat; nelt : list nat -> A }.
Arguments nshp {A}. Arguments nelt {A}.

Fixpoint index_of (x : nat) (l : list nat) : option nat :=
  match l with [] => None | y :: l => if y =? x then Some 0 else option_map S (index_of x l) end.
(** Position of input axis [d] in a dimshuffle order; [None] is "x". *)
Fixpoint axis_at (d : nat) (o : list (option nat)) : option nat :=
  match o with
  | [] => None
  | Some e :: o => if e =? d then Some 0 else option_map S (axis_at d o)
  | None :: o => option_map S (axis_at d o)
  end.
(** Aesara's DimShuffle by its contract: output axis j is input axis o[j], or
    a new axis of length one ("x"); input axes that are not mentioned are
    dropped (Aesara requires them to have length one). *)
Definition dimshuffle {A} (o : list (option nat)) (a : nd A) : nd A :=
  {| nshp := map (fun e => match e with Some d => nth d (nshp a) 1 | None => 1 end) o;
     nelt := fun q => nelt a (map (fun d => match axis_at d o with Some j => nth j q 0 | None => 0 end)
                                  (seq 0 (length (nshp a)))) |}.

(** [op.shuffle]: the entries of [new_order] that are not "x" *)
Definition shuffle (o : list (option nat)) : list nat := flat_map (fun e => match e with Some d => [d] | None => [] end) o.
(** tensor.py:135 *)
Fixpoint kept_from (k : nat) (o : list (option nat)) : list nat :=
  match o with [] => [] | Some _ :: o => k :: kept_from (S k) o | None :: o => kept_from (S k) o end.
(** tensor.py:136; [n] is the input rank and [op.transposition] lists all its axes *)
Definition dropped_dims (n : nat) (o : list (option nat)) : list nat :=
  filter (fun d => negb (existsb (Nat.eqb d) (shuffle o))) (seq 0 n).
(** tensor.py:137-139 *)
Definition undo_drop (n : nat) (o : list (option nat)) : list (option nat) :=
  fold_left (fun l d => insert d None l) (dropped_dims n o) (map Some (kept_from 0 o)).
(** tensor.py:142-145 *)
Definition original_shuffle (n : nat) (o : list (option nat)) : list nat :=
  fold_left (fun l d => insert d d l) (dropped_dims n o) (shuffle o).
Definition undo_shuffle (n : nat) (o : list (option nat)) : list (option nat) :=
  map (fun i => index_of i (original_shuffle n o)) (seq 0 (length (original_shuffle n o))).
(** tensor.py:133-146: the value handed to the base variable.  [index_of]
    raises in the code when the entry is missing; a missing entry would show
    up here as "x". *)
Definition unshuffled {A} (n : nat) (o : list (option nat)) (value : nd A) : nd A :=
  dimshuffle (undo_shuffle n o) (dimshuffle (undo_drop n o) value).
(** tensor.py:155 *)
Definition redo (r : nat) (o : list (option nat)) : list (option nat) :=
  filter (fun e => match e with None => true | Some d => d <? r end) o.
(** tensor.py:128-156 for a base variable with scalar support: [logprob] is
    element-wise *)
Definition logprob_dimshuffle (o : list (option nat)) (base : comp) (value : nd xr) : nd (res xr) :=
  let v := unshuffled (length (cshp base)) o value in
  let raw := {| nshp := nshp v; nelt := fun p => clp base p (nelt v p) |} in
  dimshuffle (redo (length (nshp raw)) o) raw.

(** ** Stacks and joins *)
(** tensor.py:25-34 *)
Definition logprob_make_vector (bases : list (xr -> res xr)) (value : list xr) : res (list xr) :=
  fold_right (fun x acc => bind x (fun x => bind acc (fun l => Val (x :: l)))) (Val [])
    (map (fun ib => bind (np_index value (Z.of_nat (fst ib))) (snd ib)) (combine (seq 0 (length bases)) bases)).

Definition set_nth (k x : nat) (l : list nat) : list nat := firstn k l ++ x :: skipn (S k) l.
(** a Python axis; [None] out of range *)
Definition norm_axis (r : nat) (z : Z) : option nat :=
  let z' := if (z <? 0)%Z then (z + Z.of_nat r)%Z else z in
  if ((0 <=? z') && (z' <? Z.of_nat r))%Z then Some (Z.to_nat z') else None.
(** element [q] of a concatenation along [ax] *)
Fixpoint cat_elt {A} (ax : nat) (l : list (nd A)) (q : list nat) (d : A) : A :=
  match l with
  | [] => d
  | a :: l => let n := nth ax (nshp a) 0 in
              if nth ax q 0 <? n then nelt a q else cat_elt ax l (set_nth ax (nth ax q 0 - n) q) d
  end.
(** [at.concatenate]: raises on an axis out of range or on shapes that differ
    elsewhere than along the axis *)
Definition concatenate {A} (axis : Z) (l : list (nd A)) (d : A) : res (nd A) :=
  match l with
  | [] => Raise
  | a :: _ =>
      match norm_axis (length (nshp a)) axis with
      | None => Raise
      | Some ax =>
          if forallb (fun b => if list_eq_dec Nat.eq_dec (set_nth ax 0 (nshp b)) (set_nth ax 0 (nshp a)) then true else false) l
          then Val {| nshp := set_nth ax (fold_right (fun b s => nth ax (nshp b) 0 + s) 0 l) (nshp a);
                      nelt := fun q => cat_elt ax l q d |}
          else Raise
      end
  end.
(** A part of a join: its shape, the number of its support axes (the last
    ones) and its log-probability, an array over the batch axes. *)
Record jpart := { pshp : list nat; psupp : nat; plp : (list nat -> xr) -> list nat -> res xr }.
Definition logp_shape (b : jpart) : list nat := firstn (length (pshp b) - psupp b) (pshp b).
(** tensor.py:47-57: the parts' log-probabilities at the split value.  [off] is
    the total size of the preceding parts. *)
Fixpoint split_logps (ax off : nat) (bases : list jpart) (value : list nat -> xr) : list (nd (res xr)) :=
  match bases with
  | [] => []
  | b :: bases =>
      {| nshp := logp_shape b; nelt := plp b (fun p => value (set_nth ax (nth ax p 0 + off) p)) |}
      :: split_logps ax (off + nth ax (pshp b) 0) bases value
  end.
(** [at.atleast_1d] *)
Definition atleast_1d {A} (a : nd A) : nd A :=
  match nshp a with [] => {| nshp := [1]; nelt := fun _ => nelt a [] |} | _ => a end.
(** tensor.py:42-74.  [vshape] is the value's shape; [at.split] raises unless
    the sizes add up.  The ranks of the log-probabilities are compared at 59. *)
Definition logprob_join (axis : Z) (bases : list jpart) (vshape : list nat) (value : list nat -> xr) : res (nd (res xr)) :=
  match norm_axis (length vshape) axis with
  | None => Raise
  | Some ax =>
      if fold_right (fun b s => nth ax (pshp b) 0 + s) 0 bases =? nth ax vshape 0 then
        let logps := split_logps ax 0 bases value in
        match logps with
        | [] => Raise
        | l0 :: _ =>
            if forallb (fun l => length (nshp l) =? length (nshp l0)) logps
            then concatenate (axis - (Z.of_nat (length vshape) - Z.of_nat (length (nshp l0)))) (map atleast_1d logps) (Val NaN)
            else Raise
        end
      else Raise
  end.

(** tensor.py:77-116, the decision: inputs of a MakeVector or Join node by
    variable identity.  The rewrite applies when every base variable is the
    output of a measurable, un-valued node. *)
Definition find_measurable_stacks (measurable valued : nat -> bool) (base_vars : list nat) : option (list nat) :=
  if forallb (fun v => measurable v && negb (valued v)) base_vars then Some base_vars else None.

(** ** Cumulative sums *)
(** [at.diff(v, axis)] *)
Definition diff (ax : nat) (v : nd xr) : nd xr :=
  {| nshp := set_nth ax (nth ax (nshp v) 0 - 1) (nshp v);
     nelt := fun p => xsub (nelt v (set_nth ax (S (nth ax p 0)) p)) (nelt v p) |}.
(** [at.shape_padaxis(at.take(v, 0, axis), axis)] *)
Definition take_first (ax : nat) (v : nd xr) : nd xr :=
  {| nshp := set_nth ax 1 (nshp v); nelt := fun p => nelt v (set_nth ax 0 p) |}.
(** cumsum.py:27-39 *)
Definition value_diff (axis : Z) (v : nd xr) : res (nd xr) :=
  match norm_axis (length (nshp v)) axis with
  | None => Raise
  | Some ax => if nth ax (nshp v) 0 =? 0 then Raise else concatenate axis [take_first ax v; diff ax v] NaN
  end.
(** cumsum.py:22-44, base variable with scalar support *)
Definition logprob_cumsum (axis : Z) (base : comp) (v : nd xr) : res (nd (res xr)) :=
  rmap (fun d => {| nshp := nshp d; nelt := fun p => clp base p (nelt d p) |}) (value_diff axis v).
(** cumsum.py:47-76, the decision: the axis of the measurable operation.
    [op_axis = None]: the flattening cumsum; [axis or 0] maps 0 and None to 0. *)
Definition find_measurable_cumsum (mode_add measurable valued : bool) (ndim : nat) (op_axis : option Z) : option Z :=
  if negb mode_add then None
  else if negb (measurable && negb valued) then None
  else match op_axis with
       | None => if 1 <? ndim then None else Some 0%Z
       | Some a => Some a
       end.
