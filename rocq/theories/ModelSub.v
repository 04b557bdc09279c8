(** Index reconstruction and partially overwritten variables:
    /repo/aeppl/utils.py 230-250 and /repo/aeppl/rewriting.py 116-159. *)
From Coq Require Import Reals List Arith ZArith Bool Lia.
From Verif Require Import XR ModelVec ModelIdx ModelMix.
Import ListNotations.
Open Scope nat_scope.

(** An entry of a [Subtensor] op's [idx_list]: a type standing for the next
    input, a literal, None, or a slice of these. *)
Inductive ient := EType | EInt (z : Z) | ENone | ESlice (a b c : ient).
(** A reconstructed index over inputs of type [V]; [XType] is a type left in
    place because the inputs ran out (utils.py:240-241). *)
Inductive rent (V : Type) := XVar (v : V) | XInt (z : Z) | XNone | XSlice (a b c : rent V) | XType.
Arguments XVar {V}. Arguments XInt {V}. Arguments XNone {V}. Arguments XSlice {V}. Arguments XType {V}.

(** utils.py:230-241; the mutable list [indices] is threaded through. *)
Fixpoint convert_indices {V} (indices : list V) (e : ient) : rent V * list V :=
  match e with
  | EType => match indices with v :: r => (XVar v, r) | [] => (XType, []) end
  | ESlice a b c =>
      let '(a', r) := convert_indices indices a in
      let '(b', r) := convert_indices r b in
      let '(c', r) := convert_indices r c in (XSlice a' b' c', r)
  | EInt z => (XInt z, indices)
  | ENone => (XNone, indices)
  end.
(** utils.py:244-250: [list(indices)] makes a new list for every entry.
    [None]: an op without [idx_list]. *)
Definition indices_from_subtensor {V} (idx_list : option (list ient)) (indices : list V) : list (rent V) :=
  match idx_list with
  | Some (e :: es) => map (fun e => fst (convert_indices indices e)) (e :: es)
  | _ => map XVar indices
  end.

(** Use of a reconstructed index in [value_var[idx]] (rewriting.py:155): the
    inputs denote integers, integer arrays or, for advanced indexing, any
    index entry.  A leftover type raises. *)
Definition part (e : rent index) : res (option Z) :=
  match e with XVar (IInt z) | XInt z => Val (Some z) | XNone => Val None | _ => Raise end.
Definition as_index (e : rent index) : res index :=
  match e with
  | XVar i => Val i
  | XInt z => Val (IInt z)
  | XNone => Val INew
  | XSlice a b c => bind (part a) (fun a => bind (part b) (fun b => bind (part c) (fun c => Val (ISlice a b c))))
  | XType => Raise
  end.
Fixpoint all_val {A} (l : list (res A)) : res (list A) :=
  match l with [] => Val [] | x :: l => bind x (fun x => bind (all_val l) (fun l => Val (x :: l))) end.

(** multi-indices of an array in row-major order *)
Fixpoint positions (sh : list nat) : list (list nat) :=
  match sh with [] => [[]] | n :: sh => flat_map (fun k => map (cons k) (positions sh)) (seq 0 n) end.
Definition pos_eqb (a b : list nat) : bool := if list_eq_dec Nat.eq_dec a b then true else false.
(** [at.set_subtensor(y[ix], data)] (rewriting.py:155), Aesara's operation by
    NumPy's contract: assignments in row-major order of the index result, the
    data broadcast to its shape.  Index resolution is the one of [expand_indices],
    which C21 shows to be NumPy's for positive-step slices.  Values are
    functions of the multi-index. *)
Definition np_set {A} (sh : list nat) (y : list nat -> A) (ix : list index) (dsh : list nat) (data : list nat -> A) :
    res (list nat -> A) :=
  bind (expand_indices ix sh) (fun advs =>
    let o := match advs with a :: _ => shp a | [] => [] end in
    bind (bcast_all [dsh; o]) (fun s =>
      if pos_eqb s o then
        bind (all_val (map (fun c => resolve_all sh (map (fun a => get a c) advs)) (positions o))) (fun targets =>
          Val (fold_left (fun y tc p => if pos_eqb p (fst tc) then data (align dsh (snd tc)) else y p)
                         (combine targets (positions o)) y))
      else Raise)).

(** An [*IncSubtensor*] node over a measurable variable (rewriting.py:138-152). *)
Record inc_node := { set_instead_of_inc : bool; base : comp; dshape : list nat; data : list nat -> xr;
                     idx_list : option (list ient); inputs : list index }.
(** rewriting.py:116-159 followed by the base variable's log-probability at
    the new value variable *)
Definition incsubtensor_logprob (n : inc_node) (y : list nat -> xr) : res (list nat -> res xr) :=
  bind (all_val (map as_index (indices_from_subtensor (idx_list n) (inputs n)))) (fun ix =>
  bind (np_set (cshp (base n)) y ix (dshape n) (data n)) (fun z =>
  Val (fun p => clp (base n) p (z p)))).
