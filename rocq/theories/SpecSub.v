(** Index tuples as written by the user, and assignment into an array. *)
From Coq Require Import Reals List Arith ZArith Bool Lia.
From Verif Require Import XR ModelIdx SpecIdx ModelSub.
Import ListNotations.
Open Scope nat_scope.

(** An index tuple is a list of [rent V] without [XType] (variables, literals,
    None, slices).  A [Subtensor] node stores it as a template and the list of
    its variables, in order (start, stop, step inside a slice). *)
Inductive written {V} : rent V -> Prop :=
| w_var v : written (XVar v) | w_int z : written (XInt z) | w_none : written XNone
| w_slice a b c : written a -> written b -> written c -> written (XSlice a b c).
Fixpoint template {V} (e : rent V) : ient :=
  match e with XVar _ | XType => EType | XInt z => EInt z | XNone => ENone
             | XSlice a b c => ESlice (template a) (template b) (template c) end.
Fixpoint variables {V} (e : rent V) : list V :=
  match e with XVar v => [v] | XSlice a b c => variables a ++ variables b ++ variables c | _ => [] end.
(** one entry at most mentions variables *)
Definition one_symbolic {V} (ix : list (rent V)) : Prop :=
  forall i j e e', nth_error ix i = Some e -> nth_error ix j = Some e' -> variables e <> [] -> variables e' <> [] -> i = j.
(** the index tuple a written entry denotes when its variables are index values *)
Inductive denotes_part : rent index -> option Z -> Prop :=
| dp_var z : denotes_part (XVar (IInt z)) (Some z) | dp_int z : denotes_part (XInt z) (Some z) | dp_none : denotes_part XNone None.
Inductive denotes_index : rent index -> index -> Prop :=
| di_var i : denotes_index (XVar i) i | di_int z : denotes_index (XInt z) (IInt z) | di_none : denotes_index XNone INew
| di_slice a b c a' b' c' : denotes_part a a' -> denotes_part b b' -> denotes_part c c' -> denotes_index (XSlice a b c) (ISlice a' b' c').
(** [p] is a target of the index [ix] at position [o] of its result *)
Definition targets (ix : list index) (sh osh o p : list nat) : Prop := inside osh o /\ np_element ix sh o p.
(** [A[ix] = data] makes sense: every position of the result has a target and
    the data broadcasts to the result's shape *)
Definition assignable (ix : list index) (sh osh dsh : list nat) : Prop :=
  np_shape ix sh osh /\ is_broadcast [dsh; osh] osh /\ forall o, inside osh o -> exists p, targets ix sh osh o p.
