(** Specification for two further claims of C95: which arrays have an integer
    dtype, and running totals. *)
From Coq Require Import Reals List Arith.
From Verif Require Import XR ModelVec ModelTen ModelNest ModelElsV SpecTen.
Import ListNotations.
Open Scope nat_scope.

(** [v] has no value of its own and an integer dtype: a discrete random
    variable, an index, transposition or cumulative sum of integers, or a stack or
    concatenation of integers only *)
Inductive counts (ddt : nat -> dtype) (h : list vnode) (req : list nat) : nat -> Prop :=
| ct_rv v d s ps : nth_error h v = Some (VRv d s ps) -> ddt d = DInt -> ~ In v req -> counts ddt h req v
| ct_take v xs t a : nth_error h v = Some (VTake xs t a) -> counts ddt h req a -> ~ In v req -> counts ddt h req v
| ct_shuf v o a : nth_error h v = Some (VShuf o a) -> counts ddt h req a -> ~ In v req -> counts ddt h req v
| ct_cum v axis a : nth_error h v = Some (VCum axis a) -> counts ddt h req a -> ~ In v req -> counts ddt h req v
| ct_vec v l : nth_error h v = Some (VVec l) -> l <> [] -> (forall a, In a l -> counts ddt h req a) -> ~ In v req -> counts ddt h req v
| ct_join v axis l : nth_error h v = Some (VJoin axis l) -> l <> [] -> (forall a, In a l -> counts ddt h req a) -> ~ In v req -> counts ddt h req v.

(** [q 0], ..., [q n] are the positions up to [q n] along [ax] *)
Definition along (ax : nat) (q : nat -> list nat) (n : nat) : Prop :=
  forall i, i <= n -> same_but ax (q n) (q i) /\ nth_error (q i) ax = Some i.

(** elementwise operations *)
Definition elementwise (nd : vnode) : Prop := match nd with VOne _ _ | VMany _ _ | VSub _ _ | VDiv _ _ => True | _ => False end.
