(** When a requested variable makes sense given the values of the others. *)
From Coq Require Import Reals List.
From Verif Require Import XR ModelNest ModelSys SpecSys.
Import ListNotations.
Open Scope nat_scope.

(** [g] is the model [h] in which all requested variables except [v] are fixed at their values *)
Definition others_fixed (h : list snode) (req : list nat) (y : nat -> R) (v : nat) (g : list snode) : Prop :=
  length g = length h /\ forall i, i < length h ->
  (In i req /\ i <> v -> nth_error g i = Some (SCon (Fin (y i)))) /\ (~ In i req \/ i = v -> nth_error g i = nth_error h i).
(** some draw gives [v] a value then *)
Definition sensible (fs : nat -> list xr -> xr) (h : list snode) (req : list nat) (y : nat -> R) (v : nat) : Prop :=
  exists g rho x, others_fixed h req y v g /\ svalue fs g rho v x.
