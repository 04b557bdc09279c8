(** Values that differ by full turns of the circle. *)
From Coq Require Import Reals List.
From Verif Require Import XR ModelTrans ModelTen ModelElsT.
Open Scope R_scope.

(** the two values of [v] are the same, or [v] is given by the circular
    transform and they are the same angle *)
Definition turned (tf : nat -> option (list xr -> tr)) (z z' : nat -> xr) (v : nat) : Prop :=
  z v = z' v \/ exists f, tf v = Some f /\ (forall l, f l = TCircular) /\
  exists (x : R) (n : Z), z v = Fin (x + 2 * IZR n * PI) /\ z' v = Fin x.
(** the same for arrays: every element is the same number or the same angle *)
Definition same_angles (a a' : nd xr) : Prop :=
  nshp a = nshp a' /\ forall i, nelt a i = nelt a' i \/ exists (x : R) (n : Z), nelt a i = Fin (x + 2 * IZR n * PI) /\ nelt a' i = Fin x.
Definition turned_array (tf : nat -> option (list (nd xr) -> atr)) (z z' : nat -> nd xr) (v : nat) : Prop :=
  z v = z' v \/ exists F, tf v = Some F /\ (forall l, F l = XCircular) /\ same_angles (z v) (z' v).
