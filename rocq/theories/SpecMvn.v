(** Specification for C51: positive definite matrices and the multivariate
    normal log-density. *)
From Coq Require Import Reals List.
From Verif Require Import RMx.
Import ListNotations.
Open Scope R_scope.

(** sum of [f 0 .. f (n-1)] *)
Fixpoint sumn (n : nat) (f : nat -> R) : R := match n with O => 0 | S m => sumn m f + f m end.
(** x' A x *)
Definition quad (n : nat) (A : nat -> nat -> R) (x : nat -> R) : R := sumn n (fun i => sumn n (fun k => x i * A i k * x k)).
Definition symmetric (n : nat) (A : nat -> nat -> R) : Prop := forall i j, (i < n)%nat -> (j < n)%nat -> A i j = A j i.
Definition positive_definite (n : nat) (A : nat -> nat -> R) : Prop :=
  forall x : nat -> R, (exists i, (i < n)%nat /\ x i <> 0) -> 0 < quad n A x.
(** A P = 1 *)
Definition inverse (n : nat) (A P : nat -> nat -> R) : Prop :=
  forall i j, (i < n)%nat -> (j < n)%nat -> sumn n (fun k => A i k * P k j) = if Nat.eq_dec i j then 1 else 0.
(** -n/2 ln(2 pi) - 1/2 d' P d - 1/2 ln det S, with P the inverse of S *)
Definition mvn_logpdf (n : nat) (S P : nat -> nat -> R) (d : nat -> R) : R :=
  - (INR n / 2) * ln (2 * PI) - 1/2 * quad n P d - 1/2 * ln (rdet n S).
