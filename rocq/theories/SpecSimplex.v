(** Specification for C13. *)
From Coq Require Import Reals List.
From Coquelicot Require Import Coquelicot.
From Verif Require Import SpecVec RMx.
Import ListNotations.
Open Scope R_scope.

(** the open simplex with [n] free coordinates *)
Definition in_simplex (n : nat) (x : list R) : Prop :=
  length x = S n /\ List.Forall (fun a => 0 < a) x /\ rtotal x = 1.
(** [v] with entry [j] replaced by [t] *)
Fixpoint upd (v : list R) (j : nat) (t : R) : list R :=
  match v, j with [], _ => [] | _ :: v, O => t :: v | a :: v, S j => a :: upd v j t end.
(** [J] is the matrix of partial derivatives of the first [n] coordinates of [f] at [v] *)
Definition is_jacobian (n : nat) (f : list R -> list R) (v : list R) (J : nat -> nat -> R) : Prop :=
  forall i j, (i < n)%nat -> (j < n)%nat -> is_derive (fun t => nth i (f (upd v j t)) 0) (nth j v 0) (J i j).
