(** Specification for C78. *)
From Coq Require Import Reals List.
From Coquelicot Require Import Coquelicot.
From Verif Require Import XR RMx SpecSimplex SpecVTrans.
Import ListNotations.
Open Scope R_scope.

(** [grad] gives the partial derivatives at [v] of the map computed by [g],
    which keeps the length of vectors *)
Definition gradients_at (g : list xr -> res (list xr)) (grad : list xr -> nat -> nat -> xr) (v : list R) (f : list R -> list R) (J : nat -> nat -> R) : Prop :=
  computes_around g v f /\ g (map Fin v) = Val (map Fin (f v)) /\ length (f v) = length v /\ is_jacobian (length v) f v J /\
  forall i j, (i < length v)%nat -> (j < length v)%nat -> grad (map Fin v) i j = Fin (J i j).
(** [p] is the log-density at [y] of the vector whose back-transformed vector
    has log-density [b] at the corresponding point *)
Definition changed_logpdf (g : list xr -> res (list xr)) (y : list R) (b p : R) : Prop := exists l, log_abs_det g y l /\ p = b + l.
