(** The Jacobian of the cumulative sum. *)
From Coq Require Import Reals Lra Lia.
From Coquelicot Require Import Coquelicot.
From mathcomp Require Import ssreflect ssrfun ssrbool eqtype ssrnat seq choice fintype bigop ssralg matrix.
From Verif Require Import XR SpecTen RMx.
Local Open Scope R_scope.

Lemma rdet_lower n (f : nat -> nat -> R) : (forall i j, (i < n)%coq_nat -> (j < n)%coq_nat -> (i < j)%coq_nat -> f i j = 0) ->
  (forall i, (i < n)%coq_nat -> f i i = 1) -> rdet n f = 1.
Proof.
  move=> H D. rewrite /rdet det_trig.
  - apply: big1 => i _. rewrite mxE. apply: D. exact/ltP.
  - apply/is_trig_mxP => i j h. rewrite mxE. apply: H; exact/ltP.
Qed.
