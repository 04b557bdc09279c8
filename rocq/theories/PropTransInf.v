(** C86: transforms at infinite values. *)
From Coq Require Import Reals Lra List.
From Coquelicot Require Import Coquelicot.
From Verif Require Import XR ModelVec ModelTrans SpecTransInf LemTransInf.
Import ListNotations.
Open Scope R_scope.

Theorem C86_backward : forall t s, infinite s -> reaches t s -> continues (backward t) s.
Proof. exact backward_inf. Qed.
Print Assumptions C86_backward.
Example C86_backward_ex : backward (TInterval (Some (Fin 1)) (Some (Fin 3))) NInf = Val (Fin 1) /\
  is_lim (fun y => / (1 + exp (- y)) * 3 + (1 + - / (1 + exp (- y))) * 1) m_infty 1.
Proof.
  destruct (C86_backward (TInterval (Some (Fin 1)) (Some (Fin 3))) m_infty) as (b & l & B & L & E); [now right|simpl; lra|].
  assert (l = Finite 1) as -> by (destruct l; cbn in E; injection E; intros; subst; try discriminate; f_equal; lra).
  split; [exact E|]. eapply is_lim_ext_loc; [|exact L]. destruct B as [M B]. exists M. intros y Y. specialize (B y Y). cbn in B. injection B as <-. reflexivity.
Qed.
Theorem C86_inverse : forall t s, infinite s -> followed t s ->
  bind (backward t (xval s)) (forward t) = Val (xval s).
Proof. exact forward_inf. Qed.
Print Assumptions C86_inverse.
Example C86_inverse_ex : bind (backward (TScale (Fin (-2))) NInf) (forward (TScale (Fin (-2)))) = Val NInf.
Proof. apply (C86_inverse (TScale (Fin (-2))) m_infty); [now right|split; simpl; [lra|auto]]. Qed.

(** the circular transform has no limit at infinity, and the code computes NaN there *)
Theorem C86_circular : forall s, infinite s -> backward TCircular (xval s) = Val NaN /\
  forall b l, Rbar_locally s (fun y => backward TCircular (Fin y) = Val (Fin (b y))) -> ~ is_lim b s l.
Proof. exact circular_inf. Qed.
Print Assumptions C86_circular.
Example C86_circular_ex : backward TCircular (Fin (1 + 2 * IZR (-7) * PI)) = Val (Fin 1) /\ backward TCircular NInf = Val NaN.
Proof. split; [apply turn_back; generalize PI2_1; lra|apply (C86_circular m_infty); now right]. Qed.
(** Missing from C86: two-sided intervals at minus infinity (refuted below). *)
Theorem C86_determinant_partial : forall t s, infinite s -> followed t s ->
  (forall a b, t = TInterval (Some a) (Some b) -> s = p_infty) -> continues (log_jac_det t) s.
Proof. exact jac_inf. Qed.
Print Assumptions C86_determinant_partial.
Example C86_determinant_ex : log_jac_det TLogOdds NInf = Val NInf /\ continues (log_jac_det TLogOdds) m_infty.
Proof.
  assert (C : continues (log_jac_det TLogOdds) m_infty) by (apply C86_determinant_partial; [now right|split; simpl; auto|discriminate]).
  split; [|exact C]. cbn. unfold xlog1p, xlog. cbn. xcase; cbn; try reflexivity; exfalso; lra.
Qed.
(** the log-determinant of the two-sided interval transform tends to minus infinity at minus infinity, where the code computes NaN *)
Theorem C86_determinant_refuted : exists t, followed t m_infty /\
  (exists f, (forall y, log_jac_det t (Fin y) = Val (Fin (f y))) /\ is_lim f m_infty m_infty) /\
  log_jac_det t NInf = Val NaN.
Proof. exists (TInterval (Some (Fin 0)) (Some (Fin 1))). split; [split; simpl; auto; lra|]. exact (interval_nan 0 1 Rlt_0_1). Qed.
Print Assumptions C86_determinant_refuted.
