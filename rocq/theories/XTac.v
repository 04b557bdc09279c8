(** Automation for evaluating the model on finite reals. *)
From Coq Require Import Reals Lra Lia ZArith List Bool.
From Coquelicot Require Import Coquelicot.
From Verif Require Import XR Special LemInt LemLim LemGamma SpecDist.
Import ListNotations.
Open Scope R_scope.

Ltac posi :=
  lazymatch goal with
  | |- 0 < exp _ => apply exp_pos
  | |- 0 < Rpower _ _ => unfold Rpower; apply exp_pos
  | |- 0 < PI => exact PI_RGT_0
  | |- 0 < Gam _ => apply Gam_pos; posi
  | |- 0 < ?a * ?b => first [assumption | lra | apply Rmult_lt_0_compat; posi]
  | |- 0 < / ?a => apply Rinv_0_lt_compat; posi
  | |- 0 < ?a / ?b => first [lra | apply Rdiv_lt_0_compat; posi]
  | |- 0 < sqrt ?a => apply sqrt_lt_R0; posi
  | |- 0 < ?a ^ ?n => apply pow_lt; posi
  | |- 0 < INR (fact _) => apply INR_fact_lt_0
  | |- 0 < ?a + ?b => first [lra | apply Rplus_lt_0_compat; posi
                             | apply Rplus_lt_le_0_compat; [posi|nneg]
                             | apply Rplus_le_lt_0_compat; [nneg|posi] ]
  | |- 0 < _ => first [assumption | lra]
  | |- _ > 0 => apply Rlt_gt; posi
  | |- 0 <= _ => nneg
  | |- _ >= 0 => apply Rle_ge; nneg
  | |- _ <> 0 => first [assumption | lra | apply Rgt_not_eq; apply Rlt_gt; posi]
  | |- _ /\ _ => split; posi
  | |- _ => lra
  end
with nneg :=
  lazymatch goal with
  | |- 0 <= ?a ^ 2 => apply pow2_ge_0
  | |- 0 <= Rabs _ => apply Rabs_pos
  | |- 0 <= ?a * ?a => apply Rle_0_sqr
  | |- 0 <= sqrt _ => apply sqrt_pos
  | |- 0 <= INR _ => apply pos_INR
  | |- 0 <= ?a * ?b => first [assumption | lra | apply Rmult_le_pos; nneg]
  | |- 0 <= ?a / ?b => first [assumption | lra | apply Rmult_le_pos; [nneg | apply Rlt_le; posi]]
  | |- 0 <= ?a + ?b => first [assumption | lra | apply Rplus_le_le_0_compat; nneg]
  | |- 0 <= ?a ^ _ => first [apply pow_le; nneg]
  | |- 0 <= _ => first [assumption | lra | apply Rlt_le; posi]
  end.

Lemma xge_true a b : b <= a -> xge (Fin a) (Fin b) = true.
Proof. apply xle_true. Qed.
Lemma xge_false a b : a < b -> xge (Fin a) (Fin b) = false.
Proof. apply xle_false. Qed.
Lemma xgt_true a b : b < a -> xgt (Fin a) (Fin b) = true.
Proof. apply xlt_true. Qed.
Lemma xgt_false a b : a <= b -> xgt (Fin a) (Fin b) = false.
Proof. apply xlt_false. Qed.
Lemma xadd_fin a b : xadd (Fin a) (Fin b) = Fin (a + b).
Proof. reflexivity. Qed.
Lemma xneg_fin a : xneg (Fin a) = Fin (- a).
Proof. reflexivity. Qed.
Lemma xsub_fin a b : xsub (Fin a) (Fin b) = Fin (a - b).
Proof. reflexivity. Qed.
Lemma xmul_fin a b : xmul (Fin a) (Fin b) = Fin (a * b).
Proof. reflexivity. Qed.
Lemma xabs_fin a : xabs (Fin a) = Fin (Rabs a).
Proof. reflexivity. Qed.
Lemma xexp_fin a : xexp (Fin a) = Fin (exp a).
Proof. reflexivity. Qed.
Lemma xcos_fin a : xcos (Fin a) = Fin (cos a).
Proof. reflexivity. Qed.
Lemma xlog1p_fin a : 0 < 1 + a -> xlog1p (Fin a) = Fin (ln (1 + a)).
Proof. intros; unfold xlog1p; rewrite xadd_fin; now apply xlog_pos. Qed.
Lemma xgammaln_fin a : 0 < a -> xgammaln (Fin a) = Fin (ln (Gam a)).
Proof. intros H; simpl; unfold lgam. destruct (Rlt_dec 0 a); [reflexivity|lra]. Qed.
Lemma check_true (r : res xr) l : forallb (fun b => b) l = true -> check r l = r.
Proof. intros H; unfold check; destruct r; auto. now rewrite H. Qed.
Lemma check_false (r : res xr) l : forallb (fun b => b) l = false -> check r l = Raise.
Proof. intros H; unfold check; destruct r; auto. now rewrite H. Qed.
Lemma xsq_fin a : xsq (Fin a) = Fin (a * a).
Proof. reflexivity. Qed.

(** one evaluation step on finite arguments; side conditions by [posi] *)
Ltac xstep :=
  match goal with
  | |- context [xadd (Fin ?a) (Fin ?b)] => rewrite (xadd_fin a b)
  | |- context [xsub (Fin ?a) (Fin ?b)] => rewrite (xsub_fin a b)
  | |- context [xmul (Fin ?a) (Fin ?b)] => rewrite (xmul_fin a b)
  | |- context [xneg (Fin ?a)] => rewrite (xneg_fin a)
  | |- context [xabs (Fin ?a)] => rewrite (xabs_fin a)
  | |- context [xexp (Fin ?a)] => rewrite (xexp_fin a)
  | |- context [xcos (Fin ?a)] => rewrite (xcos_fin a)
  | |- context [xsq (Fin ?a)] => rewrite (xsq_fin a)
  | |- context [xdiv (Fin ?a) (Fin ?b)] => rewrite (xdiv_fin a b) by posi
  | |- context [xgammaln (Fin ?a)] => rewrite (xgammaln_fin a) by posi
  | |- context [xsqrt (Fin ?a)] => rewrite (xsqrt_fin a) by posi
  | |- context [xlog1p (Fin ?a)] => rewrite (xlog1p_fin a) by posi
  | |- context [xlog (Fin 0)] => rewrite xlog_zero
  | |- context [xlog (Fin ?a)] => rewrite (xlog_pos a) by posi
  | |- context [xle (Fin ?a) (Fin ?b)] =>
      first [rewrite (xle_true a b) by posi | rewrite (xle_false a b) by posi]
  | |- context [xlt (Fin ?a) (Fin ?b)] =>
      first [rewrite (xlt_true a b) by posi | rewrite (xlt_false a b) by posi]
  | |- context [xge (Fin ?a) (Fin ?b)] =>
      first [rewrite (xge_true a b) by posi | rewrite (xge_false a b) by posi]
  | |- context [xgt (Fin ?a) (Fin ?b)] =>
      first [rewrite (xgt_true a b) by posi | rewrite (xgt_false a b) by posi]
  | |- context [xeq (Fin ?a) (Fin ?b)] =>
      first [rewrite (xeq_true a b) by posi | rewrite (xeq_false a b) by posi]
  | |- context [check ?r ?l] => rewrite (check_true r l) by reflexivity
  | |- context [check ?r ?l] => rewrite (check_false r l) by reflexivity
  end; cbn [andb orb negb].
Ltac xrun := repeat xstep.

Lemma exp_sub a b : exp (a - b) = exp a / exp b.
Proof. unfold Rminus. rewrite exp_plus, exp_Ropp. reflexivity. Qed.
Lemma exp_mul_ln a b : exp (a * ln b) = Rpower b a.
Proof. reflexivity. Qed.
Lemma exp_mul_ln' a b c : exp (a * ln b * c) = Rpower b (a * c).
Proof. unfold Rpower; f_equal; ring. Qed.
Lemma exp_half_ln b : 0 < b -> exp (1/2 * ln b) = sqrt b.
Proof. intros. rewrite exp_mul_ln. replace (1/2) with (/2) by field. now apply Rpower_sqrt. Qed.
Lemma pw_pos x y : 0 < x -> pw x y = Rpower x y.
Proof. intros; unfold pw; destruct (Req_EM_T x 0); [lra|reflexivity]. Qed.
Lemma pw_0_pos y : y <> 0 -> pw 0 y = 0.
Proof. intros; unfold pw; destruct (Req_EM_T 0 0); [|lra]. destruct (Req_EM_T y 0); [contradiction|reflexivity]. Qed.
Lemma pw_0_0 : pw 0 0 = 1.
Proof. unfold pw; destruct (Req_EM_T 0 0); [|lra]. reflexivity. Qed.
Lemma xlogy0_zero_ne m : m <> 0 -> xeq (Fin m) (Fin 0) = false.
Proof. intros; apply xeq_false; auto. Qed.
Ltac expo := repeat first
  [ rewrite exp_sub | rewrite exp_plus | rewrite exp_Ropp
  | rewrite exp_half_ln by posi | rewrite exp_ln by posi | rewrite exp_mul_ln ].
Ltac rcase :=
  repeat match goal with
  | |- context [Rle_dec ?a ?b] => destruct (Rle_dec a b); try lra
  | |- context [Rlt_dec ?a ?b] => destruct (Rlt_dec a b); try lra
  | |- context [Req_EM_T ?a ?b] => destruct (Req_EM_T a b); try lra
  end.
