From Coq Require Import Reals Lra Lia List Arith Bool.
From Coquelicot Require Import Coquelicot.
From Verif Require Import XR Special XTac SpecDist LemInt ModelDist ModelVec ModelTrans SpecTrans ModelJoint ModelLaw SpecLaw ModelTen ModelUniv SpecUniv SpecEdge.
Import ListNotations.
Open Scope R_scope.

Lemma nan_add a : xadd a NaN = NaN. Proof. now destruct a. Qed.
Lemma nan_sub a : xsub a NaN = NaN. Proof. now destruct a. Qed.
Lemma nan_mul a : xmul a NaN = NaN. Proof. now destruct a. Qed.
Lemma nan_div a : xdiv a NaN = NaN. Proof. now destruct a. Qed.
Lemma nan_add_l a : xadd NaN a = NaN. Proof. reflexivity. Qed.
Lemma nan_sub_l a : xsub NaN a = NaN. Proof. reflexivity. Qed.
Lemma nan_mul_l a : xmul NaN a = NaN. Proof. reflexivity. Qed.
Lemma nan_div_l a : xdiv NaN a = NaN. Proof. reflexivity. Qed.
Lemma nan_lt a : xlt a NaN = false. Proof. now destruct a. Qed.
Lemma nan_lt_l a : xlt NaN a = false. Proof. reflexivity. Qed.
Lemma nan_eq a : xeq a NaN = false. Proof. now destruct a. Qed.
Lemma nan_eq_l a : xeq NaN a = false. Proof. reflexivity. Qed.
Lemma nan_gt a : xgt a NaN = false. Proof. reflexivity. Qed.
Lemma nan_gt_l a : xgt NaN a = false. Proof. apply nan_lt. Qed.
Lemma nan_le a : xle a NaN = false. Proof. now destruct a. Qed.
Lemma nan_le_l a : xle NaN a = false. Proof. reflexivity. Qed.
Lemma nan_ge a : xge a NaN = false. Proof. reflexivity. Qed.
Lemma nan_ge_l a : xge NaN a = false. Proof. apply nan_le. Qed.
Lemma nan_gln : xgammaln NaN = NaN. Proof. reflexivity. Qed.
Lemma nan_neg : xneg NaN = NaN. Proof. reflexivity. Qed.
Lemma nan_log : xlog NaN = NaN. Proof. reflexivity. Qed.
Lemma nan_log1p : xlog1p NaN = NaN. Proof. reflexivity. Qed.
Lemma nan_sq : xsq NaN = NaN. Proof. reflexivity. Qed.
Lemma nan_exp : xexp NaN = NaN. Proof. reflexivity. Qed.
Lemma nan_abs : xabs NaN = NaN. Proof. reflexivity. Qed.
Lemma nan_cos : xcos NaN = NaN. Proof. reflexivity. Qed.
Lemma nan_floor : xfloor NaN = NaN. Proof. reflexivity. Qed.
Lemma nan_ceil : xceil NaN = NaN. Proof. reflexivity. Qed.
Lemma nan_erfc : xerfc NaN = NaN. Proof. reflexivity. Qed.
Lemma nan_erfcinv : xerfcinv NaN = NaN. Proof. reflexivity. Qed.
Lemma nan_log1mexp : xlog1mexp NaN = NaN. Proof. reflexivity. Qed.
Hint Rewrite nan_add nan_sub nan_mul nan_div nan_add_l nan_sub_l nan_mul_l nan_div_l nan_lt nan_lt_l nan_eq nan_eq_l nan_gt nan_gt_l nan_le nan_le_l nan_ge nan_ge_l
  nan_gln nan_neg nan_log nan_log1p nan_sq nan_exp nan_abs nan_cos nan_floor nan_ceil nan_erfc nan_erfcinv nan_log1mexp andb_false_r andb_true_r : nan.
Lemma rej_check r cs : rejected r -> rejected (check r cs).
Proof. intros [->|[->| ->]]; cbn; unfold rejected; destruct (forallb (fun b => b) cs); auto. Qed.
Lemma rej_check_false r cs : forallb (fun b => b) cs = false -> rejected (check r cs).
Proof. intros E. unfold check. destruct r; [rewrite E|]; now left. Qed.
Lemma rej_nan : rejected (Val NaN). Proof. right. now left. Qed.
Lemma rej_ninf : rejected (Val NInf). Proof. right. now right. Qed.
Ltac nan_solve :=
  autorewrite with nan; cbn [forallb andb check rmap]; unfold rswitch;
  repeat first [apply rej_nan | apply rej_ninf | now left
    | match goal with |- context [if ?b then _ else _] => destruct b end; autorewrite with nan ].
Lemma scalar_nan u x i : (i <= params u)%nat -> x i = NaN -> (u = UUniformCdf -> (i < 2)%nat) -> rejected (scalar u x).
Proof.
  intros Li E NU. destruct u; cbn [params] in Li; try specialize (NU eq_refl);
    (destruct i as [|[|[|[|i]]]]; try lia); cbn [scalar];
    unfold chisquare_logprob, uniform_logprob, uniform_logcdf, normal_logprob, normal_logcdf, normal_icdf, halfnormal_logprob, beta_logprob, exponential_logprob, laplace_logprob,
      lognormal_logprob, pareto_logprob, halfcauchy_logprob, cauchy_logprob, gamma_logprob, invgamma_logprob, wald_logprob, weibull_logprob, vonmises_logprob, triangular_logprob,
      gumbel_logprob, logistic_logprob, binomial_logprob, betabinomial_logprob, bernoulli_logprob, nbinom_logprob, poisson_logprob, poisson_logcdf, geometric_logprob, geometric_logcdf,
      geometric_icdf, hypergeometric_logprob, studentt_logprob, binomln, betaln, xlogy0; rewrite E; nan_solve.
Qed.

Lemma sgn_pos a : 0 < a -> sgn_inf a = PInf.
Proof. intros H. unfold sgn_inf. destruct (Rlt_dec 0 a); [reflexivity|lra]. Qed.
Lemma sgn_neg a : a < 0 -> sgn_inf a = NInf.
Proof. intros H. unfold sgn_inf. destruct (Rlt_dec 0 a); [lra|]. destruct (Rlt_dec a 0); [reflexivity|lra]. Qed.
Lemma sgn_zero : sgn_inf 0 = NaN.
Proof. unfold sgn_inf. destruct (Rlt_dec 0 0); [lra|]. destruct (Rlt_dec 0 0); [lra|reflexivity]. Qed.
Lemma ge_pinf a : xge PInf (Fin a) = true. Proof. reflexivity. Qed.
Lemma check_ok v cs : forallb (fun b => b) cs = true -> check (Val v : res xr) cs = Val v.
Proof. intros E. cbn [check]. now rewrite E. Qed.
Lemma pinf_div b : 0 < b -> xdiv PInf (Fin b) = PInf.
Proof. intros H. cbn. destruct (Rle_dec 0 b); [reflexivity|lra]. Qed.
Lemma ninf_div b : 0 < b -> xdiv NInf (Fin b) = NInf.
Proof. intros H. cbn. destruct (Rle_dec 0 b); [reflexivity|lra]. Qed.
Lemma inv_pos s : 0 < s -> 0 < 1 / s.
Proof. intros H. apply Rdiv_lt_0_compat; lra. Qed.
Lemma div_ok a b : 0 < b -> xdiv (Fin a) (Fin b) = Fin (a / b).
Proof. intros H. apply xdiv_fin. lra. Qed.
Ltac unf := unfold law_logprob, family_logprob, chisquare_logprob, uniform_logprob, normal_logprob, halfnormal_logprob, beta_logprob, exponential_logprob, laplace_logprob,
      lognormal_logprob, pareto_logprob, halfcauchy_logprob, cauchy_logprob, gamma_logprob, invgamma_logprob, wald_logprob, weibull_logprob, vonmises_logprob, triangular_logprob,
      gumbel_logprob, logistic_logprob, binomial_logprob, betabinomial_logprob, bernoulli_logprob, nbinom_logprob, poisson_logprob, geometric_logprob,
      hypergeometric_logprob, studentt_logprob, binomln, betaln, xlogy0.
(** the parameters are accepted *)
Ltac params_ok := rewrite ?div_ok by lra; rewrite ?xgt_true by (assumption || lra || (apply inv_pos; lra)); rewrite ?xlt_true by lra; rewrite ?xge_true by lra; rewrite ?xle_true by lra;
  cbn [forallb andb check rmap].
Lemma mul_pp c : 0 < c -> xmul (Fin c) PInf = PInf. Proof. intros H. cbn. now apply sgn_pos. Qed.
Lemma mul_np c : c < 0 -> xmul (Fin c) PInf = NInf. Proof. intros H. cbn. now apply sgn_neg. Qed.
Lemma mul_zp : xmul (Fin 0) PInf = NaN. Proof. cbn. exact sgn_zero. Qed.
Lemma pmul_p c : 0 < c -> xmul PInf (Fin c) = PInf. Proof. intros H. cbn. now apply sgn_pos. Qed.
Lemma pmul_n c : c < 0 -> xmul PInf (Fin c) = NInf. Proof. intros H. cbn. now apply sgn_neg. Qed.
Ltac istep :=
  match goal with
  | |- context [xmul (Fin ?a) PInf] => first [rewrite (mul_pp a) by posi | rewrite (mul_np a) by posi | replace a with 0 by lra; rewrite mul_zp]
  | |- context [xmul PInf (Fin ?a)] => first [rewrite (pmul_p a) by posi | rewrite (pmul_n a) by posi]
  | |- context [xdiv PInf (Fin ?a)] => rewrite (pinf_div a) by posi
  | |- context [xdiv NInf (Fin ?a)] => rewrite (ninf_div a) by posi
  | |- context [xsub PInf (Fin ?a)] => change (xsub PInf (Fin a)) with PInf
  | |- context [xsub NInf (Fin ?a)] => change (xsub NInf (Fin a)) with NInf
  | |- context [xsub (Fin ?a) PInf] => change (xsub (Fin a) PInf) with NInf
  | |- context [xsub (Fin ?a) NInf] => change (xsub (Fin a) NInf) with PInf
  | |- context [xadd PInf (Fin ?a)] => change (xadd PInf (Fin a)) with PInf
  | |- context [xadd NInf (Fin ?a)] => change (xadd NInf (Fin a)) with NInf
  | |- context [xadd (Fin ?a) PInf] => change (xadd (Fin a) PInf) with PInf
  | |- context [xadd (Fin ?a) NInf] => change (xadd (Fin a) NInf) with NInf
  | |- context [xsub PInf PInf] => change (xsub PInf PInf) with NaN
  | |- context [xsub NInf PInf] => change (xsub NInf PInf) with NInf
  | |- context [xadd NInf NInf] => change (xadd NInf NInf) with NInf
  | |- context [xadd NInf PInf] => change (xadd NInf PInf) with NaN
  | |- context [xsq PInf] => change (xsq PInf) with PInf
  | |- context [xsq NInf] => change (xsq NInf) with PInf
  | |- context [xabs PInf] => change (xabs PInf) with PInf
  | |- context [xabs NInf] => change (xabs NInf) with PInf
  | |- context [xneg PInf] => change (xneg PInf) with NInf
  | |- context [xneg NInf] => change (xneg NInf) with PInf
  | |- context [xexp PInf] => change (xexp PInf) with PInf
  | |- context [xexp NInf] => change (xexp NInf) with (Fin 0)
  | |- context [xlog PInf] => change (xlog PInf) with PInf
  | |- context [xlog1p PInf] => change (xlog1p PInf) with PInf
  | |- context [xgammaln PInf] => change (xgammaln PInf) with PInf
  | |- context [xdiv (Fin ?a) PInf] => change (xdiv (Fin a) PInf) with (Fin 0)
  | |- context [xge PInf (Fin ?a)] => change (xge PInf (Fin a)) with true
  | |- context [xgt PInf (Fin ?a)] => change (xgt PInf (Fin a)) with true
  | |- context [xle PInf (Fin ?a)] => change (xle PInf (Fin a)) with false
  | |- context [xle (Fin ?a) PInf] => change (xle (Fin a) PInf) with true
  | |- context [xeq PInf (Fin ?a)] => change (xeq PInf (Fin a)) with false
  | |- context [xge NInf (Fin ?a)] => change (xge NInf (Fin a)) with false
  | |- context [xgt NInf (Fin ?a)] => change (xgt NInf (Fin a)) with false
  | |- context [xle NInf (Fin ?a)] => change (xle NInf (Fin a)) with true
  | |- context [xle (Fin ?a) NInf] => change (xle (Fin a) NInf) with false
  | |- context [xeq NInf (Fin ?a)] => change (xeq NInf (Fin a)) with false
  end; autorewrite with nan; cbn [andb orb negb].
Ltac irun := repeat first [xstep | istep].
Lemma nb_mu n p : 0 < n -> 0 < p < 1 -> 0 < n * (1 - p) / p.
Proof. intros A B. apply Rdiv_lt_0_compat; [apply Rmult_lt_0_compat; lra|lra]. Qed.
Lemma nan_value L : law_valid L -> law_logprob L NaN = Val (match law_support L with Interval m_infty p_infty => NaN | _ => NInf end).
Proof.
  intros V. destruct L as [f| | | | | | | | | | | | |]; [destruct f|..]; cbn [law_support law_valid family_valid] in *; unf;
    repeat match goal with H : _ /\ _ |- _ => destruct H end; autorewrite with nan; params_ok; try reflexivity.
  pose proof (nb_mu n p ltac:(lra) ltac:(lra)). xrun. reflexivity.
Qed.
Lemma pow_pinf c : 0 < c -> xpow PInf (Fin c) = PInf.
Proof. intros H. unfold xpow. rewrite xeq_false by lra. cbn. destruct (Rlt_dec 0 c); [reflexivity|lra]. Qed.
Lemma pinf_value L : law_valid L -> (indefinite L -> law_logprob L PInf = Val NaN) /\ (~ indefinite L -> law_logprob L PInf = Val NInf).
Proof.
  intros V. pose proof PI_RGT_0. destruct L as [f| | | | | | | | | | | | |]; [destruct f|..]; cbn [law_support law_valid family_valid indefinite] in *; unf;
    repeat match goal with H : _ /\ _ |- _ => destruct H end; (split; intros Hi; [try destruct Hi|try (exfalso; apply Hi; exact I)]); params_ok; try reflexivity; irun; try reflexivity.
  - rewrite pow_pinf by lra. reflexivity.
  - rewrite pow_pinf by lra. reflexivity.
  - rewrite pmul_p; [reflexivity|]. rewrite <- ln_1. apply ln_increasing; lra.
  - match goal with H : 1 = mu |- _ => rewrite <- H end. rewrite ln_1. cbn. now rewrite sgn_zero.
  - destruct (Req_EM_T mu 0) as [->|Nz]; [rewrite xeq_true by reflexivity; reflexivity|]. rewrite xeq_false by exact Nz. rewrite xlog_pos by lra.
    rewrite pmul_n; [reflexivity|]. rewrite <- ln_1. apply ln_increasing; lra.
  - destruct (Req_EM_T p 1) as [->|Nz]; [rewrite xeq_true by ring; reflexivity|]. rewrite xeq_false by lra. rewrite xlog_pos by lra.
    rewrite pmul_n; [reflexivity|]. rewrite <- ln_1. apply ln_increasing; lra.
  - destruct (xgt _ (Fin 0)); destruct (xlt (Fin (INR good)) _); reflexivity.
Qed.
Lemma ninf_value L : law_valid L -> (indefinite_below L -> law_logprob L NInf = Val NaN) /\ (~ indefinite_below L -> law_logprob L NInf = Val NInf).
Proof.
  intros V. pose proof PI_RGT_0. destruct L as [f| | | | | | | | | | | | |]; [destruct f|..]; cbn [law_support law_valid family_valid indefinite_below] in *; unf;
    repeat match goal with H : _ /\ _ |- _ => destruct H end; (split; intros Hi; [try destruct Hi|try (exfalso; apply Hi; exact I)]); params_ok; try reflexivity; irun; try reflexivity.
  destruct (xgt _ (Fin 0)); destruct (xlt (Fin (INR good)) _); reflexivity.
Qed.

Lemma not_inr x : x < 0 -> forall k, x <> INR k.
Proof. intros H k ->. pose proof (pos_INR k). lra. Qed.
Lemma line_dec L : law_valid L -> (match law_support L with Interval m_infty p_infty => True | _ => ~ whole_line L end).
Proof.
  intros V. destruct L as [f| | | | | | | | | | | | |]; [destruct f|..]; cbn [law_support]; try exact I; intros W; unfold whole_line in W; cbn [law_support contains] in W;
  match type of W with
  | forall x, inside (Finite ?a) _ x => destruct (W a) as [A _]; cbn in A; lra
  | _ => destruct (W (-1)) as (k & E & _); revert E; apply not_inr; lra
  end.
Qed.
Lemma nan_law L : law_valid L -> (whole_line L -> law_logprob L NaN = Val NaN) /\ (~ whole_line L -> law_logprob L NaN = Val NInf).
Proof.
  intros V. rewrite (nan_value L V). pose proof (line_dec L V) as D. destruct (law_support L) as [lo hi|m] eqn:E.
  - destruct lo as [lo| |], hi as [hi| |]; (split; [|]); intros W; try reflexivity; try contradiction.
    exfalso. apply W. intros x. rewrite E. split; exact I.
  - split; intros W; [contradiction|reflexivity].
Qed.

Lemma cdf_normal m s : 0 < s -> denotes (normal_logcdf (Fin m) (Fin s) PInf) 1 /\ denotes (normal_logcdf (Fin m) (Fin s) NInf) 0.
Proof.
  intros V. pose proof (sqrt_lt_R0 2 ltac:(lra)). unfold normal_logcdf. split; irun.
  - cbn [xlt]. irun. cbn [xerfc]. irun. cbn. replace (1 + - 0 / 2) with 1 by lra. rewrite ln_1. apply exp_0.
  - cbn [xlt]. irun. cbn [xerfcx]. rewrite div_ok by lra. replace (0 / 2) with 0 by lra. rewrite xlog_zero. reflexivity.
Qed.

Lemma cdf_uniform a b : a < b -> denotes (uniform_logcdf (Fin a) (Fin b) PInf) 1 /\ denotes (uniform_logcdf (Fin a) (Fin b) NInf) 0.
Proof. intros V. unfold uniform_logcdf. split; irun; cbn; [apply exp_0|reflexivity]. Qed.
Lemma cdf_poisson mu : 0 <= mu -> denotes (poisson_logcdf (Fin mu) PInf) 1 /\ denotes (poisson_logcdf (Fin mu) NInf) 0.
Proof.
  intros V. unfold poisson_logcdf. cbn [xfloor]. split; irun; [|reflexivity]. cbn [xgammaincc]. destruct (Rle_dec 0 mu); [|contradiction]. irun. cbn. rewrite ln_1. apply exp_0.
Qed.
Lemma cdf_geometric p : 0 < p <= 1 -> denotes (geometric_logcdf (Fin p) PInf) 1 /\ denotes (geometric_logcdf (Fin p) NInf) 0.
Proof.
  intros V. unfold geometric_logcdf. split; irun; [|reflexivity].
  assert (E : xmul (xlog1p (Fin (- p))) PInf = NInf).
  { destruct (Req_EM_T p 1) as [->|Np].
    - unfold xlog1p. cbn [xadd]. replace (1 + - (1)) with 0 by lra. rewrite xlog_zero. reflexivity.
    - rewrite xlog1p_fin by lra. apply mul_np. rewrite <- ln_1. apply ln_increasing; lra. }
  rewrite E. unfold xlog1mexp. cbn [xlt xexp xneg]. rewrite xlog1p_fin by lra. cbn. replace (1 + - 0) with 1 by lra. rewrite ln_1. apply exp_0.
Qed.
Lemma icdf_normal m s q : 0 < s -> normal_icdf (Fin m) (Fin s) (Fin 0) = Val NInf /\ normal_icdf (Fin m) (Fin s) (Fin 1) = Val PInf /\
  (q < 0 \/ 1 < q -> normal_icdf (Fin m) (Fin s) (Fin q) = Val NaN).
Proof.
  intros V. pose proof (sqrt_lt_R0 2 ltac:(lra)). assert (N : s * - sqrt 2 < 0) by nra. unfold normal_icdf. repeat split.
  - replace (xerfcinv (xmul (Fin 2) (Fin 0))) with PInf; [|cbn; rcase; reflexivity]. xrun. rewrite mul_np by exact N. reflexivity.
  - replace (xerfcinv (xmul (Fin 2) (Fin 1))) with NInf; [|cbn; rcase; reflexivity]. xrun. cbn [xmul]. rewrite sgn_neg by exact N. reflexivity.
  - intros Q. replace (xerfcinv (xmul (Fin 2) (Fin q))) with NaN; [|cbn; rcase; reflexivity]. now autorewrite with nan.
Qed.
Lemma cdf_nan : exists a b, a < b /\ uniform_logcdf (Fin a) (Fin b) NaN = Val (Fin 0).
Proof. exists 0, 1. split; [lra|]. unfold uniform_logcdf. autorewrite with nan. xrun. reflexivity. Qed.
Lemma icdf_negative : exists p q k, 0 < p < 1 /\ q < 0 /\ geometric_icdf (Fin p) (Fin q) = Val (Fin k).
Proof.
  exists (1/2), (-1), (-1). repeat split; try lra. unfold geometric_icdf. xrun.
  rewrite xdiv_fin by (apply Rlt_not_eq; rewrite <- ln_1; apply ln_increasing; lra). cbn [xceil]. do 2 f_equal.
  replace (1 + - -1) with 2 by lra. replace (1 + - (1 / 2)) with (/ 2) by lra. rewrite ln_Rinv by lra.
  assert (L : ln 2 <> 0) by (apply Rgt_not_eq; rewrite <- ln_1; apply ln_increasing; lra).
  replace (ln 2 / - ln 2) with (-1) by (field; exact L). unfold Rceil_part. replace (- -1) with (IZR 1) by lra. now rewrite Int_part_IZR.
Qed.
