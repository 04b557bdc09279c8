(** Lemmas for C01/C02: the continuous families denote their textbook densities. *)
From Coq Require Import Reals Lra Lia ZArith List Bool.
From Coquelicot Require Import Coquelicot.
From Verif Require Import XR Special LemInt LemLim LemGamma SpecDist XTac ModelDist.
Import ListNotations.
Open Scope R_scope.

Lemma Beta_int_Gam a b : 0 < a -> 0 < b -> Beta_int a b = Gam a * Gam b / Gam (a + b).
Proof. intros Ha Hb. unfold Beta_int. rewrite <- (Bet_Gam a b Ha Hb). reflexivity. Qed.

Lemma sq_sqrt x : 0 <= x -> sqrt x * sqrt x = x.
Proof. apply sqrt_sqrt. Qed.

Lemma uniform_ok a b x : a < b ->
  denotes (uniform_logprob (Fin a) (Fin b) (Fin x)) (uniform_pdf a b x).
Proof.
  intros H. unfold uniform_logprob, uniform_pdf.
  destruct (Rle_dec a x); [destruct (Rle_dec x b)|]; xrun; cbn [denotes]; auto.
  expo. reflexivity.
Qed.

Lemma normal_ok mu s x : 0 < s ->
  denotes (normal_logprob (Fin mu) (Fin s) (Fin x)) (normal_pdf mu s x).
Proof.
  intros H. unfold normal_logprob, normal_pdf. pose proof PI_RGT_0. xrun. cbn [denotes]. expo.
  replace (- (1/2) * ((x - mu) / s * ((x - mu) / s))) with (- (x - mu) ^ 2 / (2 * s ^ 2)) by (field; lra).
  field; posi.
Qed.

Lemma halfnormal_ok loc s x : 0 < s ->
  denotes (halfnormal_logprob (Fin loc) (Fin s) (Fin x)) (halfnormal_pdf loc s x).
Proof.
  intros H. unfold halfnormal_logprob, halfnormal_pdf. pose proof PI_RGT_0.
  destruct (Rle_dec loc x); xrun; cbn [denotes]; auto. expo.
  replace (- (1/2) * ((x - loc) / s * ((x - loc) / s))) with (- (x - loc) ^ 2 / (2 * s ^ 2)) by (field; lra).
  assert (E : sqrt (2 / PI) = 2 / sqrt (2 * PI)).
  { apply Rmult_eq_reg_r with (sqrt (2 * PI)); [|posi].
    unfold Rdiv at 2. rewrite Rmult_assoc, Rinv_l by posi.
    rewrite <- sqrt_mult by posi. replace (2 / PI * (2 * PI)) with (2 * 2) by (field; lra).
    rewrite sqrt_square by lra. ring. }
  rewrite E. field; posi.
Qed.

Lemma beta_ok a b x : 0 < a -> 0 < b -> (x = 0 -> 1 <= a) -> (x = 1 -> 1 <= b) ->
  denotes (beta_logprob (Fin a) (Fin b) (Fin x)) (beta_pdf a b x).
Proof.
  intros Ha Hb H0 H1. unfold beta_logprob, beta_pdf.
  destruct (Rle_dec 0 x); [destruct (Rle_dec x 1)|]; xrun; cbn [denotes]; auto.
  rewrite Beta_int_Gam by lra.
  pose proof (Gam_pos a Ha). pose proof (Gam_pos b Hb). pose proof (Gam_pos (a+b) ltac:(lra)).
  assert (Cb : x < 1 -> exists l, (if xeq (Fin b) (Fin 1) then Fin 0
      else xmul (Fin (b - 1)) (xlog1p (Fin (- x)))) = Fin l /\ exp l = pw (1 - x) (b - 1)).
  { intros Hx. destruct (Req_EM_T b 1) as [->|Hb1]; xrun; eexists; split; try reflexivity.
    - rewrite exp_0, pw_pos by lra. replace (1-1) with 0 by ring. now rewrite Rpower_O by lra.
    - rewrite pw_pos by lra. reflexivity. }
  assert (Ca : 0 < x -> exists l, (if xeq (Fin a) (Fin 1) then Fin 0
      else xmul (Fin (a - 1)) (xlog (Fin x))) = Fin l /\ exp l = pw x (a - 1)).
  { intros Hx. destruct (Req_EM_T a 1) as [->|Hb1]; xrun; eexists; split; try reflexivity.
    - rewrite exp_0, pw_pos by lra. replace (1-1) with 0 by ring. now rewrite Rpower_O by lra.
    - rewrite pw_pos by lra. reflexivity. }
  destruct (Req_EM_T x 0) as [->|Hx0].
  - destruct Cb as [l [-> El]]; [lra|]. rewrite <- El.
    destruct (Req_EM_T a 1) as [->|Ha1]; xrun; cbn [denotes].
    + replace (1 - 1) with 0 by ring. rewrite pw_0_0. expo. rewrite exp_0. field. lra.
    + rewrite pw_0_pos by lra. cbn. unfold sgn_inf.
      destruct (Rlt_dec 0 (a - 1)); [|specialize (H0 eq_refl); lra]. cbn [xneg xadd xsub denotes].
      unfold Rdiv; ring.
  - destruct Ca as [l [-> El]]; [lra|]. rewrite <- El.
    destruct (Req_EM_T x 1) as [->|Hx1].
    + destruct (Req_EM_T b 1) as [->|Hb1]; xrun; cbn [denotes].
      * replace (1 - 1) with 0 by ring. rewrite pw_0_0. expo. rewrite exp_0. field. lra.
      * replace (1 - 1) with 0 by ring. rewrite pw_0_pos by lra.
        unfold xlog1p; rewrite xadd_fin. rewrite Rplus_opp_r, xlog_zero. cbn. unfold sgn_inf.
        destruct (Rlt_dec 0 (b - 1)); [|specialize (H1 eq_refl); lra]. cbn [xneg xadd xsub denotes].
        unfold Rdiv; ring.
    + destruct Cb as [l' [-> El']]; [lra|]. rewrite <- El'. xrun. cbn [denotes]. expo. field. lra.
Qed.

Lemma exponential_ok mu x : 0 < mu ->
  denotes (exponential_logprob (Fin mu) (Fin x)) (exponential_pdf mu x).
Proof.
  intros H. unfold exponential_logprob, exponential_pdf.
  destruct (Rle_dec 0 x); xrun; cbn [denotes]; auto.
  replace (- x / mu) with (- (x / mu)) by (field; lra). expo. field; posi.
Qed.

Lemma laplace_ok mu b x : 0 < b ->
  denotes (laplace_logprob (Fin mu) (Fin b) (Fin x)) (laplace_pdf mu b x).
Proof.
  intros H. unfold laplace_logprob, laplace_pdf. xrun; cbn [denotes]; auto.
  replace (- Rabs (x - mu) / b) with (- (Rabs (x - mu) / b)) by (field; lra). expo. reflexivity.
Qed.

Lemma lognormal_ok mu s x : 0 < s ->
  denotes (lognormal_logprob (Fin mu) (Fin s) (Fin x)) (lognormal_pdf mu s x).
Proof.
  intros H. unfold lognormal_logprob, lognormal_pdf. pose proof PI_RGT_0.
  destruct (Rlt_dec 0 x); xrun; cbn [denotes]; auto. expo.
  replace (- (1/2) * ((ln x - mu) / s * ((ln x - mu) / s))) with (- (ln x - mu) ^ 2 / (2 * s ^ 2)) by (field; lra).
  field; posi.
Qed.

Lemma xlogy0_pos m x : 0 < x -> xlogy0 (Fin m) (Fin x) = Fin (m * ln x).
Proof. intros; unfold xlogy0; xrun; reflexivity. Qed.
Lemma xlogy0_0_0 : xlogy0 (Fin 0) (Fin 0) = Fin 0.
Proof. unfold xlogy0; xrun; reflexivity. Qed.
Lemma xlogy0_ne_0 m : m <> 0 -> xlogy0 (Fin m) (Fin 0) = NInf.
Proof. intros; unfold xlogy0; xrun; reflexivity. Qed.
(** [xlogy0] denotes the power [pw] *)
Lemma xlogy0_cases m x : 0 <= x ->
  (exists l, xlogy0 (Fin m) (Fin x) = Fin l /\ exp l = pw x m) \/
  (xlogy0 (Fin m) (Fin x) = NInf /\ pw x m = 0).
Proof.
  intros Hx. destruct (Req_EM_T x 0) as [->|Hn].
  - destruct (Req_EM_T m 0) as [->|Hm].
    + left; exists 0. rewrite xlogy0_0_0, exp_0, pw_0_0; auto.
    + right. rewrite xlogy0_ne_0, pw_0_pos by auto; auto.
  - left; exists (m * ln x). rewrite xlogy0_pos, pw_pos by lra. auto.
Qed.

Lemma pareto_ok a m x : 0 < a -> 0 < m ->
  denotes (pareto_logprob (Fin a) (Fin m) (Fin x)) (pareto_pdf a m x).
Proof.
  intros H Hm. unfold pareto_logprob, pareto_pdf.
  destruct (Rle_dec m x); xrun; rewrite ?xlogy0_pos by lra; xrun; rewrite ?xlogy0_pos by lra; xrun; cbn [denotes]; auto. 
  expo. reflexivity.
Qed.

Lemma cauchy_ok a b x : 0 < b ->
  denotes (cauchy_logprob (Fin a) (Fin b) (Fin x)) (cauchy_pdf a b x).
Proof.
  intros H. unfold cauchy_logprob, cauchy_pdf. pose proof PI_RGT_0. xrun.
  cbn [denotes]. expo. field.
  assert (0 <= (x - a)^2) by nneg. repeat split; try lra. simpl in *; nra.
Qed.

Lemma halfcauchy_ok a b x : 0 < b ->
  denotes (halfcauchy_logprob (Fin a) (Fin b) (Fin x)) (halfcauchy_pdf a b x).
Proof.
  intros H. unfold halfcauchy_logprob, cauchy_logprob, halfcauchy_pdf. pose proof PI_RGT_0.
  destruct (Rle_dec a x); xrun; cbn [rmap rswitch]; xrun; cbn [denotes]; auto. expo. field.
  assert (0 <= (x - a)^2) by nneg. repeat split; try lra. simpl in *; nra.
Qed.

Lemma Rpower_inv a b : 0 < a -> Rpower (1 / a) b = / Rpower a b.
Proof.
  intros. unfold Rpower. replace (1 / a) with (/ a) by (field; lra).
  rewrite ln_Rinv by lra. rewrite <- exp_Ropp. f_equal. ring.
Qed.

Lemma gamma_ok a s x : 0 < a -> 0 < s -> (x = 0 -> 1 <= a) ->
  denotes (gamma_logprob (Fin a) (Fin s) (Fin x)) (gamma_pdf a s x).
Proof.
  intros Ha Hs H0. unfold gamma_logprob, gamma_pdf.
  pose proof (Gam_pos a Ha). assert (0 < 1 / s) by posi.
  destruct (Rle_dec 0 x); xrun; cbn [denotes]; auto.
  rewrite (xlogy0_pos a) by posi. xrun.
  replace (- x / s) with (- (1 / s * x)) by (field; lra).
  destruct (xlogy0_cases (a - 1) x ltac:(lra)) as [[l [-> El]]|[-> ->]].
  - rewrite <- El. xrun. cbn [denotes]. expo. rewrite Rpower_inv by lra. field.
    posi.
  - cbn. ring.
Qed.

Lemma invgamma_ok a b x : 0 < a -> 0 < b ->
  denotes (invgamma_logprob (Fin a) (Fin b) (Fin x)) (invgamma_pdf a b x).
Proof.
  intros Ha Hs. unfold invgamma_logprob, invgamma_pdf.
  pose proof (Gam_pos a Ha).
  destruct (Rle_dec 0 x); xrun; cbn [denotes]; auto.
  2:{ destruct (Rlt_dec 0 x); auto; lra. }
  rewrite (xlogy0_pos a) by posi. xrun.
  destruct (Rlt_dec 0 x).
  - rewrite (xlogy0_pos _ x) by posi. xrun. cbn [denotes].
    replace (- b / x) with (- (b / x)) by (field; lra).
    expo. field; posi.
  - assert (x = 0) by lra; subst. rewrite xlogy0_ne_0 by lra.
    simpl xdiv. destruct (Req_EM_T 0 0); [|lra]. unfold sgn_inf.
    destruct (Rlt_dec 0 b); [|lra]. reflexivity.
Qed.

Lemma chisquare_ok k x : 0 < k -> (x = 0 -> 2 <= k) ->
  denotes (chisquare_logprob (Fin k) (Fin x)) (chisquare_pdf k x).
Proof.
  intros Hk H0. unfold chisquare_logprob. rewrite xdiv_fin by lra.
  replace (chisquare_pdf k x) with (gamma_pdf (k/2) 2 x).
  - apply gamma_ok; [lra|lra|]. intros E; specialize (H0 E). lra.
  - unfold gamma_pdf, chisquare_pdf. destruct (Rle_dec 0 x); auto.
    rewrite (Rmult_comm (Gam (k/2))). reflexivity.
Qed.

Lemma wald_ok mu l x : 0 < mu -> 0 < l ->
  denotes (wald_logprob (Fin mu) (Fin l) (Fin x)) (wald_pdf mu l x).
Proof.
  intros Hm Hl. unfold wald_logprob, wald_pdf. pose proof PI_RGT_0.
  destruct (Rlt_dec 0 x); xrun; cbn [denotes]; auto.
  replace (- l * (x - mu) ^ 2 / (2 * mu ^ 2 * x))
    with (- (1 / 2 * l / x * ((x - mu) / mu * ((x - mu) / mu)))) by (field; lra).
  assert (E : exp (3/2 * ln x) = sqrt (x ^ 3)).
  { rewrite <- exp_half_ln by posi. f_equal. rewrite <- Rpower_pow by lra.
    unfold Rpower. rewrite ln_exp. simpl. field. }
  expo. rewrite exp_mul_ln in E. rewrite E.
  replace (l / (2 * PI * x ^ 3)) with (l / (2 * PI) / x ^ 3) by (field; lra).
  rewrite (sqrt_div_alt (l / (2*PI)) (x^3)) by posi. field; posi.
Qed.

Lemma weibull_ok c x : 0 < c -> (x = 0 -> 1 < c) ->
  denotes (weibull_logprob (Fin c) (Fin x)) (weibull_pdf c x).
Proof.
  intros Hc H0. unfold weibull_logprob, weibull_pdf.
  destruct (Rle_dec 0 x); xrun; cbn [denotes]; auto.
  destruct (Req_EM_T x 0) as [->|Hx].
  - specialize (H0 eq_refl). xrun. rewrite !pw_0_pos by lra. unfold xpow. xrun.
    cbn. unfold sgn_inf. rcase. cbn. ring.
  - xrun. rewrite xpow_pos by lra. xrun. cbn [denotes]. rewrite !pw_pos by lra. expo. reflexivity.
Qed.

Lemma i0_pos k : 0 < i0 k.
Proof.
  unfold i0. pose proof PI_RGT_0. apply Rmult_lt_0_compat; [posi|].
  assert (Hc : forall t, continuous (fun t => exp (k * cos t)) t).
  { intros t. apply deriv_cont. auto_derive; auto. }
  apply RInt_gt_0; auto; intros; try apply exp_pos. 
Qed.

Lemma vonmises_ok mu k x : 0 < k ->
  denotes (vonmises_logprob (Fin mu) (Fin k) (Fin x)) (vonmises_pdf mu k x).
Proof.
  intros H. unfold vonmises_logprob, vonmises_pdf. pose proof PI_RGT_0. pose proof (i0_pos k).
  destruct (Rle_dec (-PI) x); [destruct (Rle_dec x PI)|]; xrun; cbn [denotes]; auto.
  cbn [xi0]. xrun. cbn [denotes]. expo.
  replace (bessel_i0 k) with (i0 k) by (unfold i0, bessel_i0, Rdiv; ring).
  replace (cos (mu - x)) with (cos (x - mu)) by (rewrite <- cos_neg; f_equal; ring).
  field. lra.
Qed.

Lemma triangular_ok a c b x : a <= c <= b -> a < b -> ~ (x = c /\ c = b) ->
  denotes (triangular_logprob (Fin a) (Fin c) (Fin b) (Fin x)) (triangular_pdf a c b x).
Proof.
  intros [H1 H2] H3 H4. unfold triangular_logprob, triangular_pdf.
  destruct (Rlt_dec x a). { xrun. cbn. auto. }
  destruct (Rlt_dec x c).
  { xrun. destruct (Req_EM_T x a) as [->|].
    - replace (a - a) with 0 by ring. xrun. rewrite ?xdiv_fin by nra. rewrite Rmult_0_r.
      unfold Rdiv. rewrite !Rmult_0_l. xrun. reflexivity.
    - rewrite ?xdiv_fin by nra. rewrite xlog_pos. 2:{ apply Rdiv_lt_0_compat; nra. }
      cbn [denotes]. rewrite exp_ln; auto. apply Rdiv_lt_0_compat; nra. }
  assert (Hx : c <= x) by lra.
  destruct (Rle_dec x b).
  - xrun. assert (c < b). { destruct (Req_EM_T x c); [|lra]. destruct (Req_EM_T c b); [exfalso; auto|lra]. }
    rewrite ?xdiv_fin by nra.
    destruct (Req_EM_T x b) as [->|].
    + replace (b - b) with 0 by ring. destruct (Req_EM_T b c); [lra|]. rewrite Rmult_0_r. unfold Rdiv.
      rewrite !Rmult_0_l. xrun. reflexivity.
    + rewrite xlog_pos. 2:{ apply Rdiv_lt_0_compat; nra. }
      cbn [denotes]. rewrite exp_ln. 2:{ apply Rdiv_lt_0_compat; nra. }
      destruct (Req_EM_T x c) as [->|]; auto. field. lra.
  - xrun. destruct (Req_EM_T x c); [lra|]. reflexivity.
Qed.

Lemma gumbel_ok mu b x : 0 < b ->
  denotes (gumbel_logprob (Fin mu) (Fin b) (Fin x)) (gumbel_pdf mu b x).
Proof.
  intros H. unfold gumbel_logprob, gumbel_pdf. xrun. cbn [denotes].
  rewrite exp_sub, exp_ln by lra. unfold Rdiv. rewrite Rmult_comm. f_equal. f_equal. ring.
Qed.

Lemma logistic_ok mu s x : 0 < s ->
  denotes (logistic_logprob (Fin mu) (Fin s) (Fin x)) (logistic_pdf mu s x).
Proof.
  intros H. unfold logistic_logprob, logistic_pdf. xrun. cbn [denotes].
  set (z := (x - mu) / s). pose proof (exp_pos (- z)).
  rewrite !exp_sub, exp_ln by lra.
  replace (exp (2 * ln (1 + exp (- z)))) with ((1 + exp (- z)) ^ 2).
  - field. lra.
  - rewrite exp_mul_ln. replace 2 with (INR 2) by (simpl; ring). rewrite Rpower_pow by lra. reflexivity.
Qed.

Lemma studentt_ok nu m s x : 0 < nu -> 0 < s ->
  denotes (studentt_logprob (Fin nu) (Fin m) (Fin s) (Fin x)) (studentt_pdf nu m s x).
Proof.
  intros Hn Hs. unfold studentt_logprob, studentt_pdf. pose proof PI_RGT_0.
  assert (0 < Gam ((nu+1)/2)) by posi. assert (0 < Gam (nu/2)) by posi.
  assert (0 < 1 + (x - m) / s * ((x - m) / s) / nu).
  { assert (0 <= (x - m) / s * ((x - m) / s) / nu); [|lra].
    apply Rmult_le_pos; [apply Rle_0_sqr|apply Rlt_le; posi]. }
  xrun. rewrite ?xlog1p_fin by lra. xrun. cbn [denotes].
  replace (((x - m) / s) ^ 2) with ((x - m) / s * ((x - m) / s)) by ring.
  rewrite Rpower_Ropp.
  rewrite sqrt_mult by nneg.
  expo. rewrite sqrt_mult, sqrt_square by nneg. rewrite sqrt_mult by nneg.
  field; posi.
Qed.
