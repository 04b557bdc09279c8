(** Counterexamples found in the scalar families (C01-C08). *)
From Coq Require Import Reals Lra Lia ZArith List Bool.
From Coquelicot Require Import Coquelicot.
From Verif Require Import XR Special LemInt LemLim LemGamma SpecDist SpecCdf SpecCheck XTac ModelDist ModelVec LemDist LemNorm LemDisc LemCdf LemCheck.
Import ListNotations.
Open Scope R_scope.

Lemma weibull_zero_nan : weibull_logprob (Fin 1) (Fin 0) = Val NaN.
Proof.
  unfold weibull_logprob. xrun. replace (1 - 1) with 0 by ring. cbn [xmul]. unfold sgn_inf. rcase. reflexivity.
Qed.
Lemma weibull_boundary_bad : exists c x, 0 < c /\ 0 <= x /\ ~ denotes (weibull_logprob (Fin c) (Fin x)) (weibull_pdf c x).
Proof. exists 1, 0. split; [lra|split;[lra|]]. rewrite weibull_zero_nan. simpl. tauto. Qed.
Lemma triangular_mode_bad : exists a c b x, a <= c <= b /\ a < b /\ a <= x <= b /\
  ~ denotes (triangular_logprob (Fin a) (Fin c) (Fin b) (Fin x)) (triangular_pdf a c b x).
Proof.
  exists 0, 1, 1, 1. repeat (split; [lra|]). unfold triangular_logprob. xrun.
  replace ((1 - 0) * (1 - 1)) with 0 by ring. replace (2 * (1 - 1)) with 0 by ring.
  cbn [xdiv]. unfold sgn_inf. rcase. cbn. tauto.
Qed.
Lemma gamma_boundary_bad : exists a s, 0 < a /\ 0 < s /\ gamma_logprob (Fin a) (Fin s) (Fin 0) = Val NInf /\
  forall M, exists d, 0 < d /\ forall x, 0 < x < d -> M < gamma_pdf a s x.
Proof.
  exists (1/2), 1. split; [lra|split;[lra|split]].
  - unfold gamma_logprob. xrun. assert (0 < 1 / 1) by lra. xrun. unfold xlogy0. xrun. reflexivity.
  - intros M. pose proof (Gam_pos (1/2) ltac:(lra)) as G.
    set (K := / (Gam (1/2)) * exp (-1)). assert (HK : 0 < K) by (unfold K; posi).
    (* density >= K * x^(-1/2) on (0,1) *)
    set (N := Rabs M / K + 1). assert (HN : 1 <= N).
    { unfold N. assert (0 <= Rabs M / K) by (apply Rmult_le_pos; [apply Rabs_pos|apply Rlt_le; posi]). lra. }
    exists (/ (N * N)). split; [posi|]. intros x [Hx1 Hx2].
    assert (Hx3 : x < 1). { apply Rlt_le_trans with (/ (N * N)); auto. rewrite <- Rinv_1. apply Rinv_le_contravar; nra. }
    unfold gamma_pdf. rcase. rewrite Rpower_1_base, Rmult_1_r. rewrite pw_pos by lra.
    replace (1/2 - 1) with (- / 2) by field. rewrite Rpower_Ropp, Rpower_sqrt by lra.
    assert (Hs : 0 < sqrt x) by (now apply sqrt_lt_R0).
    assert (Hs2 : sqrt x < / N).
    { rewrite <- (sqrt_square (/ N)) by (apply Rlt_le; posi). apply sqrt_lt_1_alt. split; [lra|].
      rewrite <- Rinv_mult. auto. }
    assert (H1 : N < / sqrt x).
    { rewrite <- (Rinv_inv N). apply Rinv_lt_contravar; auto. apply Rmult_lt_0_compat; auto. posi. }
    assert (H2 : exp (-1) <= exp (- x / 1)) by (apply exp_mono; lra).
    assert (H3 : K * N < / Gam (1/2) * / sqrt x * exp (- x / 1)).
    { unfold K. apply Rlt_le_trans with (/ Gam (1/2) * exp (-1) * / sqrt x).
      - apply Rmult_lt_compat_l; auto.
      - rewrite Rmult_assoc, (Rmult_comm (exp (-1))), <- Rmult_assoc. apply Rmult_le_compat_l; auto.
        apply Rmult_le_pos; apply Rlt_le; posi. }
    apply Rle_lt_trans with (2 := H3). unfold N.
    replace (K * (Rabs M / K + 1)) with (Rabs M + K) by (field; lra). generalize (Rle_abs M). lra.
Qed.

Lemma poisson_nonint : exists mu x, 0 < mu /\ (forall z, x <> IZR z) /\ poisson_logprob (Fin mu) (Fin x) <> Val NInf.
Proof.
  exists 1, (1/2). split; [lra|split].
  - intros z H. assert (H1 : IZR 0 < IZR z < IZR 1) by lra. destruct H1 as [H1 H2]. apply lt_IZR in H1. apply lt_IZR in H2. lia.
  - unfold poisson_logprob, xlogy0. xrun. cbn [rswitch]. discriminate.
Qed.
Lemma categorical_oob : exists (w : list R) (z : Z), List.Forall (fun x => 0 <= x) w /\ fold_right Rplus 0 w = 1 /\
  (Z.of_nat (length w) <= z)%Z /\ categorical_logprob (map Fin w) z = Raise.
Proof. exists [1/2; 1/2], 2%Z. split; [repeat constructor; lra|split; [simpl; lra|split; [simpl; lia|reflexivity]]]. Qed.

Lemma uniform_no_check : exists a b x, b < a /\ exists r, uniform_logprob (Fin a) (Fin b) (Fin x) = Val r.
Proof. exists 1, 0, 0. split; [lra|]. eexists. reflexivity. Qed.
Lemma studentt_no_check : exists df x, df < 0 /\ exists r, studentt_logprob (Fin df) (Fin 0) (Fin 1) (Fin x) = Val r.
Proof. exists (-3), 0. split; [lra|]. unfold studentt_logprob. eexists. rewrite check_true; [reflexivity|]. simpl. now rewrite xge_true by lra. Qed.
Lemma gamma_scale0 : exists a x, 0 < a /\ 0 < x /\ gamma_logprob (Fin a) (Fin 0) (Fin x) = Val NaN.
Proof.
  exists 1, 1. split; [lra|split;[lra|]]. unfold gamma_logprob. replace (xdiv (Fin 1) (Fin 0)) with PInf.
  2:{ simpl. unfold sgn_inf. rcase. reflexivity. }
  rewrite check_true by (simpl; xrun; rewrite ?Rltb_true; unfold Rltb; rcase; reflexivity).
  xrun. unfold xlogy0 at 1. cbn [xeq xlog]. cbn [xmul]. unfold sgn_inf. rcase. reflexivity.
Qed.
Lemma hypergeometric_no_check : exists good bad n x, good < 0 /\ exists r,
  hypergeometric_logprob (Fin good) (Fin bad) (Fin n) (Fin x) = Val r.
Proof. exists (-1), 1, 1, 0. split; [lra|]. eexists. reflexivity. Qed.
Lemma binomial_no_check : exists n p x, n < 0 /\ 0 <= p <= 1 /\ exists r, binomial_logprob (Fin n) (Fin p) (Fin x) = Val r.
Proof. exists (-1), (1/2), 0. split; [lra|split;[lra|]]. unfold binomial_logprob. xrun. eexists. reflexivity. Qed.
Lemma categorical_neg_check : exists (w : list R), List.Forall (fun x => x < 0) w /\
  exists r, categorical_logprob (map Fin w) 0%Z = Val r.
Proof.
  exists [-1; -1]. split; [repeat constructor; lra|].
  assert (E : map (fun x => xdiv x (xsum (map Fin [-1; -1]))) (map Fin [-1; -1]) = [Fin (1/2); Fin (1/2)]).
  { cbn [map xsum fold_right]. rewrite !xadd_fin, !xdiv_fin by lra.
    replace (-1 / (-1 + (-1 + 0))) with (1/2) by field. reflexivity. }
  unfold categorical_logprob. rewrite E.
  change (np_index [Fin (1/2); Fin (1/2)] 0) with (Val (Fin (1/2))). cbv iota beta.
  eexists. rewrite check_true; [reflexivity|]. cbn [forallb]. xrun. reflexivity.
Qed.
Lemma multinomial_neg_check : exists (p k : list R), (exists q, In q p /\ q < 0) /\
  exists r, multinomial_logprob (Fin 1) (map Fin p) (map Fin k) = Val r.
Proof.
  exists [-1/2; 1/2; 1], [0; 0; 1]. split; [exists (-1/2); split; [simpl; auto|lra]|].
  unfold multinomial_logprob. rewrite check_true; [eexists; reflexivity|].
  simpl map. cbn [xsum fold_right]. rewrite !xadd_fin. cbn [forallb]. xrun.
  rewrite ?xeq_true by lra. reflexivity.
Qed.

Lemma nbinom_p1_raises : exists n k, 0 < n /\ nbinom_logprob (Fin n) (Fin 1) (Fin (INR k)) = Raise.
Proof.
  exists 1, 0%nat. split; [lra|]. unfold nbinom_logprob. rewrite xsub_fin, xmul_fin, xdiv_fin by lra.
  replace (1 * (1 - 1) / 1) with 0 by field. rewrite (check_false _ [xlt (Fin 0) (Fin 0); _]).
  - unfold rswitch. now destruct (poisson_logprob _ _).
  - simpl. unfold Rltb. rcase. all: try reflexivity.
Qed.
Lemma nbinom_large_bad : exists n p k, 0 < n /\ 0 < p < 1 /\
  ~ denotes (nbinom_logprob (Fin n) (Fin p) (Fin (INR k))) (nbinom_pmf n p k).
Proof.
  exists 20000000000, (1/2), 0%nat. split; [lra|split;[lra|]].
  unfold nbinom_logprob. xrun. set (mu := 20000000000 * (1 - 1/2) / (1/2)). assert (Emu : mu = 20000000000) by (unfold mu; field).
  generalize (poisson_mass mu 0 ltac:(lra)). destruct (poisson_logprob (Fin mu) (Fin (INR 0))) as [v|]; [|intros []].
  intros D. cbn [rswitch].
  intros D2. 
  assert (E : poisson_pmf mu 0 = nbinom_pmf 20000000000 (1/2) 0).
  { unfold denotes in D, D2. destruct v; try tauto; congruence. }
  unfold poisson_pmf, nbinom_pmf in E. simpl in E. unfold Rpower in E.
  replace (1 / 1 * exp (- mu)) with (exp (- mu)) in E by field.
  replace (1 / 1 * exp (20000000000 * ln (1 / 2)) * 1) with (exp (20000000000 * ln (1 / 2))) in E by field.
  apply exp_inv in E. assert (L2 : ln 2 < 1).
  { rewrite <- (ln_exp 1). apply ln_increasing; [lra|]. generalize (exp_ineq1 1 ltac:(lra)). lra. }
  replace (1 / 2) with (/ 2) in E by field. rewrite ln_Rinv in E by lra. lra.
Qed.
Lemma geometric_cdf_nonint : exists p x, 0 < p <= 1 /\ ~ denotes (geometric_logcdf (Fin p) (Fin x)) (mass_upto (geometric_pmf p) x).
Proof.
  exists (3/4), (1/2). split; [lra|].
  assert (E : mass_upto (geometric_pmf (3/4)) (1/2) = 0).
  { unfold mass_upto. rcase. replace (Int_part (1/2)) with 0%Z.
    - simpl. reflexivity.
    - symmetry. destruct (base_Int_part (1/2)) as [H1 H2].
      assert (IZR (Int_part (1/2)) < IZR 1) by lra. assert (IZR (-1) < IZR (Int_part (1/2))) by lra.
      apply lt_IZR in H. apply lt_IZR in H0. lia. }
  rewrite E. unfold geometric_logcdf. rewrite check_true by (xrun; reflexivity). rewrite xle_false by lra.
  rewrite xneg_fin. rewrite xlog1p_fin by lra. rewrite xmul_fin.
  intros D. 
  assert (Ev : exp (ln (1 + - (3/4)) * (1/2)) = 1/2).
  { rewrite Rmult_comm, exp_half_ln by lra. replace (1 + - (3/4)) with ((1/2) * (1/2)) by field. apply sqrt_square. lra. }
  assert (D2 : den (xlog1mexp (Fin (ln (1 + - (3/4)) * (1/2)))) (1 - 1/2)).
  { apply den_log1mexp; [|left; lra]. unfold den, denotes. exact Ev. }
  unfold den, denotes in D, D2. destruct (xlog1mexp _); try tauto; lra.
Qed.
Lemma geometric_icdf_p1 : exists q, 0 < q < 1 /\ geometric_icdf (Fin 1) (Fin q) = Val (Fin 0) /\
  mass_upto (geometric_pmf 1) 0 < q.
Proof.
  exists (1/2). split; [lra|split].
  - unfold geometric_icdf. rewrite !xneg_fin. rewrite xlog1p_fin by lra. unfold xlog1p at 1.
    rewrite xadd_fin, Rplus_opp_r, xlog_zero. cbn [xdiv xceil]. do 2 f_equal.
    unfold Rceil_part. rewrite Ropp_0. rewrite (Int_part_IZR 0). reflexivity.
  - change 0 with (INR 0). rewrite mass_upto_nat, geometric_cdf. simpl. lra.
Qed.
Lemma nbinom_p0_ok : exists n v r, 0 < n /\ nbinom_logprob (Fin n) (Fin 0) (Fin v) = Val r.
Proof.
  exists 1, 0. unfold nbinom_logprob. replace (xdiv (xmul (Fin 1) (xsub (Fin 1) (Fin 0))) (Fin 0)) with PInf.
  2:{ rewrite xsub_fin, xmul_fin. unfold xdiv, sgn_inf. rcase. reflexivity. }
  eexists. split; [lra|]. unfold poisson_logprob.
  rewrite !check_true by (simpl; unfold Rltb; rcase; reflexivity). reflexivity.
Qed.
Lemma uniform_cdf_all a b x : a < b -> exists v,
  denotes (uniform_logcdf (Fin a) (Fin b) (Fin x)) v /\
  (x <= a -> v = 0) /\ (a < x <= b -> is_cdf_at (uniform_pdf a b) a x v) /\ (b <= x -> v = 1).
Proof.
  intros H. eexists. split; [apply uniform_logcdf_ok; auto|]. split; [|split].
  - intros. rcase. replace x with a by lra. field. lra.
  - intros Hx. destruct (Rlt_dec x a); [lra|]. destruct (Rlt_dec x b).
    + now apply uniform_cdf_prim.
    + replace 1 with ((x - a) / (b - a)) by (replace x with b by lra; field; lra). now apply uniform_cdf_prim.
  - intros. rcase.
Qed.
