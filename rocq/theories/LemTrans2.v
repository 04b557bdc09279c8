(** Default transforms and densities of measurable element-wise functions. *)
From Coq Require Import Reals Lra Lia ZArith List Bool.
From Coquelicot Require Import Coquelicot.
From Verif Require Import XR Special LemInt LemLim LemGamma SpecDist XTac ModelDist ModelVec ModelTrans SpecTrans LemDist LemNorm LemNorm2 LemDisc LemSupp LemTrans.
Import ListNotations.
Open Scope R_scope.

(** ** Angles *)
Lemma sin_2kPI x (k : Z) : sin (x + 2 * IZR k * PI) = sin x /\ cos (x + 2 * IZR k * PI) = cos x.
Proof.
  destruct (Z_le_gt_dec 0 k) as [H|H].
  - rewrite <- (Z2Nat.id k H), <- INR_IZR_INZ. split; [apply sin_period|apply cos_period].
  - assert (E : IZR k = - INR (Z.to_nat (- k))). { rewrite INR_IZR_INZ, Z2Nat.id by lia. rewrite opp_IZR. ring. }
    split.
    + rewrite <- (sin_period (x + 2 * IZR k * PI) (Z.to_nat (- k))). f_equal. rewrite E. ring.
    + rewrite <- (cos_period (x + 2 * IZR k * PI) (Z.to_nat (- k))). f_equal. rewrite E. ring.
Qed.
Lemma angle_reduce v : exists w (k : Z), - PI < w <= PI /\ v = w + 2 * IZR k * PI.
Proof.
  pose proof PI_RGT_0 as HP. set (a := (PI - v) / (2 * PI)). destruct (base_Int_part a) as [H1 H2].
  assert (Ea : a * (2 * PI) = PI - v) by (unfold a; field; lra).
  exists (v + 2 * IZR (Int_part a) * PI), (- Int_part a)%Z. rewrite opp_IZR. split; [|ring].
  split; nra.
Qed.
Lemma circular_ok v : exists w (k : Z), - PI < w <= PI /\ v = w + 2 * IZR k * PI /\ backward TCircular (Fin v) = Val (Fin w).
Proof.
  destruct (angle_reduce v) as (w & k & H & ->). exists w, k. repeat split; try tauto. simpl.
  destruct (sin_2kPI w k) as [-> ->]. now rewrite atan2_sincos.
Qed.

(** ** Finite log-densities *)
Lemma denotes_pos r d : denotes r d -> 0 < d -> finite_val r.
Proof. destruct r as [[l| | |]|]; simpl; try tauto. - intros. now exists l. - lra. Qed.
Lemma i0p k : 0 < bessel_i0 k.
Proof. unfold bessel_i0. generalize (i0_pos k). unfold i0. intros. rewrite Rmult_comm in H. exact H. Qed.

Lemma family_finite f x : family_valid f -> family_support f x -> finite_val (family_logprob f (Fin x)).
Proof.
  pose proof PI_RGT_0 as HP.
  destruct f; simpl; intros H Hx.
  - eapply denotes_pos; [apply uniform_ok; auto|]. unfold uniform_pdf. rcase. posi.
  - eapply denotes_pos; [apply pareto_ok; tauto|]. unfold pareto_pdf. rcase. destruct H; posi.
  - eapply denotes_pos; [apply triangular_ok; lra|]. unfold triangular_pdf. rcase.
    + apply Rdiv_lt_0_compat; [lra|]. apply Rmult_lt_0_compat; lra.
    + apply Rdiv_lt_0_compat; lra.
    + apply Rdiv_lt_0_compat; [lra|]. apply Rmult_lt_0_compat; lra.
  - eapply denotes_pos; [apply halfnormal_ok; lra|]. unfold halfnormal_pdf. rcase. posi.
  - destruct H. eapply denotes_pos; [apply wald_ok; lra|]. unfold wald_pdf. rcase. posi.
  - eapply denotes_pos; [apply exponential_ok; lra|]. unfold exponential_pdf. rcase. posi.
  - eapply denotes_pos; [apply lognormal_ok; lra|]. unfold lognormal_pdf. rcase. posi.
  - eapply denotes_pos; [apply halfcauchy_ok; lra|]. unfold halfcauchy_pdf. rcase. posi.
  - destruct H. eapply denotes_pos; [apply gamma_ok; lra|]. unfold gamma_pdf. rcase. rewrite pw_pos by lra. posi.
  - destruct H. eapply denotes_pos; [apply invgamma_ok; lra|]. unfold invgamma_pdf. rcase. posi.
  - eapply denotes_pos; [apply chisquare_ok; lra|]. unfold chisquare_pdf. rcase. rewrite pw_pos by lra. posi.
  - eapply denotes_pos; [apply weibull_ok; lra|]. unfold weibull_pdf. rcase. rewrite !pw_pos by lra. posi.
  - destruct H. eapply denotes_pos; [apply beta_ok; lra|]. unfold beta_pdf. rcase. rewrite !pw_pos by lra.
    rewrite Beta_int_Gam by auto. posi.
  - eapply denotes_pos; [apply vonmises_ok; lra|]. unfold vonmises_pdf. rcase. generalize (i0p k). intros. posi.
Qed.

Lemma default_image f y : family_valid f -> ~ misplaced f -> exists x,
  backward (default_transform f) (Fin y) = Val (Fin x) /\ family_support f x /\
  exists j, log_jac_det (default_transform f) (Fin y) = Val (Fin j).
Proof.
  intros H M.
  assert (G : forall t, timage t y -> (forall x, tdom t x -> tpos t x) -> exists x, backward t (Fin y) = Val (Fin x) /\ tdom t x /\
     exists j, log_jac_det t (Fin y) = Val (Fin j)).
  { intros t Ht Hp. destruct (timage_ran t y Ht) as (x & Dx & <-). exists x. split; [now apply backward_ok|]. split; auto.
    destruct (jac_all t x Dx (Hp x Dx)) as (b & l & _ & E & _). eauto. }
  destruct f; simpl in *; try tauto;
  try (destruct (G TLog) as (x & B & D & J); simpl; auto; exists x; split; [exact B|split; [exact D|exact J]]).
  - destruct (G (TInterval (Some (Fin a)) (Some (Fin b)))) as (x & B & D & J); simpl; auto. exists x. eauto.
  - destruct (G (TInterval (Some (Fin a)) (Some (Fin b)))) as (x & B & D & J); simpl; auto; try lra. exists x. eauto.
  - destruct (G (TInterval (Some (Fin loc)) None)) as (x & B & D & J); simpl; auto. exists x. eauto.
  - destruct (G TLogOdds) as (x & B & D & J); simpl; auto. exists x. eauto.
  - destruct (circular_ok y) as (w & _ & Hw & _ & E). exists w. simpl in E. split; [exact E|]. split; [lra|]. eauto.
Qed.
Lemma default_onto f x : family_valid f -> ~ misplaced f -> family_interior f x ->
  exists y, backward (default_transform f) (Fin y) = Val (Fin x).
Proof.
  intros H M Hx.
  assert (G : forall t, tdom t x -> exists y, backward t (Fin y) = Val (Fin x)).
  { intros t D. exists (tfun t x). now apply backward_ok. }
  destruct f; simpl in *; try tauto; try (apply (G TLog); simpl; auto; fail).
  - apply (G (TInterval (Some (Fin a)) (Some (Fin b)))); simpl; lra.
  - apply (G (TInterval (Some (Fin a)) (Some (Fin b)))); simpl; lra.
  - apply (G (TInterval (Some (Fin loc)) None)); simpl; lra.
  - apply (G TLogOdds); simpl; lra.
  - exists x. rewrite atan2_sincos by lra. reflexivity.
Qed.
Lemma default_finite f y : family_valid f -> ~ misplaced f ->
  finite_val (transformed_logprob true (family_logprob f) (default_transform f) (Fin y)).
Proof.
  intros H M. destruct (default_image f y H M) as (x & B & S & j & J). destruct (family_finite f x H S) as [l L].
  unfold transformed_logprob. rewrite B. cbn [bind]. rewrite L. cbn [bind]. rewrite J. cbn [bind]. eexists. reflexivity.
Qed.
Lemma pareto_default_bad : exists a m y, 0 < a /\ 0 < m /\
  transformed_logprob true (family_logprob (FPareto a m)) (default_transform (FPareto a m)) (Fin y) = Val NInf.
Proof.
  exists 1, 5, 0. split; [lra|split;[lra|]]. unfold transformed_logprob. cbn [default_transform backward bind family_logprob log_jac_det].
  rewrite xexp_fin, xadd_fin, exp_0. rewrite pareto_out by lra. reflexivity.
Qed.
Lemma pareto_default_miss : exists a m x, 0 < a /\ 0 < m /\ m < x /\
  forall y, backward (default_transform (FPareto a m)) y <> Val (Fin x).
Proof.
  exists 5, 1, 2. repeat (split; [lra|]). intros y. cbn [default_transform backward].
  destruct y as [y| | |]; cbn [xexp xadd]; intros E; inversion E as [E1]. generalize (exp_pos y). lra. lra.
Qed.
Lemma halfcauchy_default_bad : exists l s y, 0 < s /\
  transformed_logprob true (family_logprob (FHalfCauchy l s)) (default_transform (FHalfCauchy l s)) (Fin y) = Val NInf.
Proof.
  exists 5, 1, 0. split; [lra|]. unfold transformed_logprob. cbn [default_transform backward bind family_logprob log_jac_det].
  rewrite xexp_fin, exp_0. rewrite halfcauchy_out by lra. reflexivity.
Qed.

(** ** Transformed densities still integrate to one *)
Ltac tf := try typeclasses eauto.
Lemma sig_lim_p0 : filterlim (fun z => / (1 + exp (- z))) (Rbar_locally p_infty) (locally 1).
Proof.
  apply (lim_eq (/ (1 + 0))); [field|].
  apply (lim_cont (Rbar_locally p_infty) (fun z => 1 + exp (- z)) Rinv).
  - apply (lim_plus (Rbar_locally p_infty)); [apply lim_const; tf|]. apply lim_exp_m; tf. apply lim_opp_p; tf. apply lim_id_p.
  - apply deriv_cont. auto_derive. lra.
Qed.
Lemma sig_lt1 x : 0 < / (1 + exp (- x)) < 1.
Proof. generalize (exp_pos (- x)); intros. split; [apply Rinv_0_lt_compat; lra|]. rewrite <- Rinv_1. apply Rinv_lt_contravar; lra. Qed.
Lemma sig_lim_m0 : filterlim (fun z => / (1 + exp (- z))) (Rbar_locally m_infty) (locally 0).
Proof.
  apply lim_inv_p; tf. apply (lim_ge_p (Rbar_locally m_infty) (fun z => exp (- z))). { exists 0; intros; lra. }
  apply lim_exp_p; tf. apply lim_opp_m; tf. apply lim_id_m.
Qed.
Definition sigm (z : R) := / (1 + exp (- z)).

Lemma ito_trans lp f t (lo hi : Rbar) (phi j : R -> R) :
  prim f lo hi 1 -> (forall x, inside lo hi x -> denotes (lp (Fin x)) (f x)) ->
  (forall y, backward t (Fin y) = Val (Fin (phi y))) ->
  (forall y, log_jac_det t (Fin y) = Val (Fin (j y))) ->
  (forall y, inside lo hi (phi y)) ->
  (forall y, is_derive phi y (exp (j y)) /\ continuous (fun y => exp (j y)) y) ->
  filterlim phi (Rbar_locally m_infty) (Fr lo) -> filterlim phi (Rbar_locally p_infty) (Fl hi) ->
  integrates_to_one (transformed_logprob true lp t) m_infty p_infty.
Proof.
  intros P L B J I D L1 L2. apply (ito_intro _ (fun y => f (phi y) * exp (j y))).
  - intros y _. unfold transformed_logprob. rewrite B. cbn [bind]. specialize (L _ (I y)).
    destruct (lp (Fin (phi y))) as [v|]; [|destruct L]. cbn [bind]. rewrite J. cbn [bind].
    apply (den_add v (Fin (j y))); [exact L|apply den_fin].
  - intros x H. exfalso; apply H; apply supp_all.
  - apply (prim_subst f phi _ lo hi); auto. simpl. auto.
Qed.
Lemma in_all y : inside m_infty p_infty y.
Proof. split; simpl; auto. Qed.

Lemma ito_log lp f : prim f 0 p_infty 1 -> (forall x, 0 < x -> denotes (lp (Fin x)) (f x)) ->
  integrates_to_one (transformed_logprob true lp TLog) m_infty p_infty.
Proof.
  intros P L. apply (ito_trans lp f TLog 0 p_infty exp (fun y => y)); auto.
  - intros x [H _]. apply L. exact H.
  - intros y. split; simpl; [apply exp_pos|auto].
  - intros y. split; [auto_derive; [auto|ring]|]. apply deriv_cont. auto_derive. auto.
  - simpl. apply lim_right; tf. apply (lim_exp_m _ (fun y => y)). apply lim_id_m. exists 0; intros; apply exp_pos.
  - simpl. apply (lim_exp_p _ (fun y => y)). apply lim_id_p.
Qed.
Lemma ito_lower lp f (a : R) : prim f a p_infty 1 -> (forall x, a < x -> denotes (lp (Fin x)) (f x)) ->
  integrates_to_one (transformed_logprob true lp (TInterval (Some (Fin a)) None)) m_infty p_infty.
Proof.
  intros P L. apply (ito_trans lp f _ a p_infty (fun y => exp y + a) (fun y => y)); auto.
  - intros x [H _]. apply L. exact H.
  - intros y. split; simpl; [generalize (exp_pos y); lra|auto].
  - intros y. split; [auto_derive; [auto|ring]|]. apply deriv_cont. auto_derive. auto.
  - simpl. apply lim_right; tf.
    + apply (lim_eq (0 + a)); [ring|]. apply (lim_plus (Rbar_locally m_infty)); [|apply lim_const; tf]. apply (lim_exp_m _ (fun y => y)). apply lim_id_m.
    + exists 0; intros x _. generalize (exp_pos x). lra.
  - simpl. apply (lim_plusc_p _ (fun y => exp y)). apply (lim_exp_p _ (fun y => y)). apply lim_id_p.
Qed.
Lemma ito_sig lp f t (a b : R) (j : R -> R) : a < b -> prim f a b 1 -> (forall x, a < x < b -> denotes (lp (Fin x)) (f x)) ->
  (forall y, backward t (Fin y) = Val (Fin (sigm y * b + (1 - sigm y) * a))) ->
  (forall y, log_jac_det t (Fin y) = Val (Fin (j y))) ->
  (forall y, exp (j y) = (b - a) * (exp (- y) / (1 + exp (- y)) ^ 2)) ->
  integrates_to_one (transformed_logprob true lp t) m_infty p_infty.
Proof.
  intros Hab P L B J E. apply (ito_trans lp f t a b (fun y => sigm y * b + (1 - sigm y) * a) j); auto.
  - intros y. unfold inside; simpl. unfold sigm. generalize (sig_lt1 y). intros. split; nra.
  - intros y. pose proof (exp_pos (- y)). split.
    + rewrite E. unfold sigm. auto_derive; [lra|]. field. lra.
    + apply (continuous_ext (fun y => (b - a) * (exp (- y) / (1 + exp (- y)) ^ 2))); [intros; now rewrite E|].
      apply deriv_cont. auto_derive. generalize (pow_lt (1 + exp (- y)) 2 ltac:(lra)). simpl. lra.
  - simpl. apply lim_right; tf.
    + apply (lim_eq (0 * b + (1 - 0) * a)); [ring|].
      apply (lim_cont (Rbar_locally m_infty) sigm (fun u => u * b + (1 - u) * a)); [exact sig_lim_m0|]. apply deriv_cont. auto_derive. auto.
    + exists 0. intros x _. unfold sigm. generalize (sig_lt1 x). intros. nra.
  - simpl. apply lim_left; tf.
    + apply (lim_eq (1 * b + (1 - 1) * a)); [ring|].
      apply (lim_cont (Rbar_locally p_infty) sigm (fun u => u * b + (1 - u) * a)); [exact sig_lim_p0|]. apply deriv_cont. auto_derive. auto.
    + exists 0. intros x _. unfold sigm. generalize (sig_lt1 x). intros. nra.
Qed.
Lemma ito_interval lp f (a b : R) : a < b -> prim f a b 1 -> (forall x, a < x < b -> denotes (lp (Fin x)) (f x)) ->
  integrates_to_one (transformed_logprob true lp (TInterval (Some (Fin a)) (Some (Fin b)))) m_infty p_infty.
Proof.
  intros Hab P L. apply (ito_sig lp f _ a b (fun y => ln (b - a) - 2 * ln (1 + exp (- y)) - y)); auto.
  - intros y. cbn [log_jac_det]. rewrite xsub_fin, xlog_pos by lra. reflexivity.
  - intros y. pose proof (exp_pos (- y)) as E. replace (ln (b - a) - 2 * ln (1 + exp (- y)) - y) with (ln (b - a) + - y - (ln (1 + exp (- y)) + ln (1 + exp (- y)))) by ring.
    rewrite exp_sub, !exp_plus, !exp_ln by lra. field. lra.
Qed.
Lemma ito_logodds lp f : prim f 0 1 1 -> (forall x, 0 < x < 1 -> denotes (lp (Fin x)) (f x)) ->
  integrates_to_one (transformed_logprob true lp TLogOdds) m_infty p_infty.
Proof.
  intros P L. apply (ito_sig lp f _ 0 1 (fun y => ln (sigm y) + ln (1 + - sigm y))); auto; try lra.
  - intros y. cbn [backward xsigmoid]. do 2 f_equal. unfold sigm. ring.
  - intros y. unfold sigm. cbn [log_jac_det xsigmoid]. generalize (sig_lt1 y). intros. rewrite xlog_pos, xneg_fin, xlog1p_fin by lra. reflexivity.
  - intros y. unfold sigm. generalize (sig_lt1 y). intros. pose proof (exp_pos (- y)).
    rewrite exp_plus, !exp_ln by lra. field. lra.
Qed.
Lemma default_normalised f : family_valid f -> ~ misplaced f -> (forall m k, f <> FVonMises m k) ->
  integrates_to_one (transformed_logprob true (family_logprob f) (default_transform f)) m_infty p_infty.
Proof.
  intros H M V. destruct f; simpl in *; try tauto.
  - apply (ito_interval _ (uniform_pdf a b)); auto. now apply uniform_prim. intros; now apply uniform_ok.
  - apply (ito_interval _ (triangular_pdf a c b)); try lra. apply triangular_prim; lra. intros; apply triangular_ok; lra.
  - apply (ito_lower _ (halfnormal_pdf loc s)); auto. now apply halfnormal_prim. intros; now apply halfnormal_ok.
  - apply (ito_log _ (wald_pdf mu l)). apply wald_prim; tauto. intros; apply wald_ok; tauto.
  - apply (ito_log _ (exponential_pdf mu)). apply exponential_prim; tauto. intros; apply exponential_ok; tauto.
  - apply (ito_log _ (lognormal_pdf mu s)). apply lognormal_prim; tauto. intros; apply lognormal_ok; tauto.
  - apply (ito_log _ (gamma_pdf a s)). apply gamma_prim; tauto. intros; apply gamma_ok; lra.
  - apply (ito_log _ (invgamma_pdf a b)). apply invgamma_prim; tauto. intros; apply invgamma_ok; tauto.
  - apply (ito_log _ (chisquare_pdf k)). apply chisquare_prim; tauto. intros; apply chisquare_ok; lra.
  - apply (ito_log _ (weibull_pdf c)). apply weibull_prim; tauto. intros; apply weibull_ok; lra.
  - apply (ito_logodds _ (beta_pdf a b)). apply beta_prim; tauto. intros; apply beta_ok; lra.
  - exfalso. now apply (V mu k).
Qed.

(** ** Push-forwards *)
Lemma elem_den lp f t x j l : denotes (lp (Fin x)) (f x) -> backward t (Fin l) = Val (Fin x) ->
  log_jac_det t (Fin l) = Val (Fin j) -> denotes (elemwise_logprob t lp (Fin l)) (f x * exp j).
Proof.
  intros L B J. unfold elemwise_logprob. rewrite B. cbn [bind].
  destruct (lp (Fin x)) as [v|]; [|destruct L]. cbn [bind]. rewrite J. cbn [bind].
  apply (den_add v (Fin j)); [exact L|apply den_fin].
Qed.
Lemma exp_neg_ln_abs c : c <> 0 -> exp (- ln (Rabs c)) = / Rabs c.
Proof. intros. rewrite exp_Ropp, exp_ln by (now apply Rabs_pos_lt). reflexivity. Qed.
Lemma loc_den lp f (c x : R) : denotes (lp (Fin x)) (f x) -> denotes (elemwise_logprob (TLoc (Fin c)) lp (Fin (x + c))) (f x).
Proof. intros L. replace (f x) with (f x * exp 0) by (rewrite exp_0; ring). apply elem_den; auto. now apply (backward_ok (TLoc (Fin c)) x). Qed.
Lemma scale_den lp f (c x : R) : c <> 0 -> denotes (lp (Fin x)) (f x) ->
  denotes (elemwise_logprob (TScale (Fin c)) lp (Fin (x * c))) (f x / Rabs c).
Proof.
  intros Hc L. unfold Rdiv. rewrite <- exp_neg_ln_abs by auto. apply elem_den; auto.
  - now apply (backward_ok (TScale (Fin c)) x).
  - cbn [log_jac_det]. rewrite xabs_fin, xlog_pos by (now apply Rabs_pos_lt). reflexivity.
Qed.
Lemma recip_den lp f x : 0 < x -> denotes (lp (Fin x)) (f x) ->
  denotes (elemwise_logprob TRecip lp (Fin (/ x))) (f x * (x * x)).
Proof.
  intros Hx L. replace (x * x) with (exp (-2 * ln (/ x))).
  - apply elem_den; auto. + apply (backward_ok TRecip x). simpl. lra.
    + cbn [log_jac_det]. rewrite xlog_pos by posi. reflexivity.
  - rewrite ln_Rinv by auto. replace (-2 * - ln x) with (ln x + ln x) by ring. rewrite exp_plus, exp_ln; auto.
Qed.
Lemma push_ok e lp f x : eadm e -> edom e x -> epos e x -> (forall z, denotes (lp (Fin z)) (f z)) ->
  exists d, pushforward_at (efun e) f x (efun e x) d /\ denotes (measurable_elem e lp (Fin (efun e x))) d.
Proof.
  intros A D P L. unfold pushforward_at.
  destruct e as [[c| | |]|[c| | |]| | | |[c| | |]|[c| | |]|[c| | |]|[c| | |]]; simpl in A, D, P; try tauto; unfold efun; cbn [measurable_elem].
  - exists (f x). split; [split; auto|now apply loc_den]. exists 1. split; [auto_derive; [auto|ring]|]. split; [lra|]. rewrite Rabs_R1. field.
  - exists (f x / Rabs c). split; [split; auto|]. exists c. split; [auto_derive; [auto|ring]|]. auto.
    rewrite Rmult_comm. now apply scale_den.
  - exists (f x / exp x). split; [split; auto|].
    + exists (exp x). pose proof (exp_pos x). split; [auto_derive; [auto|ring]|]. split; [lra|]. rewrite Rabs_pos_eq by lra. reflexivity.
    + unfold Rdiv. rewrite <- exp_Ropp. apply elem_den; auto.
      * now apply (backward_ok TExp x).
      * cbn [log_jac_det]. rewrite xlog_pos by apply exp_pos. rewrite ln_exp. reflexivity.
  - exists (f x * x). split; [split; auto|].
    + exists (/ x). split; [auto_derive; [auto|field; lra]|]. split; [posi|]. rewrite Rabs_pos_eq by (apply Rlt_le; posi). field. lra.
    + rewrite <- (exp_ln x) at 3 by auto. apply elem_den; auto. now apply (backward_ok TLog x).
  - exists (f x * (x * x)). split; [split; auto|now apply recip_den].
    exists (- / (x * x)). split; [auto_derive; [auto|field; auto]|]. assert (0 < / (x * x)) by posi. split; [lra|].
    rewrite Rabs_Ropp, Rabs_pos_eq by lra. field. auto.
  - exists (f x / Rabs (/ c)). split; [split; auto|].
    + exists (/ c). split; [auto_derive; [auto|field; auto]|]. split; auto. now apply Rinv_neq_0_compat.
    + rewrite xrecip_fin by auto. apply scale_den; auto. now apply Rinv_neq_0_compat.
  - exists (f x * (x * x) / Rabs c). split; [split; auto|].
    + assert (0 < x * x) by posi. assert (0 < Rabs c) by (now apply Rabs_pos_lt).
      exists (- c / (x * x)). split; [auto_derive; [lra|field; lra]|].
      split. { intros E. assert (c = 0). { replace c with (- (- c / (x * x) * (x * x))) by (field; lra). rewrite E. ring. } auto. }
      unfold Rdiv at 3. rewrite Rabs_mult, Rabs_Ropp, Rabs_inv, (Rabs_pos_eq (x * x)) by lra. field. split; lra.
    + replace (c / x) with (/ x * c) by (unfold Rdiv; ring).
      pose proof (scale_den (elemwise_logprob TRecip lp) (fun z => f (/ z) * (/ z * / z)) c (/ x) A) as S.
      cbv beta in S. rewrite !Rinv_inv in S. apply S. now apply recip_den.
  - rewrite xmul_fin. exists (f x). split; [split; auto|].
    + exists 1. split; [auto_derive; [auto|ring]|]. split; [lra|]. rewrite Rabs_R1. field.
    + replace (x - c) with (x + -1 * c) by ring. now apply loc_den.
  - exists (f x). split; [split; auto|].
    + exists (-1). split; [auto_derive; [auto|ring]|]. split; [lra|]. rewrite Rabs_left by lra. field.
    + replace (c - x) with (x * -1 + c) by ring.
      apply (loc_den _ (fun z => f (- z) )  c (x * -1)) || idtac.
      pose proof (loc_den (elemwise_logprob (TScale (Fin (-1))) lp) (fun z => f (- z)) c (x * -1)) as S. cbv beta in S.
      replace (- (x * -1)) with x in S by ring. apply S.
      replace (f x) with (f x / Rabs (-1)) by (rewrite Rabs_left by lra; field). apply scale_den; auto. lra.
Qed.
(** off the image the code's value is NaN, not -inf *)
Lemma exp_off_image : exists y, y < 0 /\ measurable_elem EExp (normal_logprob (Fin 0) (Fin 1)) (Fin y) = Val NaN.
Proof.
  exists (-1). split; [lra|]. cbn [measurable_elem]. unfold elemwise_logprob. cbn [backward]. rewrite xlog_neg by lra. cbn [bind].
  unfold normal_logprob. rewrite check_true by (cbn [forallb]; rewrite xgt_true by lra; reflexivity). reflexivity.
Qed.
Lemma recip_negative : exists y, y < 0 /\ measurable_elem ERecip (normal_logprob (Fin 0) (Fin 1)) (Fin y) = Val NaN.
Proof.
  exists (-1). split; [lra|]. cbn [measurable_elem]. unfold elemwise_logprob. cbn [backward]. rewrite xrecip_fin by lra. cbn [bind log_jac_det].
  unfold normal_logprob. rewrite check_true by (cbn [forallb]; rewrite xgt_true by lra; reflexivity). cbn [bind]. rewrite (xlog_neg (-1)) by lra.
  cbn [xmul]. f_equal. match goal with |- xadd ?a _ = _ => destruct a end; reflexivity.
Qed.

(** ** Circular transform: derivative one away from the odd multiples of pi *)
Lemma circ_jac w (k : Z) : - PI < w < PI -> let y := w + 2 * IZR k * PI in
  exists b, computes_near (backward TCircular) y b /\ log_jac_det TCircular (Fin y) = Val (Fin 0) /\ log_abs_derivative b y 0.
Proof.
  intros H y. exists (fun z => z - 2 * IZR k * PI). split; [|split].
  - assert (0 < Rmin (PI - w) (w + PI)) as P by (apply Rmin_pos; lra).
    exists (mkposreal _ P). intros z Hz.
    unfold ball in Hz; simpl in Hz; unfold AbsRing_ball, abs, minus, plus, opp in Hz; simpl in Hz.
    unfold y in Hz. apply Rabs_def2 in Hz. generalize (Rmin_l (PI - w) (w + PI)) (Rmin_r (PI - w) (w + PI)); intros.
    cbn [backward]. replace z with ((z - 2 * IZR k * PI) + 2 * IZR k * PI) at 1 2 by ring.
    destruct (sin_2kPI (z - 2 * IZR k * PI) k) as [-> ->]. rewrite atan2_sincos by lra. reflexivity.
  - reflexivity.
  - exists 1. split; [auto_derive; [auto|ring]|]. split; [lra|]. rewrite Rabs_R1, ln_1. reflexivity.
Qed.

(** ** Statements as used in PropTrans.v *)
Lemma maps_both t x y : tmaps t x y -> forward t (Fin x) = Val (Fin y) /\ backward t (Fin y) = Val (Fin x).
Proof. intros [H <-]. split; [now apply forward_ok|now apply backward_ok]. Qed.
Lemma image_both t y : timage t y -> exists x, tmaps t x y /\ backward t (Fin y) = Val (Fin x) /\ forward t (Fin x) = Val (Fin y).
Proof. intros H. destruct (timage_ran t y H) as [x M]. exists x. destruct (maps_both t x y M). auto. Qed.
Lemma jac_maps t x y : tmaps t x y -> tpos t x ->
  exists b l, computes_near (backward t) y b /\ log_jac_det t (Fin y) = Val (Fin l) /\ log_abs_derivative b y l.
Proof. intros [H <-] P. exact (jac_all t x H P). Qed.
Lemma chain_both l x y : tmaps (TChain l) x y ->
  forward (TChain l) (Fin x) = Val (Fin y) /\ backward (TChain l) (Fin y) = Val (Fin x).
Proof. apply maps_both. Qed.
Lemma chain_jac l x y : tmaps (TChain l) x y -> tpos (TChain l) x ->
  exists b j, computes_near (backward (TChain l)) y b /\ log_jac_det (TChain l) (Fin y) = Val (Fin j) /\ log_abs_derivative b y j.
Proof. apply jac_maps. Qed.
Lemma chain_composes t l x y z : tmaps t x y -> tmaps (TChain l) y z -> tmaps (TChain (t :: l)) x z.
Proof. intros [H <-] [H2 <-]. split; [|reflexivity]. split; auto. Qed.
Lemma default_into f y : family_valid f -> ~ misplaced f -> exists x,
  backward (default_transform f) (Fin y) = Val (Fin x) /\ family_support f x.
Proof. intros H M. destruct (default_image f y H M) as (x & B & S & _). eauto. Qed.
Lemma recip_neg_refuted : exists y l, log_abs_derivative Rinv y l /\
  computes_near (backward TRecip) y Rinv /\ log_jac_det TRecip (Fin y) = Val NaN.
Proof.
  exists (-1). eexists. destruct (recip_neg_jac (-1)) as [J D]; [lra|]. split; [exact D|]. split; auto.
  exists (mkposreal 1 Rlt_0_1). intros z Hz.
  unfold ball in Hz; simpl in Hz; unfold AbsRing_ball, abs, minus, plus, opp in Hz; simpl in Hz. apply Rabs_def2 in Hz.
  cbn [backward]. rewrite xrecip_fin by lra. reflexivity.
Qed.
