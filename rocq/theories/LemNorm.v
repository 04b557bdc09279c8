(** Normalisation (C04): the textbook densities integrate to one. *)
From Coq Require Import Reals Lra Lia ZArith List Bool.
From Coquelicot Require Import Coquelicot.
From Verif Require Import XR Special LemInt LemLim LemGamma SpecDist XTac ModelDist LemDist.
Import ListNotations.
Open Scope R_scope.

(** ** Affine changes of variable *)
Lemma aff_deriv mu s x : 0 < s -> is_derive (fun x => (x - mu) / s) x (/ s) /\ continuous (fun _ : R => / s) x.
Proof. intros; split; [auto_derive; auto; field; lra|apply continuous_const]. Qed.
Lemma aff_lim_p mu s : 0 < s -> filterlim (fun x => (x - mu) / s) (Rbar_locally p_infty) (Rbar_locally p_infty).
Proof.
  intros Hs. apply (filterlim_ext (fun x => / s * (x + - mu))). { intros; field; lra. }
  flim lim_scal_p; [posi|]. flim lim_plusc_p. apply lim_id_p.
Qed.
Lemma aff_lim_m mu s : 0 < s -> filterlim (fun x => (x - mu) / s) (Rbar_locally m_infty) (Rbar_locally m_infty).
Proof.
  intros Hs. apply (filterlim_ext (fun x => / s * (x + - mu))). { intros; field; lra. }
  flim lim_scal_m; [posi|]. flim lim_plusc_m. apply lim_id_m.
Qed.
Lemma aff_lim_r mu s : 0 < s -> filterlim (fun x => (x - mu) / s) (at_right mu) (at_right 0).
Proof.
  intros Hs. flim lim_right.
  - apply cont_Fr; [|field; lra]. apply deriv_cont; auto_derive; auto.
  - generalize (at_right_gt mu). apply filter_imp. intros; apply Rdiv_lt_0_compat; lra.
Qed.
Lemma prim_aff_all f mu s l : 0 < s -> prim f m_infty p_infty l ->
  prim (fun x => f ((x - mu) / s) * / s) m_infty p_infty l.
Proof.
  intros Hs H. apply (prim_subst f (fun x => (x - mu) / s) (fun _ => / s) m_infty p_infty); auto.
  - simpl; auto.
  - intros; now apply aff_deriv.
  - now apply aff_lim_m.
  - now apply aff_lim_p.
Qed.
Lemma prim_aff_right f mu s l : 0 < s -> prim f 0 p_infty l ->
  prim (fun x => f ((x - mu) / s) * / s) mu p_infty l.
Proof.
  intros Hs H. apply (prim_subst f (fun x => (x - mu) / s) (fun _ => / s) 0 p_infty); auto.
  - simpl; auto.
  - intros x [Hx _]; simpl in Hx. apply inside_0p. apply Rdiv_lt_0_compat; lra.
  - intros; now apply aff_deriv.
  - now apply aff_lim_r.
  - now apply aff_lim_p.
Qed.
Lemma prim_aff_left f mu s l : 0 < s -> prim f 0 p_infty l ->
  prim (fun x => f ((mu - x) / s) * / s) m_infty mu l.
Proof.
  intros Hs H. apply (prim_ext (fun x => f ((mu - x) / s) * - (- / s))). { intros; ring. }
  apply (prim_subst_dec f (fun x => (mu - x) / s) (fun _ => - / s) 0 p_infty); auto.
  - simpl; auto.
  - intros x [_ Hx]; simpl in Hx. apply inside_0p. apply Rdiv_lt_0_compat; lra.
  - intros x Hx; split; [auto_derive; auto; field; lra|apply continuous_const].
  - apply (filterlim_ext (fun x => - ((x - mu) / s))). { intros; field; lra. }
    flim lim_opp_m. now apply aff_lim_m.
  - simpl. flim lim_right.
    + apply cont_Fl; [|field; lra]. apply deriv_cont; auto_derive; auto.
    + generalize (at_left_lt mu). apply filter_imp. intros; apply Rdiv_lt_0_compat; lra.
Qed.
Lemma prim_val f a b l l' : l = l' -> prim f a b l -> prim f a b l'.
Proof. now intros ->. Qed.
Lemma prim_even f l : (forall x, f (- x) = f x) -> continuous f 0 -> prim f 0 p_infty l ->
  prim f m_infty p_infty (l + l).
Proof.
  intros He Hc H. apply (prim_split _ _ _ 0); auto; [apply inside_all|].
  apply (prim_ext (fun x => f ((0 - x) / 1) * / 1)).
  - intros x _. rewrite Rinv_1, Rmult_1_r. rewrite <- (He x). f_equal. field.
  - apply prim_aff_left; auto; lra.
Qed.

(** assembling [integrates_to_one] *)
Lemma ito_intro lp (f : R -> R) lo hi :
  (forall x, inside lo hi x -> denotes (lp (Fin x)) (f x)) ->
  (forall x, ~ supp lo hi x -> denotes (lp (Fin x)) 0) ->
  prim f lo hi 1 -> integrates_to_one lp lo hi.
Proof. intros H1 H2 H3. exists f; split; [|split]; auto. now apply prim_RInt_gen. Qed.
Lemma supp_all x : supp m_infty p_infty x.
Proof. split; simpl; auto. Qed.
Lemma supp_cp (c x : R) : ~ supp c p_infty x -> x < c.
Proof. unfold supp; simpl. intros H. destruct (Rlt_dec x c); auto. exfalso; apply H; split; auto; lra. Qed.
Lemma supp_fin (a b x : R) : ~ supp a b x -> x < a \/ b < x.
Proof. unfold supp; simpl. intros H. destruct (Rlt_dec x a); auto. right. destruct (Rlt_dec b x); auto. exfalso; apply H; split; auto; lra. Qed.

(** ** Standard integrals *)
Lemma prim_exp : prim (fun t => exp (- t)) 0 p_infty 1.
Proof.
  apply (prim_val _ _ _ (0 - - (1))); [ring|].
  apply (prim_lim _ (fun t => - exp (- t))); simpl; auto.
  - intros; auto_derive; auto; ring.
  - intros; apply deriv_cont; auto_derive; auto.
  - apply cont_Fr; [apply deriv_cont; auto_derive; auto|]. now rewrite Ropp_0, exp_0.
  - apply (lim_eq (- 0)); [ring|]. flim lim_opp. flim lim_exp_m. flim lim_opp_p. apply lim_id_p.
Qed.

Lemma lim_atan_p : filterlim atan (Rbar_locally p_infty) (locally (PI/2)).
Proof.
  apply filterlim_locally. intros eps. pose proof PI_RGT_0. pose proof (cond_pos eps) as He.
  set (e := Rmin eps (PI/4)). assert (0 < e) by (apply Rmin_glb_lt; lra).
  assert (e <= eps) by apply Rmin_l. assert (e <= PI/4) by apply Rmin_r.
  exists (tan (PI/2 - e)). intros x Hx. 
  assert (PI/2 - e < atan x).
  { rewrite <- (atan_tan (PI/2 - e)) by lra. now apply atan_increasing. }
  pose proof (atan_bound x). unfold ball; simpl; unfold AbsRing_ball, abs, minus, plus, opp; simpl.
  apply Rabs_def1; lra.
Qed.
Lemma prim_cauchy_half : prim (fun t => / (1 + t * t)) 0 p_infty (PI / 2).
Proof.
  apply (prim_val _ _ _ (PI / 2 - 0)); [ring|].
  assert (forall x, 1 + x * x <> 0) by (intros; nra).
  apply (prim_lim _ atan); simpl; auto.
  - intros x _. apply is_derive_Reals. generalize (derivable_pt_lim_atan x). unfold Rsqr.
    intros D. replace (/ (1 + x * x)) with (/ (1 + x ^ 2)) by (f_equal; ring). exact D.
  - intros; apply deriv_cont; auto_derive; auto.
  - apply cont_Fr; [|apply atan_0]. apply deriv_cont. exists (/ (1 + 0 ^ 2)).
    apply is_derive_Reals. generalize (derivable_pt_lim_atan 0). unfold Rsqr.
    now replace (1 + 0 * 0) with (1 + 0 ^ 2) by ring.
  - apply lim_atan_p.
Qed.

(** ** Families *)
Lemma uniform_prim a b : a < b -> prim (uniform_pdf a b) a b 1.
Proof.
  intros H. apply (prim_ext (fun _ => / (b - a))).
  { intros x [Hx1 Hx2]; simpl in Hx1, Hx2. unfold uniform_pdf; rcase. }
  apply (prim_val _ _ _ (b / (b - a) - a / (b - a))); [field; lra|].
  apply (prim_lim _ (fun x => x / (b - a))); simpl; auto.
  - intros; auto_derive; auto; field; lra.
  - intros; apply continuous_const.
  - apply cont_Fr; auto; apply deriv_cont; auto_derive; auto.
  - apply cont_Fl; auto; apply deriv_cont; auto_derive; auto.
Qed.
Lemma exponential_prim mu : 0 < mu -> prim (exponential_pdf mu) 0 p_infty 1.
Proof.
  intros H. apply (prim_ext (fun x => exp (- ((x - 0) / mu)) * / mu)).
  { intros x [Hx1 _]; simpl in Hx1. unfold exponential_pdf; rcase. rewrite Rmult_comm. f_equal. f_equal. field; lra. }
  apply (prim_aff_right (fun t => exp (- t))); auto. apply prim_exp.
Qed.
Lemma laplace_prim mu b : 0 < b -> prim (laplace_pdf mu b) m_infty p_infty 1.
Proof.
  intros H. apply (prim_val _ _ _ (1/2 * 1 + 1/2 * 1)); [field|].
  apply (prim_split _ _ _ mu).
  - apply inside_all.
  - unfold laplace_pdf.
    apply (continuous_mult (fun _ => / (2 * b)) (fun x => exp (- Rabs (x - mu) / b))); [apply continuous_const|].
    apply continuous_comp; [|apply deriv_cont; auto_derive; auto].
    apply (continuous_mult (fun x => - Rabs (x - mu)) (fun _ => / b)); [|apply continuous_const].
    apply (continuous_opp (fun x => Rabs (x - mu))).
    apply (continuous_comp (fun x => x - mu) Rabs); [apply deriv_cont; auto_derive; auto|apply continuous_Rabs].
  - apply (prim_ext (fun x => 1/2 * (exp (- ((mu - x) / b)) * / b))).
    { intros x [_ Hx1]; simpl in Hx1. unfold laplace_pdf. rewrite Rabs_left1 by lra.
      replace (- - (x - mu) / b) with (- ((mu - x) / b)) by (field; lra). field; lra. }
    apply prim_scal. apply (prim_aff_left (fun t => exp (- t))); auto; apply prim_exp.
  - apply (prim_ext (fun x => 1/2 * (exp (- ((x - mu) / b)) * / b))).
    { intros x [Hx1 _]; simpl in Hx1. unfold laplace_pdf. rewrite Rabs_right by lra.
      replace (- (x - mu) / b) with (- ((x - mu) / b)) by (field; lra). field; lra. }
    apply prim_scal. apply (prim_aff_right (fun t => exp (- t))); auto; apply prim_exp.
Qed.

Lemma gauss_std_half : prim (fun t => exp (- (t ^ 2) / 2)) 0 p_infty (sqrt (2 * PI) / 2).
Proof.
  pose proof PI_RGT_0. assert (H2 : 0 < sqrt 2) by (apply sqrt_lt_R0; lra).
  assert (E2 := sqrt_sqrt 2 ltac:(lra)).
  apply (prim_val _ _ _ (sqrt 2 * (sqrt PI / 2))). { rewrite sqrt_mult by lra. field. }
  apply (prim_ext (fun x => sqrt 2 * (exp (- ((x - 0) / sqrt 2 * ((x - 0) / sqrt 2))) * / sqrt 2))).
  { intros x _. replace (- ((x - 0) / sqrt 2 * ((x - 0) / sqrt 2))) with (- x ^ 2 / (sqrt 2 * sqrt 2)) by (field; lra).
    rewrite E2. field; lra. }
  apply prim_scal. apply (prim_aff_right (fun t => exp (- (t * t)))); auto. apply gauss_half.
Qed.
Lemma gauss_std : prim (fun t => exp (- (t ^ 2) / 2)) m_infty p_infty (sqrt (2 * PI)).
Proof.
  apply (prim_val _ _ _ (sqrt (2 * PI) / 2 + sqrt (2 * PI) / 2)); [field|].
  apply prim_even; [intros; f_equal; field | | apply gauss_std_half].
  apply deriv_cont; auto_derive; auto.
Qed.
Lemma normal_form mu s x : 0 < s ->
  normal_pdf mu s x = / sqrt (2 * PI) * (exp (- (((x - mu) / s) ^ 2) / 2) * / s).
Proof.
  intros H. unfold normal_pdf. pose proof PI_RGT_0. assert (0 < sqrt (2 * PI)) by (apply sqrt_lt_R0; lra).
  replace (- ((x - mu) / s) ^ 2 / 2) with (- (x - mu) ^ 2 / (2 * s ^ 2)) by (field; lra). field; lra.
Qed.
Lemma normal_prim mu s : 0 < s -> prim (normal_pdf mu s) m_infty p_infty 1.
Proof.
  intros H. pose proof PI_RGT_0. assert (0 < sqrt (2 * PI)) by (apply sqrt_lt_R0; lra).
  apply (prim_val _ _ _ (/ sqrt (2 * PI) * sqrt (2 * PI))); [field; lra|].
  eapply prim_ext. { intros x _. symmetry. now apply normal_form. }
  apply prim_scal. apply (prim_aff_all (fun t => exp (- (t ^ 2) / 2))); auto. apply gauss_std.
Qed.
Lemma halfnormal_prim loc s : 0 < s -> prim (halfnormal_pdf loc s) loc p_infty 1.
Proof.
  intros H. pose proof PI_RGT_0. assert (0 < sqrt (2 * PI)) by (apply sqrt_lt_R0; lra).
  apply (prim_val _ _ _ (2 / sqrt (2 * PI) * (sqrt (2 * PI) / 2))); [field; lra|].
  apply (prim_ext (fun x => 2 / sqrt (2 * PI) * (exp (- (((x - loc) / s) ^ 2) / 2) * / s))).
  { intros x [Hx1 _]; simpl in Hx1. unfold halfnormal_pdf. rcase.
    replace (- ((x - loc) / s) ^ 2 / 2) with (- (x - loc) ^ 2 / (2 * s ^ 2)) by (field; lra). field; lra. }
  apply prim_scal. apply (prim_aff_right (fun t => exp (- (t ^ 2) / 2))); auto. apply gauss_std_half.
Qed.
Lemma lognormal_prim mu s : 0 < s -> prim (lognormal_pdf mu s) 0 p_infty 1.
Proof.
  intros H. pose proof PI_RGT_0. assert (0 < sqrt (2 * PI)) by (apply sqrt_lt_R0; lra).
  apply (prim_ext (fun x => normal_pdf mu s (ln x) * / x)).
  { intros x [Hx1 _]; simpl in Hx1. unfold lognormal_pdf, normal_pdf. rcase. field; lra. }
  apply (prim_subst (normal_pdf mu s) ln (fun x => / x) m_infty p_infty); simpl; auto.
  - now apply normal_prim.
  - intros; apply inside_all.
  - intros x [Hx1 _]; simpl in Hx1. split; [auto_derive; auto; ring|]. apply deriv_cont; auto_derive; lra.
  - flim lim_ln_0. apply filterlim_id.
  - flim lim_ln_p. apply lim_id_p.
Qed.
Lemma beta_prim a b : 0 < a -> 0 < b -> prim (beta_pdf a b) 0 1 1.
Proof.
  intros Ha Hb. pose proof (Bet_pos a b Ha Hb).
  apply (prim_val _ _ _ (/ Bet a b * Bet a b)); [field; lra|].
  apply (prim_ext (fun x => / Bet a b * bet_f a b x)).
  { intros x [Hx1 Hx2]; simpl in Hx1, Hx2. unfold beta_pdf. rcase. rewrite !pw_pos by lra.
    change (Beta_int a b) with (Bet a b). unfold bet_f. field; lra. }
  apply prim_scal. now apply Bet_prim.
Qed.
Lemma pareto_prim a m : 0 < a -> 0 < m -> prim (pareto_pdf a m) m p_infty 1.
Proof.
  intros Ha Hm. pose proof (Rpower_pos m a).
  apply (prim_val _ _ _ (- Rpower m a * 0 - - Rpower m a * Rpower m (- a))).
  { rewrite Rpower_Ropp. field. lra. }
  apply (prim_lim _ (fun x => - Rpower m a * Rpower x (- a))); simpl; auto.
  - intros x [Hx1 _]; simpl in Hx1. unfold pareto_pdf. rcase.
    replace (a * Rpower m a / Rpower x (a + 1)) with (- Rpower m a * (- a * Rpower x (- a - 1))).
    + apply is_derive_scal. apply is_derive_Rpower; lra.
    + replace (- a - 1) with (- (a + 1)) by ring. rewrite Rpower_Ropp. field. pose proof (Rpower_pos x (a+1)); lra.
  - intros x [Hx1 _]; simpl in Hx1.
    apply (continuous_ext_inside (fun x => a * Rpower m a * Rpower x (- (a + 1))) _ m p_infty).
    + intros y [Hx2 _]; simpl in Hx2. unfold pareto_pdf. rcase. now rewrite Rpower_Ropp.
    + now apply inside_cp.
    + apply (continuous_scal_r (a * Rpower m a) (fun x => Rpower x (- (a+1)))). apply cont_Rpower; lra.
  - apply cont_Fr; auto. apply (continuous_scal_r (- Rpower m a) (fun x => Rpower x (- a))). apply cont_Rpower; lra.
  - flim lim_scal. flim lim_Rpower_neg_p; [lra|apply lim_id_p].
Qed.
Lemma halfcauchy_prim x0 g : 0 < g -> prim (halfcauchy_pdf x0 g) x0 p_infty 1.
Proof.
  intros Hg. pose proof PI_RGT_0. apply (prim_val _ _ _ (2 / PI * (PI / 2))); [field; lra|].
  apply (prim_ext (fun x => 2 / PI * (/ (1 + (x - x0) / g * ((x - x0) / g)) * / g))).
  { intros x [Hx1 _]; simpl in Hx1. unfold halfcauchy_pdf. rcase.
    assert (0 <= (x - x0) / g * ((x - x0) / g)) by apply Rle_0_sqr.
    replace (((x - x0) / g) ^ 2) with ((x - x0) / g * ((x - x0) / g)) by ring.
    generalize dependent ((x - x0) / g * ((x - x0) / g)). intros; field; lra. }
  apply prim_scal. apply (prim_aff_right (fun t => / (1 + t * t))); auto. apply prim_cauchy_half.
Qed.
Lemma cauchy_prim x0 g : 0 < g -> prim (cauchy_pdf x0 g) m_infty p_infty 1.
Proof.
  intros Hg. pose proof PI_RGT_0. apply (prim_val _ _ _ (1 / PI * (PI / 2 + PI / 2))); [field; lra|].
  apply (prim_ext (fun x => 1 / PI * (/ (1 + (x - x0) / g * ((x - x0) / g)) * / g))).
  { intros x _. unfold cauchy_pdf.
    assert (0 <= (x - x0) / g * ((x - x0) / g)) by apply Rle_0_sqr.
    replace (((x - x0) / g) ^ 2) with ((x - x0) / g * ((x - x0) / g)) by ring.
    generalize dependent ((x - x0) / g * ((x - x0) / g)). intros; field; lra. }
  apply prim_scal. apply (prim_aff_all (fun t => / (1 + t * t))); auto.
  apply prim_even; [| |apply prim_cauchy_half].
  - intros; now rewrite Rmult_opp_opp.
  - apply deriv_cont; auto_derive; lra.
Qed.
Lemma gamma_prim a s : 0 < a -> 0 < s -> prim (gamma_pdf a s) 0 p_infty 1.
Proof.
  intros Ha Hs. pose proof (Gam_pos a Ha). apply (prim_val _ _ _ (/ Gam a * Gam a)); [field; lra|].
  apply (prim_ext (fun x => / Gam a * (gam_f a ((x - 0) / s) * / s))).
  { intros x [Hx1 _]; simpl in Hx1. unfold gamma_pdf. rcase. rewrite pw_pos by lra. unfold gam_f.
    rewrite Rminus_0_r. rewrite Rpower_div_base by lra. rewrite (Rpower_pred s) by lra.
    replace (- x / s) with (- (x / s)) by (field; lra).
    pose proof (Rpower_pos s a). field. lra. }
  apply prim_scal. apply prim_aff_right; auto. now apply Gam_prim.
Qed.
Lemma chisquare_prim k : 0 < k -> prim (chisquare_pdf k) 0 p_infty 1.
Proof.
  intros H. apply (prim_ext (gamma_pdf (k/2) 2)); [|apply gamma_prim; lra].
  intros x _. unfold gamma_pdf, chisquare_pdf. destruct (Rle_dec 0 x); auto.
  rewrite (Rmult_comm (Gam (k/2))). reflexivity.
Qed.
Lemma invgamma_prim a b : 0 < a -> 0 < b -> prim (invgamma_pdf a b) 0 p_infty 1.
Proof.
  intros Ha Hb. pose proof (Gam_pos a Ha). apply (prim_val _ _ _ (/ Gam a * Gam a)); [field; lra|].
  apply (prim_ext (fun x => / Gam a * (gam_f a (b / x) * - (- b / x ^ 2)))).
  { intros x [Hx1 _]; simpl in Hx1. unfold invgamma_pdf. rcase. unfold gam_f.
    rewrite Rpower_div_base by lra. rewrite !Rpower_pred by lra. rewrite Rpower_Ropp.
    replace (- b / x) with (- (b / x)) by (field; lra).
    pose proof (Rpower_pos x a). field. lra. }
  apply prim_scal.
  apply (prim_subst_dec (gam_f a) (fun x => b / x) (fun x => - b / x ^ 2) 0 p_infty); simpl; auto.
  - now apply Gam_prim.
  - intros x [Hx1 _]; simpl in Hx1. apply inside_0p. now apply Rdiv_lt_0_compat.
  - intros x [Hx1 _]; simpl in Hx1. split; [auto_derive; [lra|field; lra]|].
    apply deriv_cont; auto_derive. intros E. apply Rmult_integral in E. rewrite Rmult_1_r in E; lra.
  - flim lim_scal_p; auto. flim lim_inv_0. apply filterlim_id.
  - flim lim_right.
    + apply (lim_eq (b * 0)); [ring|]. flim lim_scal. flim lim_inv_p. apply lim_id_p.
    + exists 0. intros; now apply Rdiv_lt_0_compat.
Qed.
Lemma weibull_prim c : 0 < c -> prim (weibull_pdf c) 0 p_infty 1.
Proof.
  intros Hc. apply (prim_ext (fun x => exp (- Rpower x c) * (c * Rpower x (c - 1)))).
  { intros x [Hx1 _]; simpl in Hx1. unfold weibull_pdf. rcase. rewrite !pw_pos by lra. ring. }
  apply (prim_subst (fun t => exp (- t)) (fun x => Rpower x c) (fun x => c * Rpower x (c - 1)) 0 p_infty); simpl; auto.
  - apply prim_exp.
  - intros x _. apply inside_0p. apply Rpower_pos.
  - intros x [Hx1 _]; simpl in Hx1. split; [now apply is_derive_Rpower|].
    apply (continuous_scal_r c (fun x => Rpower x (c - 1))). now apply cont_Rpower.
  - flim lim_right.
    + flim lim_Rpower_0; auto. apply filterlim_id.
    + apply filter_forall. intros; apply Rpower_pos.
  - flim lim_Rpower_p; auto. apply lim_id_p.
Qed.
Lemma gumbel_prim mu b : 0 < b -> prim (gumbel_pdf mu b) m_infty p_infty 1.
Proof.
  intros Hb. apply (prim_ext (fun x => exp (- ((x - mu) / b + exp (- ((x - mu) / b)))) * / b)).
  { intros x _. unfold gumbel_pdf. ring. }
  apply (prim_aff_all (fun z => exp (- (z + exp (- z))))); auto.
  apply (prim_ext (fun z => exp (- exp (- z)) * - - exp (- z))).
  { intros z _. rewrite Ropp_plus_distr, exp_plus. ring. }
  apply (prim_subst_dec (fun t => exp (- t)) (fun z => exp (- z)) (fun z => - exp (- z)) 0 p_infty); simpl; auto.
  - apply prim_exp.
  - intros; apply inside_0p; apply exp_pos.
  - intros; split; [auto_derive; auto; ring|]. apply deriv_cont; auto_derive; auto.
  - flim lim_exp_p. flim lim_opp_m. apply lim_id_m.
  - flim lim_right.
    + flim lim_exp_m. flim lim_opp_p. apply lim_id_p.
    + apply filter_forall. intros; apply exp_pos.
Qed.
Lemma logistic_prim mu s : 0 < s -> prim (logistic_pdf mu s) m_infty p_infty 1.
Proof.
  intros Hs. apply (prim_ext (fun x => (exp (- ((x - mu) / s)) / (1 + exp (- ((x - mu) / s))) ^ 2) * / s)).
  { intros x _. unfold logistic_pdf. pose proof (exp_pos (- ((x - mu) / s))). field. split; lra. }
  apply (prim_aff_all (fun z => exp (- z) / (1 + exp (- z)) ^ 2)); auto.
  apply (prim_val _ _ _ (/ (1 + 0) - 0)); [field|].
  apply (prim_lim _ (fun z => / (1 + exp (- z)))); simpl; auto.
  - intros x _. pose proof (exp_pos (- x)). auto_derive; [lra|]. field. lra.
  - intros x _. pose proof (exp_pos (- x)). apply deriv_cont. auto_derive.
    rewrite Rmult_1_r. intros E; apply Rmult_integral in E; lra.
  - flim lim_inv_p. apply (filterlim_ext (fun z => exp (- z) + 1)). { intros; ring. }
    flim lim_plusc_p. flim lim_exp_p. flim lim_opp_m. apply lim_id_m.
  - flim (lim_cont _ (fun z => 1 + exp (- z)) (fun y => / y)).
    + flim lim_plus; [flim lim_const|]. flim lim_exp_m. flim lim_opp_p. apply lim_id_p.
    + apply deriv_cont. auto_derive. lra.
Qed.
