(** Limit lemmas along the end filters of an interval. *)
From Coq Require Import Reals Lra Lia Classical.
From Coquelicot Require Import Coquelicot.
From Verif Require Import LemInt.
Open Scope R_scope.

Section Lims.
Context {T : Type} (FF : (T -> Prop) -> Prop) {HF : Filter FF}.

Lemma to_p (f : T -> R) : (forall M, FF (fun x => M < f x)) -> filterlim f FF (Rbar_locally p_infty).
Proof. intros H P [M HM]. unfold filtermap. generalize (H M). apply filter_imp. auto. Qed.
Lemma to_m (f : T -> R) : (forall M, FF (fun x => f x < M)) -> filterlim f FF (Rbar_locally m_infty).
Proof. intros H P [M HM]. unfold filtermap. generalize (H M). apply filter_imp. auto. Qed.
Lemma p_to (f : T -> R) M : filterlim f FF (Rbar_locally p_infty) -> FF (fun x => M < f x).
Proof. intros H. apply (H (fun y => M < y)). exists M; auto. Qed.
Lemma m_to (f : T -> R) M : filterlim f FF (Rbar_locally m_infty) -> FF (fun x => f x < M).
Proof. intros H. apply (H (fun y => y < M)). exists M; auto. Qed.

Lemma lim_opp_p (f : T -> R) : filterlim f FF (Rbar_locally p_infty) -> filterlim (fun x => - f x) FF (Rbar_locally m_infty).
Proof. intros H. apply to_m. intros M. generalize (p_to f (- M) H). apply filter_imp; intros; lra. Qed.
Lemma lim_opp_m (f : T -> R) : filterlim f FF (Rbar_locally m_infty) -> filterlim (fun x => - f x) FF (Rbar_locally p_infty).
Proof. intros H. apply to_p. intros M. generalize (m_to f (- M) H). apply filter_imp; intros; lra. Qed.
Lemma lim_scal_p (f : T -> R) k : 0 < k -> filterlim f FF (Rbar_locally p_infty) -> filterlim (fun x => k * f x) FF (Rbar_locally p_infty).
Proof.
  intros Hk H. apply to_p. intros M. generalize (p_to f (M / k) H). apply filter_imp; intros x Hx.
  replace M with (k * (M / k)) by (field; lra). now apply Rmult_lt_compat_l.
Qed.
Lemma lim_scal_m (f : T -> R) k : 0 < k -> filterlim f FF (Rbar_locally m_infty) -> filterlim (fun x => k * f x) FF (Rbar_locally m_infty).
Proof.
  intros Hk H. apply to_m. intros M. generalize (m_to f (M / k) H). apply filter_imp; intros x Hx.
  replace M with (k * (M / k)) by (field; lra). now apply Rmult_lt_compat_l.
Qed.
Lemma lim_plusc_p (f : T -> R) c : filterlim f FF (Rbar_locally p_infty) -> filterlim (fun x => f x + c) FF (Rbar_locally p_infty).
Proof. intros H. apply to_p. intros M. generalize (p_to f (M - c) H). apply filter_imp; intros; lra. Qed.
Lemma lim_plusc_m (f : T -> R) c : filterlim f FF (Rbar_locally m_infty) -> filterlim (fun x => f x + c) FF (Rbar_locally m_infty).
Proof. intros H. apply to_m. intros M. generalize (m_to f (M - c) H). apply filter_imp; intros; lra. Qed.
Lemma lim_ge_p (f g : T -> R) : FF (fun x => f x <= g x) -> filterlim f FF (Rbar_locally p_infty) -> filterlim g FF (Rbar_locally p_infty).
Proof. intros H1 H. apply to_p. intros M. generalize (filter_and _ _ H1 (p_to f M H)). apply filter_imp; intros; lra. Qed.
Lemma lim_le_m (f g : T -> R) : FF (fun x => g x <= f x) -> filterlim f FF (Rbar_locally m_infty) -> filterlim g FF (Rbar_locally m_infty).
Proof. intros H1 H. apply to_m. intros M. generalize (filter_and _ _ H1 (m_to f M H)). apply filter_imp; intros; lra. Qed.

Lemma lim_exp_m (f : T -> R) : filterlim f FF (Rbar_locally m_infty) -> filterlim (fun x => exp (f x)) FF (locally 0).
Proof. intros H. eapply filterlim_comp; [exact H|]. apply is_lim_exp_m. Qed.
Lemma lim_exp_p (f : T -> R) : filterlim f FF (Rbar_locally p_infty) -> filterlim (fun x => exp (f x)) FF (Rbar_locally p_infty).
Proof. intros H. eapply filterlim_comp; [exact H|]. apply is_lim_exp_p. Qed.
Lemma lim_ln_p (f : T -> R) : filterlim f FF (Rbar_locally p_infty) -> filterlim (fun x => ln (f x)) FF (Rbar_locally p_infty).
Proof. intros H. eapply filterlim_comp; [exact H|]. apply is_lim_ln_p. Qed.
Lemma lim_ln_0 (f : T -> R) : filterlim f FF (at_right 0) -> filterlim (fun x => ln (f x)) FF (Rbar_locally m_infty).
Proof. intros H. eapply filterlim_comp; [exact H|]. apply is_lim_ln_0. Qed.
Lemma lim_inv_p (f : T -> R) : filterlim f FF (Rbar_locally p_infty) -> filterlim (fun x => / f x) FF (locally 0).
Proof.
  intros H. apply filterlim_locally. intros eps.
  generalize (p_to f (/ eps) H). apply filter_imp. intros x Hx.
  assert (0 < / eps) by (apply Rinv_0_lt_compat; destruct eps; auto).
  unfold ball; simpl; unfold AbsRing_ball, abs, minus, plus, opp; simpl.
  rewrite Ropp_0, Rplus_0_r. rewrite Rabs_pos_eq.
  - rewrite <- (Rinv_inv eps). apply Rinv_lt_contravar; auto. apply Rmult_lt_0_compat; lra.
  - left; apply Rinv_0_lt_compat; lra.
Qed.
Lemma lim_inv_0 (f : T -> R) : filterlim f FF (at_right 0) -> filterlim (fun x => / f x) FF (Rbar_locally p_infty).
Proof.
  intros H. apply to_p. intros M.
  assert (FF (fun x => 0 < f x < / (Rabs M + 1))).
  { apply (H (fun y => 0 < y < / (Rabs M + 1))).
    assert (0 < / (Rabs M + 1)) by (apply Rinv_0_lt_compat; generalize (Rabs_pos M); lra).
    exists (mkposreal _ H0). intros y Hy Hy0. split; auto.
    unfold ball in Hy; simpl in Hy; unfold AbsRing_ball, abs, minus, plus, opp in Hy; simpl in Hy.
    apply Rabs_def2 in Hy; lra. }
  generalize H0. apply filter_imp. intros x [H1 H2].
  apply Rle_lt_trans with (Rabs M); [apply Rle_abs|].
  apply Rlt_le_trans with (Rabs M + 1); [lra|].
  rewrite <- (Rinv_inv (Rabs M + 1)). apply Rinv_le_contravar; lra.
Qed.

Lemma squeeze0 (f g : T -> R) : FF (fun x => Rabs (f x) <= g x) -> filterlim g FF (locally 0) -> filterlim f FF (locally 0).
Proof.
  intros H1 H2. apply filterlim_locally. intros eps.
  assert (H3 := proj1 (filterlim_locally g 0) H2 eps).
  generalize (filter_and _ _ H1 H3). apply filter_imp. intros x [A B].
  unfold ball in *; simpl in *; unfold AbsRing_ball, abs, minus, plus, opp in *; simpl in *.
  rewrite Ropp_0, Rplus_0_r in *. generalize (Rle_abs (g x)); lra.
Qed.

Lemma lim_right (f : T -> R) (l : R) : filterlim f FF (locally l) -> FF (fun x => l < f x) -> filterlim f FF (at_right l).
Proof.
  intros H1 H2 P HP. assert (H3 := H1 _ HP). unfold filtermap in *. generalize (filter_and _ _ H3 H2).
  apply filter_imp. intros x [A B]; auto.
Qed.
Lemma lim_left (f : T -> R) (l : R) : filterlim f FF (locally l) -> FF (fun x => f x < l) -> filterlim f FF (at_left l).
Proof.
  intros H1 H2 P HP. assert (H3 := H1 _ HP). unfold filtermap in *. generalize (filter_and _ _ H3 H2).
  apply filter_imp. intros x [A B]; auto.
Qed.
End Lims.

Lemma lim_id_p : filterlim (fun x : R => x) (Rbar_locally p_infty) (Rbar_locally p_infty).
Proof. apply filterlim_id. Qed.
Lemma lim_id_m : filterlim (fun x : R => x) (Rbar_locally m_infty) (Rbar_locally m_infty).
Proof. apply filterlim_id. Qed.
Lemma lim_id_Fr (a : R) : filterlim (fun x : R => x) (at_right a) (locally a).
Proof. intros P H. unfold filtermap. apply filter_le_within. exact H. Qed.
Lemma lim_id_Fl (a : R) : filterlim (fun x : R => x) (at_left a) (locally a).
Proof. intros P H. unfold filtermap. apply filter_le_within. exact H. Qed.
Lemma at_right_gt (a : R) : at_right a (fun x => a < x).
Proof. exists (mkposreal 1 Rlt_0_1). auto. Qed.
Lemma at_left_lt (a : R) : at_left a (fun x => x < a).
Proof. exists (mkposreal 1 Rlt_0_1). auto. Qed.
Lemma at_right_lt (a b : R) : a < b -> at_right a (fun x => a < x < b).
Proof. intros H. generalize (Fr_inside_lt a b H). apply filter_imp. simpl; intros; lra. Qed.
Lemma at_left_gt (a b : R) : b < a -> at_left a (fun x => b < x < a).
Proof. intros H. generalize (Fl_inside_lt a b H). apply filter_imp. simpl; intros; lra. Qed.

(** continuity of a function gives the one-sided limits *)
Lemma cont_Fr (f : R -> R) (a l : R) : continuous f a -> f a = l -> filterlim f (at_right a) (locally l).
Proof. intros H <-. eapply filterlim_filter_le_1; [|exact H]. apply filter_le_within. Qed.
Lemma cont_Fl (f : R -> R) (a l : R) : continuous f a -> f a = l -> filterlim f (at_left a) (locally l).
Proof. intros H <-. eapply filterlim_filter_le_1; [|exact H]. apply filter_le_within. Qed.
Lemma deriv_cont (f : R -> R) (a : R) : ex_derive f a -> continuous f a.
Proof. apply (ex_derive_continuous f a). Qed.

(** ** Powers *)
Lemma is_derive_Rpower a x : 0 < x -> is_derive (fun t => Rpower t a) x (a * Rpower x (a - 1)).
Proof. intros H. apply is_derive_Reals. now apply derivable_pt_lim_power. Qed.
Lemma cont_Rpower a x : 0 < x -> continuous (fun t => Rpower t a) x.
Proof. intros H. apply (ex_derive_continuous (fun t => Rpower t a)). eexists; now apply is_derive_Rpower. Qed.
Lemma Rpower_pos x a : 0 < Rpower x a.
Proof. apply exp_pos. Qed.
Lemma Rpower_pred x a : 0 < x -> Rpower x (a - 1) = Rpower x a / x.
Proof.
  intros H. unfold Rminus. rewrite Rpower_plus, Rpower_Ropp, Rpower_1 by auto. reflexivity.
Qed.
Lemma Rpower_succ x a : 0 < x -> Rpower x (a + 1) = Rpower x a * x.
Proof. intros H. rewrite Rpower_plus, Rpower_1 by auto. reflexivity. Qed.
Lemma Rpower_div_base x y a : 0 < x -> 0 < y -> Rpower (x / y) a = Rpower x a / Rpower y a.
Proof.
  intros Hx Hy. unfold Rpower, Rdiv. rewrite ln_mult, ln_Rinv by (auto; now apply Rinv_0_lt_compat).
  rewrite <- exp_Ropp, <- exp_plus. f_equal; ring.
Qed.
Lemma Rpower_1_base a : Rpower 1 a = 1.
Proof. unfold Rpower. now rewrite ln_1, Rmult_0_r, exp_0. Qed.

Section PowLim.
Context {T : Type} (FF : (T -> Prop) -> Prop) {HF : Filter FF}.
Lemma lim_Rpower_0 (f : T -> R) a : 0 < a -> filterlim f FF (at_right 0) -> filterlim (fun x => Rpower (f x) a) FF (locally 0).
Proof. intros Ha H. unfold Rpower. apply lim_exp_m; auto. apply lim_scal_m; auto. now apply lim_ln_0. Qed.
Lemma lim_Rpower_p (f : T -> R) a : 0 < a -> filterlim f FF (Rbar_locally p_infty) -> filterlim (fun x => Rpower (f x) a) FF (Rbar_locally p_infty).
Proof. intros Ha H. unfold Rpower. apply lim_exp_p; auto. apply lim_scal_p; auto. now apply lim_ln_p. Qed.
Lemma lim_Rpower_neg_p (f : T -> R) a : a < 0 -> filterlim f FF (Rbar_locally p_infty) -> filterlim (fun x => Rpower (f x) a) FF (locally 0).
Proof.
  intros Ha H. unfold Rpower. apply lim_exp_m; auto.
  apply (filterlim_ext (fun x => - ((- a) * ln (f x)))). { intros; ring. }
  apply lim_opp_p; auto. apply lim_scal_p; auto; [lra|]. now apply lim_ln_p.
Qed.
End PowLim.

Lemma ln_le_sub1 u : 0 < u -> ln u <= u - 1.
Proof.
  intros H. replace u with (exp (ln u)) at 2 by (now apply exp_ln).
  generalize (exp_ineq1_le (ln u)); lra.
Qed.
Lemma exp_mono x y : x <= y -> exp x <= exp y.
Proof. intros [H| ->]; [left; now apply exp_increasing|lra]. Qed.
Lemma ln_mono x y : 0 < x -> x <= y -> ln x <= ln y.
Proof. intros H [H1| ->]; [left; now apply ln_increasing|lra]. Qed.
