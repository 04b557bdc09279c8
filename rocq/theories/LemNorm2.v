(** Normalisation (C04) continued: triangular, Wald, Student t, von Mises. *)
From Coq Require Import Reals Lra Lia ZArith List Bool.
From Coquelicot Require Import Coquelicot.
From Verif Require Import XR Special LemInt LemLim LemGamma SpecDist XTac ModelDist LemDist LemNorm.
Import ListNotations.
Open Scope R_scope.

Lemma tri_left a c b : a < c -> a < b -> prim (fun x => 2 * (x - a) / ((b - a) * (c - a))) a c ((c - a) / (b - a)).
Proof.
  intros H1 H2.
  assert (N : (b - a) * (c - a) <> 0) by (apply Rmult_integral_contrapositive; lra).
  apply (prim_val _ _ _ ((c - a) ^ 2 / ((b - a) * (c - a)) - (a - a) ^ 2 / ((b - a) * (c - a)))); [field; lra|].
  apply (prim_lim _ (fun x => (x - a) ^ 2 / ((b - a) * (c - a)))); simpl; auto.
  - intros; auto_derive; auto; field; lra.
  - intros; apply deriv_cont; auto_derive; auto.
  - apply cont_Fr; auto; apply deriv_cont; auto_derive; auto.
  - apply cont_Fl; auto; apply deriv_cont; auto_derive; auto.
Qed.
Lemma tri_right a c b : c < b -> a < b -> prim (fun x => 2 * (b - x) / ((b - a) * (b - c))) c b ((b - c) / (b - a)).
Proof.
  intros H1 H2.
  assert (N : (b - a) * (b - c) <> 0) by (apply Rmult_integral_contrapositive; lra).
  apply (prim_val _ _ _ (- (b - b) ^ 2 / ((b - a) * (b - c)) - - (b - c) ^ 2 / ((b - a) * (b - c)))); [field; lra|].
  apply (prim_lim _ (fun x => - (b - x) ^ 2 / ((b - a) * (b - c)))); simpl; auto.
  - intros; auto_derive; auto; field; lra.
  - intros; apply deriv_cont; auto_derive; auto.
  - apply cont_Fr; auto; apply deriv_cont; auto_derive; auto.
  - apply cont_Fl; auto; apply deriv_cont; auto_derive; auto.
Qed.
Lemma triangular_prim a c b : a <= c <= b -> a < b -> prim (triangular_pdf a c b) a b 1.
Proof.
  intros [H1 H2] H.
  destruct (Req_EM_T a c) as [<-|Na].
  { apply (prim_val _ _ _ ((b - a) / (b - a))); [field; lra|].
    apply (prim_ext (fun x => 2 * (b - x) / ((b - a) * (b - a)))).
    - intros x [Hx1 Hx2]; simpl in Hx1, Hx2. unfold triangular_pdf. rcase.
    - now apply tri_right. }
  destruct (Req_EM_T c b) as [->|Nb].
  { apply (prim_val _ _ _ ((b - a) / (b - a))); [field; lra|].
    apply (prim_ext (fun x => 2 * (x - a) / ((b - a) * (b - a)))).
    - intros x [Hx1 Hx2]; simpl in Hx1, Hx2. unfold triangular_pdf. rcase.
    - now apply tri_left. }
  apply (prim_ext (fun x => 2 * (x - a) / ((b - a) * (c - a)) -
    (2 / ((b - a) * (c - a)) + 2 / ((b - a) * (b - c))) * ((x - c + Rabs (x - c)) / 2))).
  { intros x [Hx1 Hx2]; simpl in Hx1, Hx2. unfold triangular_pdf.
    destruct (Rlt_dec x a); [lra|]. destruct (Rlt_dec x c).
    - rewrite Rabs_left by lra. field. lra.
    - rewrite Rabs_right by lra. destruct (Req_EM_T x c) as [->|]; [field; lra|].
      destruct (Rle_dec x b); [field|]; lra. }
  apply (prim_val _ _ _ ((c - a) / (b - a) + (b - c) / (b - a))); [field; lra|].
  apply (prim_split _ _ _ c).
  - split; simpl; lra.
  - assert (Cabs : continuous (fun x => Rabs (x - c)) c).
    { apply (continuous_comp (fun x => x - c) Rabs); [apply deriv_cont; auto_derive; auto|apply continuous_Rabs]. }
    apply (continuous_minus (fun x => 2 * (x - a) / ((b - a) * (c - a)))).
    + apply deriv_cont; auto_derive; auto.
    + apply (continuous_scal_r (2 / ((b - a) * (c - a)) + 2 / ((b - a) * (b - c))) (fun x => (x - c + Rabs (x - c)) / 2)).
      apply (continuous_mult (fun x => x - c + Rabs (x - c)) (fun _ => / 2)); [|apply continuous_const].
      apply (continuous_plus (fun x => x - c)); auto. apply deriv_cont; auto_derive; auto.
  - eapply prim_ext; [|apply tri_left; lra]. intros x [Hx1 Hx2]; simpl in Hx1, Hx2.
    cbv beta. rewrite Rabs_left by lra. field. lra.
  - eapply prim_ext; [|apply tri_right; lra]. intros x [Hx1 Hx2]; simpl in Hx1, Hx2.
    cbv beta. rewrite Rabs_right by lra. field. lra.
Qed.

(** ** Wald (inverse Gaussian) *)
Lemma wald_prim mu l : 0 < mu -> 0 < l -> prim (wald_pdf mu l) 0 p_infty 1.
Proof.
  intros Hm Hl. pose proof PI_RGT_0. assert (H2 : 0 < sqrt (2 * PI)) by (apply sqrt_lt_R0; lra).
  assert (Hsl : 0 < sqrt l) by (apply sqrt_lt_R0; lra).
  assert (Esl := sqrt_sqrt l ltac:(lra)).
  destruct gauss_std as (_ & F & la & lb & HF & Ha & Hb & E). cbn [Fr Fl] in Ha, Hb.
  set (u := fun x => sqrt l * (sqrt x / mu - / sqrt x)).
  set (v := fun x => - (sqrt l * (sqrt x / mu + / sqrt x))).
  set (c := exp (2 * l / mu)).
  set (du := fun x => sqrt l * (/ (2 * mu * sqrt x) + / (2 * x * sqrt x))).
  set (dv := fun x => sqrt l * (- / (2 * mu * sqrt x) + / (2 * x * sqrt x))).
  assert (Hdu : forall x, 0 < x -> is_derive u x (du x)).
  { intros x Hx. assert (0 < sqrt x) by (now apply sqrt_lt_R0).
    unfold u, du. auto_derive; [lra|]. rewrite ?Rmult_1_r, ?Rmult_1_l.
    assert (Ex := sqrt_sqrt x ltac:(lra)). set (r := sqrt x) in *. rewrite <- Ex. field. lra. }
  assert (Hdv : forall x, 0 < x -> is_derive v x (dv x)).
  { intros x Hx. assert (0 < sqrt x) by (now apply sqrt_lt_R0).
    unfold v, dv. auto_derive; [lra|]. rewrite ?Rmult_1_r, ?Rmult_1_l.
    assert (Ex := sqrt_sqrt x ltac:(lra)). set (r := sqrt x) in *. rewrite <- Ex. field. lra. }
  assert (Hsq : filterlim sqrt (Rbar_locally p_infty) (Rbar_locally p_infty)).
  { apply (filterlim_ext_loc (fun x => Rpower x (/2))).
    - exists 0. intros; now apply Rpower_sqrt.
    - flim lim_Rpower_p; [lra|apply lim_id_p]. }
  assert (Hsq0 : filterlim sqrt (at_right 0) (at_right 0)).
  { flim lim_right.
    - apply (filterlim_ext_loc (fun x => Rpower x (/2))).
      + generalize (at_right_gt 0). apply filter_imp. intros; now apply Rpower_sqrt.
      + flim lim_Rpower_0; [lra|apply filterlim_id].
    - generalize (at_right_gt 0). apply filter_imp. intros; now apply sqrt_lt_R0. }
  assert (Hpos : forall x, 0 < x -> 0 < sqrt x) by (intros; now apply sqrt_lt_R0).
  assert (Lu0 : filterlim u (at_right 0) (Rbar_locally m_infty)).
  { unfold u. flim lim_scal_m; auto.
    flim (lim_le_m _ (fun x => - (/ sqrt x) + / mu)).
    - generalize (at_right_lt 0 1 ltac:(lra)). apply filter_imp. intros x Hx.
      assert (sqrt x <= 1). { rewrite <- sqrt_1. apply sqrt_le_1_alt; lra. }
      assert (sqrt x / mu <= / mu). { unfold Rdiv. rewrite <- (Rmult_1_l (/ mu)) at 2. apply Rmult_le_compat_r; auto. apply Rlt_le; posi. }
      lra.
    - flim lim_plusc_m. flim lim_opp_p. flim lim_inv_0. exact Hsq0. }
  assert (Lup : filterlim u (Rbar_locally p_infty) (Rbar_locally p_infty)).
  { unfold u. flim lim_scal_p; auto.
    flim (lim_ge_p _ (fun x => / mu * sqrt x + - (1))).
    - exists 1. intros x Hx. assert (1 <= sqrt x). { rewrite <- sqrt_1. apply sqrt_le_1_alt; lra. }
      assert (/ sqrt x <= 1). { rewrite <- Rinv_1. apply Rinv_le_contravar; lra. }
      unfold Rdiv. lra.
    - flim lim_plusc_p. flim lim_scal_p; [posi|exact Hsq]. }
  assert (Lv0 : filterlim v (at_right 0) (Rbar_locally m_infty)).
  { unfold v. flim lim_opp_p. flim lim_scal_p; auto.
    flim (lim_ge_p _ (fun x => / sqrt x)).
    - generalize (at_right_lt 0 1 ltac:(lra)). apply filter_imp. intros x Hx.
      assert (0 < sqrt x / mu) by (apply Rdiv_lt_0_compat; auto; apply Hpos; lra). lra.
    - flim lim_inv_0. exact Hsq0. }
  assert (Lvp : filterlim v (Rbar_locally p_infty) (Rbar_locally m_infty)).
  { unfold v. flim lim_opp_p. flim lim_scal_p; auto.
    flim (lim_ge_p _ (fun x => / mu * sqrt x)).
    - exists 0. intros x Hx. assert (0 < / sqrt x) by (apply Rinv_0_lt_compat; auto). unfold Rdiv; lra.
    - flim lim_scal_p; [posi|exact Hsq]. }
  assert (Hval : forall x, 0 < x -> wald_pdf mu l x =
     / sqrt (2 * PI) * (exp (- (u x ^ 2) / 2) * du x + c * (exp (- (v x ^ 2) / 2) * dv x))).
  { intros x Hx. unfold wald_pdf. destruct (Rlt_dec 0 x); [|lra].
    assert (Hrx := Hpos x Hx). assert (Ex := sqrt_sqrt x ltac:(lra)).
    assert (E1 : - (u x ^ 2) / 2 = - l * (x - mu) ^ 2 / (2 * mu ^ 2 * x)).
    { unfold u. set (rx := sqrt x) in *. rewrite <- Ex. rewrite <- Esl at 2. set (q := sqrt l) in *. field. lra. }
    assert (E2 : 2 * l / mu + - (v x ^ 2) / 2 = - l * (x - mu) ^ 2 / (2 * mu ^ 2 * x)).
    { unfold v. set (rx := sqrt x) in *. rewrite <- Ex. rewrite <- Esl. set (q := sqrt l) in *. 
      replace (sqrt (q * q)) with q by (rewrite sqrt_square; lra). field. lra. }
    unfold c. rewrite <- Rmult_assoc, <- exp_plus, E2, E1.
    replace (l / (2 * PI * x ^ 3)) with (l / ((2 * PI) * (x * x * x))) by (field; lra).
    assert (0 < x * x) by now apply Rmult_lt_0_compat.
    assert (0 < x * x * x) by now apply Rmult_lt_0_compat.
    rewrite sqrt_div_alt by (apply Rmult_lt_0_compat; lra).
    rewrite (sqrt_mult (2 * PI)) by lra. rewrite (sqrt_mult (x * x)) by lra. rewrite sqrt_square by lra.
    unfold du, dv. field. lra. }
  apply (prim_ext (fun x => / sqrt (2 * PI) * (exp (- (u x ^ 2) / 2) * du x + c * (exp (- (v x ^ 2) / 2) * dv x)))).
  { intros x [Hx _]; simpl in Hx. now rewrite Hval. }
  apply (prim_val _ _ _ (/ sqrt (2 * PI) * ((lb + c * la) - (la + c * la)))).
  { rewrite E. field. rewrite <- E. lra. }
  apply prim_scal.
  apply (prim_lim _ (fun x => F (u x) + c * F (v x))); [simpl; auto| | | |].
  - intros x [Hx _]; simpl in Hx. apply @is_derive_plus.
    + replace (exp (- (u x ^ 2) / 2) * du x) with (du x * exp (- (u x ^ 2) / 2)) by ring.
      apply (is_derive_comp F u x _ _ (proj1 (HF (u x) (inside_all _))) (Hdu x Hx)).
    + apply is_derive_scal.
      replace (exp (- (v x ^ 2) / 2) * dv x) with (dv x * exp (- (v x ^ 2) / 2)) by ring.
      apply (is_derive_comp F v x _ _ (proj1 (HF (v x) (inside_all _))) (Hdv x Hx)).
  - intros x [Hx _]; simpl in Hx. assert (0 < sqrt x) by auto. apply deriv_cont. unfold u, v, du, dv.
    auto_derive. repeat split; try lra; apply Rgt_not_eq; repeat apply Rmult_lt_0_compat; lra.
  - flim lim_plus; [|flim lim_scal]; eapply filterlim_comp; eauto.
  - flim lim_plus; [|flim lim_scal]; eapply filterlim_comp; eauto.
Qed.

(** ** Student t *)
Lemma studentt_std_half nu : 0 < nu ->
  prim (fun t => Rpower (1 + t ^ 2 / nu) (- ((nu + 1) / 2))) 0 p_infty (sqrt nu / 2 * Bet (1/2) (nu/2)).
Proof.
  intros Hn. assert (Hs : 0 < sqrt nu) by (now apply sqrt_lt_R0).
  apply (prim_ext (fun t => sqrt nu / 2 * (bet_f (1/2) (nu/2) (t ^ 2 / (nu + t ^ 2)) * (2 * t * nu / (nu + t ^ 2) ^ 2)))).
  { intros t [Ht _]; simpl in Ht. unfold bet_f.
    assert (Ht2 : 0 < t ^ 2) by (apply pow_lt; auto).
    set (Y := 1 + t ^ 2 / nu). assert (HY : 0 < Y). { unfold Y. assert (0 < t ^ 2 / nu) by now apply Rdiv_lt_0_compat. lra. }
    assert (EY : nu + t ^ 2 = nu * Y) by (unfold Y; field; lra). rewrite EY.
    replace (1 - t ^ 2 / (nu * Y)) with (/ Y) by (replace (t^2) with (nu * Y - nu) by lra; field; lra).
    replace (t ^ 2 / (nu * Y)) with (t * t * / (nu * Y)) by (field; lra).
    unfold Rpower. assert (0 < / (nu * Y)) by (apply Rinv_0_lt_compat, Rmult_lt_0_compat; lra).
    rewrite ln_mult, !ln_Rinv, !ln_mult by (try apply Rmult_lt_0_compat; lra).
    replace ((1 / 2 - 1) * (ln t + ln t + - (ln nu + ln Y))) with (- ln t + (1 / 2 * ln nu + 1/2 * ln Y)) by field.
    rewrite !exp_plus, exp_Ropp, exp_ln by lra.
    rewrite (exp_half_ln nu) by lra.
    replace ((nu / 2 - 1) * - ln Y) with (ln Y + - (nu / 2 * ln Y)) by field.
    replace (- ((nu + 1) / 2) * ln Y) with (- (nu / 2 * ln Y) + - (1/2 * ln Y)) by field.
    rewrite !exp_plus, exp_ln by lra. rewrite (exp_Ropp (1/2 * ln Y)). rewrite exp_half_ln by lra.
    assert (En := sqrt_sqrt nu ltac:(lra)). assert (EsY := sqrt_sqrt Y ltac:(lra)).
    assert (0 < sqrt Y) by now apply sqrt_lt_R0.
    transitivity (exp (- (nu / 2 * ln Y)) * ((sqrt nu * sqrt nu) * sqrt Y / (nu * Y))).
    { field. lra. }
    rewrite En. rewrite <- EsY at 3. field. split; lra. }
  apply prim_scal.
  assert (Hd : forall t, nu + t ^ 2 <> 0) by (intros t; generalize (pow2_ge_0 t); lra).
  apply (prim_subst (bet_f (1/2) (nu/2)) (fun t => t ^ 2 / (nu + t ^ 2)) (fun t => 2 * t * nu / (nu + t ^ 2) ^ 2) 0 1).
  - simpl; auto.
  - apply Bet_prim; lra.
  - intros t [Ht _]; simpl in Ht. assert (Ht2 : 0 < t ^ 2) by (apply pow_lt; auto).
    split; simpl Rbar_lt. { apply Rdiv_lt_0_compat; lra. }
    apply Rmult_lt_reg_r with (nu + t ^ 2); [lra|]. unfold Rdiv. rewrite Rmult_assoc, Rinv_l; lra.
  - intros t _. split.
    + auto_derive; [apply Hd|]. field. apply Hd.
    + apply deriv_cont; auto_derive. change (t * (t * 1)) with (t ^ 2).
      rewrite Rmult_1_r. intros E; apply Rmult_integral in E; destruct E as [E|E]; revert E; apply Hd.
  - flim lim_right.
    + apply cont_Fr; [|field; lra]. apply deriv_cont; auto_derive. apply Hd.
    + generalize (at_right_gt 0). apply filter_imp. intros t Ht. assert (Ht2 : 0 < t ^ 2) by (apply pow_lt; auto).
      apply Rdiv_lt_0_compat; lra.
  - flim lim_left.
    + apply (filterlim_ext (fun t => 1 + - (nu * / (nu + t ^ 2)))). { intros t. field. apply Hd. }
      apply (lim_eq (1 + - (nu * 0))); [ring|].
      flim lim_plus; [flim lim_const|]. flim lim_opp. flim lim_scal. flim lim_inv_p.
      flim (lim_ge_p _ (fun x => x)); [|apply lim_id_p].
      exists 1. intros x Hx. nra.
    + apply filter_forall. intros t. assert (H := pow2_ge_0 t).
      apply Rmult_lt_reg_r with (nu + t ^ 2); [lra|]. unfold Rdiv. rewrite Rmult_assoc, Rinv_l; lra.
Qed.
Lemma studentt_prim nu m s : 0 < nu -> 0 < s -> prim (studentt_pdf nu m s) m_infty p_infty 1.
Proof.
  intros Hn Hs. pose proof PI_RGT_0.
  assert (G1 : 0 < Gam ((nu+1)/2)) by posi. assert (G2 : 0 < Gam (nu/2)) by posi.
  assert (Hsn : 0 < sqrt nu) by now apply sqrt_lt_R0. assert (Hsp : 0 < sqrt PI) by now apply sqrt_lt_R0.
  set (K := Gam ((nu + 1) / 2) / (Gam (nu / 2) * sqrt (PI * nu))).
  apply (prim_val _ _ _ (K * (sqrt nu / 2 * Bet (1/2) (nu/2) + sqrt nu / 2 * Bet (1/2) (nu/2)))).
  { unfold K. rewrite Bet_Gam by lra. rewrite Gam_half.
    replace (1/2 + nu/2) with ((nu + 1)/2) by field. rewrite sqrt_mult by lra. field. lra. }
  apply (prim_ext (fun x => K * (Rpower (1 + ((x - m) / s) ^ 2 / nu) (- ((nu + 1) / 2)) * / s))).
  { intros x _. unfold studentt_pdf, K. rewrite sqrt_mult by lra. field. lra. }
  apply prim_scal.
  apply (prim_aff_all (fun t => Rpower (1 + t ^ 2 / nu) (- ((nu + 1) / 2)))); auto.
  apply prim_even.
  - intros x. now replace ((- x) ^ 2) with (x ^ 2) by ring.
  - apply (continuous_comp (fun t => 1 + t ^ 2 / nu) (fun y => Rpower y (- ((nu + 1) / 2)))).
    + apply deriv_cont; auto_derive; auto.
    + apply cont_Rpower. replace (1 + 0 ^ 2 / nu) with 1 by (field; lra). lra.
  - now apply studentt_std_half.
Qed.

(** ** von Mises *)
Lemma vm_int k s : let h := fun t => exp (k * cos t) in
  let H := fun x => RInt h 0 x in H (PI - s) - H (- PI - s) = 2 * H PI.
Proof.
  intros h H.
  assert (Hc : forall t, continuous h t) by (intros; apply deriv_cont; unfold h; auto_derive; auto).
  assert (HD : forall x, is_derive H x (h x)).
  { intros x. apply (cont_RInt_derive h m_infty p_infty 0 x); auto; apply inside_all. }
  assert (Hper : forall x, h (- PI - x) = h (PI - x)).
  { intros x. unfold h. f_equal. f_equal. replace (PI - x) with (- PI - x + 2 * PI) by ring.
    now rewrite cos_period with (k := 1%nat) || (rewrite <- (cos_period (- PI - x) 1); f_equal; simpl; ring). }
  assert (E1 : H (PI - s) - H (- PI - s) = H (PI - 0) - H (- PI - 0)).
  { apply (inside_const (fun s => H (PI - s) - H (- PI - s)) m_infty p_infty s 0); try apply inside_all.
    intros x _.
    replace 0 with (-1 * h (PI - x) - -1 * h (- PI - x)) by (rewrite Hper; ring).
    apply @is_derive_minus.
    - apply (is_derive_comp H (fun s => PI - s) x); [apply HD|auto_derive; auto; ring].
    - apply (is_derive_comp H (fun s => - PI - s) x); [apply HD|auto_derive; auto; ring]. }
  rewrite E1, !Rminus_0_r.
  assert (E2 : H PI + H (- PI) = H 0 + H (- 0)).
  { apply (inside_const (fun s => H s + H (- s)) m_infty p_infty PI 0); try apply inside_all.
    intros x _.
    replace 0 with (h x + -1 * h (- x)) by (unfold h; rewrite cos_neg; ring).
    apply @is_derive_plus; [apply HD|].
    apply (is_derive_comp H (fun s => - s) x); [apply HD|auto_derive; auto; ring]. }
  assert (E3 : H 0 = 0) by apply (RInt_point (V:=R_CompleteNormedModule) 0 h).
  rewrite Ropp_0, E3 in E2. lra.
Qed.
Lemma vonmises_prim mu k : prim (vonmises_pdf mu k) (- PI) PI 1.
Proof.
  pose proof PI_RGT_0 as HP.
  assert (HI : 0 < bessel_i0 k). { replace (bessel_i0 k) with (i0 k) by (unfold i0, bessel_i0, Rdiv; ring). apply i0_pos. }
  set (h := fun t => exp (k * cos t)). set (H := fun x => RInt h 0 x).
  assert (E := vm_int k mu). cbv zeta in E. fold h in E. change (H (PI - mu) - H (- PI - mu) = 2 * H PI) in E.
  assert (EI : H PI = PI * bessel_i0 k). { unfold bessel_i0. fold h. assert (G : forall y : R, y = PI * (y / PI)) by (intros; field; lra). apply G. }
  apply (prim_val _ _ _ (/ (2 * PI * bessel_i0 k) * (H (PI - mu) - H (- PI - mu)))).
  { rewrite E, EI. field. lra. }
  apply (prim_ext (fun x => / (2 * PI * bessel_i0 k) * h (x - mu))).
  { intros x [Hx1 Hx2]; simpl in Hx1, Hx2. unfold vonmises_pdf, h. rcase. }
  apply prim_scal.
  assert (Hc : forall t, continuous h t) by (intros; apply deriv_cont; unfold h; auto_derive; auto).
  assert (HD : forall x, is_derive (fun x => H (x - mu)) x (h (x - mu))).
  { intros x. replace (h (x - mu)) with (1 * h (x - mu)) by ring.
    apply (is_derive_comp H (fun s => s - mu) x); [|auto_derive; auto; ring].
    apply (cont_RInt_derive h m_infty p_infty 0); auto; apply inside_all. }
  apply (prim_lim _ (fun x => H (x - mu))); simpl; auto; try lra.
  - intros. apply (continuous_comp (fun x => x - mu) h); auto. apply deriv_cont; auto_derive; auto.
  - apply cont_Fr; auto. apply deriv_cont. eexists; apply HD.
  - apply cont_Fl; auto. apply deriv_cont. eexists; apply HD.
Qed.
