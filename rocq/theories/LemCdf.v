(** Lemmas for C07 and C08. *)
From Coq Require Import Reals Lra Lia ZArith List Bool.
From Coquelicot Require Import Coquelicot.
From Verif Require Import XR Special LemInt LemLim LemGamma SpecDist SpecCdf XTac ModelDist LemDist LemNorm LemDisc.
Import ListNotations.
Open Scope R_scope.

(** ** Error function *)
Lemma gauss_cont t : continuous gauss t.
Proof. apply deriv_cont. unfold gauss. auto_derive. auto. Qed.
Definition GI (x : R) : R := RInt gauss 0 x.
Lemma GI_deriv x : is_derive GI x (gauss x).
Proof. apply (cont_RInt_derive gauss m_infty p_infty 0 x); try apply inside_all. intros; apply gauss_cont. Qed.
Lemma GI_0 : GI 0 = 0.
Proof. apply (RInt_point (V:=R_CompleteNormedModule) 0 gauss). Qed.
Lemma GI_odd x : GI (- x) = - GI x.
Proof.
  assert (E : GI x + GI (- x) = GI 0 + GI (- 0)).
  { apply (inside_const (fun s => GI s + GI (- s)) m_infty p_infty x 0); try apply inside_all.
    intros z _. replace 0 with (gauss z + -1 * gauss (- z)) by (unfold gauss; rewrite Rmult_opp_opp; ring).
    apply @is_derive_plus; [apply GI_deriv|].
    apply (is_derive_comp GI (fun s => - s) z); [apply GI_deriv|auto_derive; auto; ring]. }
  rewrite Ropp_0, GI_0 in E. lra.
Qed.
Lemma GI_cont x : continuous GI x.
Proof. apply deriv_cont. eexists; apply GI_deriv. Qed.
Lemma GI_lim_p : filterlim GI (Rbar_locally p_infty) (locally (sqrt PI / 2)).
Proof.
  destruct gauss_half as (_ & F & la & lb & HF & Ha & Hb & E). cbn [Fr Fl] in Ha, Hb.
  assert (Hx : forall x, 0 < x -> GI x = F x - la).
  { intros x Hx.
    assert (EqC : forall y, 0 < y -> GI y - F y = GI x - F x).
    { intros y Hy. apply (inside_const (fun s => GI s - F s) 0 p_infty y x); [|split; simpl; auto..].
      intros z Hz. replace 0 with (gauss z - exp (- (z * z))) by (unfold gauss; ring).
      apply @is_derive_minus; [apply GI_deriv|now apply HF]. }
    assert (L : filterlim (fun y => GI y - F y) (at_right 0) (locally (0 - la))).
    { apply lim_minus; [typeclasses eauto| |exact Ha]. apply cont_Fr; [apply GI_cont|apply GI_0]. }
    assert (L2 : filterlim (fun y => GI y - F y) (at_right 0) (locally (GI x - F x))).
    { apply (filterlim_ext_loc (fun _ => GI x - F x)); [|apply lim_const; typeclasses eauto].
      generalize (at_right_gt 0). apply filter_imp. intros y Hy. symmetry. now apply EqC. }
    assert (U := filterlim_locally_unique (F := at_right 0) _ _ _ L L2). lra. }
  rewrite E. apply (filterlim_ext_loc (fun x => F x - la)).
  - exists 0. intros x H. symmetry. now apply Hx.
  - apply lim_minus; [typeclasses eauto|exact Hb|apply lim_const; typeclasses eauto].
Qed.
Lemma gauss_pos t : 0 < gauss t.
Proof. apply exp_pos. Qed.
Lemma GI_strict x y : x < y -> GI x < GI y.
Proof.
  intros H. apply (deriv_strict GI gauss m_infty p_infty x y); auto; try apply inside_all;
  intros; try apply GI_deriv; apply gauss_pos.
Qed.
Lemma GI_lt x : GI x < sqrt PI / 2.
Proof.
  assert (H : GI (x + 1) <= sqrt PI / 2).
  { apply (filterlim_le (F := Rbar_locally p_infty) (fun _ => GI (x + 1)) GI (GI (x + 1)) (sqrt PI / 2)).
    - exists (x + 1). intros y Hy. apply Rlt_le, GI_strict; auto.
    - apply lim_const; typeclasses eauto.
    - apply GI_lim_p. }
  assert (GI x < GI (x + 1)) by (apply GI_strict; lra). lra.
Qed.
Lemma sqrtPI_pos : 0 < sqrt PI.
Proof. apply sqrt_lt_R0, PI_RGT_0. Qed.
Lemma erf_GI x : erf x = 2 / sqrt PI * GI x.
Proof. reflexivity. Qed.
Lemma erf_lt x : -1 < erf x < 1.
Proof.
  assert (P := sqrtPI_pos). rewrite erf_GI.
  assert (A := GI_lt x). assert (B := GI_lt (- x)). rewrite GI_odd in B.
  assert (0 < 2 / sqrt PI) by (apply Rdiv_lt_0_compat; lra).
  assert (E : 2 / sqrt PI * (sqrt PI / 2) = 1) by (field; lra).
  split; [|rewrite <- E; apply Rmult_lt_compat_l; auto].
  assert (2 / sqrt PI * - GI x < 1) by (rewrite <- E; apply Rmult_lt_compat_l; auto). lra.
Qed.
Lemma erf_odd x : erf (- x) = - erf x.
Proof. rewrite !erf_GI, GI_odd. ring. Qed.
Lemma erfc_pos x : 0 < erfc x < 2.
Proof. unfold erfc. generalize (erf_lt x). lra. Qed.
Lemma erfc_opp x : erfc (- x) = 2 - erfc x.
Proof. unfold erfc. rewrite erf_odd. ring. Qed.
Lemma erfc_dec x y : x < y -> erfc y < erfc x.
Proof.
  intros H. unfold erfc. rewrite !erf_GI. assert (P := sqrtPI_pos).
  assert (0 < 2 / sqrt PI) by (apply Rdiv_lt_0_compat; lra).
  assert (2 / sqrt PI * GI x < 2 / sqrt PI * GI y) by (apply Rmult_lt_compat_l; auto; now apply GI_strict). lra.
Qed.

(** Distribution function of the normal law: (1/2) erfc(-z/sqrt 2). *)
Definition Phi (z : R) : R := erfc (- z / sqrt 2) / 2.
Lemma Phi_alt z : Phi z = 1 - erfc (z / sqrt 2) / 2.
Proof.
  unfold Phi. replace (- z / sqrt 2) with (- (z / sqrt 2)) by (field; apply Rgt_not_eq, sqrt_lt_R0; lra).
  rewrite erfc_opp. field.
Qed.
Lemma Phi_range z : 0 < Phi z < 1.
Proof. unfold Phi. generalize (erfc_pos (- z / sqrt 2)). lra. Qed.
Lemma s2pos : 0 < sqrt 2.
Proof. apply sqrt_lt_R0; lra. Qed.
Lemma Phi_eq z : Phi z = 1/2 + / sqrt PI * GI (z / sqrt 2).
Proof. rewrite Phi_alt. unfold erfc. rewrite erf_GI. assert (P := sqrtPI_pos). field. lra. Qed.
Lemma normal_cdf_prim mu s (x : R) : 0 < s -> prim (normal_pdf mu s) m_infty x (Phi ((x - mu) / s)).
Proof.
  intros Hs. assert (P := sqrtPI_pos). assert (S2 := s2pos). pose proof PI_RGT_0.
  apply (prim_val _ _ _ (Phi ((x - mu) / s) - 0)); [ring|].
  apply (prim_lim _ (fun y => 1/2 + / sqrt PI * GI ((y - mu) / s / sqrt 2))).
  - simpl; auto.
  - intros y _. rewrite normal_form by auto.
    replace (/ sqrt (2 * PI) * (exp (- ((y - mu) / s) ^ 2 / 2) * / s))
      with (0 + / sqrt PI * (/ s / sqrt 2 * gauss ((y - mu) / s / sqrt 2))).
    + apply @is_derive_plus; [apply @is_derive_const|]. apply is_derive_scal.
      apply (is_derive_comp GI (fun y => (y - mu) / s / sqrt 2) y); [apply GI_deriv|].
      auto_derive; auto. field. lra.
    + unfold gauss. rewrite sqrt_mult by lra.
      replace ((y - mu) / s / sqrt 2 * ((y - mu) / s / sqrt 2)) with (((y - mu) / s) ^ 2 / (sqrt 2 * sqrt 2)) by (field; lra).
      rewrite sqrt_sqrt by lra.
      replace (- ((y - mu) / s) ^ 2 / 2) with (- (((y - mu) / s) ^ 2 / 2)) by (field; lra). field. lra.
  - intros y _. apply (prim_cont _ m_infty p_infty 1); [now apply normal_prim|apply inside_all].
  - apply (lim_eq (1/2 + / sqrt PI * - (sqrt PI / 2))); [field; lra|].
    apply lim_plus; [typeclasses eauto|apply lim_const; typeclasses eauto|].
    apply lim_scal; [typeclasses eauto|].
    apply (filterlim_ext (fun y => - GI (- ((y - mu) / s / sqrt 2)))). { intros; rewrite GI_odd; ring. }
    apply lim_opp; [typeclasses eauto|]. eapply filterlim_comp; [|apply GI_lim_p].
    flim lim_opp_m. apply (filterlim_ext (fun y => / sqrt 2 * ((y - mu) / s))). { intros; field; lra. }
    flim lim_scal_m; [posi|]. now apply aff_lim_m.
  - apply cont_Fl; [|now rewrite Phi_eq].
    apply (continuous_plus (fun _ => 1/2)); [apply continuous_const|].
    apply (continuous_scal_r (/ sqrt PI) (fun y => GI ((y - mu) / s / sqrt 2))).
    apply (continuous_comp (fun y => (y - mu) / s / sqrt 2) GI); [apply deriv_cont; auto_derive; auto|apply GI_cont].
Qed.
Lemma normal_logcdf_val mu s x : 0 < s ->
  normal_logcdf (Fin mu) (Fin s) (Fin x) = Val (Fin (ln (Phi ((x - mu) / s)))).
Proof.
  intros Hs. unfold normal_logcdf. assert (S2 := s2pos). xrun.
  set (z := (x - mu) / s). assert (R := Phi_range z).
  destruct (Rlt_dec z (-1)).
  - rewrite (xlt_true z (-1)) by auto. cbn [xerfcx]. assert (E := erfc_pos (- z / sqrt 2)).
    rewrite xdiv_fin by lra. rewrite xlog_pos.
    2:{ apply Rdiv_lt_0_compat; [apply Rmult_lt_0_compat; [apply exp_pos|lra]|lra]. }
    rewrite xsub_fin. do 2 f_equal.
    replace (- z / sqrt 2 * (- z / sqrt 2)) with (z * z / (sqrt 2 * sqrt 2)) by (field; lra).
    rewrite sqrt_sqrt by lra.
    replace (exp (z * z / 2) * erfc (- z / sqrt 2) / 2) with (exp (z * z / 2) * Phi z) by (unfold Phi; field; lra).
    rewrite ln_mult, ln_exp by (try apply exp_pos; lra). ring.
  - rewrite (xlt_false z (-1)) by lra. cbn [xerfc]. xrun.
    assert (E : 1 + - erfc (z / sqrt 2) / 2 = Phi z) by (rewrite Phi_alt; field; lra).
    rewrite xlog1p_fin by (rewrite E; lra). now rewrite E.
Qed.
Lemma normal_logcdf_ok mu s x : 0 < s -> exists v,
  is_cdf_at (normal_pdf mu s) m_infty x v /\ denotes (normal_logcdf (Fin mu) (Fin s) (Fin x)) v.
Proof.
  intros Hs. exists (Phi ((x - mu) / s)). split.
  - apply prim_RInt_gen. now apply normal_cdf_prim.
  - rewrite normal_logcdf_val by auto. cbn. apply exp_ln, Phi_range.
Qed.

(** ** Uniform *)
Lemma uniform_logcdf_ok a b x : a < b ->
  denotes (uniform_logcdf (Fin a) (Fin b) (Fin x)) (if Rlt_dec x a then 0 else if Rlt_dec x b then (x - a) / (b - a) else 1).
Proof.
  intros H. unfold uniform_logcdf. destruct (Rlt_dec x a); [xrun; reflexivity|].
  destruct (Rlt_dec x b).
  - destruct (Req_EM_T x a) as [->|].
    + replace (a - a) with 0 by ring. xrun. replace (a - a) with 0 by ring. xrun. cbn. field; lra.
    + xrun. cbn [denotes]. expo. reflexivity.
  - xrun. cbn. apply exp_0.
Qed.
Lemma uniform_cdf_prim a b x : a < x <= b -> is_cdf_at (uniform_pdf a b) a x ((x - a) / (b - a)).
Proof.
  intros H. apply prim_RInt_gen. apply (prim_ext (fun _ => / (b - a))).
  { intros y [H1 H2]; simpl in *. unfold uniform_pdf; rcase. }
  apply (prim_val _ _ _ (x / (b - a) - a / (b - a))); [field; lra|].
  apply (prim_lim _ (fun x => x / (b - a))); simpl; auto; try lra.
  - intros; auto_derive; auto; field; lra.
  - intros; apply continuous_const.
  - apply cont_Fr; auto; apply deriv_cont; auto_derive; auto.
  - apply cont_Fl; auto; apply deriv_cont; auto_derive; auto.
Qed.

(** ** Poisson *)
Definition ptail (k : nat) (t : R) : R := sum_f_R0 (poisson_pmf t) k.
Lemma ptail_deriv k t : is_derive (ptail k) t (- (t ^ k * exp (- t) / INR (fact k))).
Proof.
  induction k as [|k IH].
  - unfold ptail, poisson_pmf. simpl. auto_derive; auto. unfold Rdiv. rewrite Rinv_1. ring.
  - assert (D : is_derive (fun t => poisson_pmf t (S k)) t
        (t ^ k * exp (- t) / INR (fact k) - t ^ S k * exp (- t) / INR (fact (S k)))).
    { unfold poisson_pmf. rewrite fact_S_div. auto_derive; auto.
      replace (pred (S k)) with k by lia. change (t ^ S k) with (t * t ^ k). 
      assert (INR (S k) <> 0) by (apply not_0_INR; lia). assert (INR (fact k) <> 0) by apply INR_fact_neq_0.
      replace (match k with O => 1 | S _ => INR k + 1 end) with (INR (S k)) by reflexivity.
      field. auto. }
    assert (D2 := is_derive_plus _ _ _ _ _ IH D).
    unfold ptail in *. match type of D2 with is_derive _ _ ?d => replace (- (t ^ S k * exp (- t) / INR (fact (S k)))) with d end.
    + exact D2.
    + unfold plus; simpl. ring.
Qed.
Lemma ptail_lim k : filterlim (ptail k) (Rbar_locally p_infty) (locally 0).
Proof.
  assert (Hp : forall j, filterlim (fun t => poisson_pmf t j) (Rbar_locally p_infty) (locally 0)).
  { intros j. apply (filterlim_ext_loc (fun t => / INR (fact j) * (Rpower t (INR j) * exp (- t)))).
    - exists 0. intros t Ht. rewrite Rpower_pow by auto. unfold poisson_pmf. unfold Rdiv. ring.
    - apply (lim_eq (/ INR (fact j) * 0)); [ring|]. apply lim_scal; [typeclasses eauto|]. apply Gam_boundary_inf. }
  induction k as [|k IH].
  - unfold ptail. simpl. apply Hp.
  - unfold ptail in *. simpl. apply (lim_eq (0 + 0)); [ring|]. apply lim_plus; [typeclasses eauto|exact IH|apply Hp].
Qed.
Lemma gammaincc_sum k mu : 0 <= mu -> gammaincc (INR k + 1) mu = ptail k mu.
Proof.
  intros Hm. unfold gammaincc. rewrite Gam_fact.
  assert (Hf := INR_fact_lt_0 k).
  assert (H : prim (gam_f (INR k + 1)) mu p_infty (INR (fact k) * ptail k mu)).
  { apply (prim_val _ _ _ (- INR (fact k) * 0 - - INR (fact k) * ptail k mu)); [ring|].
    apply (prim_lim _ (fun t => - INR (fact k) * ptail k t)).
    - simpl; auto.
    - intros t [Ht _]; simpl in Ht. unfold gam_f.
      replace (INR k + 1 - 1) with (INR k) by ring. rewrite Rpower_pow by lra.
      replace (t ^ k * exp (- t)) with (- INR (fact k) * - (t ^ k * exp (- t) / INR (fact k))) by (field; lra).
      apply is_derive_scal, ptail_deriv.
    - intros t [Ht _]; simpl in Ht. apply gam_f_cont. lra.
    - apply cont_Fr; auto. apply (continuous_scal_r (- INR (fact k)) (ptail k)). apply deriv_cont. eexists; apply ptail_deriv.
    - apply lim_scal; [typeclasses eauto|]. apply ptail_lim. }
  apply prim_RInt_gen in H. apply (is_RInt_gen_unique (V:=R_CompleteNormedModule)) in H.
  change (Fr mu) with (at_right mu) in H. change (Fl p_infty) with (Rbar_locally p_infty) in H.
  assert (G : forall y : R, y = INR (fact k) * ptail k mu -> y / INR (fact k) = ptail k mu) by (intros y ->; field; lra).
  apply G. exact H.
Qed.
Lemma Int_part_nat x : 0 <= x -> IZR (Int_part x) = INR (Z.to_nat (Int_part x)).
Proof.
  intros H. rewrite INR_IZR_INZ, Z2Nat.id; auto.
  destruct (base_Int_part x) as [_ H2]. apply le_IZR.
  assert (0 < IZR (Int_part x) + 1) by lra. rewrite <- plus_IZR in H0. apply lt_IZR in H0. apply IZR_le. lia.
Qed.
Lemma Int_part_neg x : x < 0 -> IZR (Int_part x) < 0.
Proof. intros H. destruct (base_Int_part x). lra. Qed.
Lemma poisson_pmf_nonneg mu k : 0 <= mu -> 0 <= poisson_pmf mu k.
Proof. intros. unfold poisson_pmf. apply Rmult_le_pos; [|apply Rlt_le, exp_pos]. apply Rmult_le_pos; [now apply pow_le|apply Rlt_le, Rinv_0_lt_compat, INR_fact_lt_0]. Qed.
Lemma poisson_logcdf_ok mu x : 0 <= mu ->
  denotes (poisson_logcdf (Fin mu) (Fin x)) (mass_upto (poisson_pmf mu) x).
Proof.
  intros Hm. unfold poisson_logcdf, mass_upto. cbn [xfloor].
  destruct (Rle_dec 0 x) as [Hx|Hx].
  - rewrite Int_part_nat by auto. set (k := Z.to_nat (Int_part x)). generalize (pos_INR k); intros Hk.
    rewrite check_true by (xrun; reflexivity). xrun. cbn [xgammaincc]. rcase. rewrite gammaincc_sum by auto.
    apply den_xlog. unfold ptail. apply cond_pos_sum. intros; now apply poisson_pmf_nonneg.
  - assert (Hn := Int_part_neg x ltac:(lra)). xrun. reflexivity.
Qed.

(** ** Geometric *)
Lemma geometric_cdf p k : sum_f_R0 (geometric_pmf p) k = 1 - (1 - p) ^ k.
Proof. induction k as [|k IH]; [simpl; ring|]. rewrite tech5, IH. simpl. ring. Qed.
Lemma mass_upto_nat f k : mass_upto f (INR k) = sum_f_R0 f k.
Proof.
  unfold mass_upto. destruct (Rle_dec 0 (INR k)) as [H|H]; [|generalize (pos_INR k); lra].
  f_equal. rewrite INR_IZR_INZ, Int_part_IZR, Nat2Z.id. reflexivity.
Qed.
Lemma den_log1mexp a d : den a d -> d < 1 \/ d = 1 -> den (xlog1mexp a) (1 - d).
Proof.
  intros H Hd. unfold xlog1mexp. unfold den, denotes in H. destruct a as [a| | |]; try tauto.
  - assert (Hc : forall (b : bool), den (if b then xlog1p (xneg (xexp (Fin a))) else xlog (xneg (xexpm1 (Fin a)))) (1 - d)).
    { intros b. unfold xlog1p, xexpm1. cbn [xexp]. rewrite xneg_fin, xsub_fin, xneg_fin, xadd_fin. rewrite H.
      replace (- (d - 1)) with (1 + - d) by ring. replace (1 - d) with (1 + - d) by ring. destruct b; apply den_xlog; lra. }
    apply Hc.
  - subst. cbn [xlt xexp xneg]. unfold xlog1p. rewrite xadd_fin.
    replace (1 - 0) with (1 + - 0) by ring. apply den_xlog. lra.
Qed.
Lemma pow_le1 x k : 0 <= x <= 1 -> x ^ k <= 1.
Proof. intros H. induction k; simpl; [lra|]. assert (0 <= x ^ k) by (apply pow_le; lra). nra. Qed.
Lemma geometric_logcdf_ok p k : 0 < p <= 1 ->
  denotes (geometric_logcdf (Fin p) (Fin (INR k))) (mass_upto (geometric_pmf p) (INR k)).
Proof.
  intros Hp. rewrite mass_upto_nat, geometric_cdf. unfold geometric_logcdf.
  destruct k as [|k].
  - simpl INR. xrun. simpl. ring.
  - assert (H : 0 < INR (S k)) by (apply lt_0_INR; lia).
    rewrite check_true by (xrun; reflexivity). rewrite xle_false by lra.
    assert (0 <= (1 - p) ^ S k) by (apply pow_le; lra).
    assert (Hle : (1 - p) ^ S k <= 1) by (apply pow_le1; lra).
    apply den_log1mexp; [|lra].
    unfold xlog1p. rewrite xneg_fin, xadd_fin.
    destruct (Req_EM_T p 1) as [->|].
    + rewrite Rplus_opp_r, xlog_zero. cbn [xmul]. unfold sgn_inf. destruct (Rlt_dec 0 (INR (S k))); [|lra].
      cbn. ring.
    + rewrite xlog_pos, xmul_fin by lra. cbn [den denotes]. rewrite Rmult_comm, exp_mul_ln.
      replace (1 + - p) with (1 - p) by ring. apply Rpower_pow. lra.
Qed.
Lemma geometric_logcdf_neg p x : 0 < p <= 1 -> x < 0 -> denotes (geometric_logcdf (Fin p) (Fin x)) 0.
Proof. intros Hp Hx. unfold geometric_logcdf. xrun. reflexivity. Qed.

(** ** Quantiles *)
Lemma erfc_cont x : continuous erfc x.
Proof.
  unfold erfc. apply (continuous_minus (fun _ => 1) erf); [apply continuous_const|].
  apply (continuous_scal_r (2 / sqrt PI) GI). apply GI_cont.
Qed.
Lemma erfc_lim_p : filterlim erfc (Rbar_locally p_infty) (locally 0).
Proof.
  assert (P := sqrtPI_pos).
  apply (lim_eq (1 - 2 / sqrt PI * (sqrt PI / 2))); [field; lra|].
  apply lim_minus; [typeclasses eauto|apply lim_const; typeclasses eauto|].
  apply lim_scal; [typeclasses eauto|]. apply GI_lim_p.
Qed.
Lemma lim0_lt (f : R -> R) e : 0 < e -> filterlim f (Rbar_locally p_infty) (locally 0) -> exists x, f x < e.
Proof.
  intros He H. assert (Hl := proj1 (filterlim_locally _ _) H (mkposreal e He)).
  destruct Hl as [M HM]. exists (M + 1). specialize (HM (M + 1) ltac:(lra)).
  unfold ball in HM; simpl in HM; unfold AbsRing_ball, abs, minus, plus, opp in HM; simpl in HM.
  apply Rabs_def2 in HM. lra.
Qed.
Lemma erfc_onto q : 0 < q < 2 -> exists y, erfc y = q.
Proof.
  intros Hq. destruct (lim0_lt erfc q ltac:(lra) erfc_lim_p) as [x1 H1].
  destruct (lim0_lt erfc (2 - q) ltac:(lra) erfc_lim_p) as [x2 H2].
  assert (H3 : q < erfc (- x2)) by (rewrite erfc_opp; lra).
  assert (Hlt : - x2 < x1).
  { destruct (Rlt_dec (- x2) x1); auto. exfalso. destruct (Req_EM_T (- x2) x1) as [E|]; [rewrite E in H3; lra|].
    assert (erfc (- x2) < erfc x1) by (apply erfc_dec; lra). lra. }
  destruct (IVT_gen erfc (- x2) x1 q) as [y [_ Hy]].
  - intros y. apply continuity_pt_filterlim. apply erfc_cont.
  - rewrite Rmin_right, Rmax_left; lra.
  - exists y; auto.
Qed.
Lemma erfcinv_ok q : 0 < q < 2 -> erfc (erfcinv q) = q.
Proof.
  intros Hq. destruct (erfc_onto q Hq) as [y Hy].
  assert (E : erfcinv q = y); [|now rewrite E].
  unfold erfcinv. assert (L : is_lub_Rbar (fun z => q <= erfc z) y).
  { split.
    - intros z Hz. simpl. destruct (Rle_dec z y); auto. assert (erfc z < erfc y) by (apply erfc_dec; lra). lra.
    - intros b Hb. apply (Hb y). lra. }
  now rewrite (is_lub_Rbar_unique _ _ L).
Qed.
Lemma normal_icdf_ok mu s q : 0 < s -> 0 < q < 1 -> exists x,
  normal_icdf (Fin mu) (Fin s) (Fin q) = Val (Fin x) /\ is_cdf_at (normal_pdf mu s) m_infty x q.
Proof.
  intros Hs Hq. unfold normal_icdf. xrun. cbn [xerfcinv]. rcase. xrun. eexists; split; [reflexivity|].
  apply prim_RInt_gen.
  set (y := erfcinv (2 * q)).
  apply (prim_val _ _ _ (Phi ((mu + s * - sqrt 2 * y - mu) / s))); [|now apply normal_cdf_prim].
  unfold Phi. assert (S2 := s2pos).
  replace (- ((mu + s * - sqrt 2 * y - mu) / s) / sqrt 2) with y by (field; lra).
  unfold y. rewrite erfcinv_ok by lra. field.
Qed.
Lemma Phi_strict x y : x < y -> Phi x < Phi y.
Proof.
  intros H. unfold Phi. assert (S2 := s2pos).
  assert (erfc (- x / sqrt 2) < erfc (- y / sqrt 2)); [|lra].
  apply erfc_dec. unfold Rdiv. apply Rmult_lt_compat_r; [posi|lra].
Qed.
(** the normal distribution function is strictly increasing, so the quantile is unique *)
Lemma normal_cdf_strict mu s x y v w : 0 < s -> x < y ->
  is_cdf_at (normal_pdf mu s) m_infty x v -> is_cdf_at (normal_pdf mu s) m_infty y w -> v < w.
Proof.
  intros Hs Hxy H1 H2.
  assert (U : forall x v, is_cdf_at (normal_pdf mu s) m_infty x v -> v = Phi ((x - mu) / s)).
  { intros z u Hu. assert (P := prim_RInt_gen _ _ _ _ (normal_cdf_prim mu s z Hs)).
    assert (E1 := is_RInt_gen_unique (V:=R_CompleteNormedModule) _ _ Hu).
    assert (E2 := is_RInt_gen_unique (V:=R_CompleteNormedModule) _ _ P). congruence. }
  rewrite (U x v H1), (U y w H2). apply Phi_strict. unfold Rdiv. apply Rmult_lt_compat_r; [posi|lra].
Qed.

Lemma Rceil_spec a : a <= IZR (Rceil_part a) < a + 1.
Proof. unfold Rceil_part. rewrite opp_IZR. destruct (base_Int_part (- a)). lra. Qed.
Lemma geometric_icdf_ok p q : 0 < p < 1 -> 0 < q < 1 -> exists k,
  geometric_icdf (Fin p) (Fin q) = Val (Fin (INR k)) /\ least_quantile (geometric_pmf p) q k.
Proof.
  intros Hp Hq. unfold geometric_icdf.
  assert (Lp : ln (1 + - p) < 0) by (rewrite <- ln_1; apply ln_increasing; lra).
  assert (Lq : ln (1 + - q) < 0) by (rewrite <- ln_1; apply ln_increasing; lra).
  xrun. rewrite ?xlog1p_fin by lra. rewrite ?xdiv_fin by lra. cbn [xceil].
  set (r := ln (1 + - q) / ln (1 + - p)).
  assert (Hr : 0 < r). { unfold r. replace (ln (1 + - q) / ln (1 + - p)) with (- ln (1 + - q) / - ln (1 + - p)) by (field; lra). apply Rdiv_lt_0_compat; lra. }
  assert (HC := Rceil_spec r).
  assert (Hz : (0 < Rceil_part r)%Z) by (apply lt_IZR; lra).
  exists (Z.to_nat (Rceil_part r)). split.
  { rewrite INR_IZR_INZ, Z2Nat.id by lia. reflexivity. }
  assert (EQ : forall j : nat, q <= mass_upto (geometric_pmf p) (INR j) <-> r <= INR j).
  { intros j. rewrite mass_upto_nat, geometric_cdf.
    assert (Pj : (1 - p) ^ j = exp (INR j * ln (1 + - p))).
    { rewrite exp_mul_ln. symmetry. replace (1 + - p) with (1 - p) by ring. apply Rpower_pow. lra. }
    assert (Pq : 1 + - q = exp (ln (1 + - q))) by (rewrite exp_ln; lra).
    assert (Er : r * ln (1 + - p) = ln (1 + - q)) by (unfold r; field; lra).
    split; intros H.
    - assert (H' : exp (INR j * ln (1 + - p)) <= exp (ln (1 + - q))) by lra.
      assert (H2 : INR j * ln (1 + - p) <= ln (1 + - q)).
      { destruct (Rle_dec (INR j * ln (1 + - p)) (ln (1 + - q))); auto. apply Rnot_le_lt, exp_increasing in n. lra. }
      nra.
    - assert (INR j * ln (1 + - p) <= ln (1 + - q)) by nra.
      assert (exp (INR j * ln (1 + - p)) <= exp (ln (1 + - q))) by now apply exp_mono. lra. }
  split.
  - apply EQ. rewrite INR_IZR_INZ, Z2Nat.id by lia. lra.
  - intros j Hj. apply EQ in Hj. apply INR_le. rewrite INR_IZR_INZ, Z2Nat.id by lia.
    assert (IZR (Rceil_part r) < IZR (Z.of_nat j + 1)) by (rewrite plus_IZR, <- INR_IZR_INZ; lra).
    apply lt_IZR in H. rewrite INR_IZR_INZ. apply IZR_le. lia.
Qed.
