(** Nested measurable expressions: densities and injectivity. *)
From Coq Require Import Reals Lra Lia ZArith List Bool.
From Coquelicot Require Import Coquelicot.
From Verif Require Import XR Special XTac SpecDist ModelDist ModelVec SpecVec ModelTrans LemTrans LemTrans2 ModelNest SpecNest LemNest LemDisc.
Import ListNotations.
Open Scope R_scope.

Lemma exp_den lp d x : denotes (lp (Fin x)) d -> denotes (elemwise_logprob TExp lp (Fin (exp x))) (d / exp x).
Proof.
  intros L. unfold Rdiv. rewrite <- exp_Ropp. apply (elem_den lp (fun _ => d) TExp x); auto.
  - now apply (backward_ok TExp x).
  - cbn [log_jac_det]. rewrite xlog_pos by apply exp_pos. rewrite ln_exp. reflexivity.
Qed.
Lemma log_den lp d x : 0 < x -> denotes (lp (Fin x)) d -> denotes (elemwise_logprob TLog lp (Fin (ln x))) (d * x).
Proof.
  intros P L. replace x with (exp (ln x)) at 2 by (now apply exp_ln). apply (elem_den lp (fun _ => d) TLog x); auto. now apply (backward_ok TLog x).
Qed.

Section Nest.
Variable dt : nat -> dtype.
Variable fs : nat -> list xr -> xr.
Notation annotate := (annotate dt fs).
Notation means := (means fs).
Notation regular := (regular fs).
Section At.
Variables (rho : nat -> R) (i : nat) (lps : nat -> xr -> res xr) (d0 : R).
Definition good (e : nexpr) (m : mexpr) (y : R) : Prop :=
  exists (g : R -> R) (g' : R), locally (rho i) (fun t => means (upd rho i t) e (g t)) /\ g (rho i) = y /\
    is_derive g (rho i) g' /\ g' <> 0 /\ denotes (nested_logprob lps m (Fin y)) (d0 / Rabs g').

Lemma good_step t e e' m y (h : R -> R) (h' : R) : good e m y ->
  locally y (fun z => forall x, means (upd rho i x) e z -> means (upd rho i x) e' (h z)) ->
  is_derive h y h' -> h' <> 0 ->
  (forall d, denotes (nested_logprob lps m (Fin y)) d -> denotes (elemwise_logprob t (nested_logprob lps m) (Fin (h y))) (d / Rabs h')) ->
  good e' (MElem t m) (h y).
Proof.
  intros (g & g' & Lg & Eg & Dg & Ng & Den) Lh Dh Nh Step. exists (fun x => h (g x)), (g' * h').
  split; [|split; [|split; [|split]]].
  - assert (C : continuous g (rho i)) by (apply (ex_derive_continuous (K := R_AbsRing) (V := R_NormedModule) g); now exists g').
    rewrite <- Eg in Lh. specialize (C _ Lh). unfold filtermap in C.
    generalize (filter_and _ _ Lg C). apply filter_imp. intros x [A B]. now apply B.
  - now rewrite Eg.
  - rewrite <- Eg in Dh. exact (is_derive_comp h g (rho i) h' g' Dh Dg).
  - apply Rmult_integral_contrapositive. now split.
  - cbn [nested_logprob]. rewrite Rabs_mult. replace (d0 / (Rabs g' * Rabs h')) with (d0 / Rabs g' / Rabs h'); [now apply Step|].
    pose proof (Rabs_pos_lt g' Ng). pose proof (Rabs_pos_lt h' Nh). field. lra.
Qed.

Lemma good_loc e e' m y c : good e m y -> (forall x z, means (upd rho i x) e z -> means (upd rho i x) e' (z + c)) -> good e' (MElem (TLoc (Fin c)) m) (y + c).
Proof.
  intros G M. apply (good_step (TLoc (Fin c)) e e' m y (fun z => z + c) 1); auto.
  - apply filter_forall. auto. - auto_derive; [auto|ring]. 
  - intros d D. rewrite Rabs_R1. replace (d / 1) with d by field. exact (loc_den _ (fun _ => d) c y D).
Qed.
Lemma good_scale e e' m y c : c <> 0 -> good e m y -> (forall x z, means (upd rho i x) e z -> means (upd rho i x) e' (z * c)) -> good e' (MElem (TScale (Fin c)) m) (y * c).
Proof.
  intros N G M. apply (good_step (TScale (Fin c)) e e' m y (fun z => z * c) c); auto.
  - apply filter_forall. auto. - auto_derive; [auto|ring]. 
  - intros d D. exact (scale_den _ (fun _ => d) c y N D).
Qed.
Lemma good_one u e m y z : good e m y -> (u = URecip -> 0 < y) -> means rho (NOne u e) z -> means rho e y -> good (NOne u e) (MElem (tr_unary u) m) z.
Proof.
  intros G P M My. inversion M as [| |? r M1|? r M1 Q|? r M1 Q| | | | |]; subst; assert (r = y) as -> by (now apply (means_fun fs rho e)).
  - apply (good_step TExp e _ m y exp (exp y)); auto.
    + apply filter_forall. intros w x. apply m_exp.
    + auto_derive; [auto|ring].
    + apply Rgt_not_eq, exp_pos.
    + intros d D. rewrite Rabs_pos_eq by (left; apply exp_pos). now apply exp_den.
  - apply (good_step TLog e _ m y ln (/ y)); auto.
    + generalize (locally_open (fun z => 0 < z) (fun z => 0 < z) (open_gt 0)). intros H. apply filter_imp with (P := fun z => 0 < z); [|apply H; auto].
      intros w W x Mx. now apply m_log.
    + auto_derive; [auto|field; lra].
    + pose proof (Rinv_0_lt_compat y Q). lra.
    + intros d D. pose proof (Rinv_0_lt_compat y Q). rewrite Rabs_pos_eq by lra. replace (d / / y) with (d * y) by (field; lra). now apply log_den.
  - specialize (P eq_refl). apply (good_step TRecip e _ m y Rinv (- / (y * y))); auto.
    + generalize (locally_open (fun z => 0 < z) (fun z => 0 < z) (open_gt 0)). intros H. apply filter_imp with (P := fun z => 0 < z); [|apply H; auto].
      intros w W x Mx. apply m_recip; auto. lra.
    + auto_derive; [lra|field; lra].
    + assert (0 < y * y) by nra. pose proof (Rinv_0_lt_compat (y * y)). lra.
    + intros d D. assert (S : 0 < y * y) by nra. pose proof (Rinv_0_lt_compat (y * y) S). rewrite Rabs_Ropp, Rabs_pos_eq by lra.
      replace (d / / (y * y)) with (d * (y * y)) by (field; lra). now apply (recip_den _ (fun _ => d)).
Qed.
End At.

Lemma rtotal_mid l v r : rtotal (l ++ v :: r) = v + rtotal (l ++ r).
Proof. unfold rtotal. induction l as [|x l IH]; cbn; [reflexivity|]. rewrite IH. ring. Qed.
Lemma rprod_app l r : rprod (l ++ r) = rprod l * rprod r.
Proof. unfold rprod. induction l as [|x l IH]; cbn; [ring|]. rewrite IH. ring. Qed.
Lemma rprod_mid l v r : rprod (l ++ v :: r) = v * (rprod l * rprod r).
Proof. rewrite rprod_app. unfold rprod. cbn. ring. Qed.

Lemma nested_good rho i lps d0 e y : dt i <> DInt -> denotes (lps i (Fin (rho i))) d0 -> regular rho i e -> means rho e y ->
  exists m, a_m (annotate e) = Some m /\ mbase m = i /\ good rho i lps d0 e m y.
Proof.
  intros D L0 G. revert y. induction G as [|u e r G IH M P|l e r G IH Ol Or N|l e r ls rs G IH Ol Or N Ml Mr NZ|a b G IH O|a b G IH O|a b G IH O|a b r s G IH O Ma Nr Mb Ps];
    intros y M0; cbn [ModelNest.annotate rw_unary rw_nary rw_sub rw_div a_m].
  - exists (MBase i). repeat split; auto. inversion M0; subst. exists (fun t => t), 1. split; [|split; [|split; [|split]]].
    + apply filter_forall. intros t. pose proof (m_rv fs (upd rho i t) i) as Q. unfold upd in Q at 2. now rewrite Nat.eqb_refl in Q.
    + reflexivity. + auto_derive; auto. + lra. + cbn [nested_logprob]. rewrite Rabs_R1. now replace (d0 / 1) with d0 by field.
  - destruct (IH r M) as (m & E & B & Gd). rewrite (construct_1 dt _ m) by (auto; eapply starts_base; eauto).
    eexists; repeat split; [exact B|]. eapply good_one; eauto.
  - inversion M0 as [| | | | |? vs F| | | |]; subst. apply Forall2_app_inv_l in F as (ls & vs' & Fl & Fr & ->). inversion Fr as [|? v ? rs Me Fr']; subst.
    destruct (IH v Me) as (m & E & B & Gd). cbn in Ol, Or. rewrite map_app. cbn [map].
    rewrite (construct_mid dt _ _ _ m) by (auto; try (now apply plain_map); eapply starts_base; eauto).
    rewrite map_app, (vals_plain dt fs rho l ls), (vals_plain dt fs rho r rs), <- map_app by auto.
    unfold tr_nary. rewrite fold_others_fin.
    2: { intros Z. apply N. apply app_eq_nil in Z as [-> ->]. inversion Fl; inversion Fr'; reflexivity. }
    eexists; repeat split; [exact B|]. rewrite rtotal_mid. cbn [rfold]. apply (good_loc rho i lps d0 e); auto.
    intros x z Mz. rewrite <- rtotal_mid. constructor. apply Forall2_app; [now apply (means_indeps fs rho)|]. constructor; auto. now apply (means_indeps fs rho).
  - inversion M0 as [| | | | | |? vs F| | |]; subst. apply Forall2_app_inv_l in F as (ls0 & vs' & Fl & Fr & ->). inversion Fr as [|? v ? rs0 Me Fr']; subst.
    assert (U : forall es xs ys, Forall2 (means rho) es xs -> Forall2 (means rho) es ys -> xs = ys).
    { clear. induction es as [|e es IH]; intros xs ys X Y; inversion X; inversion Y; subst; [reflexivity|]. f_equal; [eapply (means_fun fs rho e); eauto|now apply IH]. }
    assert (ls0 = ls) as -> by (now apply (U l)). assert (rs0 = rs) as -> by (now apply (U r)).
    destruct (IH v Me) as (m & E & B & Gd). cbn in Ol, Or. rewrite map_app. cbn [map].
    rewrite (construct_mid dt _ _ _ m) by (auto; try (now apply plain_map); eapply starts_base; eauto).
    rewrite map_app, (vals_plain dt fs rho l ls), (vals_plain dt fs rho r rs), <- map_app by auto.
    unfold tr_nary. rewrite fold_others_fin.
    2: { intros Z. apply N. apply app_eq_nil in Z as [-> ->]. inversion Fl; inversion Fr'; reflexivity. }
    eexists; repeat split; [exact B|]. rewrite rprod_mid, <- rprod_app. cbn [rfold]. apply (good_scale rho i lps d0 e); auto; [now rewrite rprod_app|].
    intros x z Mz. rewrite rprod_app, <- rprod_mid. constructor. apply Forall2_app; [now apply (means_indeps fs rho)|]. constructor; auto. now apply (means_indeps fs rho).
  - inversion M0 as [| | | | | | |? ? v w Ma Mb| |]; subst. destruct (IH v Ma) as (m & E & B & Gd).
    rewrite (construct_l dt _ _ m); auto; [|now apply neg_plain|eapply starts_base; eauto].
    cbn [rw_nary a_val map con]. rewrite (means_plain dt fs rho b w O Mb). change [Fin (-1); Fin w] with (map Fin [-1; w]). rewrite nary_fin.
    cbn [tr_nary fold_others]. unfold tr_nary. cbn [fold_others].
    eexists; repeat split; [exact B|]. replace (v - w) with (v + rfold NMul [-1; w]) by (unfold rfold, rprod; cbn; ring). apply (good_loc rho i lps d0 a); auto.
    intros x z Mz. replace (z + rfold NMul [-1; w]) with (z - w) by (unfold rfold, rprod; cbn; ring). constructor; auto. now apply (means_indep fs rho).
  - inversion M0 as [| | | | | | |? ? v w Ma Mb| |]; subst. destruct (IH w Mb) as (m & E & B & Gd).
    rewrite (construct_r dt _ _ (MElem (TScale (Fin (-1))) m)); auto; [|now apply ann_plain|].
    2: { cbn [rw_nary a_m]. rewrite (construct_r dt _ _ m); auto; [apply con_plain|eapply starts_base; eauto]. }
    rewrite (means_plain dt fs rho a v O Ma). unfold tr_nary. cbn [fold_others].
    eexists; repeat split; [exact B|]. replace (v - w) with (w * -1 + v) by ring.
    apply (good_loc rho i lps d0 (NMany NMul [b; NCon (Fin (-1))])).
    + apply (good_scale rho i lps d0 b); auto; [lra|]. intros x z Mz. replace (z * -1) with (rprod [z; -1]) by (unfold rprod; cbn; ring).
      constructor. repeat constructor; auto.
    + intros x z Mz. inversion Mz as [| | | | | |? vs F| | |]; subst. inversion F as [|? z1 ? F1 Mz1 F2]; subst. inversion F2 as [|? z2 ? F3 Mz2 F4]; subst. inversion F4; subst. inversion Mz2; subst.
      replace (rprod [z1; -1] + v) with (v - z1) by (unfold rprod; cbn; ring). constructor; auto. now apply (means_indep fs rho).
  - inversion M0 as [| | | | | | | |? ? v w Ma Mb Nw|]; subst. destruct (IH v Ma) as (m & E & B & Gd).
    rewrite (construct_l dt _ _ m); auto; [|now apply inv_plain|eapply starts_base; eauto].
    cbn [rw_unary a_val]. rewrite (means_plain dt fs rho b w O Mb). cbn [un_val]. rewrite xrecip_fin by auto. unfold tr_nary. cbn [fold_others].
    eexists; repeat split; [exact B|]. unfold Rdiv. apply (good_scale rho i lps d0 a); auto; [now apply Rinv_neq_0_compat|].
    intros x z Mz. constructor; auto. now apply (means_indep fs rho).
  - inversion M0 as [| | | | | | | |? ? v w Ma' Mb' Nw|]; subst. assert (v = r) as -> by (now apply (means_fun fs rho a)). assert (w = s) as -> by (now apply (means_fun fs rho b)).
    destruct (IH s Mb) as (m & E & B & Gd).
    rewrite (construct_r dt _ _ (MElem TRecip m)); auto; [|now apply ann_plain|].
    2: { cbn [rw_unary a_m]. rewrite (construct_1 dt _ m); auto. eapply starts_base; eauto. }
    rewrite (means_plain dt fs rho a r O Ma). unfold tr_nary. cbn [fold_others].
    eexists; repeat split; [exact B|]. replace (r / s) with (/ s * r) by (field; lra). apply (good_scale rho i lps d0 (NOne URecip b)); auto.
    + apply (good_one rho i lps d0 URecip b m s); auto. now constructor.
    + intros x z Mz. inversion Mz; subst. replace (/ r0 * r) with (r / r0) by (field; auto). constructor; auto. now apply (means_indep fs rho).
Qed.
Lemma nested_density rho i lps f e y : dt i <> DInt -> denotes (lps i (Fin (rho i))) (f (rho i)) -> regular rho i e -> means rho e y ->
  exists m d, a_m (annotate e) = Some m /\ density_of fs rho e i f (rho i) y d /\ denotes (nested_logprob lps m (Fin y)) d.
Proof.
  intros D L G M. destruct (nested_good rho i lps (f (rho i)) e y D L G M) as (m & E & _ & g & g' & Lg & Eg & Dg & Ng & Den).
  exists m, (f (rho i) / Rabs g'). repeat split; auto. exists g, g'. auto.
Qed.
Lemma density_unique rho e i f x y d d' : density_of fs rho e i f x y d -> density_of fs rho e i f x y d' -> d = d'.
Proof.
  intros (g & g' & Lg & _ & Dg & _ & ->) (h & h' & Lh & _ & Dh & _ & ->).
  assert (E : locally x (fun t => g t = h t)). { generalize (filter_and _ _ Lg Lh). apply filter_imp. intros t [A B]. exact (means_fun fs _ e _ _ A B). }
  pose proof (is_derive_ext_loc g h x g' E Dg) as Dg2. rewrite (is_derive_unique _ _ _ Dh) || idtac.
  replace h' with g'; [reflexivity|]. rewrite <- (is_derive_unique _ _ _ Dg2). now apply is_derive_unique.
Qed.

(** ** Injectivity *)
Lemma upd_rv rho i x : upd rho i x i = x. Proof. unfold upd. now rewrite Nat.eqb_refl. Qed.
Lemma nonrandom_same rho rho' e r s : occs e = [] -> means rho e r -> means rho' e s -> r = s.
Proof. intros O A B. apply (means_fun fs rho' e); auto. now apply (means_indep fs rho). Qed.
Lemma nonrandom_sames rho rho' es rs ss : flat_map occs es = [] -> Forall2 (means rho) es rs -> Forall2 (means rho') es ss -> rs = ss.
Proof.
  revert rs ss. induction es as [|e es IH]; intros rs ss O A B; inversion A; inversion B; subst; [reflexivity|]. cbn in O. apply app_eq_nil in O as [O1 O2].
  f_equal; [eapply nonrandom_same; eauto|now apply IH].
Qed.
Lemma inv_reg a b : / a = / b -> a = b.
Proof. intros E. rewrite <- (Rinv_inv a), <- (Rinv_inv b). now f_equal. Qed.
(** [e] determines the draw of [i]; only the second point needs to be regular *)
Lemma nested_inj rho i x x' e y : regular (upd rho i x') i e -> means (upd rho i x) e y -> means (upd rho i x') e y -> x = x'.
Proof.
  intros G. revert y. induction G as [|u e r G IH M P|l e r G IH Ol Or N|l e r ls rs G IH Ol Or N Ml Mr NZ|a b G IH O|a b G IH O|a b G IH O|a b r s G IH O Ma Nr Mb Ps]; intros y A B.
  - inversion A as [? Q QQ| | | | | | | | |]. inversion B as [? Q' QQ'| | | | | | | | |]. rewrite upd_rv in QQ, QQ'. congruence.
  - destruct u; inversion A as [| |? p A1|? p A1 A2|? p A1 A2| | | | |]; subst; inversion B as [| |? q B1|? q B1 B2|? q B1 B2| | | | |]; subst.
    + match goal with H : exp _ = exp _ |- _ => apply exp_inv in H; subst end. apply (IH p); auto.
    + match goal with H : ln _ = ln _ |- _ => apply ln_inv in H; auto; subst end. apply (IH p); auto.
    + match goal with H : Rinv _ = Rinv _ |- _ => apply inv_reg in H; subst end. apply (IH p); auto.
  - inversion A as [| | | | |? vs F| | | |]; subst. apply Forall2_app_inv_l in F as (ls & vs' & Fl & Fr & ->). inversion Fr as [|? v ? rs Me Fr']; subst.
    inversion B as [| | | | |? vs F| | | |]; subst. apply Forall2_app_inv_l in F as (ls2 & vs2 & Fl2 & Fr2 & ->). inversion Fr2 as [|? v2 ? rs2 Me2 Fr2']; subst.
    cbn in Ol, Or. assert (ls = ls2) as -> by (eapply nonrandom_sames; [exact Ol| |]; eauto). assert (rs = rs2) as -> by (eapply nonrandom_sames; [exact Or| |]; eauto).
    rewrite !rtotal_mid in *. apply (IH v2); auto. match goal with H : _ + _ = _ + _ |- _ => replace v2 with v by lra end. auto.
  - inversion A as [| | | | | |? vs F| | |]; subst. apply Forall2_app_inv_l in F as (la & vs' & Fl & Fr & ->). inversion Fr as [|? v ? ra Me Fr']; subst.
    inversion B as [| | | | | |? vs F| | |]; subst. apply Forall2_app_inv_l in F as (ls2 & vs2 & Fl2 & Fr2 & ->). inversion Fr2 as [|? v2 ? rs2 Me2 Fr2']; subst.
    cbn in Ol, Or. assert (la = ls) as -> by (eapply nonrandom_sames; [exact Ol| |]; eauto). assert (ra = rs) as -> by (eapply nonrandom_sames; [exact Or| |]; eauto).
    assert (ls2 = ls) as -> by (eapply nonrandom_sames; [exact Ol| |]; eauto). assert (rs2 = rs) as -> by (eapply nonrandom_sames; [exact Or| |]; eauto).
    rewrite !rprod_mid in *. apply (IH v2); auto. match goal with H : _ * _ = _ * _ |- _ => apply Rmult_eq_reg_r in H; [|exact NZ]; rewrite H in Me || rewrite <- H in Me end. exact Me.
  - inversion A as [| | | | | | |? ? v w Ma Mb| |]; subst. inversion B as [| | | | | | |? ? v2 w2 Ma2 Mb2| |]; subst.
    assert (w = w2) as -> by (eapply nonrandom_same; [exact O| |]; eauto). apply (IH v2); auto. now replace v2 with v by lra.
  - inversion A as [| | | | | | |? ? v w Ma Mb| |]; subst. inversion B as [| | | | | | |? ? v2 w2 Ma2 Mb2| |]; subst.
    assert (v = v2) as -> by (eapply nonrandom_same; [exact O| |]; eauto). apply (IH w2); auto. now replace w2 with w by lra.
  - inversion A as [| | | | | | | |? ? v w Ma Mb Nw|]; subst. inversion B as [| | | | | | | |? ? v2 w2 Ma2 Mb2 Nw2|]; subst.
    assert (w = w2) as -> by (eapply nonrandom_same; [exact O| |]; eauto). apply (IH v2); auto. replace v2 with v; auto.
    match goal with H : _ / _ = _ / _ |- _ => apply Rmult_eq_reg_r in H; [auto|now apply Rinv_neq_0_compat] end.
  - inversion A as [| | | | | | | |? ? v w Ma' Mb' Nw|]; subst. inversion B as [| | | | | | | |? ? v2 w2 Ma2 Mb2 Nw2|]; subst.
    assert (v = r) as -> by (eapply nonrandom_same; [exact O| |]; eauto). assert (v2 = r) as -> by (eapply nonrandom_same; [exact O| |]; eauto).
    apply (IH w2); auto. replace w2 with w; auto.
    match goal with H : _ / _ = _ / _ |- _ => apply Rmult_eq_reg_l in H; [|exact Nr]; apply inv_reg in H; auto end.
Qed.
End Nest.

Lemma unsigned_halved : exists dt e m p, dt 0%nat = DUint /\ 0 < p < 1 /\
  a_m (annotate dt (fun _ _ => NaN) e) = Some m /\
  (forall x, means (fun _ _ => NaN) (fun _ => x) e (2 * x)) /\
  denotes (bernoulli_logprob (Fin p) (Fin 1)) p /\
  denotes (nested_logprob (fun _ => bernoulli_logprob (Fin p)) m (Fin (2 * 1))) (p / 2).
Proof.
  exists (fun _ => DUint), (NMany NMul [NRv 0; NCon (Fin 2)]), (MElem (TScale (Fin 2)) (MBase 0)), (1 / 2).
  split; [reflexivity|]. split; [lra|]. split; [reflexivity|].
  assert (B : denotes (bernoulli_logprob (Fin (1 / 2)) (Fin 1)) (1 / 2)).
  { pose proof (bernoulli_mass (1 / 2) 1 ltac:(lra)) as H. exact H. }
  split; [|split; [exact B|]].
  - intros x. replace (2 * x) with (rprod [x; 2]) by (unfold rprod; cbn; ring). apply m_mul.
    apply Forall2_cons; [apply (m_rv _ (fun _ => x) 0%nat)|]. apply Forall2_cons; [apply m_con|apply Forall2_nil].
  - cbn [nested_logprob]. replace (2 * 1) with (1 * 2) by ring. replace (1 / 2 / 2) with (1 / 2 / Rabs 2) by (rewrite Rabs_pos_eq by lra; reflexivity).
    apply (scale_den _ (fun _ => 1 / 2) 2 1); [lra|exact B].
Qed.
