(** Values that no draw attains get no density. *)
From Coq Require Import Reals Lra Lia ZArith List Bool Arith FunctionalExtensionality.
From Coquelicot Require Import Coquelicot.
From Verif Require Import XR Special XTac SpecDist ModelDist ModelVec SpecVec ModelTrans LemTrans LemTrans2 ModelJoint ModelNest SpecNest LemNest LemDisc LemNest2 LemNest3
  LemSound.
Import ListNotations.
Open Scope R_scope.

Section Reach.
Variable dt : nat -> dtype.
Variable fs : nat -> list xr -> xr.
Notation annotate := (annotate dt fs).
Notation means := (means fs).
Variables (rho : nat -> R) (i : nat) (lps : nat -> xr -> res xr).
Definition reached (e : nexpr) (y : R) : Prop :=
  exists m, a_m (annotate e) = Some m /\ mbase m = i /\ ((exists x, means (upd rho i x) e y) \/ poisoned (nested_logprob lps m (Fin y))).
Lemma exp_poison lp (y : R) : ~ 0 < y -> poisoned (elemwise_logprob TExp lp (Fin y)).
Proof.
  intros L. destruct (Req_dec y 0) as [->|N].
  - apply (poison_new _ _ _ PInf); [|now left]. cbn [log_jac_det]. now rewrite xlog_zero.
  - apply (poison_new _ _ _ NaN); [|now right]. cbn [log_jac_det]. now rewrite xlog_neg by lra.
Qed.
Lemma recip_poison0 lp (y : R) : ~ 0 < y -> poisoned (elemwise_logprob TRecip lp (Fin y)).
Proof.
  intros L. destruct (Req_dec y 0) as [->|N].
  - apply (poison_new _ _ _ PInf); [|now left]. cbn [log_jac_det]. rewrite xlog_zero. cbn [xmul]. unfold sgn_inf. destruct (Rlt_dec 0 (-2)) as [L0|L0]; [exfalso; lra|]. destruct (Rlt_dec (-2) 0) as [L1|L1]; [reflexivity|exfalso; lra].
  - apply (poison_new _ _ _ NaN); [|now right]. cbn [log_jac_det]. now rewrite xlog_neg by lra.
Qed.

Lemma scale_poison lp (y c : R) : (c <> 0 -> poisoned (lp (Fin (y / c)))) -> poisoned (elemwise_logprob (TScale (Fin c)) lp (Fin y)).
Proof.
  intros Q. destruct (Req_dec c 0) as [->|N].
  - apply (poison_new _ _ _ PInf); [|now left]. cbn [log_jac_det]. cbn [xabs]. rewrite Rabs_R0. now rewrite xlog_zero.
  - apply (poison_scale _ (y / c)); auto. now field.
Qed.
Lemma loc_poison lp (y c : R) : poisoned (lp (Fin (y - c))) -> poisoned (elemwise_logprob (TLoc (Fin c)) lp (Fin y)).
Proof. intros P. apply (poison_loc _ (y - c)); auto. ring. Qed.
Lemma chain_reached e : dt i <> DInt -> chain i e -> (exists y0, means rho e y0) -> forall y, reached e y.
Proof.
  intros D C. induction C as [|u e C IH|n l e r C IH Ol Or N|a b C IH O|a b C IH O|a b C IH O|a b C IH O]; intros [y0 M0] y; unfold reached;
    cbn [ModelNest.annotate rw_unary rw_nary rw_sub rw_div a_m].
  - exists (MBase i). repeat split. left. exists y. pose proof (m_rv fs (upd rho i y) i) as Q. unfold upd in Q at 2. now rewrite Nat.eqb_refl in Q.
  - destruct (one_means fs rho u e y0 M0) as [r M]. specialize (IH (ex_intro _ r M)).
    assert (Cn : forall m, a_m (annotate e) = Some m -> mbase m = i -> construct dt [annotate e] (fun _ => Some (tr_unary u)) = Some (MElem (tr_unary u) m))
      by (intros m E B; rewrite (construct_1 dt _ m) by (auto; eapply starts_base; eauto); reflexivity).
    destruct u; cbn [tr_unary] in *.
    + destruct (Rlt_dec 0 y) as [L|L].
      * destruct (IH (ln y)) as (m & E & B & Q). rewrite (Cn m E B). eexists; repeat split; [exact B|]. destruct Q as [[x Q]|P]; [left|right].
        -- exists x. rewrite <- (exp_ln y L). now constructor.
        -- cbn [nested_logprob]. apply (poison_keep _ _ (ln y)); auto. cbn [backward]. now rewrite xlog_pos.
      * destruct (IH 0) as (m & E & B & _). rewrite (Cn m E B). eexists; repeat split; [exact B|]. right. now apply exp_poison.
    + destruct (IH (exp y)) as (m & E & B & Q). rewrite (Cn m E B). eexists; repeat split; [exact B|]. destruct Q as [[x Q]|P]; [left|right].
      * exists x. rewrite <- (ln_exp y). constructor; [exact Q|apply exp_pos].
      * cbn [nested_logprob]. apply (poison_keep _ _ (exp y)); auto.
    + destruct (Rlt_dec 0 y) as [L|L].
      * destruct (IH (/ y)) as (m & E & B & Q). rewrite (Cn m E B). eexists; repeat split; [exact B|]. destruct Q as [[x Q]|P]; [left|right].
        -- exists x. rewrite <- (Rinv_involutive y) by lra. constructor; [exact Q|]. apply Rinv_neq_0_compat. lra.
        -- cbn [nested_logprob]. apply (poison_keep _ _ (/ y)); auto. cbn [backward]. rewrite xrecip_fin by lra. reflexivity.
      * destruct (IH 0) as (m & E & B & _). rewrite (Cn m E B). eexists; repeat split; [exact B|]. right. now apply recip_poison0.
  - assert (S : exists ls v rs, Forall2 (means rho) l ls /\ means rho e v /\ Forall2 (means rho) r rs).
    { destruct n; inversion M0 as [| | | | |? vs F|? vs F| | |]; subst; apply Forall2_app_inv_l in F as (ls & vs' & Fl & Fr & ->); inversion Fr as [|? v ? rs Me Fr']; subst; exists ls, v, rs; auto. }
    destruct S as (ls & v & rs & Fl & Me & Fr). specialize (IH (ex_intro _ v Me)). cbn in Ol, Or.
    assert (Cn : forall m, a_m (annotate e) = Some m -> mbase m = i -> construct dt (map annotate (l ++ e :: r)) (tr_nary n) =
      Some (MElem (match n with NAdd => TLoc (Fin (rtotal (ls ++ rs))) | NMul => TScale (Fin (rprod (ls ++ rs))) end) m)).
    { intros m E B. rewrite map_app. cbn [map]. rewrite (construct_mid dt _ _ _ m) by (auto; try (now apply plain_map); eapply starts_base; eauto).
      rewrite map_app, (vals_plain dt fs rho l ls), (vals_plain dt fs rho r rs), <- map_app by auto.
      unfold tr_nary. rewrite fold_others_fin; [now destruct n|].
      intros Z. apply N. apply app_eq_nil in Z as [-> ->]. inversion Fl; inversion Fr; reflexivity. }
    assert (Fx : forall x z, means (upd rho i x) e z -> Forall2 (means (upd rho i x)) (l ++ e :: r) (ls ++ z :: rs)).
    { intros x z Q. apply Forall2_app; [now apply (means_indeps fs rho)|]. constructor; auto. now apply (means_indeps fs rho). }
    destruct n.
    + destruct (IH (y - rtotal (ls ++ rs))) as (m & E & B & Q). rewrite (Cn m E B). eexists; repeat split; [exact B|]. destruct Q as [[x Q]|P]; [left|right; now apply loc_poison].
      exists x. replace y with (rtotal (ls ++ (y - rtotal (ls ++ rs)) :: rs)) by (rewrite rtotal_mid; ring). constructor. auto.
    + destruct (IH (y / rprod (ls ++ rs))) as (m & E & B & Q). rewrite (Cn m E B). eexists; repeat split; [exact B|]. destruct (Req_dec (rprod (ls ++ rs)) 0) as [Z|NZ]; [right; now apply scale_poison|].
      destruct Q as [[x Q]|P]; [left|right; now apply scale_poison].
      exists x. replace y with (rprod (ls ++ (y / rprod (ls ++ rs)) :: rs)) by (rewrite rprod_mid, <- rprod_app; now field). constructor. auto.
  - inversion M0 as [| | | | | | |? ? v w Ma Mb| |]; subst. destruct (IH (ex_intro _ v Ma) (y + w)) as (m & E & B & Q).
    rewrite (construct_l dt _ _ m); auto; [|now apply neg_plain|eapply starts_base; eauto].
    cbn [rw_nary a_val map con]. rewrite (means_plain dt fs rho b w O Mb). change [Fin (-1); Fin w] with (map Fin [-1; w]). rewrite nary_fin.
    unfold tr_nary. cbn [fold_others].
    eexists; repeat split; [exact B|]. cbn [nested_logprob]. destruct Q as [[x Q]|P]; [left|right].
    + exists x. replace y with (y + w - w) by ring. constructor; auto. now apply (means_indep fs rho).
    + apply (poison_loc _ (y + w)); [unfold rfold, rprod; cbn; ring|exact P].
  - inversion M0 as [| | | | | | |? ? v w Ma Mb| |]; subst. destruct (IH (ex_intro _ w Mb) (v - y)) as (m & E & B & Q).
    rewrite (construct_r dt _ _ (MElem (TScale (Fin (-1))) m)); auto; [|now apply ann_plain|].
    2: { cbn [rw_nary a_m]. rewrite (construct_r dt _ _ m); auto; [apply con_plain|eapply starts_base; eauto]. }
    rewrite (means_plain dt fs rho a v O Ma). unfold tr_nary. cbn [fold_others].
    eexists; repeat split; [exact B|]. cbn [nested_logprob]. destruct Q as [[x Q]|P]; [left|right].
    + exists x. replace y with (v - (v - y)) by ring. constructor; auto. now apply (means_indep fs rho).
    + apply (poison_loc _ (y - v)); [ring|]. apply (poison_scale _ (v - y)); [ring|auto].
  - inversion M0 as [| | | | | | | |? ? v w Ma Mb Nw|]; subst. destruct (IH (ex_intro _ v Ma) (y * w)) as (m & E & B & Q).
    rewrite (construct_l dt _ _ m); auto; [|now apply inv_plain|eapply starts_base; eauto].
    cbn [rw_unary a_val]. rewrite (means_plain dt fs rho b w O Mb). cbn [un_val]. rewrite xrecip_fin by auto. unfold tr_nary. cbn [fold_others].
    eexists; repeat split; [exact B|]. cbn [nested_logprob]. destruct Q as [[x Q]|P]; [left|right].
    + exists x. replace y with (y * w / w) by (now field). constructor; auto. now apply (means_indep fs rho).
    + apply (poison_scale _ (y * w)); auto. now field.
  - inversion M0 as [| | | | | | | |? ? v w Ma Mb Nw|]; subst. specialize (IH (ex_intro _ w Mb)).
    assert (Cn : forall m, a_m (annotate b) = Some m -> mbase m = i -> construct dt [annotate a; rw_unary dt URecip (annotate b)] (tr_nary NMul) = Some (MElem (TScale (Fin v)) (MElem TRecip m))).
    { intros m E B. rewrite (construct_r dt _ _ (MElem TRecip m)); auto; [|now apply ann_plain|].
      2: { cbn [rw_unary a_m]. rewrite (construct_1 dt _ m); auto. eapply starts_base; eauto. }
      rewrite (means_plain dt fs rho a v O Ma). reflexivity. }
    destruct (Req_dec v 0) as [Z|NZ]; [|destruct (Rlt_dec 0 (y / v)) as [L|L]].
    + destruct (IH 0) as (m & E & B & _). specialize (Cn m E B). cbn [rw_unary] in Cn. rewrite Cn. eexists; repeat split; [exact B|]. right. now apply scale_poison.
    + assert (Ny : y <> 0) by (intros ->; unfold Rdiv in L; rewrite Rmult_0_l in L; lra).
      destruct (IH (v / y)) as (m & E & B & Q). specialize (Cn m E B). cbn [rw_unary] in Cn. rewrite Cn. eexists; repeat split; [exact B|]. destruct Q as [[x Q]|P]; [left|right].
      * exists x. replace y with (v / (v / y)) by (field; auto). constructor; [now apply (means_indep fs rho)|exact Q|]. apply Rmult_integral_contrapositive_currified; [exact NZ|now apply Rinv_neq_0_compat].
      * apply scale_poison. intros _. apply (poison_keep _ _ (v / y)); [|exact P]. cbn [backward]. rewrite xrecip_fin by lra. do 2 f_equal. field. auto.
    + destruct (IH 0) as (m & E & B & _). specialize (Cn m E B). cbn [rw_unary] in Cn. rewrite Cn. eexists; repeat split; [exact B|]. right. apply scale_poison. intros _. now apply recip_poison0.
Qed.
End Reach.

Lemma nested_attained dt fs rho lps e m y0 y d : a_m (annotate dt fs e) = Some m -> means fs rho e y0 -> denotes (nested_logprob lps m (Fin y)) d ->
  exists x, means fs (upd rho (mbase m) x) e y.
Proof.
  intros E M Den. destruct (accepted_chain dt fs e m E) as [C [Dt|Er]].
  - destruct (chain_reached dt fs rho (mbase m) lps e Dt C (ex_intro _ y0 M) y) as (m' & E' & _ & Q). rewrite E in E'. injection E' as <-.
    destruct Q as [G|P]; [exact G|]. now apply poisoned_den with (d := d) in P.
  - exists y. rewrite Er. pose proof (m_rv fs (upd rho (mbase m) y) (mbase m)) as Q. unfold upd in Q at 2. now rewrite Nat.eqb_refl in Q.
Qed.
Lemma density_upd fs rho e i f x y d : density_of fs (upd rho i x) e i f x y d -> density_of fs rho e i f x y d.
Proof.
  intros (g & g' & L & Q). exists g, g'. split; [|exact Q]. revert L. apply filter_imp. intros t.
  replace (upd (upd rho i x) i t) with (upd rho i t); [auto|]. apply functional_extensionality. intros j. unfold upd. now destruct (Nat.eqb j i).
Qed.
Lemma upd_same rho i x : upd rho i x i = x. Proof. unfold upd. now rewrite Nat.eqb_refl. Qed.
(** a result that denotes something is the density at the only draw that attains the value *)
Lemma nested_right dt fs rho lps f e m y0 : a_m (annotate dt fs e) = Some m -> means fs rho e y0 -> (forall x, denotes (lps (mbase m) (Fin x)) (f x)) ->
  forall y d, denotes (nested_logprob lps m (Fin y)) d ->
  exists x, means fs (upd rho (mbase m) x) e y /\ (forall x', means fs (upd rho (mbase m) x') e y -> x' = x) /\ density_of fs rho e (mbase m) f x y d.
Proof.
  intros E M L y d Den. destruct (nested_attained dt fs rho lps e m y0 y d E M Den) as [x X]. exists x. split; [exact X|].
  split.
  - intros x' X'. apply (nested_inj fs rho (mbase m) x' x e y); auto. exact (nested_exact dt fs _ lps e m y E X d Den).
  - apply density_upd. pose proof (nested_sound dt fs (upd rho (mbase m) x) lps f e m y E X) as N. rewrite upd_same in N. exact (N (L x) d Den).
Qed.
Lemma nested_when dt fs rho lps f e m y0 : a_m (annotate dt fs e) = Some m -> means fs rho e y0 -> (forall x, denotes (lps (mbase m) (Fin x)) (f x)) ->
  forall y, (exists d, denotes (nested_logprob lps m (Fin y)) d) <->
  exists x, means fs (upd rho (mbase m) x) e y /\ regular fs (upd rho (mbase m) x) (mbase m) e.
Proof.
  intros E M L y. split.
  - intros [d Den]. destruct (nested_attained dt fs rho lps e m y0 y d E M Den) as [x X]. exists x. split; [exact X|]. exact (nested_exact dt fs _ lps e m y E X d Den).
  - intros (x & X & G). destruct (accepted_chain dt fs e m E) as [C [Dt|Er]].
    + pose proof (nested_density dt fs (upd rho (mbase m) x) (mbase m) lps f e y Dt) as N. rewrite upd_same in N. destruct (N (L x) G X) as (m' & d & E' & _ & D).
      rewrite E in E'. injection E' as <-. eauto.
    + rewrite Er in E. cbn in E. injection E as E. rewrite <- E. eexists. apply L.
Qed.
