(** Lemmas for the limits of transforms. *)
From Coq Require Import Reals Lra Lia ZArith List.
From Coquelicot Require Import Coquelicot.
From Verif Require Import XR ModelDist ModelVec ModelTrans LemTrans2 SpecTransInf.
Open Scope R_scope.

Lemma continues_all (f : xr -> res xr) s b l : (forall y, f (Fin y) = Val (Fin (b y))) -> is_lim b s l -> f (xval s) = Val (xval l) -> continues f s.
Proof. intros H L E. exists b, l. split; [|auto]. destruct s as [r| |]; cbn; [exists posreal_one|exists 0|exists 0]; intros; apply H. Qed.
Lemma lim_oppid_p : is_lim (fun y => - y) p_infty m_infty.
Proof. apply (is_lim_opp (fun y => y) p_infty p_infty), is_lim_id. Qed.
Lemma lim_oppid_m : is_lim (fun y => - y) m_infty p_infty.
Proof. apply (is_lim_opp (fun y => y) m_infty m_infty), is_lim_id. Qed.
Lemma lim_comp_inf (f g : R -> R) x k l : l = p_infty \/ l = m_infty -> is_lim f l k -> is_lim g x l -> is_lim (fun y => f (g y)) x k.
Proof.
  intros Il F G. eapply is_lim_comp; eauto. destruct x as [r| |]; cbn; [exists posreal_one|exists 0|exists 0]; intros; destruct Il; subst; discriminate.
Qed.
Lemma sig_p : is_lim (fun y => / (1 + exp (- y))) p_infty 1.
Proof.
  replace (Finite 1) with (Rbar_inv (Finite 1)) by (cbn; f_equal; field). apply is_lim_inv; [|intros E; injection E; lra].
  replace (Finite 1) with (Finite (1 + 0)) by (f_equal; ring). apply (is_lim_plus' (fun _ => 1) (fun y => exp (- y))); [apply is_lim_const|].
  apply (lim_comp_inf exp (fun y => - y) p_infty 0 m_infty); [auto|apply is_lim_exp_m|apply lim_oppid_p].
Qed.
Lemma sig_m : is_lim (fun y => / (1 + exp (- y))) m_infty 0.
Proof.
  change (Finite 0) with (Rbar_inv p_infty). apply is_lim_inv; [|discriminate].
  apply (is_lim_plus (fun _ => 1) (fun y => exp (- y)) m_infty 1 p_infty p_infty); [apply is_lim_const| |reflexivity].
  apply (lim_comp_inf exp (fun y => - y) m_infty p_infty p_infty); [auto|apply is_lim_exp_p|apply lim_oppid_m].
Qed.
Lemma exp_p : is_lim exp p_infty p_infty. Proof. apply is_lim_exp_p. Qed.
Lemma xexp_inf s : s = p_infty \/ s = m_infty -> exists l, is_lim exp s l /\ xexp (xval s) = xval l /\ (l = p_infty \/ l = Finite 0).
Proof. intros [->| ->]; [exists p_infty|exists (Finite 0)]; (split; [apply is_lim_exp_p || apply is_lim_exp_m|]); cbn; auto. Qed.
Lemma near_inf_pos : Rbar_locally p_infty (fun y => 0 < y).
Proof. exists 0. auto. Qed.
Lemma continues_near (f : xr -> res xr) s b l : Rbar_locally s (fun y => f (Fin y) = Val (Fin (b y))) -> is_lim b s l -> f (xval s) = Val (xval l) -> continues f s.
Proof. intros H L E. exists b, l. auto. Qed.
Lemma lim_aff (f : R -> R) s (l k : R) c : is_lim f s l -> k = l + c -> is_lim (fun y => f y + c) s k.
Proof. intros H ->. apply (is_lim_plus' f (fun _ => c)); [exact H|apply is_lim_const]. Qed.
Lemma lim_addc (f : R -> R) s l c : (l = p_infty \/ l = m_infty) -> is_lim f s l -> is_lim (fun y => f y + c) s l.
Proof. intros [-> | ->] H; eapply is_lim_plus; try exact H; try apply is_lim_const; reflexivity. Qed.
Lemma lim_interval a b s k : is_lim (fun y => / (1 + exp (- y))) s (Finite k) ->
  is_lim (fun y => / (1 + exp (- y)) * b + (1 + - / (1 + exp (- y))) * a) s (Finite (k * b + (1 + - k) * a)).
Proof.
  intros H. apply (is_lim_ext (fun y => (b - a) * / (1 + exp (- y)) + a)); [intros; ring|].
  apply (lim_aff _ s ((b - a) * k)); [|ring]. apply (is_lim_scal_l (fun y => / (1 + exp (- y))) (b - a) s (Finite k) H).
Qed.
Lemma sgn_pos a : 0 < a -> sgn_inf a = PInf. Proof. intros; unfold sgn_inf; destruct (Rlt_dec 0 a); [auto|lra]. Qed.
Lemma sgn_neg a : a < 0 -> sgn_inf a = NInf. Proof. intros; unfold sgn_inf; destruct (Rlt_dec 0 a); [lra|]; destruct (Rlt_dec a 0); [auto|lra]. Qed.
Lemma lim_scaled c s : c <> 0 -> infinite s -> is_lim (fun y => y / c) s (if Rlt_dec 0 c then s else Rbar_opp s).
Proof.
  intros C Is. apply (is_lim_ext (fun y => / c * y)); [intros; field; auto|].
  replace (if Rlt_dec 0 c then s else Rbar_opp s) with (Rbar_mult (/ c) s); [apply (is_lim_scal_l (fun y => y)), is_lim_id|].
  destruct (Rlt_dec 0 c) as [P|P].
  - assert (0 < / c) by (apply Rinv_0_lt_compat; auto). destruct Is as [-> | ->]; cbn; destruct (Rle_dec 0 (/ c)); try (exfalso; lra); destruct (Rle_lt_or_eq_dec 0 (/ c) r); auto; exfalso; lra.
  - assert (/ c < 0) by (apply Rinv_lt_0_compat; lra). destruct Is as [-> | ->]; cbn; destruct (Rle_dec 0 (/ c)); auto; exfalso; lra.
Qed.
Lemma backward_inf t s : infinite s -> reaches t s -> continues (backward t) s.
Proof.
  intros Is Rt. destruct t as [[c| | |]|[c| | |]| | | |[[a| | |]|] [[b| | |]|]| | |l]; cbn in Rt; try contradiction.
  - apply (continues_all _ s (fun y => y + - c) s); [reflexivity|apply (lim_addc (fun y => y)); [auto|apply is_lim_id]|destruct Is; subst; reflexivity].
  - apply (continues_all _ s (fun y => y / c) (if Rlt_dec 0 c then s else Rbar_opp s)); [|now apply lim_scaled|].
    + intros y. cbn. destruct (Req_EM_T c 0); [contradiction|reflexivity].
    + destruct Is; subst; cbn; destruct (Rlt_dec 0 c), (Rle_dec 0 c); auto; exfalso; lra.
  - destruct Is; subst; [apply (continues_all _ _ exp p_infty)|apply (continues_all _ _ exp 0)]; auto using is_lim_exp_p, is_lim_exp_m.
  - subst. apply (continues_near _ _ ln p_infty); [|apply is_lim_ln_p|reflexivity].
    exists 0. intros y Y. cbn. destruct (Rlt_dec 0 y); [reflexivity|lra].
  - apply (continues_near _ s (fun y => 1 / y) 0); [| |destruct Is; subst; reflexivity].
    + destruct Is; subst; exists 0; intros y Y; cbn; destruct (Req_EM_T y 0); try reflexivity; lra.
    + apply (is_lim_ext Rinv); [intros; unfold Rdiv; ring|].
      destruct Is; subst; [change (Finite 0) with (Rbar_inv p_infty)|change (Finite 0) with (Rbar_inv m_infty)]; apply (is_lim_inv (fun y => y)); try apply is_lim_id; discriminate.
  - destruct Is; subst.
    + eapply continues_all; [intros y; cbn; reflexivity|apply (lim_interval a b p_infty 1), sig_p|]. cbn. reflexivity.
    + eapply continues_all; [intros y; cbn; reflexivity|apply (lim_interval a b m_infty 0), sig_m|]. cbn. reflexivity.
  - destruct Is; subst.
    + apply (continues_all _ _ (fun y => exp y + a) p_infty); [reflexivity|apply lim_addc; auto; apply is_lim_exp_p|reflexivity].
    + apply (continues_all _ _ (fun y => exp y + a) (0 + a)); [reflexivity|apply (lim_aff _ _ 0); auto; apply is_lim_exp_m|reflexivity].
  - destruct Is; subst.
    + apply (continues_all _ _ (fun y => b + - exp y) m_infty); [reflexivity| |reflexivity].
      apply (is_lim_ext (fun y => - exp y + b)); [intros; ring|]. apply lim_addc; auto. apply (is_lim_opp exp p_infty p_infty), is_lim_exp_p.
    + apply (continues_all _ _ (fun y => b + - exp y) (b + - 0)); [reflexivity| |reflexivity].
      apply (is_lim_ext (fun y => - exp y + b)); [intros; ring|]. apply (lim_aff _ _ (-0)); [|ring]. apply (is_lim_opp exp m_infty 0), is_lim_exp_m.
  - destruct Is; subst; [apply (continues_all _ _ (fun y => / (1 + exp (- y))) 1)|apply (continues_all _ _ (fun y => / (1 + exp (- y))) 0)]; auto using sig_p, sig_m.
Qed.
(** [forward] of the limit is the infinite value again *)
Lemma forward_inf t s : infinite s -> followed t s -> bind (backward t (xval s)) (forward t) = Val (xval s).
Proof.
  intros Is [Rt Ft]. destruct t as [[c| | |]|[c| | |]| | | |[[a| | |]|] [[b| | |]|]| | |l]; cbn in Rt; try contradiction;
    destruct Is; subst; try discriminate; cbn; try reflexivity; xcase; cbn; try reflexivity; xcase; try lra;
    try (rewrite sgn_pos by lra; reflexivity); try (rewrite sgn_neg by lra; reflexivity); cbn; xcase; try lra; try reflexivity; cbn; try reflexivity;
    try (rewrite sgn_pos by lra); cbn; try reflexivity.
Qed.
Lemma exp_opp_p : is_lim (fun y => exp (- y)) p_infty 0.
Proof. apply (lim_comp_inf exp (fun y => - y) p_infty 0 m_infty); [auto|apply is_lim_exp_m|apply lim_oppid_p]. Qed.
Lemma soft_p : is_lim (fun y => ln (1 + exp (- y))) p_infty 0.
Proof.
  rewrite <- ln_1. apply (is_lim_comp_continuous (fun y => 1 + exp (- y)) ln p_infty 1).
  - apply (is_lim_ext (fun y => exp (- y) + 1)); [intros; ring|]. apply (lim_aff _ _ 0); [apply exp_opp_p|ring].
  - apply continuity_pt_filterlim, derivable_continuous_pt. exists (/ 1). apply derivable_pt_lim_ln. lra.
Qed.
(** a determinant that decreases like [- y] *)
Lemma soft_down c : is_lim (fun y => c + - (2 * ln (1 + exp (- y))) + - y) p_infty m_infty.
Proof.
  apply (is_lim_plus (fun y => c + - (2 * ln (1 + exp (- y)))) (fun y => - y) p_infty (Finite (c + - (2 * 0))) m_infty m_infty); [|apply lim_oppid_p|reflexivity].
  apply (is_lim_plus' (fun _ => c)); [apply is_lim_const|]. apply (is_lim_opp (fun y => 2 * ln (1 + exp (- y))) p_infty (Finite (2 * 0))).
  apply (is_lim_scal_l (fun y => ln (1 + exp (- y))) 2 p_infty (Finite 0)), soft_p.
Qed.
Lemma soft_sym y : ln (1 + exp (- y)) = ln (1 + exp y) - y.
Proof.
  pose proof (exp_pos y). replace (1 + exp (- y)) with ((1 + exp y) * exp (- y)).
  - rewrite ln_mult, ln_exp; [ring|lra|apply exp_pos].
  - rewrite Rmult_plus_distr_r, <- exp_plus. replace (y + - y) with 0 by ring. rewrite exp_0. ring.
Qed.
Lemma soft_up c : is_lim (fun y => c + - (2 * ln (1 + exp (- y))) + - y) m_infty m_infty.
Proof.
  apply (is_lim_ext (fun y => (fun z => c + - (2 * ln (1 + exp (- z))) + - z) (- y))).
  - intros y. cbn beta. rewrite Ropp_involutive, (soft_sym y). ring.
  - apply (lim_comp_inf (fun z => c + - (2 * ln (1 + exp (- z))) + - z) (fun y => - y) m_infty m_infty p_infty); [auto|apply soft_down|apply lim_oppid_m].
Qed.
Lemma odds_det y : log_jac_det TLogOdds (Fin y) = Val (Fin (0 + - (2 * ln (1 + exp (- y))) + - y)).
Proof.
  pose proof (exp_pos (- y)) as E. assert (P : 0 < / (1 + exp (- y))) by (apply Rinv_0_lt_compat; lra).
  assert (Q : 1 + - / (1 + exp (- y)) = exp (- y) * / (1 + exp (- y))) by (field; lra).
  assert (Q' : 0 < 1 + - / (1 + exp (- y))) by (rewrite Q; apply Rmult_lt_0_compat; lra).
  cbn. unfold xlog1p, xlog. cbn. destruct (Rlt_dec 0 (/ (1 + exp (- y)))); [|contradiction]. destruct (Rlt_dec 0 (1 + - / (1 + exp (- y)))); [|contradiction].
  cbn. do 2 f_equal. rewrite Q, ln_mult, ln_exp, ln_Rinv by lra. ring.
Qed.
Lemma interval_det a b y : a < b ->
  log_jac_det (TInterval (Some (Fin a)) (Some (Fin b))) (Fin y) = Val (Fin (ln (b + - a) + - (2 * ln (1 + exp (- y))) + - y)).
Proof. intros H. cbn. unfold xlog. destruct (Rlt_dec 0 (b + - a)); [reflexivity|lra]. Qed.
Lemma jac_inf t s : infinite s -> followed t s -> (forall a b, t = TInterval (Some a) (Some b) -> s = p_infty) -> continues (log_jac_det t) s.
Proof.
  intros Is [Rt Ft] Tt. destruct t as [[c| | |]|[c| | |]| | | |[[a| | |]|] [[b| | |]|]| | |l]; cbn in Rt; try contradiction; subst.
  - apply (continues_all _ s (fun _ => 0) 0); auto using is_lim_const.
  - pose proof (Rabs_pos_lt c Rt) as P.
    apply (continues_all _ s (fun _ => - ln (Rabs c)) (- ln (Rabs c))); try apply is_lim_const; [intros y|]; cbn; destruct (Rlt_dec 0 (Rabs c)); try reflexivity; contradiction.
  - apply (continues_all _ s (fun y => y) s); auto using is_lim_id.
  - apply (continues_near _ _ (fun y => - ln y) m_infty); [|apply (is_lim_opp ln p_infty p_infty), is_lim_ln_p|reflexivity].
    exists 0. intros y Y. cbn. destruct (Rlt_dec 0 y); [reflexivity|contradiction].
  - apply (continues_near _ _ (fun y => -2 * ln y) m_infty); [| |cbn; rewrite sgn_neg by lra; reflexivity].
    + exists 0. intros y Y. cbn. destruct (Rlt_dec 0 y); [reflexivity|contradiction].
    + apply (is_lim_ext (fun y => - (2 * ln y))); [intros; ring|]. apply (is_lim_opp (fun y => 2 * ln y) p_infty p_infty).
      replace p_infty with (Rbar_mult 2 p_infty) at 2; [apply (is_lim_scal_l ln), is_lim_ln_p|].
      cbn. destruct (Rle_dec 0 2); [|exfalso; lra]. destruct (Rle_lt_or_eq_dec 0 2 r); [reflexivity|exfalso; lra].
  - rewrite (Tt _ _ eq_refl). eapply (continues_all _ p_infty _ m_infty); [intros y; now apply interval_det|apply soft_down|].
    cbn. unfold xlog. destruct (Rlt_dec 0 (b + - a)); [reflexivity|exfalso; lra].
  - apply (continues_all _ s (fun y => y) s); auto using is_lim_id.
  - apply (continues_all _ s (fun y => y) s); auto using is_lim_id.
  - apply (continues_all _ s (fun y => 0 + - (2 * ln (1 + exp (- y))) + - y) m_infty); [apply odds_det| |].
    + destruct Is; subst; [apply soft_down|apply soft_up].
    + destruct Is; subst; cbn; unfold xlog1p, xlog; cbn; xcase; cbn; try reflexivity; exfalso; lra.
Qed.
Lemma interval_nan a b : a < b ->
  let t := TInterval (Some (Fin a)) (Some (Fin b)) in
  (exists f, (forall y, log_jac_det t (Fin y) = Val (Fin (f y))) /\ is_lim f m_infty m_infty) /\ log_jac_det t NInf = Val NaN.
Proof.
  intros H t. split.
  - eexists. split; [intros y; now apply interval_det|apply soft_up].
  - cbn. unfold xlog. destruct (Rlt_dec 0 (b + - a)); [|exfalso; lra]. cbn. rewrite sgn_pos by lra. reflexivity.
Qed.
(** ** The circular transform *)
Lemma turn_seq s a : infinite s -> exists y : nat -> Z, is_lim_seq (fun n => a + 2 * IZR (y n) * PI) s.
Proof.
  pose proof PI_RGT_0 as HP.
  assert (P : is_lim_seq (fun n => 2 * PI * INR n) p_infty).
  { replace p_infty with (Rbar_mult (2 * PI) p_infty); [apply (is_lim_seq_scal_l INR (2 * PI) p_infty), is_lim_seq_INR|]. cbn. destruct (Rle_dec 0 (2 * PI)) as [H|H]; [|lra]. destruct (Rle_lt_or_eq_dec 0 (2 * PI) H); [reflexivity|lra]. }
  intros [->| ->].
  - exists (fun n => Z.of_nat n). apply (is_lim_seq_ext (fun n => a + 2 * PI * INR n)); [intros n; rewrite <- INR_IZR_INZ; ring|].
    eapply is_lim_seq_plus; [apply is_lim_seq_const|exact P|reflexivity].
  - exists (fun n => (- Z.of_nat n)%Z). apply (is_lim_seq_ext (fun n => a + - (2 * PI * INR n))); [intros n; rewrite opp_IZR, <- INR_IZR_INZ; ring|].
    eapply is_lim_seq_plus; [apply is_lim_seq_const|apply is_lim_seq_opp in P; exact P|reflexivity].
Qed.
Lemma turn_back w k : - PI < w <= PI -> backward TCircular (Fin (w + 2 * IZR k * PI)) = Val (Fin w).
Proof.
  intros H. destruct (circular_ok (w + 2 * IZR k * PI)) as (w' & k' & H' & E & ->). pose proof PI_RGT_0.
  assert (Z1 : w - w' = 2 * IZR (k' - k) * PI) by (rewrite minus_IZR; lra).
  assert (k' - k = 0)%Z as Q.
  { assert (IZR (k' - k) < 1) by nra. assert (-1 < IZR (k' - k)) by nra. apply lt_IZR in H1. apply (lt_IZR (-1)) in H2. lia. }
  rewrite Q in Z1. do 2 f_equal. lra.
Qed.
Lemma circular_inf s : infinite s -> backward TCircular (xval s) = Val NaN /\
  forall b l, Rbar_locally s (fun y => backward TCircular (Fin y) = Val (Fin (b y))) -> ~ is_lim b s l.
Proof.
  intros I. split; [destruct I as [->| ->]; reflexivity|]. intros b l B L.
  assert (K : forall a, - PI < a <= PI -> l = Finite a).
  { intros a Ha. destruct (turn_seq s a I) as (y & Y). assert (NE : Rbar_locally' s = Rbar_locally s) by (destruct I as [->| ->]; reflexivity).
    assert (C : is_lim_seq (fun n => b (a + 2 * IZR (y n) * PI)) l).
    { apply (is_lim_comp_seq b (fun n => a + 2 * IZR (y n) * PI) s l); auto. destruct I as [->| ->]; exists 0%nat; intros; discriminate. }
    assert (Z : is_lim_seq (fun n => b (a + 2 * IZR (y n) * PI)) a).
    { apply (is_lim_seq_ext_loc (fun _ => a)); [|apply is_lim_seq_const]. specialize (Y _ B). destruct Y as [N Y]. exists N. intros n Hn. specialize (Y n Hn). rewrite turn_back in Y by auto. now injection Y. }
    rewrite <- (is_lim_seq_unique _ _ C). now apply is_lim_seq_unique. }
  pose proof PI2_1. pose proof (K 0 ltac:(lra)) as A1. pose proof (K 1 ltac:(lra)) as A2. rewrite A1 in A2. injection A2. lra.
Qed.
