(** Lemmas about the value transforms. *)
From Coq Require Import Reals Lra Lia ZArith List Bool.
From Coquelicot Require Import Coquelicot.
From Verif Require Import XR Special LemInt LemLim LemGamma SpecDist XTac ModelDist ModelVec ModelTrans SpecTrans.
Import ListNotations.
Open Scope R_scope.

(** induction over nested chains *)
Fixpoint tr_ind' (P : tr -> Prop)
  (H0 : forall c, P (TLoc c)) (H1 : forall c, P (TScale c)) (H2 : P TLog) (H3 : P TExp) (H4 : P TRecip)
  (H5 : forall a b, P (TInterval a b)) (H6 : P TLogOdds) (H7 : P TCircular)
  (H8 : forall l, List.Forall P l -> P (TChain l)) (t : tr) : P t :=
  match t with
  | TLoc c => H0 c | TScale c => H1 c | TLog => H2 | TExp => H3 | TRecip => H4
  | TInterval a b => H5 a b | TLogOdds => H6 | TCircular => H7
  | TChain l => H8 l ((fix go l : List.Forall P l := match l with
                       | [] => List.Forall_nil P
                       | t :: l => List.Forall_cons t (tr_ind' P H0 H1 H2 H3 H4 H5 H6 H7 H8 t) (go l) end) l)
  end.

Lemma ln_div a b : 0 < a -> 0 < b -> ln (a / b) = ln a - ln b.
Proof. intros. unfold Rdiv. rewrite ln_mult, ln_Rinv by posi. ring. Qed.
Lemma xrecip_fin x : x <> 0 -> xrecip (Fin x) = Fin (/ x).
Proof. intros. unfold xrecip. rewrite xdiv_fin by auto. f_equal. field. auto. Qed.

(** ** atan2 *)
Lemma atan_tan' x : - (PI/2) < x < PI/2 -> atan (tan x) = x.
Proof. intros H. destruct (atan_bound (tan x)). apply tan_is_inj; try lra. apply tan_atan. Qed.
Lemma atan2_sincos v : - PI < v <= PI -> Ratan2 (sin v) (cos v) = v.
Proof.
  intros H. pose proof PI_RGT_0 as HP. unfold Ratan2. fold (tan v).
  destruct (Rlt_dec v (- (PI/2))) as [A|A].
  { assert (C : cos v < 0). { rewrite <- cos_neg. apply cos_lt_0; lra. }
    assert (S : sin v < 0) by (apply sin_lt_0_var; lra).
    rcase. replace (tan v) with (tan (v + PI)). rewrite atan_tan' by lra. lra.
    unfold tan. rewrite neg_sin, neg_cos. field. lra. }
  destruct (Req_EM_T v (- (PI/2))) as [->|B].
  { rewrite cos_neg, sin_neg, cos_PI2, sin_PI2. rcase. }
  destruct (Rlt_dec v (PI/2)) as [D|D].
  { assert (C : 0 < cos v) by (apply cos_gt_0; lra). destruct (Rlt_dec 0 (cos v)); [|lra]. apply atan_tan'; lra. }
  destruct (Req_EM_T v (PI/2)) as [->|E].
  { rewrite cos_PI2, sin_PI2. rcase. }
  assert (C : cos v < 0) by (apply cos_lt_0; lra).
  assert (S : 0 <= sin v) by (apply sin_ge_0; lra).
  rcase. replace (tan v) with (tan (v - PI)). rewrite atan_tan' by lra. lra.
  unfold tan. replace (sin v) with (- sin (v - PI)) by (rewrite <- neg_sin; f_equal; ring).
  replace (cos v) with (- cos (v - PI)) by (rewrite <- neg_cos; f_equal; ring).
  assert (cos (v - PI) <> 0). { intros E0. replace v with (v - PI + PI) in C by ring. rewrite neg_cos in C. lra. }
  field. auto.
Qed.

Lemma forward_ok t : forall x, tdom t x -> forward t (Fin x) = Val (Fin (tfun t x)).
Proof.
  induction t as [c|c| | | |a b| | |l IH] using tr_ind'; intros x H; cbn [forward tfun]; cbn [tdom] in H.
  - destruct c as [c| | |]; [|destruct H..]. reflexivity.
  - destruct c as [c| | |]; [|destruct H..]. reflexivity.
  - now rewrite xlog_pos.
  - reflexivity.
  - now rewrite xrecip_fin.
  - destruct a as [[a| | |]|], b as [[b| | |]|]; try tauto.
    + rewrite !xsub_fin, !xlog_pos by lra. rewrite xsub_fin, ln_div by lra. reflexivity.
    + rewrite !xsub_fin, !xlog_pos by lra. reflexivity.
    + rewrite !xsub_fin, !xlog_pos by lra. reflexivity.
  - rewrite xsub_fin, xdiv_fin, xlog_pos by (try lra; posi). reflexivity.
  - reflexivity.
  - revert x H. induction IH as [|t l Ht _ IHl]; intros x H; [reflexivity|].
    destruct H as [H1 H2]. rewrite (Ht x H1). cbn [bind]. now apply IHl.
Qed.

Lemma sigmoid_logit u v : 0 < u -> 0 < v -> / (1 + exp (- ln (u / v))) = u / (u + v).
Proof. intros. rewrite exp_Ropp, exp_ln by posi. field. repeat split; lra. Qed.

Lemma backward_ok t : forall x, tdom t x -> backward t (Fin (tfun t x)) = Val (Fin x).
Proof.
  induction t as [c|c| | | |a b| | |l IH] using tr_ind'; intros x H; cbn [backward tfun]; cbn [tdom] in H.
  - destruct c as [c| | |]; [|destruct H..]. rewrite xsub_fin. do 2 f_equal. ring.
  - destruct c as [c| | |]; [|destruct H..]. rewrite xdiv_fin by auto. do 2 f_equal. field. auto.
  - rewrite xexp_fin, exp_ln by auto. reflexivity.
  - rewrite xlog_pos by apply exp_pos. now rewrite ln_exp.
  - rewrite xrecip_fin by (now apply Rinv_neq_0_compat). now rewrite Rinv_inv.
  - destruct a as [[a| | |]|], b as [[b| | |]|]; try tauto.
    + unfold xsigmoid. rewrite sigmoid_logit by lra. rewrite !xmul_fin, !xsub_fin, !xmul_fin, !xadd_fin.
      do 2 f_equal. field. lra.
    + rewrite xexp_fin, exp_ln, xadd_fin by lra. do 2 f_equal. ring.
    + rewrite xexp_fin, exp_ln, xsub_fin by lra. do 2 f_equal. ring.
  - unfold xsigmoid. rewrite sigmoid_logit by lra. do 2 f_equal. field. lra.
  - rewrite atan2_sincos by lra. reflexivity.
  - revert x H. induction IH as [|t l Ht _ IHl]; intros x H; [reflexivity|].
    destruct H as [H1 H2]. cbn [bind]. rewrite (IHl _ H2). cbn [bind]. now apply Ht.
Qed.

Lemma timage_ran t y : timage t y -> tran t y.
Proof.
  destruct t as [[c| | |]|[c| | |]| | | |[[a| | |]|] [[b| | |]|]| | |l]; simpl; try tauto; intros H; unfold tran, tmaps; cbn [tdom tfun].
  - exists (y - c). split; [auto|ring].
  - exists (y / c). split; [auto|field; auto].
  - exists (exp y). split; [apply exp_pos|apply ln_exp].
  - exists (ln y). split; [auto|now apply exp_ln].
  - exists (/ y). split; [now apply Rinv_neq_0_compat|apply Rinv_inv].
  - pose proof (exp_pos y) as E. exists ((a + b * exp y) / (1 + exp y)).
    assert (E1 : (a + b * exp y) / (1 + exp y) - a = (b - a) * exp y / (1 + exp y)) by (field; lra).
    assert (E2 : b - (a + b * exp y) / (1 + exp y) = (b - a) / (1 + exp y)) by (field; lra).
    assert (0 < (b - a) * exp y / (1 + exp y)) by (apply Rdiv_lt_0_compat; [apply Rmult_lt_0_compat; lra|lra]).
    assert (0 < (b - a) / (1 + exp y)) by (apply Rdiv_lt_0_compat; lra).
    split; [lra|]. rewrite E1, E2. replace ((b - a) * exp y / (1 + exp y) / ((b - a) / (1 + exp y))) with (exp y) by (field; lra).
    apply ln_exp.
  - exists (exp y + a). split; [generalize (exp_pos y); lra|]. replace (exp y + a - a) with (exp y) by ring. apply ln_exp.
  - exists (b - exp y). split; [generalize (exp_pos y); lra|]. replace (b - (b - exp y)) with (exp y) by ring. apply ln_exp.
  - pose proof (exp_pos y) as E. exists (exp y / (1 + exp y)).
    assert (E2 : 1 - exp y / (1 + exp y) = 1 / (1 + exp y)) by (field; lra).
    assert (0 < exp y / (1 + exp y)) by (apply Rdiv_lt_0_compat; lra).
    assert (0 < 1 / (1 + exp y)) by (apply Rdiv_lt_0_compat; lra).
    split; [lra|]. rewrite E2. replace (exp y / (1 + exp y) / (1 / (1 + exp y))) with (exp y) by (field; lra). apply ln_exp.
  - exists y. split; [lra|reflexivity].
Qed.
Lemma ran_timage t y : tran t y -> match t with TChain _ => True | _ => timage t y end.
Proof.
  destruct t as [[c| | |]|[c| | |]| | | |[[a| | |]|] [[b| | |]|]| | |l]; unfold tran, tmaps; simpl; try tauto; intros [x [H1 H2]]; subst; try tauto.
  - apply exp_pos. - now apply Rinv_neq_0_compat. - lra.
Qed.
Lemma tfun_inj t x x' : tdom t x -> tdom t x' -> tfun t x = tfun t x' -> x = x'.
Proof.
  intros H H' E. pose proof (backward_ok t x H) as B. rewrite E, (backward_ok t x' H') in B. now inversion B.
Qed.

(** ** Jacobians *)
Lemma near_all f y b : (forall z, f (Fin z) = Val (Fin (b z))) -> computes_near f y b.
Proof. intros H. exists (mkposreal 1 Rlt_0_1). intros z _. apply H. Qed.
Lemma near_pos f (y : R) b : 0 < y -> (forall z, 0 < z -> f (Fin z) = Val (Fin (b z))) -> computes_near f y b.
Proof.
  intros Hy H. exists (mkposreal y Hy). intros z Hz. apply H.
  unfold ball in Hz; simpl in Hz; unfold AbsRing_ball, abs, minus, plus, opp in Hz; simpl in Hz.
  apply Rabs_def2 in Hz. lra.
Qed.
Lemma ln_opp2 y : 0 < y -> ln (Rabs (- / (y * y))) = -2 * ln y.
Proof.
  intros. rewrite Rabs_Ropp, Rabs_pos_eq by (apply Rlt_le; posi). rewrite ln_Rinv, ln_mult by posi. ring.
Qed.
Lemma sig_deriv y : is_derive (fun z => / (1 + exp (- z))) y (exp (- y) / (1 + exp (- y)) ^ 2).
Proof. pose proof (exp_pos (- y)). auto_derive; [lra|]. field. lra. Qed.

Definition jac_ok (t : tr) : Prop := forall x, tdom t x -> tpos t x -> exists b l,
  computes_near (backward t) (tfun t x) b /\ log_jac_det t (Fin (tfun t x)) = Val (Fin l) /\
  log_abs_derivative b (tfun t x) l.

Lemma exp_jac (sg : R) : (sg = 1 \/ sg = -1) -> forall c y, log_abs_derivative (fun z => sg * exp z + c) y y.
Proof.
  intros Hs c y. exists (sg * exp y). pose proof (exp_pos y). split; [auto_derive; [auto|ring]|].
  split. - destruct Hs; subst; lra.
  - rewrite Rabs_mult, (Rabs_pos_eq (exp y)) by lra.
    replace (Rabs sg) with 1 by (destruct Hs; subst; [now rewrite Rabs_R1|rewrite Rabs_left; lra]).
    rewrite Rmult_1_l. now rewrite ln_exp.
Qed.
Lemma lad_ext b b' y l : (forall z, b z = b' z) -> log_abs_derivative b y l -> log_abs_derivative b' y l.
Proof. intros E (d & H & K). exists d. split; auto. now apply (is_derive_ext b). Qed.

Lemma jac_all t : jac_ok t.
Proof.
  induction t as [c|c| | | |a b| | |l IH] using tr_ind'; unfold jac_ok; intros x H HP; cbn [tfun]; cbn [tdom] in H; cbn [tpos] in HP.
  - destruct c as [c| | |]; [|destruct H..]. exists (fun z => z - c), 0. split; [|split].
    + apply near_all. intros; reflexivity.
    + reflexivity.
    + exists 1. split; [auto_derive; [auto|ring]|]. split; [lra|]. now rewrite Rabs_R1, ln_1.
  - destruct c as [c| | |]; [|destruct H..]. exists (fun z => z / c), (- ln (Rabs c)). split; [|split].
    + apply near_all. intros z. cbn [backward]. now rewrite xdiv_fin.
    + cbn [log_jac_det]. rewrite xabs_fin, xlog_pos by (now apply Rabs_pos_lt). reflexivity.
    + exists (/ c). split; [auto_derive; [auto|field; auto]|]. split; [now apply Rinv_neq_0_compat|].
      rewrite Rabs_inv. rewrite ln_Rinv by (now apply Rabs_pos_lt). reflexivity.
  - exists exp, (ln x). split; [apply near_all; reflexivity|split; [reflexivity|]].
    apply (lad_ext (fun z => 1 * exp z + 0)); [intros; ring|]. apply exp_jac. auto.
  - pose proof (exp_pos x) as E. exists ln, (- ln (exp x)). split; [|split].
    + apply near_pos; auto. intros. cbn [backward]. now rewrite xlog_pos.
    + cbn [log_jac_det]. now rewrite xlog_pos.
    + exists (/ exp x). split; [auto_derive; [auto|field; lra]|]. split; [posi|].
      rewrite Rabs_pos_eq by (apply Rlt_le; posi). now rewrite ln_Rinv.
  - assert (Hy : 0 < / x) by posi. exists Rinv, (-2 * ln (/ x)). split; [|split].
    + apply near_pos; auto. intros. cbn [backward]. rewrite xrecip_fin by lra. reflexivity.
    + cbn [log_jac_det]. now rewrite xlog_pos, xmul_fin.
    + exists (- / (/ x * / x)). split; [auto_derive; [lra|field; lra]|]. split; [|now rewrite ln_opp2].
      assert (0 < / (/ x * / x)) by posi. lra.
  - destruct a as [[a| | |]|], b as [[b| | |]|]; try tauto.
    + set (y := ln ((x - a) / (b - x))). pose proof (exp_pos (- y)) as E.
      exists (fun z => / (1 + exp (- z)) * b + (1 - / (1 + exp (- z))) * a), (ln (b - a) - 2 * ln (1 + exp (- y)) - y).
      split; [|split].
      * apply near_all. intros z. reflexivity.
      * cbn [log_jac_det]. rewrite xsub_fin, xlog_pos by lra. reflexivity.
      * exists ((b - a) * (exp (- y) / (1 + exp (- y)) ^ 2)). split; [|split].
        -- auto_derive; [lra|]. field. lra.
        -- assert (0 < (b - a) * (exp (- y) / (1 + exp (- y)) ^ 2)); [|lra].
           apply Rmult_lt_0_compat; [lra|]. apply Rdiv_lt_0_compat; [lra|]. apply pow_lt; lra.
        -- assert (P1 : 0 < (1 + exp (- y)) ^ 2) by (apply pow_lt; lra).
           assert (P2 : 0 < exp (- y) / (1 + exp (- y)) ^ 2) by (apply Rdiv_lt_0_compat; lra).
           rewrite Rabs_pos_eq by (apply Rlt_le, Rmult_lt_0_compat; lra).
           rewrite ln_mult, ln_div, ln_exp by lra.
           replace ((1 + exp (- y)) ^ 2) with ((1 + exp (- y)) * (1 + exp (- y))) by ring.
           rewrite ln_mult by lra. ring.
    + exists (fun z => exp z + a), (ln (x - a)). split; [apply near_all; reflexivity|split; [reflexivity|]].
      apply (lad_ext (fun z => 1 * exp z + a)); [intros; ring|]. apply exp_jac. auto.
    + exists (fun z => b - exp z), (ln (b - x)). split; [apply near_all; reflexivity|split; [reflexivity|]].
      apply (lad_ext (fun z => (-1) * exp z + b)); [intros; ring|]. apply exp_jac. auto.
  - set (y := ln (x / (1 - x))). pose proof (exp_pos (- y)) as E.
    assert (P0 : 0 < / (1 + exp (- y))) by (apply Rinv_0_lt_compat; lra).
    assert (E1 : 1 + - / (1 + exp (- y)) = exp (- y) / (1 + exp (- y))) by (field; lra).
    assert (P2 : 0 < 1 + - / (1 + exp (- y))) by (rewrite E1; apply Rdiv_lt_0_compat; lra).
    exists (fun z => / (1 + exp (- z))), (ln (/ (1 + exp (- y))) + ln (1 + - / (1 + exp (- y)))). split; [|split].
    + apply near_all. reflexivity.
    + cbn [log_jac_det xsigmoid]. rewrite xlog_pos, xneg_fin, xlog1p_fin by lra. reflexivity.
    + exists (/ (1 + exp (- y)) * (1 + - / (1 + exp (- y)))). split; [|split].
      * replace (/ (1 + exp (- y)) * (1 + - / (1 + exp (- y)))) with (exp (- y) / (1 + exp (- y)) ^ 2) by (field; lra). apply sig_deriv.
      * assert (0 < / (1 + exp (- y)) * (1 + - / (1 + exp (- y)))) by (apply Rmult_lt_0_compat; lra). lra.
      * rewrite Rabs_pos_eq by (apply Rlt_le, Rmult_lt_0_compat; lra). rewrite ln_mult by lra. reflexivity.
  - exists (fun z => z), 0. split; [|split].
    + assert (0 < Rmin (PI - x) (x + PI)) as P by (apply Rmin_pos; lra).
      exists (mkposreal _ P). intros z Hz.
      unfold ball in Hz; simpl in Hz; unfold AbsRing_ball, abs, minus, plus, opp in Hz; simpl in Hz.
      apply Rabs_def2 in Hz. generalize (Rmin_l (PI - x) (x + PI)) (Rmin_r (PI - x) (x + PI)); intros.
      cbn [backward]. rewrite atan2_sincos by lra. reflexivity.
    + reflexivity.
    + exists 1. split; [auto_derive; [auto|ring]|]. split; [lra|]. now rewrite Rabs_R1, ln_1.
  - (* chains *)
    assert (G : forall l, List.Forall jac_ok l -> forall x, tdom (TChain l) x -> tpos (TChain l) x -> exists b j,
       computes_near (backward (TChain l)) (tfun (TChain l) x) b /\ b (tfun (TChain l) x) = x /\
       (fix go l v : res (xr * xr) :=
            match l with
            | [] => Val (v, Fin 0)
            | t :: l => bind (go l v) (fun '(w, det) =>
                        bind (log_jac_det t w) (fun d =>
                        bind (backward t w) (fun w' => Val (w', xadd det d))))
            end) l (Fin (tfun (TChain l) x)) = Val (Fin x, Fin j) /\
       log_abs_derivative b (tfun (TChain l) x) j).
    { clear. intros l F. induction F as [|t l Ht _ IHl]; intros x H HP.
      - exists (fun z => z), 0. split; [apply near_all; reflexivity|]. split; [reflexivity|]. split; [reflexivity|].
        exists 1. split; [auto_derive; [auto|ring]|]. split; [lra|]. now rewrite Rabs_R1, ln_1.
      - destruct H as [H1 H2]. destruct HP as [P1 P2].
        destruct (IHl (tfun t x) H2 P2) as (b & j & N & Eb & Ej & D).
        destruct (Ht x H1 P1) as (b1 & j1 & N1 & Ej1 & D1).
        change (tfun (TChain (t :: l)) x) with (tfun (TChain l) (tfun t x)) in *.
        set (y := tfun (TChain l) (tfun t x)) in *.
        destruct D as (d & Dd & Dn & Dj). destruct D1 as (d1 & Dd1 & Dn1 & Dj1).
        exists (fun z => b1 (b z)), (j + j1). split; [|split; [|split]].
        + assert (C : filterlim b (locally y) (locally (b y))).
          { apply (ex_derive_continuous b y). now exists d. }
          rewrite Eb in C. specialize (C _ N1).
          generalize (filter_and _ _ N C). unfold computes_near. apply filter_imp.
          intros z [Z1 Z2]. change (backward (TChain (t :: l)) (Fin z)) with (bind (backward (TChain l) (Fin z)) (backward t)).
          rewrite Z1. exact Z2.
        + rewrite Eb. pose proof (backward_ok t x H1) as B.
          pose proof (locally_singleton _ _ N1) as S. cbv beta in S. rewrite B in S. congruence.
        + rewrite Ej. cbn [bind]. rewrite Ej1. cbn [bind]. rewrite (backward_ok t x H1). reflexivity.
        + exists (d1 * d). split; [|split].
          * rewrite <- Eb in Dd1. replace (d1 * d) with (scal d d1) by (unfold scal; simpl; unfold mult; simpl; ring).
            apply (is_derive_comp b1 b); auto.
          * now apply Rmult_integral_contrapositive_currified.
          * rewrite Rabs_mult, ln_mult by (now apply Rabs_pos_lt). subst. ring. }
    destruct (G l IH x H HP) as (b & j & N & Eb & Ej & D). exists b, j. split; [exact N|]. split; [|exact D].
    cbn [log_jac_det]. 
    change ((fix go (l0 : list tr) (x0 : R) {struct l0} : R := match l0 with [] => x0 | t :: l1 => go l1 (tfun t x0) end) l x) with (tfun (TChain l) x).
    rewrite Ej. reflexivity.
Qed.
Lemma recip_neg_jac y : y < 0 -> log_jac_det TRecip (Fin y) = Val NaN /\
  log_abs_derivative Rinv y (ln (Rabs (- / (y * y)))).
Proof.
  intros. split.
  - cbn [log_jac_det]. rewrite xlog_neg by auto. reflexivity.
  - exists (- / (y * y)). split; [auto_derive; [lra|field; lra]|]. split; auto.
    assert (0 < / (y * y)) by (apply Rinv_0_lt_compat; nra). lra.
Qed.
