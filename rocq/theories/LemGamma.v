(** Euler's Gamma and Beta integrals: existence, recurrences, the relation
    between them (through the Bohr-Mollerup characterisation) and Gamma(1/2). *)
From Coq Require Import Reals Lra Lia Classical.
From Coquelicot Require Import Coquelicot.
From Verif Require Import XR Special LemInt LemLim.
Open Scope R_scope.

Ltac flim_tc := try match goal with |- Filter _ => typeclasses eauto end.
Tactic Notation "flim" uconstr(l) := apply l; flim_tc.

Lemma inside_0p x : inside 0 p_infty x <-> 0 < x.
Proof. unfold inside; simpl; tauto. Qed.
Lemma inside_fin (a b : R) x : inside a b x <-> a < x < b.
Proof. unfold inside; simpl; tauto. Qed.
Lemma inside_cp (c : R) x : inside c p_infty x <-> c < x.
Proof. unfold inside; simpl; tauto. Qed.
Lemma inside_mc (c : R) x : inside m_infty c x <-> x < c.
Proof. unfold inside; simpl; tauto. Qed.
Lemma inside_all x : inside m_infty p_infty x.
Proof. unfold inside; simpl; tauto. Qed.

(** ** Gamma *)
Lemma gam_f_pos a t : 0 < gam_f a t.
Proof. apply Rmult_lt_0_compat; [apply Rpower_pos|apply exp_pos]. Qed.
Lemma gam_f_cont a t : 0 < t -> continuous (gam_f a) t.
Proof.
  intros H. unfold gam_f. apply (continuous_mult (fun t => Rpower t (a-1)) (fun t => exp (- t))).
  - now apply cont_Rpower.
  - apply deriv_cont. auto_derive; auto.
Qed.

Definition gam_C (a : R) : R := let k := Rabs (a - 1) + 1 in exp (k * (ln (2 * k) - 1)).
Lemma gam_f_bound a t : 1 <= t -> gam_f a t <= gam_C a * exp (- t / 2).
Proof.
  intros Ht. unfold gam_f, gam_C, Rpower. set (k := Rabs (a - 1) + 1).
  assert (Hk : 1 <= k) by (unfold k; generalize (Rabs_pos (a-1)); lra).
  rewrite <- !exp_plus. apply exp_mono.
  assert (Hln : 0 <= ln t). { rewrite <- ln_1. apply ln_mono; lra. }
  assert (H1 : (a - 1) * ln t <= k * ln t).
  { apply Rmult_le_compat_r; auto. unfold k. generalize (Rle_abs (a - 1)); lra. }
  assert (H2 : ln t <= t / (2 * k) - 1 + ln (2 * k)).
  { assert (H := ln_le_sub1 (t / (2 * k)) ltac:(apply Rdiv_lt_0_compat; lra)).
    unfold Rdiv in H. assert (0 < / (2 * k)) by (apply Rinv_0_lt_compat; lra).
    rewrite ln_mult, ln_Rinv in H by lra. unfold Rdiv. lra. }
  assert (H3 : k * ln t <= k * (t / (2 * k) - 1 + ln (2 * k))) by (apply Rmult_le_compat_l; lra).
  replace (k * (t / (2 * k) - 1 + ln (2 * k))) with (t / 2 + k * (ln (2 * k) - 1)) in H3 by (field; lra).
  lra.
Qed.

Lemma prim_exp_tail C : prim (fun t => C * exp (- t / 2)) 1 p_infty (0 - (C * (-2 * exp (- 1 / 2)))).
Proof.
  apply (prim_lim _ (fun t => C * (-2 * exp (- t / 2)))); simpl; auto.
  - intros x Hx. auto_derive; auto. unfold Rdiv; field.
  - intros x Hx. apply deriv_cont. auto_derive; auto.
  - apply cont_Fr; auto. apply deriv_cont. auto_derive; auto.
  - apply (lim_eq (C * (-2 * 0))); [ring|]. flim lim_scal.
    flim lim_scal. flim lim_exp_m.
    apply (filterlim_ext (fun x => - (/2 * x))). { intros; field. }
    flim lim_opp_p. flim lim_scal_p; [lra|apply lim_id_p].
Qed.

Lemma prim_pow01 a : 0 < a -> prim (fun t => Rpower t (a - 1)) 0 1 (/ a - 0).
Proof.
  intros Ha. apply (prim_lim _ (fun t => / a * Rpower t a)); simpl; auto; try lra.
  - intros x [Hx _]; simpl in Hx. replace (Rpower x (a - 1)) with (/ a * (a * Rpower x (a - 1))) by (field; lra).
    apply is_derive_scal. now apply is_derive_Rpower.
  - intros x [Hx _]; simpl in Hx. now apply cont_Rpower.
  - apply (lim_eq (/ a * 0)); [ring|]. flim lim_scal.
    flim lim_Rpower_0; auto. apply filterlim_id.
  - apply cont_Fl.
    + apply (continuous_scal_r (/ a) (fun t => Rpower t a)). apply cont_Rpower; lra.
    + rewrite Rpower_1_base; ring.
Qed.

Lemma Gam_ex a : 0 < a -> exists l, prim (gam_f a) 0 p_infty l.
Proof.
  intros Ha.
  destruct (prim_compare (gam_f a) (fun t => Rpower t (a - 1)) 0 1 _ (prim_pow01 a Ha)) as (l1 & H1 & _).
  - intros x [Hx _]; now apply gam_f_cont.
  - intros x [Hx _]; simpl in Hx. split; [left; apply gam_f_pos|]. unfold gam_f.
    rewrite <- (Rmult_1_r (Rpower x (a - 1))) at 2. apply Rmult_le_compat_l; [left; apply Rpower_pos|].
    rewrite <- exp_0. apply exp_mono; lra.
  - destruct (prim_compare (gam_f a) _ 1 p_infty _ (prim_exp_tail (gam_C a))) as (l2 & H2 & _).
    + intros x [Hx _]; simpl in Hx. apply gam_f_cont; lra.
    + intros x [Hx _]; simpl in Hx. split; [left; apply gam_f_pos|]. apply gam_f_bound; lra.
    + exists (l1 + l2). apply (prim_split _ _ _ 1); auto.
      * split; simpl; auto; lra.
      * apply gam_f_cont; lra.
Qed.

Lemma Gam_prim a : 0 < a -> prim (gam_f a) 0 p_infty (Gam a).
Proof.
  intros Ha. destruct (Gam_ex a Ha) as [l Hl]. assert (H := prim_RInt_gen _ _ _ _ Hl).
  unfold Gam. simpl in H. rewrite (is_RInt_gen_unique (V:=R_CompleteNormedModule) _ _ H). exact Hl.
Qed.
Lemma Gam_pos a : 0 < a -> 0 < Gam a.
Proof. intros Ha. apply (prim_pos _ _ _ _ (Gam_prim a Ha)). intros; apply gam_f_pos. Qed.

Lemma Gam_boundary_inf a : filterlim (fun t => Rpower t a * exp (- t)) (Rbar_locally p_infty) (locally 0).
Proof.
  flim (squeeze0 _ _ (fun t => gam_C (a + 1) * exp (- t / 2))).
  - exists 1. intros t Ht. rewrite Rabs_pos_eq.
    + assert (H := gam_f_bound (a + 1) t ltac:(lra)). unfold gam_f in H.
      now replace (a + 1 - 1) with a in H by ring.
    + left. apply Rmult_lt_0_compat; [apply Rpower_pos|apply exp_pos].
  - apply (lim_eq (gam_C (a + 1) * 0)); [ring|]. flim lim_scal.
    flim lim_exp_m.
    apply (filterlim_ext (fun x => - (/2 * x))). { intros; field. }
    flim lim_opp_p. flim lim_scal_p; [lra|apply lim_id_p].
Qed.
Lemma Gam_boundary_deriv a t : 0 < t ->
  is_derive (fun t => - (Rpower t a * exp (- t))) t (gam_f (a + 1) t - a * gam_f a t).
Proof.
  intros Ht. unfold gam_f. replace (a + 1 - 1) with a by ring.
  replace (Rpower t a * exp (- t) - a * (Rpower t (a - 1) * exp (- t)))
    with (- ((a * Rpower t (a - 1)) * exp (- t) + Rpower t a * (- exp (- t)))) by ring.
  apply @is_derive_opp.
  apply (is_derive_mult (fun t => Rpower t a) (fun t => exp (- t))).
  - now apply is_derive_Rpower.
  - auto_derive; auto. ring.
  - intros; apply Rmult_comm.
Qed.

Lemma Gam_succ a : 0 < a -> Gam (a + 1) = a * Gam a.
Proof.
  intros Ha.
  assert (H1 : prim (fun t => gam_f (a + 1) t + - a * gam_f a t) 0 p_infty (Gam (a + 1) + - a * Gam a)).
  { apply prim_plus; [apply Gam_prim; lra|]. apply prim_scal. now apply Gam_prim. }
  assert (H2 : prim (fun t => gam_f (a + 1) t + - a * gam_f a t) 0 p_infty (0 - 0)).
  { apply (prim_lim _ (fun t => - (Rpower t a * exp (- t)))); simpl; auto.
    - intros x [Hx _]; simpl in Hx.
      replace (gam_f (a + 1) x + - a * gam_f a x) with (gam_f (a + 1) x - a * gam_f a x) by ring.
      now apply Gam_boundary_deriv.
    - intros x Hx. apply (prim_cont _ _ _ _ x H1 Hx).
    - apply (lim_eq (- (0 * exp (- 0)))); [ring|]. flim lim_opp.
      flim lim_mult.
      + flim lim_Rpower_0; auto. apply filterlim_id.
      + apply cont_Fr; auto. apply deriv_cont. auto_derive; auto.
    - apply (lim_eq (- 0)); [ring|]. flim lim_opp.
      apply Gam_boundary_inf. }
  assert (H := prim_unique _ _ _ _ _ H1 H2). lra.
Qed.

Lemma Gam_1 : Gam 1 = 1.
Proof.
  assert (H : prim (gam_f 1) 0 p_infty (0 - (- 1))).
  { apply (prim_ext (fun t => exp (- t))).
    { intros x [Hx _]; simpl in Hx. unfold gam_f. rewrite Rminus_eq_0, Rpower_O by auto. ring. }
    apply (prim_lim _ (fun t => - exp (- t))); simpl; auto.
    - intros x Hx. auto_derive; auto. ring.
    - intros x Hx. apply deriv_cont. auto_derive; auto.
    - apply cont_Fr; [|rewrite Ropp_0, exp_0; ring]. apply deriv_cont. auto_derive; auto.
    - apply (lim_eq (- 0)); [ring|]. flim lim_opp.
      flim lim_exp_m. flim lim_opp_p; [apply lim_id_p]. }
  rewrite (prim_unique _ _ _ _ _ (Gam_prim 1 Rlt_0_1) H). ring.
Qed.

Lemma Gam_fact n : Gam (INR n + 1) = INR (fact n).
Proof.
  induction n.
  - simpl. rewrite Rplus_0_l. apply Gam_1.
  - rewrite S_INR. rewrite Gam_succ by (generalize (pos_INR n); lra). rewrite IHn.
    rewrite fact_simpl, mult_INR, S_INR. reflexivity.
Qed.

(** Log-convexity by Young's inequality. *)
Lemma young x y l : 0 < x -> 0 < y -> 0 <= l <= 1 ->
  Rpower x l * Rpower y (1 - l) <= l * x + (1 - l) * y.
Proof.
  intros Hx Hy Hl.
  assert (Hm : 0 < l * x + (1 - l) * y).
  { destruct (Req_dec l 0) as [->|]; [lra|].
    apply Rplus_lt_le_0_compat; [apply Rmult_lt_0_compat; lra|apply Rmult_le_pos; lra]. }
  set (m := l * x + (1 - l) * y) in *.
  assert (H1 := ln_le_sub1 (x / m) ltac:(apply Rdiv_lt_0_compat; lra)).
  assert (H2 := ln_le_sub1 (y / m) ltac:(apply Rdiv_lt_0_compat; lra)).
  unfold Rdiv in H1, H2. rewrite ln_mult, ln_Rinv in H1, H2; auto using Rinv_0_lt_compat.
  assert (H3 : l * ln x + (1 - l) * ln y <= ln m).
  { assert (l * (ln x + - ln m) <= l * (x * / m - 1)) by (apply Rmult_le_compat_l; lra).
    assert ((1 - l) * (ln y + - ln m) <= (1 - l) * (y * / m - 1)) by (apply Rmult_le_compat_l; lra).
    assert (l * (x * / m - 1) + (1 - l) * (y * / m - 1) = m * / m - 1) by (unfold m; ring).
    rewrite Rinv_r in H3 by lra. lra. }
  unfold Rpower. rewrite <- exp_plus. rewrite <- (exp_ln m) by auto. apply exp_mono. exact H3.
Qed.

Definition logconvex (f : R -> R) : Prop := forall x y l, 0 < x -> 0 < y -> 0 <= l <= 1 ->
  f (l * x + (1 - l) * y) <= Rpower (f x) l * Rpower (f y) (1 - l).

(** A log-convex family of integrals, generic form: [f_a(t) = w(t) * u(t)^(a-1)]. *)
Lemma conv_pos x y l : 0 < x -> 0 < y -> 0 <= l <= 1 -> 0 < l * x + (1 - l) * y.
Proof.
  intros. destruct (Req_dec l 0) as [->|]; [lra|].
  apply Rplus_lt_le_0_compat; [apply Rmult_lt_0_compat; lra|apply Rmult_le_pos; lra].
Qed.
Lemma logconvex_int (w u : R -> R) a b (I : R -> R) :
  (forall t, inside a b t -> 0 < w t /\ 0 < u t) ->
  (forall x, 0 < x -> prim (fun t => w t * Rpower (u t) (x - 1)) a b (I x)) ->
  logconvex I.
Proof.
  intros Hw HI x y l Hx Hy Hl.
  assert (Ip : forall x, 0 < x -> 0 < I x).
  { intros z Hz. apply (prim_pos _ _ _ _ (HI z Hz)). intros t Ht.
    apply Rmult_lt_0_compat; [now apply Hw|apply Rpower_pos]. }
  assert (H1 := prim_plus _ _ _ _ _ _ (prim_scal _ _ _ _ (l / I x) (HI x Hx))
                                      (prim_scal _ _ _ _ ((1 - l) / I y) (HI y Hy))).
  assert (H2 := prim_scal _ _ _ _ (/ (Rpower (I x) l * Rpower (I y) (1 - l)))
                   (HI (l * x + (1 - l) * y) (conv_pos x y l Hx Hy Hl))).
  assert (H := prim_le _ _ _ _ _ _ H2 H1).
  assert (Hle : / (Rpower (I x) l * Rpower (I y) (1 - l)) * I (l * x + (1 - l) * y) <= l / I x * I x + (1 - l) / I y * I y).
  { apply H. clear H. intros t Ht. destruct (Hw t Ht) as [Hwt Hut].
    assert (Y := young (w t * Rpower (u t) (x - 1) / I x) (w t * Rpower (u t) (y - 1) / I y) l).
    replace (l / I x * (w t * Rpower (u t) (x - 1)) + (1 - l) / I y * (w t * Rpower (u t) (y - 1)))
      with (l * (w t * Rpower (u t) (x - 1) / I x) + (1 - l) * (w t * Rpower (u t) (y - 1) / I y))
      by (unfold Rdiv; ring).
    eapply Rle_trans; [|apply Y; auto; (apply Rdiv_lt_0_compat; [apply Rmult_lt_0_compat; auto; apply Rpower_pos|auto])].
    right. rewrite !Rpower_div_base; auto; try (apply Rmult_lt_0_compat; auto; apply Rpower_pos).
    rewrite <- !Rpower_mult_distr; auto; try apply Rpower_pos. rewrite !Rpower_mult.
    replace (l * x + (1 - l) * y - 1) with ((x - 1) * l + (y - 1) * (1 - l)) by ring.
    rewrite Rpower_plus.
    replace (w t) with (Rpower (w t) l * Rpower (w t) (1 - l)) at 1.
    2:{ rewrite <- Rpower_plus. replace (l + (1 - l)) with 1 by ring. now apply Rpower_1. }
    field. split; apply Rgt_not_eq, Rpower_pos. }
  assert (0 < Rpower (I x) l * Rpower (I y) (1 - l)) by (apply Rmult_lt_0_compat; apply Rpower_pos).
  replace (l / I x * I x + (1 - l) / I y * I y) with 1 in Hle by (generalize (Ip x Hx) (Ip y Hy); intros; field; split; lra).
  apply (Rmult_le_compat_l (Rpower (I x) l * Rpower (I y) (1 - l))) in Hle; [|lra].
  rewrite <- Rmult_assoc, Rinv_r, Rmult_1_l, Rmult_1_r in Hle; lra.
Qed.

Lemma Gam_logconvex : logconvex Gam.
Proof.
  apply (logconvex_int (fun t => exp (- t)) (fun t => t) 0 p_infty).
  - intros t [Ht _]; simpl in Ht. split; auto. apply exp_pos.
  - intros x Hx. apply (prim_ext (gam_f x)); [|now apply Gam_prim]. intros; unfold gam_f; ring.
Qed.

(** Bohr-Mollerup uniqueness. *)
Record BM (f : R -> R) : Prop := {
  BM_pos : forall x, 0 < x -> 0 < f x;
  BM_succ : forall x, 0 < x -> f (x + 1) = x * f x;
  BM_1 : f 1 = 1;
  BM_conv : logconvex f }.

Lemma BM_shift f x n : BM f -> 0 < x -> exists P, 0 < P /\ (forall g, BM g -> g (x + INR n) = P * g x).
Proof.
  intros Hf Hx. induction n.
  - exists 1; split; [lra|]. intros. simpl. rewrite Rplus_0_r; ring.
  - destruct IHn as (P & HP & H). assert (0 < x + INR n) by (generalize (pos_INR n); lra).
    exists ((x + INR n) * P). split; [now apply Rmult_lt_0_compat|].
    intros g Hg. rewrite S_INR. replace (x + (INR n + 1)) with (x + INR n + 1) by ring.
    rewrite (BM_succ g Hg), (H g Hg) by auto. ring.
Qed.

Lemma BM_upper f x n : BM f -> 0 < x <= 1 -> (1 <= n)%nat ->
  f (INR n + x) <= f (INR n) * Rpower (INR n) x.
Proof.
  intros Hf Hx Hn. assert (Hn' : 1 <= INR n) by (apply (le_INR 1); auto).
  assert (H := BM_conv f Hf (INR n + 1) (INR n) x ltac:(lra) ltac:(lra) ltac:(lra)).
  replace (x * (INR n + 1) + (1 - x) * INR n) with (INR n + x) in H by ring.
  rewrite (BM_succ f Hf) in H by lra.
  rewrite <- Rpower_mult_distr in H; [|lra|apply (BM_pos f Hf); lra].
  rewrite Rmult_assoc, <- Rpower_plus in H. replace (x + (1 - x)) with 1 in H by ring.
  rewrite Rpower_1 in H by (apply (BM_pos f Hf); lra). lra.
Qed.
Lemma BM_lower f x n : BM f -> 0 < x <= 1 -> (1 <= n)%nat ->
  f (INR n) * INR n <= f (INR n + x) * Rpower (INR n + x) (1 - x).
Proof.
  intros Hf Hx Hn. assert (Hn' : 1 <= INR n) by (apply (le_INR 1); auto).
  assert (H := BM_conv f Hf (INR n + x) (INR n + x + 1) x ltac:(lra) ltac:(lra) ltac:(lra)).
  replace (x * (INR n + x) + (1 - x) * (INR n + x + 1)) with (INR n + 1) in H by ring.
  rewrite !(BM_succ f Hf) in H by lra.
  rewrite <- Rpower_mult_distr in H; [|lra|apply (BM_pos f Hf); lra].
  rewrite (Rmult_comm (Rpower (INR n + x) (1 - x))), <- Rmult_assoc, <- Rpower_plus in H.
  replace (x + (1 - x)) with 1 in H by ring.
  rewrite Rpower_1 in H by (apply (BM_pos f Hf); lra). lra.
Qed.
Lemma BM_nat f g n : BM f -> BM g -> (1 <= n)%nat -> f (INR n) = g (INR n).
Proof.
  intros Hf Hg Hn. destruct n; [lia|]. clear Hn. rewrite S_INR, Rplus_comm.
  destruct (BM_shift f 1 n Hf Rlt_0_1) as (P & HP & H).
  rewrite (H f Hf), (H g Hg), (BM_1 f Hf), (BM_1 g Hg). reflexivity.
Qed.

Lemma BM_ratio f g x n : BM f -> BM g -> 0 < x <= 1 -> (1 <= n)%nat -> f x <= (1 + / INR n) * g x.
Proof.
  intros Hf Hg Hx Hn. assert (Hn' : 1 <= INR n) by (apply (le_INR 1); auto).
  destruct (BM_shift f x n Hf ltac:(lra)) as (P & HP & HS).
  assert (H1 := BM_upper f x n Hf Hx Hn). assert (H2 := BM_lower g x n Hg Hx Hn).
  rewrite (BM_nat f g n Hf Hg Hn) in H1. rewrite (Rplus_comm (INR n) x) in H1, H2.
  rewrite (HS f Hf) in H1. rewrite (HS g Hg) in H2.
  assert (Hg0 := BM_pos g Hg x ltac:(lra)).
  assert (Hp : Rpower (x + INR n) (1 - x) * Rpower (INR n) x <= (1 + / INR n) * INR n).
  { replace ((1 + / INR n) * INR n) with (INR n + 1) by (field; lra).
    eapply Rle_trans.
    - apply Rmult_le_compat_l; [left; apply Rpower_pos|].
      apply (Rle_Rpower_l (INR n) (x + INR n) x); lra.
    - rewrite <- Rpower_plus. replace (1 - x + x) with 1 by ring. rewrite Rpower_1; lra. }
  apply Rmult_le_reg_l with (P * INR n); [apply Rmult_lt_0_compat; lra|].
  apply Rle_trans with (g (INR n) * Rpower (INR n) x * INR n).
  - replace (P * INR n * f x) with (P * f x * INR n) by ring. apply Rmult_le_compat_r; lra.
  - replace (g (INR n) * Rpower (INR n) x * INR n) with (g (INR n) * INR n * Rpower (INR n) x) by ring.
    apply Rle_trans with (P * g x * Rpower (x + INR n) (1 - x) * Rpower (INR n) x).
    + apply Rmult_le_compat_r; [left; apply Rpower_pos|exact H2].
    + replace (P * INR n * ((1 + / INR n) * g x)) with (P * g x * ((1 + / INR n) * INR n)) by ring.
      rewrite Rmult_assoc. apply Rmult_le_compat_l; [|exact Hp].
      left; apply Rmult_lt_0_compat; lra.
Qed.
Lemma le_of_ratio u v : 0 < v -> (forall n, (1 <= n)%nat -> u <= (1 + / INR n) * v) -> u <= v.
Proof.
  intros Hv H. apply Rnot_lt_le. intros Hlt.
  assert (He : 0 < (u - v) / v) by (apply Rdiv_lt_0_compat; lra).
  destruct (archimed_cor1 _ He) as (n & Hn & Hn0).
  specialize (H n ltac:(lia)).
  assert (/ INR n * v < (u - v) / v * v) by (apply Rmult_lt_compat_r; auto).
  replace ((u - v) / v * v) with (u - v) in H0 by (field; lra). lra.
Qed.
Lemma BM_unique f g x : BM f -> BM g -> 0 < x -> f x = g x.
Proof.
  intros Hf Hg Hx.
  assert (Hbase : forall y, 0 < y <= 1 -> f y = g y).
  { intros y Hy. apply Rle_antisym; apply le_of_ratio.
    - apply (BM_pos g Hg); lra.
    - intros; now apply BM_ratio.
    - apply (BM_pos f Hf); lra.
    - intros; now apply BM_ratio. }
  assert (Hgen : forall n y, 0 < y <= INR n -> f y = g y).
  { induction n; intros y Hy; [simpl in Hy; lra|].
    destruct (Rle_dec y 1) as [H1|H1]; [apply Hbase; lra|].
    replace y with (y - 1 + 1) by ring. rewrite (BM_succ f Hf), (BM_succ g Hg) by lra.
    rewrite S_INR in Hy. rewrite IHn; lra. }
  destruct (archimed x) as [H1 H2].
  apply (Hgen (Z.to_nat (up x))). rewrite INR_IZR_INZ, Z2Nat.id; [lra|]. apply le_IZR; lra.
Qed.

Lemma BM_Gam : BM Gam.
Proof. constructor; [apply Gam_pos|apply Gam_succ|apply Gam_1|apply Gam_logconvex]. Qed.

(** ** Beta *)
Definition bet_f (a b t : R) : R := Rpower t (a - 1) * Rpower (1 - t) (b - 1).
Lemma bet_f_pos a b t : 0 < bet_f a b t.
Proof. apply Rmult_lt_0_compat; apply Rpower_pos. Qed.
Lemma cont_Rpower_1m b t : t < 1 -> continuous (fun t => Rpower (1 - t) b) t.
Proof.
  intros H. apply (continuous_comp (fun t => 1 - t) (fun u => Rpower u b)).
  - apply deriv_cont; auto_derive; auto.
  - apply cont_Rpower; lra.
Qed.
Lemma bet_f_cont a b t : 0 < t < 1 -> continuous (bet_f a b) t.
Proof.
  intros H. apply (continuous_mult (fun t => Rpower t (a-1)) (fun t => Rpower (1 - t) (b - 1))).
  - apply cont_Rpower; lra.
  - apply cont_Rpower_1m; lra.
Qed.
Lemma Rpower_bound b u : 1/2 <= u <= 1 -> Rpower u b <= Rpower 2 (Rabs b).
Proof.
  intros Hu. unfold Rpower. apply exp_mono.
  assert (ln u <= 0) by (rewrite <- ln_1; apply ln_mono; lra).
  assert (- ln 2 <= ln u). { rewrite <- ln_Rinv by lra. apply ln_mono; lra. }
  assert (0 < ln 2) by (rewrite <- ln_1; apply ln_increasing; lra).
  apply Rle_trans with (Rabs b * - ln u).
  - replace (b * ln u) with ((- b) * - ln u) by ring. apply Rmult_le_compat_r; [lra|].
    rewrite <- Rabs_Ropp. apply Rle_abs.
  - apply Rmult_le_compat_l; [apply Rabs_pos|lra].
Qed.

Lemma Bet_ex_half a b : 0 < a -> exists l, prim (bet_f a b) 0 (1/2) l.
Proof.
  intros Ha.
  destruct (prim_restrict _ _ _ _ (1/2) (prim_pow01 a Ha)) as (l1 & _ & H1 & _). { split; simpl; lra. }
  destruct (prim_compare (bet_f a b) (fun t => Rpower 2 (Rabs (b - 1)) * Rpower t (a - 1)) 0 (1/2) _
     (prim_scal _ _ _ _ _ H1)) as (l & H & _); eauto.
  - intros x [Hx Hx2]; simpl in *. apply bet_f_cont; lra.
  - intros x [Hx Hx2]; simpl in *. split; [left; apply bet_f_pos|]. unfold bet_f.
    rewrite Rmult_comm. apply Rmult_le_compat_r; [left; apply Rpower_pos|].
    apply Rpower_bound; lra.
Qed.
Lemma bet_f_sym a b t : bet_f a b (1 - t) = bet_f b a t.
Proof. unfold bet_f. replace (1 - (1 - t)) with t by ring. ring. Qed.
Lemma Bet_ex a b : 0 < a -> 0 < b -> exists l, prim (bet_f a b) 0 1 l.
Proof.
  intros Ha Hb. destruct (Bet_ex_half a b Ha) as [l1 H1]. destruct (Bet_ex_half b a Hb) as [l2 H2].
  exists (l1 + l2). apply (prim_split _ _ _ (1/2)); auto.
  - split; simpl; lra.
  - apply bet_f_cont; lra.
  - apply (prim_ext (fun x => bet_f b a (1 - x) * - (-1))).
    { intros; rewrite bet_f_sym; ring. }
    apply (prim_subst_dec (bet_f b a) (fun x => 1 - x) (fun _ => -1) 0 (1/2)); auto.
    + simpl; lra.
    + intros x [Hx Hx2]; simpl in *; split; simpl; lra.
    + intros x Hx; split; [auto_derive; auto; ring|]. apply continuous_const.
    + flim lim_left.
      * apply cont_Fr; [|lra]. apply deriv_cont; auto_derive; auto.
      * generalize (at_right_gt (1/2)). apply filter_imp; intros; lra.
    + flim lim_right.
      * apply cont_Fl; [|lra]. apply deriv_cont; auto_derive; auto.
      * generalize (at_left_lt 1). apply filter_imp; intros; lra.
Qed.
Definition Bet (a b : R) : R := RInt_gen (bet_f a b) (at_right 0) (at_left 1).
Lemma Bet_prim a b : 0 < a -> 0 < b -> prim (bet_f a b) 0 1 (Bet a b).
Proof.
  intros Ha Hb. destruct (Bet_ex a b Ha Hb) as [l Hl]. assert (H := prim_RInt_gen _ _ _ _ Hl).
  unfold Bet. simpl in H. rewrite (is_RInt_gen_unique (V:=R_CompleteNormedModule) _ _ H). exact Hl.
Qed.
Lemma Bet_pos a b : 0 < a -> 0 < b -> 0 < Bet a b.
Proof. intros. apply (prim_pos _ _ _ _ (Bet_prim a b H H0)). intros; apply bet_f_pos. Qed.
Lemma bet_f_succ_l a b t : 0 < t -> bet_f (a + 1) b t = t * bet_f a b t.
Proof.
  intros Ht. unfold bet_f. replace (a + 1 - 1) with (a - 1 + 1) by ring. rewrite Rpower_succ by auto. ring.
Qed.
Lemma bet_f_succ_r a b t : t < 1 -> bet_f a (b + 1) t = (1 - t) * bet_f a b t.
Proof.
  intros Ht. unfold bet_f. replace (b + 1 - 1) with (b - 1 + 1) by ring. rewrite Rpower_succ by lra. ring.
Qed.
Lemma Bet_split a b : 0 < a -> 0 < b -> Bet a b = Bet (a + 1) b + Bet a (b + 1).
Proof.
  intros Ha Hb. apply (prim_unique (bet_f a b) 0 1); [now apply Bet_prim|].
  apply (prim_ext (fun t => bet_f (a + 1) b t + bet_f a (b + 1) t)).
  - intros x [Hx Hx2]; simpl in *. rewrite bet_f_succ_l, bet_f_succ_r by auto. ring.
  - apply prim_plus; apply Bet_prim; lra.
Qed.
Lemma Bet_parts a b : 0 < a -> 0 < b -> a * Bet a (b + 1) = b * Bet (a + 1) b.
Proof.
  intros Ha Hb.
  assert (H1 : prim (fun t => a * bet_f a (b + 1) t + - b * bet_f (a + 1) b t) 0 1
                 (a * Bet a (b + 1) + - b * Bet (a + 1) b)).
  { apply prim_plus; apply prim_scal; apply Bet_prim; lra. }
  assert (H2 : prim (fun t => a * bet_f a (b + 1) t + - b * bet_f (a + 1) b t) 0 1 (0 - 0)).
  { apply (prim_lim _ (fun t => Rpower t a * Rpower (1 - t) b)); simpl; try lra.
    - intros x [Hx Hx2]; simpl in *. unfold bet_f.
      replace (b + 1 - 1) with b by ring. replace (a + 1 - 1) with a by ring.
      replace (a * (Rpower x (a - 1) * Rpower (1 - x) b) + - b * (Rpower x a * Rpower (1 - x) (b - 1)))
        with ((a * Rpower x (a - 1)) * Rpower (1 - x) b + Rpower x a * (- 1 * (b * Rpower (1 - x) (b - 1)))) by ring.
      apply (is_derive_mult (fun t => Rpower t a) (fun t => Rpower (1 - t) b)).
      + now apply is_derive_Rpower.
      + apply (is_derive_comp (fun u => Rpower u b) (fun t => 1 - t)).
        * apply is_derive_Rpower; lra.
        * auto_derive; auto; ring.
      + intros; apply Rmult_comm.
    - intros x Hx. apply (prim_cont _ _ _ _ x H1 Hx).
    - apply (lim_eq (0 * Rpower (1 - 0) b)); [ring|]. flim lim_mult.
      + flim lim_Rpower_0; auto. apply filterlim_id.
      + apply cont_Fr; auto. apply cont_Rpower_1m; lra.
    - apply (lim_eq (Rpower 1 a * 0)); [ring|]. flim lim_mult.
      + apply cont_Fl; auto. apply cont_Rpower; lra.
      + flim lim_Rpower_0; auto. flim lim_right.
        * apply cont_Fl; [|lra]. apply deriv_cont; auto_derive; auto.
        * generalize (at_left_lt 1). apply filter_imp; intros; lra. }
  assert (H := prim_unique _ _ _ _ _ H1 H2). lra.
Qed.
Lemma Bet_succ a b : 0 < a -> 0 < b -> (a + b) * Bet (a + 1) b = a * Bet a b.
Proof.
  intros Ha Hb. assert (H1 := Bet_split a b Ha Hb). assert (H2 := Bet_parts a b Ha Hb).
  rewrite H1, Rmult_plus_distr_l, H2. ring.
Qed.
Lemma Bet_1 b : 0 < b -> Bet 1 b = / b.
Proof.
  intros Hb. apply (prim_unique (bet_f 1 b) 0 1); [apply Bet_prim; lra|].
  apply (prim_ext (fun x => Rpower (1 - x) (b - 1) * - (-1))).
  { intros x [Hx _]; simpl in Hx. unfold bet_f. rewrite Rminus_eq_0, Rpower_O by auto. ring. }
  replace (/ b) with (/ b - 0) by ring.
  apply (prim_subst_dec (fun u => Rpower u (b - 1)) (fun x => 1 - x) (fun _ => -1) 0 1); simpl; auto; try lra.
  - now apply prim_pow01.
  - intros x [Hx Hx2]; simpl in *; split; simpl; lra.
  - intros x Hx; split; [auto_derive; auto; ring|]. apply continuous_const.
  - flim lim_left.
    * apply cont_Fr; [|lra]. apply deriv_cont; auto_derive; auto.
    * generalize (at_right_gt 0). apply filter_imp; intros; lra.
  - flim lim_right.
    * apply cont_Fl; [|lra]. apply deriv_cont; auto_derive; auto.
    * generalize (at_left_lt 1). apply filter_imp; intros; lra.
Qed.
Lemma Bet_logconvex b : 0 < b -> logconvex (fun a => Bet a b).
Proof.
  intros Hb. apply (logconvex_int (fun t => Rpower (1 - t) (b - 1)) (fun t => t) 0 1).
  - intros t [Ht _]; simpl in Ht. split; auto. apply Rpower_pos.
  - intros x Hx. apply (prim_ext (bet_f x b)); [|now apply Bet_prim]. intros; unfold bet_f; ring.
Qed.

Lemma BM_Bet b : 0 < b -> BM (fun a => Bet a b * Gam (a + b) / Gam b).
Proof.
  intros Hb. assert (Gb := Gam_pos b Hb). constructor.
  - intros x Hx. apply Rdiv_lt_0_compat; auto.
    apply Rmult_lt_0_compat; [now apply Bet_pos|apply Gam_pos; lra].
  - intros x Hx. replace (x + 1 + b) with (x + b + 1) by ring. rewrite Gam_succ by lra.
    assert (H := Bet_succ x b Hx Hb).
    replace (Bet (x + 1) b * ((x + b) * Gam (x + b)) / Gam b)
      with (((x + b) * Bet (x + 1) b) * Gam (x + b) / Gam b) by (unfold Rdiv; ring).
    rewrite H. unfold Rdiv; ring.
  - rewrite Bet_1 by auto. rewrite Rplus_comm, Gam_succ by auto. field. split; lra.
  - intros x y l Hx Hy Hl.
    assert (H1 := Bet_logconvex b Hb x y l Hx Hy Hl). simpl in H1.
    assert (H2 := Gam_logconvex (x + b) (y + b) l ltac:(lra) ltac:(lra) Hl).
    replace (l * (x + b) + (1 - l) * (y + b)) with (l * x + (1 - l) * y + b) in H2 by ring.
    assert (Hpos := conv_pos x y l Hx Hy Hl).
    assert (Bx := Bet_pos x b Hx Hb). assert (By := Bet_pos y b Hy Hb).
    assert (Gx := Gam_pos (x + b) ltac:(lra)). assert (Gy := Gam_pos (y + b) ltac:(lra)).
    rewrite !Rpower_div_base; auto; try (apply Rmult_lt_0_compat; auto).
    rewrite <- !Rpower_mult_distr by auto.
    apply Rmult_le_reg_r with (Gam b); auto.
    replace (Bet (l * x + (1 - l) * y) b * Gam (l * x + (1 - l) * y + b) / Gam b * Gam b)
      with (Bet (l * x + (1 - l) * y) b * Gam (l * x + (1 - l) * y + b)) by (field; lra).
    replace (Rpower (Bet x b) l * Rpower (Gam (x + b)) l / Rpower (Gam b) l *
      (Rpower (Bet y b) (1 - l) * Rpower (Gam (y + b)) (1 - l) / Rpower (Gam b) (1 - l)) * Gam b)
      with ((Rpower (Bet x b) l * Rpower (Bet y b) (1 - l)) * (Rpower (Gam (x + b)) l * Rpower (Gam (y + b)) (1 - l))).
    + apply Rmult_le_compat; auto; [left; now apply Bet_pos|left; apply Gam_pos; lra].
    + replace (Gam b) with (Rpower (Gam b) l * Rpower (Gam b) (1 - l)) at 3.
      * field. split; apply Rgt_not_eq, Rpower_pos.
      * rewrite <- Rpower_plus. replace (l + (1 - l)) with 1 by ring. now apply Rpower_1.
Qed.

Theorem Bet_Gam a b : 0 < a -> 0 < b -> Bet a b = Gam a * Gam b / Gam (a + b).
Proof.
  intros Ha Hb. assert (H := BM_unique _ _ a (BM_Bet b Hb) BM_Gam Ha). simpl in H.
  assert (G1 := Gam_pos b Hb). assert (G2 := Gam_pos (a + b) ltac:(lra)).
  rewrite <- H. field. split; lra.
Qed.

(** ** Gamma(1/2) *)
Lemma Bet_half : Bet (1/2) (1/2) = PI.
Proof.
  assert (HPI := PI_RGT_0).
  assert (H := Bet_prim (1/2) (1/2) ltac:(lra) ltac:(lra)).
  assert (H1 : prim (fun t => bet_f (1/2) (1/2) (sin t * sin t) * (2 * (sin t * cos t))) 0 (PI / 2) (Bet (1/2) (1/2))).
  { apply (prim_subst (bet_f (1/2) (1/2)) (fun t => sin t * sin t) (fun t => 2 * (sin t * cos t)) 0 1); auto; simpl; try lra.
    - intros x [Hx Hx2]; simpl in *.
      assert (0 < sin x) by (apply sin_gt_0; lra). assert (0 < cos x) by (apply cos_gt_0; lra).
      split; simpl; [now apply Rmult_lt_0_compat|].
      generalize (sin2_cos2 x); unfold Rsqr; intros.
      assert (0 < cos x * cos x) by now apply Rmult_lt_0_compat. lra.
    - intros x Hx. split; [auto_derive; auto; ring|]. apply deriv_cont; auto_derive; auto.
    - flim lim_right.
      + apply cont_Fr; [|rewrite sin_0; ring]. apply deriv_cont; auto_derive; auto.
      + generalize (at_right_lt 0 (PI/2) ltac:(lra)). apply filter_imp. intros x Hx.
        assert (0 < sin x) by (apply sin_gt_0; lra). now apply Rmult_lt_0_compat.
    - flim lim_left.
      + apply cont_Fl; [|rewrite sin_PI2; ring]. apply deriv_cont; auto_derive; auto.
      + generalize (at_left_gt (PI/2) 0 ltac:(lra)). apply filter_imp. intros x Hx.
        assert (0 < cos x) by (apply cos_gt_0; lra).
        generalize (sin2_cos2 x); unfold Rsqr; intros.
        assert (0 < cos x * cos x) by now apply Rmult_lt_0_compat. lra. }
  assert (H2 : prim (fun t => bet_f (1/2) (1/2) (sin t * sin t) * (2 * (sin t * cos t))) 0 (PI / 2) (PI - 0)).
  { apply (prim_ext (fun _ => 2)).
    - intros x [Hx Hx2]; simpl in *.
      assert (0 < sin x) by (apply sin_gt_0; lra). assert (0 < cos x) by (apply cos_gt_0; lra).
      unfold bet_f. replace (1 - sin x * sin x) with (cos x * cos x) by (generalize (sin2_cos2 x); unfold Rsqr; lra).
      replace (1/2 - 1) with (- / 2) by field. rewrite !Rpower_Ropp, !Rpower_sqrt by now apply Rmult_lt_0_compat.
      rewrite !sqrt_square by lra. field. split; lra.
    - apply (prim_lim _ (fun t => 2 * t)); simpl; try lra.
      + intros x Hx. auto_derive; auto; ring.
      + intros; apply continuous_const.
      + apply cont_Fr; [|ring]. apply deriv_cont; auto_derive; auto.
      + apply cont_Fl; [|field]. apply deriv_cont; auto_derive; auto. }
  rewrite (prim_unique _ _ _ _ _ H1 H2). ring.
Qed.
Lemma Gam_half : Gam (1/2) = sqrt PI.
Proof.
  assert (H := Bet_Gam (1/2) (1/2) ltac:(lra) ltac:(lra)). rewrite Bet_half in H.
  replace (1/2 + 1/2) with 1 in H by field. rewrite Gam_1 in H.
  assert (G := Gam_pos (1/2) ltac:(lra)).
  replace PI with (Gam (1/2) * Gam (1/2)) by lra. rewrite sqrt_square; lra.
Qed.

(** ** The Gaussian integral *)
Lemma gauss_half : prim (fun t => exp (- (t * t))) 0 p_infty (sqrt PI / 2).
Proof.
  assert (H := Gam_prim (1/2) ltac:(lra)). rewrite Gam_half in H.
  apply (prim_ext (fun t => / 2 * (gam_f (1/2) (t * t) * (2 * t)))).
  - intros x [Hx _]; simpl in Hx. unfold gam_f. replace (1/2 - 1) with (- / 2) by field.
    rewrite Rpower_Ropp, Rpower_sqrt, sqrt_square by (try apply Rmult_lt_0_compat; lra). field; lra.
  - unfold Rdiv. rewrite (Rmult_comm (sqrt PI)). apply prim_scal.
    apply (prim_subst (gam_f (1/2)) (fun t => t * t) (fun t => 2 * t) 0 p_infty); auto; simpl; auto.
    + intros x [Hx _]; simpl in Hx. split; simpl; auto. now apply Rmult_lt_0_compat.
    + intros x Hx; split; [auto_derive; auto; ring|]. apply deriv_cont; auto_derive; auto.
    + flim lim_right.
      * apply cont_Fr; [|ring]. apply deriv_cont; auto_derive; auto.
      * generalize (at_right_gt 0). apply filter_imp. intros; now apply Rmult_lt_0_compat.
    + flim (lim_ge_p _ (fun x => x)); [|apply lim_id_p].
      exists 1. intros x Hx. rewrite <- (Rmult_1_l x) at 1. apply Rmult_le_compat_r; lra.
Qed.
Lemma gauss_full : prim (fun t => exp (- (t * t))) m_infty p_infty (sqrt PI).
Proof.
  replace (sqrt PI) with (sqrt PI / 2 + sqrt PI / 2) by field.
  apply (prim_split _ _ _ 0); [apply inside_all| | |apply gauss_half].
  - apply deriv_cont; auto_derive; auto.
  - apply (prim_ext (fun x => exp (- ((- x) * (- x))) * - (-1))).
    { intros. rewrite Rmult_opp_opp. ring. }
    apply (prim_subst_dec (fun t => exp (- (t * t))) (fun x => - x) (fun _ => -1) 0 p_infty); simpl; auto.
    + apply gauss_half.
    + intros x [_ Hx]; simpl in *; split; simpl; auto; lra.
    + intros x Hx; split; [auto_derive; auto; ring|]. apply continuous_const.
    + flim lim_opp_m; [apply lim_id_m].
    + flim lim_right.
      * apply cont_Fl; [|ring]. apply deriv_cont; auto_derive; auto.
      * generalize (at_left_lt 0). apply filter_imp; intros; lra.
Qed.
