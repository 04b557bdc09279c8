(** Change of variables in the integrals of functions that need not be continuous. *)
From Coq Require Import Reals Lra Lia ZArith List.
From Coquelicot Require Import Coquelicot.
From mathcomp Require Import ssreflect.seq.
From Verif Require Import LemInt LemNest3.
Open Scope R_scope.

(** ** Sums over pointed subdivisions, given by a first point and a list of (next point, tag) *)
Fixpoint rs (k : R -> R) (h : R) (t : list (R * R)) : R := match t with nil => 0 | (x, y) :: t => (x - h) * k y + rs k x t end.
Fixpoint pts (h : R) (t : list (R * R)) : Prop := match t with nil => True | (x, y) :: t => h <= y <= x /\ pts x t end.
Fixpoint fine (d h : R) (t : list (R * R)) : Prop := match t with nil => True | (x, y) :: t => Rabs (x - h) < d /\ fine d x t end.
Fixpoint stop (h : R) (t : list (R * R)) : R := match t with nil => h | (x, _) :: t => stop x t end.
Lemma rs_sum k h t : Riemann_sum k (mkSF_seq h t) = rs k h t.
Proof.
  unfold Riemann_sum. cbn. generalize 0 at 2 as z. revert h. induction t as [|[x y] t IH]; intros h z; [reflexivity|]. specialize (IH x y). cbn in *. rewrite <- IH. reflexivity.
Qed.
Lemma pts_sub h t : pointed_subdiv (mkSF_seq h t) -> pts h t.
Proof.
  revert h. induction t as [|[x y] t IH]; intros h H; [exact I|]. split; [exact (H 0%nat ltac:(cbn; lia))|]. apply IH. intros i Hi. apply (H (S i)). cbn in *. lia.
Qed.
Lemma sub_pts h t : pts h t -> pointed_subdiv (mkSF_seq h t).
Proof.
  revert h. induction t as [|[x y] t IH]; intros h H i Hi; [cbn in Hi; lia|]. destruct H as [H H']. destruct i as [|i]; [exact H|]. apply (IH x H' i). cbn in *. lia.
Qed.
Lemma fine_step d h t : 0 < d -> seq_step (SF_lx (mkSF_seq h t)) < d <-> fine d h t.
Proof.
  intros P. revert h. induction t as [|[x y] t IH]; intros h; [unfold seq_step; cbn; tauto|]. specialize (IH x). unfold seq_step in *. cbn [SF_lx unzip1 seq.map SF_h SF_t fst head behead pairmap foldr] in *. cbn [fine]. rewrite <- IH.
  unfold minus, plus, opp. cbn. unfold Rmax. destruct Rle_dec; split; intros; try split; unfold Rminus in *; lra.
Qed.
Lemma fine_mono d d' h t : d <= d' -> fine d h t -> fine d' h t.
Proof. intros L. revert h. induction t as [|[x y] t IH]; intros h; cbn; auto. intros [H H']. split; [lra|auto]. Qed.
Lemma stop_last h t : last h (SF_lx (mkSF_seq h t)) = stop h t.
Proof. unfold SF_lx. cbn. revert h. induction t as [|[x y] t IH]; intros h; [reflexivity|]. cbn. apply IH. Qed.
Lemma stop_ge h t : pts h t -> h <= stop h t.
Proof. revert h. induction t as [|[x y] t IH]; intros h; cbn; [lra|]. intros [H H']. specialize (IH x H'). lra. Qed.
Section Sums.
Variables (f phi phi' : R -> R).
Definition im (t : list (R * R)) : list (R * R) := map (fun p => (phi (fst p), phi (snd p))) t.
Lemma stop_im h t : stop (phi h) (im t) = phi (stop h t).
Proof. revert h. induction t as [|[x y] t IH]; intros h; [reflexivity|]. cbn. apply IH. Qed.

Variables (a b : R).
Hypothesis UP : forall x y, a <= x -> x <= y -> y <= b -> phi x <= phi y.
Hypothesis DV : forall x, a <= x <= b -> is_derive phi x (phi' x).
Lemma im_pts h t : a <= h -> pts h t -> stop h t <= b -> pts (phi h) (im t).
Proof.
  revert h. induction t as [|[x y] t IH]; intros h A H B; [exact I|]. destruct H as [H H']. cbn in B. pose proof (stop_ge x t H'). cbn. split; [split; apply UP; lra|]. apply IH; auto. lra.
Qed.
Lemma im_fine d e h t : (forall x y, a <= x <= b -> a <= y <= b -> Rabs (x - y) < d -> Rabs (phi x - phi y) < e) -> a <= h -> pts h t -> stop h t <= b -> fine d h t -> fine e (phi h) (im t).
Proof.
  intros U. revert h. induction t as [|[x y] t IH]; intros h A H B F; [exact I|]. destruct H as [H H'], F as [F F']. cbn in B. pose proof (stop_ge x t H'). cbn. split; [apply U; auto; lra|]. apply IH; auto. lra.
Qed.
Lemma im_sum M d e h t : (forall x, a <= x <= b -> Rabs (f (phi x)) <= M) -> 0 <= e -> (forall x y, a <= x <= b -> a <= y <= b -> Rabs (x - y) < d -> Rabs (phi' x - phi' y) < e) ->
  a <= h -> pts h t -> stop h t <= b -> fine d h t -> Rabs (rs (fun x => f (phi x) * phi' x) h t - rs f (phi h) (im t)) <= M * e * (stop h t - h).
Proof.
  intros HM He U. assert (M0 : 0 <= M \/ b < a). { destruct (Rle_dec a b); [left|right; lra]. pose proof (HM a ltac:(lra)). pose proof (Rabs_pos (f (phi a))). lra. }
  revert h. induction t as [|[x y] t IH]; intros h A H B F; [cbn; rewrite Rminus_0_r, Rabs_R0; lra|]. destruct H as [H H'], F as [F F']. cbn in B. pose proof (stop_ge x t H') as S. cbn [rs im map fst snd stop]. fold (im t).
  specialize (IH x ltac:(lra) H' B F').
  assert (T : Rabs ((x - h) * (f (phi y) * phi' y) - (phi x - phi h) * f (phi y)) <= M * e * (x - h)).
  { destruct (MVT_gen phi h x phi') as (xi & X & Q).
    - intros z. rewrite Rmin_left, Rmax_right by lra. intros Z. apply DV. lra.
    - intros z. rewrite Rmin_left, Rmax_right by lra. intros Z. apply continuity_pt_filterlim. apply (ex_derive_continuous (K := R_AbsRing) (V := R_NormedModule) phi). exists (phi' z). apply DV. lra.
    - rewrite Rmin_left, Rmax_right in X by lra. rewrite Q. replace ((x - h) * (f (phi y) * phi' y) - phi' xi * (x - h) * f (phi y)) with ((x - h) * (f (phi y) * (phi' y - phi' xi))) by ring.
      rewrite !Rabs_mult, (Rabs_pos_eq (x - h)) by lra. rewrite (Rabs_pos_eq (x - h)) in F by lra. pose proof (HM y ltac:(lra)) as K1. pose proof (U y xi ltac:(lra) ltac:(lra) ltac:(apply Rabs_def1; lra)) as K2.
      pose proof (Rabs_pos (f (phi y))). pose proof (Rabs_pos (phi' y - phi' xi)). assert (Rabs (f (phi y)) * Rabs (phi' y - phi' xi) <= M * e) by (apply Rmult_le_compat; lra). nra. }
  replace ((x - h) * (f (phi y) * phi' y) + rs (fun x0 => f (phi x0) * phi' x0) x t - ((phi x - phi h) * f (phi y) + rs f (phi x) (im t)))
    with (((x - h) * (f (phi y) * phi' y) - (phi x - phi h) * f (phi y)) + (rs (fun x0 => f (phi x0) * phi' x0) x t - rs f (phi x) (im t))) by ring.
  eapply Rle_trans; [apply Rabs_triang|]. replace (M * e * (stop x t - h)) with (M * e * (x - h) + M * e * (stop x t - x)) by ring. lra.
Qed.
End Sums.

Lemma unif (k : R -> R) a b : a <= b -> (forall x, a <= x <= b -> continuous k x) -> forall e, 0 < e -> exists d, 0 < d /\ forall x y, a <= x <= b -> a <= y <= b -> Rabs (x - y) < d -> Rabs (k x - k y) < e.
Proof.
  intros L C e P. assert (C' : forall x, a <= x <= b -> continuity_pt k x) by (intros x X; apply continuity_pt_filterlim; now apply C).
  destruct (Heine_cor2 C' (mkposreal e P)) as [d D]. exists d. split; [apply cond_pos|]. exact D.
Qed.

Lemma subst_up (f phi phi' : R -> R) a b v : a < b -> (forall x y, a <= x -> x <= y -> y <= b -> phi x <= phi y) -> (forall x, a <= x <= b -> is_derive phi x (phi' x) /\ continuous phi' x) ->
  phi a < phi b -> is_RInt f (phi a) (phi b) v -> is_RInt (fun x => f (phi x) * phi' x) a b v.
Proof.
  intros L UP DC LP I. assert (DV : forall x, a <= x <= b -> is_derive phi x (phi' x)) by (intros; now apply DC).
  destruct (ex_RInt_ub f (phi a) (phi b) (ex_intro _ v I)) as [M HM]. rewrite Rmin_left, Rmax_right in HM by lra.
  assert (HM' : forall x, a <= x <= b -> Rabs (f (phi x)) <= M) by (intros x X; apply HM; split; apply UP; lra).
  assert (M0 : 0 <= M) by (pose proof (HM' a ltac:(lra)); pose proof (Rabs_pos (f (phi a))); lra).
  unfold is_RInt in *. intros P [eps HP]. pose proof (cond_pos eps) as Pe.
  destruct (I (ball v (pos_div_2 eps)) (locally_ball v _)) as [d H]. unfold filtermap, Riemann_fine, within in *.
  destruct (unif phi a b ltac:(lra)) with (e := pos d) as (d1 & P1 & U1); [|apply cond_pos|].
  { intros x X. apply (ex_derive_continuous (K := R_AbsRing) (V := R_NormedModule) phi). exists (phi' x). now apply DV. }
  set (e2 := eps / (2 * (M + 1) * (b - a))). assert (Q : 0 < 2 * (M + 1) * (b - a)) by (apply Rmult_lt_0_compat; lra). assert (P2' : 0 < e2) by (apply Rdiv_lt_0_compat; lra).
  destruct (unif phi' a b ltac:(lra)) with (e := e2) as (d2 & P2 & U2); [intros x X; now apply DC|exact P2'|].
  assert (Pm : 0 < Rmin d1 d2) by (apply Rmin_glb_lt; lra). exists (mkposreal _ Pm). intros [h t] St (Pt & Ea & Eb). cbn [SF_h SF_t pos] in *.
  rewrite Rmin_left in Ea by lra. rewrite Rmax_right in Eb by lra. subst h. rewrite stop_last in Eb. apply pts_sub in Pt. apply fine_step in St; auto.
  pose proof (fine_mono _ d1 _ _ (Rmin_l d1 d2) St) as St1. pose proof (fine_mono _ d2 _ _ (Rmin_r d1 d2) St) as St2.
  apply HP. rewrite rs_sum.
  assert (B : ball v (pos_div_2 eps) (scal (sign (phi b - phi a)) (Riemann_sum f (mkSF_seq (phi a) (im phi t))))).
  { apply H.
    - apply fine_step; [apply cond_pos|]. apply (im_fine phi a b) with (d := d1); auto; lra.
    - split; [apply sub_pts, (im_pts phi a b UP); auto; lra|]. cbn [SF_h SF_t]. rewrite Rmin_left, Rmax_right by lra. split; [reflexivity|]. now rewrite stop_last, stop_im, Eb. }
  rewrite rs_sum in B. rewrite sign_eq_1 in * by lra. unfold scal in *; cbn in *; unfold mult in *; cbn in *. rewrite Rmult_1_l in *.
  pose proof (im_sum f phi phi' a b DV M d2 e2 a t HM' ltac:(lra) U2 ltac:(lra) Pt ltac:(lra) St2) as E. rewrite Eb in E.
  assert (E' : M * e2 * (b - a) < eps / 2).
  { unfold e2. replace (M * (eps / (2 * (M + 1) * (b - a))) * (b - a)) with (eps / 2 * (M / (M + 1))) by (field; lra). assert (M / (M + 1) < 1) by (apply (Rmult_lt_reg_r (M + 1)); [lra|]; replace (M / (M + 1) * (M + 1)) with M by (field; lra); lra). nra. }
  unfold ball in *; cbn in *; unfold AbsRing_ball, abs, minus, plus, opp in *; cbn in *.
  apply Rabs_def2 in B. assert (E2 := Rle_lt_trans _ _ _ E E'). apply Rabs_def2 in E2. apply Rabs_def1; lra.
Qed.
Lemma subst_down (f phi phi' : R -> R) a b v : a < b -> (forall x y, a <= x -> x <= y -> y <= b -> phi y <= phi x) -> (forall x, a <= x <= b -> is_derive phi x (phi' x) /\ continuous phi' x) ->
  phi b < phi a -> is_RInt f (phi b) (phi a) v -> is_RInt (fun x => f (phi x) * - phi' x) a b v.
Proof.
  intros L DN DC LP I. apply (is_RInt_ext (fun x => (fun u => f (- u)) (- phi x) * (fun x => - phi' x) x)).
  - intros x _. cbv beta. now rewrite Ropp_involutive.
  - apply (subst_up (fun u => f (- u)) (fun x => - phi x) (fun x => - phi' x)); auto.
    + intros x y H1 H2 H3. specialize (DN x y H1 H2 H3). lra.
    + intros x X. destruct (DC x X) as [D C]. split; [exact (is_derive_opp phi x _ D)|exact (continuous_opp phi' x C)].
    + assert (J : is_RInt f (- - phi b) (- - phi a) v) by (now rewrite !Ropp_involutive). apply is_RInt_comp_opp in J.
      pose proof (is_RInt_swap (V := R_NormedModule) _ _ _ _ J) as J'. pose proof (is_RInt_opp (V := R_NormedModule) _ _ _ _ J') as J2. rewrite opp_opp in J2.
      apply (is_RInt_ext (V := R_NormedModule) (fun y => opp (opp (f (- y))))); [intros x _; apply opp_opp|exact J2].
Qed.

(** ** Maps between intervals *)
Lemma maps_id a b : maps (fun x => x) (fun y => y) (fun _ => 1) a b a b.
Proof.
  split; [auto|]. split.
  - intros y Y. split; [auto|]. split; [auto|]. split; [auto_derive; auto|apply continuous_const].
  - left. split; intros; lra.
Qed.
Lemma maps_comp h k k' g l l' a b c d e q : maps h k k' a b c d -> maps g l l' c d e q -> maps (fun x => g (h x)) (fun y => k (l y)) (fun y => k' (l y) * l' y) a b e q.
Proof.
  intros (A1 & B1 & M1) (A2 & B2 & M2). split; [|split].
  - intros x X. destruct (A1 x X) as [X1 E1]. destruct (A2 _ X1) as [X2 E2]. split; auto. now rewrite E2.
  - intros y Y. destruct (B2 y Y) as (Y2 & E2 & D2 & C2). destruct (B1 _ Y2) as (Y1 & E1 & D1 & C1). split; auto. split; [now rewrite E1|]. split.
    + rewrite Rmult_comm. apply (is_derive_comp k l y _ _ D1 D2).
    + apply (continuous_mult (fun y => k' (l y)) l'); auto. apply continuous_comp; auto. apply (ex_derive_continuous (K := R_AbsRing) (V := R_NormedModule) l). eexists. exact D2.
  - assert (I2 : forall y, inside e q y -> inside c d (l y)) by (intros y Y; now apply B2).
    destruct M1 as [[M1 S1]|[M1 S1]], M2 as [[M2 S2]|[M2 S2]]; [left|right|right|left]; split; intros y; intros; try (now apply M1; auto);
      match goal with Y : inside e q y |- _ => pose proof (S1 _ (I2 y Y)); pose proof (S2 y Y); nra end.
Qed.
Lemma antider_gen (f B : R -> R) c d lc ld : Rbar_lt c d -> (forall x y, inside c d x -> inside c d y -> x < y -> is_RInt f x y (B y - B x)) ->
  filterlim B (Fr c) (locally lc) -> filterlim B (Fl d) (locally ld) -> is_RInt_gen f (Fr c) (Fl d) (ld - lc).
Proof.
  intros L A Hc Hd P HP.
  assert (HP' : filter_prod (Fr c) (Fl d) (fun ab => P (B (snd ab) - B (fst ab)))).
  { unfold Rminus. eapply filterlim_comp_2; [eapply filterlim_comp, Hd; apply filterlim_snd| |apply (filterlim_plus ld (- lc))|exact HP].
    eapply filterlim_comp, @filterlim_opp. eapply filterlim_comp, Hc. apply filterlim_fst. }
  destruct (inside_ex c d L) as [w W].
  assert (HI : filter_prod (Fr c) (Fl d) (fun ab => inside c d (fst ab) /\ inside c d (snd ab) /\ fst ab < snd ab)).
  { exists (fun x => inside c d x /\ x < w) (fun y => inside c d y /\ w < y).
    - apply (near_Fr c d _ w W). auto. - apply (near_Fl c d _ w W). auto.
    - intros x y [X1 X2] [Y1 Y2]. cbn. split; auto. split; auto. lra. }
  unfold filtermapi. generalize (filter_and _ _ HI HP'). apply filter_imp. intros [x y] [(H1 & H2 & H3) H4]; cbn in *. exists (B y - B x). split; auto.
Qed.
Lemma inside_mid c d (x y z : R) : inside c d x -> inside c d y -> x <= z -> z <= y -> inside c d z.
Proof. intros [A1 A2] [B1 B2] L1 L2. split; [destruct c as [r| |]; cbn in *; auto; lra|destruct d as [r| |]; cbn in *; auto; lra]. Qed.
(** the integral of [K] over (s,t), in the variable [h x] *)
Lemma maps_push h k k' s t c d (K A : R -> R) ls lt : maps h k k' s t c d -> Rbar_lt s t -> (forall x y, is_RInt K x y (A y - A x)) ->
  filterlim A (Fr s) (locally ls) -> filterlim A (Fl t) (locally lt) -> is_RInt_gen (fun w => K (k w) * Rabs (k' w)) (Fr c) (Fl d) (lt - ls).
Proof.
  intros (H1 & H2 & M) L HA Ls Lt. destruct (inside_ex s t L) as [x0 X0]. destruct (H1 x0 X0) as [Y0 _]. pose proof (inside_lt c d _ Y0) as L'.
  assert (DC : forall x y z, inside c d x -> inside c d y -> x <= z <= y -> is_derive k z (k' z) /\ continuous k' z) by (intros x y z X Y [Z1 Z2]; pose proof (inside_mid c d x y z X Y Z1 Z2); split; now apply H2).
  destruct M as [[M S]|[M S]].
  - apply (antider_gen _ (fun w => A (k w))); auto.
    + intros x y X Y Q. apply (is_RInt_ext (fun w => K (k w) * k' w)).
      { intros z. rewrite Rmin_left, Rmax_right by lra. intros [Z1 Z2]. rewrite Rabs_pos_eq; auto. apply S. apply (inside_mid c d x y); auto; lra. }
      apply subst_up; auto; [|intros z Z; now apply (DC x y)]. intros u v U1 U2 U3. destruct U2 as [U2| ->]; [|lra]. left. apply M; auto; apply (inside_mid c d x y); auto; lra.
    + apply (filterlim_comp _ _ _ k A _ (Fr s)); auto. intros P HP. apply (Fr_near s t P L) in HP as (x & X & H). destruct (H1 x X) as [Y E]. apply (near_Fr c d _ (h x) Y).
      intros z Z Q. apply H; [now apply H2|]. rewrite <- E. now apply M.
    + apply (filterlim_comp _ _ _ k A _ (Fl t)); auto. intros P HP. apply (Fl_near s t P L) in HP as (x & X & H). destruct (H1 x X) as [Y E]. apply (near_Fl c d _ (h x) Y).
      intros z Z Q. apply H; [now apply H2|]. rewrite <- E. now apply M.
  - replace (lt - ls) with (- ls - - lt) by ring. apply (antider_gen _ (fun w => - A (k w))); auto.
    + intros x y X Y Q. apply (is_RInt_ext (fun w => K (k w) * - k' w)).
      { intros z. rewrite Rmin_left, Rmax_right by lra. intros [Z1 Z2]. rewrite Rabs_left1; auto. apply S. apply (inside_mid c d x y); auto; lra. }
      replace (- A (k y) - - A (k x)) with (A (k x) - A (k y)) by ring.
      apply subst_down; auto; [|intros z Z; now apply (DC x y)]. intros u v U1 U2 U3. destruct U2 as [U2| ->]; [|lra]. left. apply M; auto; apply (inside_mid c d x y); auto; lra.
    + apply (filterlim_comp _ _ _ (fun w => A (k w)) Ropp _ (locally lt)); [|exact (filterlim_opp lt)]. apply (filterlim_comp _ _ _ k A _ (Fl t)); auto. intros P HP. apply (Fl_near s t P L) in HP as (x & X & H). destruct (H1 x X) as [Y E]. apply (near_Fr c d _ (h x) Y).
      intros z Z Q. apply H; [now apply H2|]. rewrite <- E. now apply M.
    + apply (filterlim_comp _ _ _ (fun w => A (k w)) Ropp _ (locally ls)); [|exact (filterlim_opp ls)]. apply (filterlim_comp _ _ _ k A _ (Fr s)); auto. intros P HP. apply (Fr_near s t P L) in HP as (x & X & H). destruct (H1 x X) as [Y E]. apply (near_Fl c d _ (h x) Y).
      intros z Z Q. apply H; [now apply H2|]. rewrite <- E. now apply M.
Qed.
