(** Nested measurable expressions: laws on whole intervals. *)
From Coq Require Import Reals Lra Lia ZArith List Bool.
From Coquelicot Require Import Coquelicot.
From Verif Require Import XR Special XTac SpecDist ModelDist ModelVec SpecVec LemInt ModelTrans LemTrans LemTrans2 ModelNest SpecNest LemNest LemNest2.
Import ListNotations.
Open Scope R_scope.

(** ** One-sided filters through points *)
Lemma Fr_iff a (P : R -> Prop) : a <> p_infty -> (Fr a P <-> exists x : R, Rbar_lt a x /\ forall z : R, Rbar_lt a z -> z < x -> P z).
Proof.
  destruct a as [r| |]; intros N; [| easy |]; cbn.
  - split.
    + intros [e E]. exists (r + e). pose proof (cond_pos e) as Pe. split; [lra|]. intros z A B. apply E; auto.
      unfold ball; cbn; unfold AbsRing_ball, abs, minus, plus, opp; cbn. rewrite Rabs_pos_eq; lra.
    + intros (x & A & B). exists (mkposreal (x - r) ltac:(lra)). intros z Z R0. apply B; auto.
      unfold ball in Z; cbn in Z; unfold AbsRing_ball, abs, minus, plus, opp in Z; cbn in Z. apply Rabs_def2 in Z. lra.
  - split.
    + intros [M E]. exists M. split; auto.
    + intros (x & _ & B). exists x. intros z Z. now apply B.
Qed.
Lemma Fl_iff b (P : R -> Prop) : b <> m_infty -> (Fl b P <-> exists x : R, Rbar_lt x b /\ forall z : R, Rbar_lt z b -> x < z -> P z).
Proof.
  destruct b as [r| |]; intros N; [| |easy]; cbn.
  - split.
    + intros [e E]. exists (r - e). pose proof (cond_pos e) as Pe. split; [lra|]. intros z A B. apply E; auto.
      unfold ball; cbn; unfold AbsRing_ball, abs, minus, plus, opp; cbn. rewrite Rabs_left; lra.
    + intros (x & A & B). exists (mkposreal (r - x) ltac:(lra)). intros z Z R0. apply B; auto.
      unfold ball in Z; cbn in Z; unfold AbsRing_ball, abs, minus, plus, opp in Z; cbn in Z. apply Rabs_def2 in Z. lra.
  - split.
    + intros [M E]. exists M. split; auto.
    + intros (x & _ & B). exists x. intros z Z. now apply B.
Qed.
Lemma lt_not_p a b : Rbar_lt a b -> a <> p_infty. Proof. now destruct a, b. Qed.
Lemma lt_not_m a b : Rbar_lt a b -> b <> m_infty. Proof. now destruct a, b. Qed.
Lemma rlt_trans_l a (x y : R) : Rbar_lt a x -> x < y -> Rbar_lt a y.
Proof. destruct a; cbn; auto; lra. Qed.
Lemma rlt_trans_r b (x y : R) : x < y -> Rbar_lt y b -> Rbar_lt x b.
Proof. destruct b; cbn; auto; lra. Qed.
(** the point bounding a set of the filter may be taken inside *)
Lemma Fr_near a b (P : R -> Prop) : Rbar_lt a b -> Fr a P -> exists x, inside a b x /\ forall z, inside a b z -> z < x -> P z.
Proof.
  intros L F. apply (Fr_iff a P) in F; [|exact (lt_not_p a b L)]. destruct F as (x & A & B). destruct (inside_ex a b L) as [w [W1 W2]].
  destruct (Rle_dec x w) as [C|C].
  - exists x. split; [split; auto|]. + destruct C as [C| ->]; auto. now apply (rlt_trans_r b x w).
    + intros z [Z _] D. now apply B.
  - exists w. split; [split; auto|]. intros z [Z _] D. apply B; auto. lra.
Qed.
Lemma Fl_near a b (P : R -> Prop) : Rbar_lt a b -> Fl b P -> exists x, inside a b x /\ forall z, inside a b z -> x < z -> P z.
Proof.
  intros L F. apply (Fl_iff b P) in F; [|exact (lt_not_m a b L)]. destruct F as (x & A & B). destruct (inside_ex a b L) as [w [W1 W2]].
  destruct (Rle_dec w x) as [C|C].
  - exists x. split; [split; auto|]. + destruct C as [C| <-]; auto. now apply (rlt_trans_l a w x).
    + intros z [_ Z] D. now apply B.
  - exists w. split; [split; auto|]. intros z [_ Z] D. apply B; auto. lra.
Qed.
Lemma near_Fr a b (P : R -> Prop) x : inside a b x -> (forall z, inside a b z -> z < x -> P z) -> Fr a P.
Proof.
  intros I H. pose proof (inside_lt a b x I) as L. apply Fr_iff; [exact (lt_not_p a b L)|]. exists x. split; [apply I|].
  intros z A B. apply H; auto. split; auto. destruct I as [_ I]. now apply (rlt_trans_r b z x).
Qed.
Lemma near_Fl a b (P : R -> Prop) x : inside a b x -> (forall z, inside a b z -> x < z -> P z) -> Fl b P.
Proof.
  intros I H. pose proof (inside_lt a b x I) as L. apply Fl_iff; [exact (lt_not_m a b L)|]. exists x. split; [apply I|].
  intros z A B. apply H; auto. split; auto. destruct I as [I _]. now apply (rlt_trans_l a x z).
Qed.

(** ** From an improper integral to an antiderivative *)
Lemma RInt_gen_prim (f : R -> R) a b l : Rbar_lt a b -> (forall x, inside a b x -> continuous f x) -> is_RInt_gen f (Fr a) (Fl b) l -> prim f a b l.
Proof.
  intros L C I. destruct (inside_ex a b L) as [c Hc]. set (F := fun x : R => RInt f c x : R).
  assert (E : forall x y v, inside a b x -> inside a b y -> is_RInt f x y v -> v = F y - F x).
  { intros x y v X Y V. pose proof (is_RInt_unique f x y v V) as U. rewrite <- U. unfold F.
    assert (Ch : plus (RInt f c x) (RInt f x y) = RInt f c y).
    { apply (RInt_Chasles (V := R_CompleteNormedModule)); now apply (cont_ex_RInt f a b). }
    rewrite <- Ch. unfold plus; cbn. ring. }
  assert (G : forall eps : posreal, exists P Q, Fr a P /\ Fl b Q /\ forall x y, P x -> Q y -> Rabs (F y - F x - l) < eps).
  { intros eps. destruct (I (ball l eps) (locally_ball l eps)) as [P Q HP HQ H].
    exists (fun x => P x /\ inside a b x), (fun y => Q y /\ inside a b y). split; [|split].
    - apply filter_and; auto. now apply Fr_inside.
    - apply filter_and; auto. now apply Fl_inside.
    - intros x y [X1 X2] [Y1 Y2]. destruct (H x y X1 Y1) as (v & V1 & V2). cbn in V1. rewrite <- (E x y v X2 Y2 V1). exact V2. }
  assert (La : exists la, filterlim F (Fr a) (locally la)).
  { apply (filterlim_locally_cauchy (U := R_CompleteSpace)). intros eps. destruct (G (pos_div_2 eps)) as (P & Q & HP & HQ & H).
    exists P. split; auto. intros u v U V. destruct (filter_ex Q HQ) as [y Y]. pose proof (H u y U Y) as A. pose proof (H v y V Y) as B.
    apply Rabs_def2 in A. apply Rabs_def2 in B. cbn in A, B. unfold ball; cbn; unfold AbsRing_ball, abs, minus, plus, opp; cbn. apply Rabs_def1; lra. }
  assert (Lb : exists lb, filterlim F (Fl b) (locally lb)).
  { apply (filterlim_locally_cauchy (U := R_CompleteSpace)). intros eps. destruct (G (pos_div_2 eps)) as (P & Q & HP & HQ & H).
    exists Q. split; auto. intros u v U V. destruct (filter_ex P HP) as [x X]. pose proof (H x u X U) as A. pose proof (H x v X V) as B.
    apply Rabs_def2 in A. apply Rabs_def2 in B. cbn in A, B. unfold ball; cbn; unfold AbsRing_ball, abs, minus, plus, opp; cbn. apply Rabs_def1; lra. }
  destruct La as [la La], Lb as [lb Lb]. split; auto. exists F, la, lb. split; [|split; [|split]]; auto.
  - intros x X. split; [|now apply C]. now apply (cont_RInt_derive f a b c x).
  - apply Req_lt_aux. intros eps. destruct (G (mkposreal (eps / 4) ltac:(pose proof (cond_pos eps); lra))) as (P & Q & HP & HQ & H).
    assert (Pe : 0 < eps / 4) by (pose proof (cond_pos eps); lra).
    pose proof (La (ball la (mkposreal _ Pe)) (locally_ball la _)) as A. pose proof (Lb (ball lb (mkposreal _ Pe)) (locally_ball lb _)) as B. unfold filtermap in A, B.
    destruct (filter_ex _ (filter_and _ _ HP A)) as (x & X1 & X2). destruct (filter_ex _ (filter_and _ _ HQ B)) as (y & Y1 & Y2).
    pose proof (H x y X1 Y1) as Z. unfold ball in X2, Y2; cbn in X2, Y2, Z; unfold AbsRing_ball, abs, minus, plus, opp in X2, Y2; cbn in X2, Y2.
    apply Rabs_def2 in X2. apply Rabs_def2 in Y2. apply Rabs_def2 in Z. apply Rabs_def1; lra.
Qed.

(** ** One link *)
(** [h] maps (a,b) onto (c,d), with inverse [k] of derivative [k'] keeping (or
    reversing) the order *)
Definition maps (h k k' : R -> R) (a b c d : Rbar) : Prop :=
  (forall x, inside a b x -> inside c d (h x) /\ k (h x) = x) /\
  (forall y, inside c d y -> inside a b (k y) /\ h (k y) = y /\ is_derive k y (k' y) /\ continuous k' y) /\
  ((forall y y', inside c d y -> inside c d y' -> y < y' -> k y < k y') /\ (forall y, inside c d y -> 0 <= k' y) \/
   (forall y y', inside c d y -> inside c d y' -> y < y' -> k y' < k y) /\ (forall y, inside c d y -> k' y <= 0)).
Lemma maps_prim h k k' a b c d g l : maps h k k' a b c d -> prim g a b l -> prim (fun y => g (k y) * Rabs (k' y)) c d l.
Proof.
  intros (A & B & M) G. pose proof (proj1 G) as L. destruct (inside_ex a b L) as [x0 X0]. destruct (A x0 X0) as [Y0 _]. pose proof (inside_lt c d _ Y0) as L'.
  destruct M as [[M S]|[M S]].
  - apply (prim_ext (fun y => g (k y) * k' y)). { intros y Y. now rewrite Rabs_pos_eq by (now apply S). }
    apply (prim_subst g k k' a b c d l); auto.
    + intros y Y. now apply B. + intros y Y. split; now apply B.
    + intros P HP. apply (Fr_near a b P L) in HP as (x & X & H). destruct (A x X) as [Y E]. apply (near_Fr c d _ (h x) Y).
      intros z Z Lt. apply H; [now apply B|]. rewrite <- E. now apply M.
    + intros P HP. apply (Fl_near a b P L) in HP as (x & X & H). destruct (A x X) as [Y E]. apply (near_Fl c d _ (h x) Y).
      intros z Z Lt. apply H; [now apply B|]. rewrite <- E. now apply M.
  - apply (prim_ext (fun y => g (k y) * - k' y)). { intros y Y. rewrite Rabs_left1 by (now apply S). reflexivity. }
    apply (prim_subst_dec g k k' a b c d l); auto.
    + intros y Y. now apply B. + intros y Y. split; now apply B.
    + intros P HP. apply (Fl_near a b P L) in HP as (x & X & H). destruct (A x X) as [Y E]. apply (near_Fr c d _ (h x) Y).
      intros z Z Lt. apply H; [now apply B|]. rewrite <- E. now apply M.
    + intros P HP. apply (Fr_near a b P L) in HP as (x & X & H). destruct (A x X) as [Y E]. apply (near_Fl c d _ (h x) Y).
      intros z Z Lt. apply H; [now apply B|]. rewrite <- E. now apply M.
Qed.

(** images of an interval under the links *)
Definition bar_map (h : R -> R) (b : Rbar) : Rbar := match b with Finite r => Finite (h r) | _ => b end.
Lemma loc_maps c a b : Rbar_lt a b -> maps (fun x => x + c) (fun y => y - c) (fun _ => 1) a b (bar_map (fun x => x + c) a) (bar_map (fun x => x + c) b).
Proof.
  intros L. split; [|split].
  - intros x [A B]. split; [|ring]. destruct a, b; cbn in *; try contradiction; split; cbn; auto; lra.
  - intros y [A B]. split; [|split; [ring|split]].
    + destruct a, b; cbn in *; try contradiction; split; cbn; auto; lra.
    + auto_derive; [auto|ring].
    + apply continuous_const.
  - left. split; intros; lra.
Qed.
Definition bar_neg (h : R -> R) (b : Rbar) : Rbar := match b with Finite r => Finite (h r) | p_infty => m_infty | m_infty => p_infty end.
Lemma div_lt_pos c x y : 0 < c -> (x < y / c <-> x * c < y).
Proof. intros P. split; intros H. - apply (Rmult_lt_compat_r c) in H; auto. replace (y / c * c) with y in H by (field; lra). lra. - apply (Rmult_lt_reg_r c); auto. replace (y / c * c) with y by (field; lra). lra. Qed.
Lemma div_gt_pos c x y : 0 < c -> (y / c < x <-> y < x * c).
Proof. intros P. split; intros H. - apply (Rmult_lt_compat_r c) in H; auto. replace (y / c * c) with y in H by (field; lra). lra. - apply (Rmult_lt_reg_r c); auto. replace (y / c * c) with y by (field; lra). lra. Qed.
Lemma div_lt_neg c x y : c < 0 -> (x < y / c <-> y < x * c).
Proof. intros P. replace (y / c) with ((- y) / (- c)) by (field; lra). rewrite div_lt_pos by lra. lra. Qed.
Lemma div_gt_neg c x y : c < 0 -> (y / c < x <-> x * c < y).
Proof. intros P. replace (y / c) with ((- y) / (- c)) by (field; lra). rewrite div_gt_pos by lra. lra. Qed.
Lemma scale_maps c a b : c <> 0 -> Rbar_lt a b -> exists a' b', maps (fun x => x * c) (fun y => y / c) (fun _ => / c) a b a' b'.
Proof.
  intros N L. assert (Dv : forall y, is_derive (fun y => y / c) y (/ c)) by (intros y; auto_derive; [auto|field; auto]).
  destruct (Rlt_dec 0 c) as [P|P].
  - exists (bar_map (fun x => x * c) a), (bar_map (fun x => x * c) b). split; [|split].
    + intros x [A B]. split; [|field; auto]. destruct a, b; cbn in *; try contradiction; split; cbn; auto; nra.
    + intros y [A B]. split; [|split; [field; auto|split; [apply Dv|apply continuous_const]]].
      destruct a, b; cbn in *; try contradiction; split; cbn; auto; try (now apply div_lt_pos); try now apply div_gt_pos.
    + left. split; [|intros; left; now apply Rinv_0_lt_compat]. intros y y' _ _ H. apply div_gt_pos; auto. replace (y' / c * c) with y' by (field; auto). auto.
  - assert (Q : c < 0) by (destruct (Rtotal_order c 0) as [|[|]]; auto; lra).
    exists (bar_neg (fun x => x * c) b), (bar_neg (fun x => x * c) a). split; [|split].
    + intros x [A B]. split; [|field; auto]. destruct a, b; cbn in *; try contradiction; split; cbn; auto; nra.
    + intros y [A B]. split; [|split; [field; auto|split; [apply Dv|apply continuous_const]]].
      destruct a, b; cbn in *; try contradiction; split; cbn; auto; try (now apply div_lt_neg); try now apply div_gt_neg.
    + right. split; [|intros; left; now apply Rinv_lt_0_compat]. intros y y' _ _ H. apply div_gt_neg; auto. replace (y / c * c) with y by (field; auto). auto.
Qed.
Definition bar_exp (b : Rbar) : Rbar := match b with Finite r => Finite (exp r) | p_infty => p_infty | m_infty => Finite 0 end.
Lemma exp_maps a b : Rbar_lt a b -> maps exp ln Rinv a b (bar_exp a) (bar_exp b).
Proof.
  intros L. assert (P : forall y, inside (bar_exp a) (bar_exp b) y -> 0 < y).
  { intros y [A _]. destruct a as [r| |]; cbn in A; [pose proof (exp_pos r); lra|destruct b; easy|exact A]. }
  split; [|split].
  - intros x [A B]. split; [|apply ln_exp]. pose proof (exp_pos x). destruct a, b; cbn in *; try contradiction; split; cbn; auto; try now apply exp_increasing.
  - intros y Y. pose proof (P y Y) as Py. destruct Y as [A B]. split; [|split; [now apply exp_ln|split]].
    + assert (U : forall r, exp r < y -> r < ln y) by (intros r R0; rewrite <- (ln_exp r); apply ln_increasing; auto; apply exp_pos).
      assert (V : forall r, y < exp r -> ln y < r) by (intros r R0; rewrite <- (ln_exp r); now apply ln_increasing).
      destruct a, b; cbn in *; try contradiction; split; cbn; auto.
    + auto_derive; [auto|field; lra].
    + apply (ex_derive_continuous (K := R_AbsRing) (V := R_NormedModule) Rinv). auto_derive. lra.
  - left. split.
    + intros y y' Y Y' H. apply ln_increasing; auto.
    + intros y Y. left. apply Rinv_0_lt_compat. auto.
Qed.
(** the ends of an interval of positive numbers *)
Lemma pos_ends a b : Rbar_lt a b -> (forall x, inside a b x -> 0 < x) -> exists r, a = Finite r /\ 0 <= r.
Proof.
  intros L P. destruct a as [r| |]; [|now destruct b|].
  - exists r. split; auto. apply Rnot_lt_le. intros N. destruct b as [s| |]; cbn in L; [| |easy].
    + assert (I : inside r s (Rmin ((r + s) / 2) (r / 2))). { split; cbn; unfold Rmin; destruct Rle_dec; lra. }
      apply P in I. unfold Rmin in I. destruct Rle_dec; lra.
    + assert (I : inside r p_infty (r / 2)) by (split; cbn; auto; lra). apply P in I. lra.
  - exfalso. destruct b as [s| |]; cbn in L; [| |easy].
    + assert (I : inside m_infty s (Rmin (s - 1) (-1))). { split; cbn; auto; unfold Rmin; destruct Rle_dec; lra. }
      apply P in I. unfold Rmin in I. destruct Rle_dec; lra.
    + assert (I : inside m_infty p_infty (-1)) by (split; cbn; auto). apply P in I. lra.
Qed.
Lemma log_maps a b : Rbar_lt a b -> (forall x, inside a b x -> 0 < x) -> exists a' b', maps ln exp exp a b a' b'.
Proof.
  intros L P. destruct (pos_ends a b L P) as (r & -> & R0).
  assert (Lb : forall s, b = Finite s -> 0 < s) by (intros s ->; cbn in L; lra).
  exists (if Req_EM_T r 0 then m_infty else Finite (ln r)), (bar_map ln b).
  assert (U : forall s y, 0 < s -> (y < ln s <-> exp y < s)).
  { intros s y S0. split; intros H. - apply exp_increasing in H. now rewrite exp_ln in H. - rewrite <- (ln_exp y). apply ln_increasing; auto. apply exp_pos. }
  assert (V : forall s y, 0 < s -> (ln s < y <-> s < exp y)).
  { intros s y S0. split; intros H. - apply exp_increasing in H. now rewrite exp_ln in H. - rewrite <- (ln_exp y). now apply ln_increasing. }
  split; [|split].
  - intros x X. pose proof (P x X) as Px. destruct X as [A B]. split; [|now apply exp_ln]. cbn in A. split.
    + destruct Req_EM_T; cbn; auto. apply ln_increasing; lra.
    + destruct b as [s| |]; cbn in *; auto. now apply ln_increasing.
  - intros y [A B]. split; [|split; [apply ln_exp|split]].
    + split; cbn.
      * destruct Req_EM_T as [->|N]; cbn in A; [apply exp_pos|]. apply V; auto. lra.
      * destruct b as [s| |]; cbn in *; auto. apply U; auto.
    + auto_derive; [auto|ring].
    + apply (ex_derive_continuous (K := R_AbsRing) (V := R_NormedModule) exp). auto_derive. auto.
  - left. split; [intros; now apply exp_increasing|intros; left; apply exp_pos].
Qed.
Lemma recip_maps a b : Rbar_lt a b -> (forall x, inside a b x -> 0 < x) -> exists a' b', maps Rinv Rinv (fun y => - / (y * y)) a b a' b'.
Proof.
  intros L P. destruct (pos_ends a b L P) as (r & -> & R0).
  assert (Lb : forall s, b = Finite s -> 0 < s) by (intros s ->; cbn in L; lra).
  exists (match b with Finite s => Finite (/ s) | _ => Finite 0 end), (if Req_EM_T r 0 then p_infty else Finite (/ r)).
  assert (Py : forall y, inside (match b with Finite s => Finite (/ s) | _ => Finite 0 end) (if Req_EM_T r 0 then p_infty else Finite (/ r)) y -> 0 < y).
  { intros y [A _]. destruct b as [s| |]; cbn in A; auto. pose proof (Rinv_0_lt_compat s (Lb s eq_refl)). lra. }
  split; [|split].
  - intros x X. pose proof (P x X) as Px. pose proof (Rinv_0_lt_compat x Px). destruct X as [A B]. split; [|apply Rinv_inv]. cbn in A. split.
    + destruct b as [s| |]; cbn in *; auto. apply Rinv_lt_contravar; auto. specialize (Lb s eq_refl). nra.
    + destruct Req_EM_T; cbn; auto. apply Rinv_lt_contravar; auto. nra.
  - intros y Y. pose proof (Py y Y) as Y0. pose proof (Rinv_0_lt_compat y Y0). destruct Y as [A B]. split; [|split; [apply Rinv_inv|split]].
    + split; cbn.
      * destruct Req_EM_T as [->|N]; cbn in B; auto. rewrite <- (Rinv_inv r). apply Rinv_lt_contravar; auto. assert (0 < r) by lra. pose proof (Rinv_0_lt_compat r). nra.
      * destruct b as [s| |]; cbn in *; auto. specialize (Lb s eq_refl). rewrite <- (Rinv_inv s). apply Rinv_lt_contravar; auto. pose proof (Rinv_0_lt_compat s Lb). nra.
    + auto_derive; [lra|field; lra].
    + apply (ex_derive_continuous (K := R_AbsRing) (V := R_NormedModule) (fun y => - / (y * y))). auto_derive. nra.
  - right. split.
    + intros y y' Y Y' Q. apply Py in Y. apply Py in Y'. apply Rinv_lt_contravar; auto. nra.
    + intros y Y. apply Py in Y. assert (0 < y * y) by nra. pose proof (Rinv_0_lt_compat (y * y)). lra.
Qed.

(** ** Whole expressions *)
Section Nest.
Variable dt : nat -> dtype.
Variable fs : nat -> list xr -> xr.
Notation annotate := (annotate dt fs).
Notation means := (means fs).
Notation regular := (regular fs).
Section On.
Variables (rho : nat -> R) (i : nat) (lps : nat -> xr -> res xr) (s t : Rbar) (l : R).
Notation at_ := (upd rho i).
Definition over (e : nexpr) (m : mexpr) : Prop :=
  exists (H : R -> R) (c d : Rbar) (g : R -> R),
    (forall x, inside s t x -> means (at_ x) e (H x) /\ inside c d (H x)) /\
    (forall y, inside c d y -> exists x, inside s t x /\ H x = y) /\
    (forall y, inside c d y -> denotes (nested_logprob lps m (Fin y)) (g y)) /\ prim g c d l.
Lemma over_step u e e' m (h : R -> R) : over e m ->
  (forall c d, Rbar_lt c d -> (forall y, inside c d y -> exists x, inside s t x /\ means (at_ x) e y) ->
     exists k k' c' d', maps h k k' c d c' d' /\ forall y v, inside c d y -> denotes (nested_logprob lps m (Fin y)) v ->
       denotes (elemwise_logprob u (nested_logprob lps m) (Fin (h y))) (v * Rabs (k' (h y)))) ->
  (forall x y, inside s t x -> means (at_ x) e y -> means (at_ x) e' (h y)) -> over e' (MElem u m).
Proof.
  intros (H & c & d & g & A & B & D & P) Q M.
  destruct (Q c d (proj1 P)) as (k & k' & c' & d' & Mp & Dn).
  { intros y Y. destruct (B y Y) as (x & X & <-). exists x. split; auto. now apply A. }
  exists (fun x => h (H x)), c', d', (fun y => g (k y) * Rabs (k' y)). pose proof Mp as (M1 & M2 & _). split; [|split; [|split]].
  - intros x X. destruct (A x X) as [A1 A2]. split; [now apply M|now apply M1].
  - intros y Y. destruct (M2 y Y) as (Y1 & Y2 & _). destruct (B _ Y1) as (x & X & E). exists x. split; auto. now rewrite E.
  - intros y Y. destruct (M2 y Y) as (Y1 & Y2 & _). cbn [nested_logprob]. rewrite <- Y2 at 1. replace (k' y) with (k' (h (k y))) by now rewrite Y2. apply Dn; auto.
  - now apply (maps_prim h k k' c d).
Qed.
Lemma over_loc e e' m c : over e m -> (forall x y, inside s t x -> means (at_ x) e y -> means (at_ x) e' (y + c)) -> over e' (MElem (TLoc (Fin c)) m).
Proof.
  intros O M. apply (over_step _ e e' m (fun y => y + c) O); auto. intros a b L _. do 4 eexists. split; [now apply loc_maps|].
  intros y v _ D. cbv beta. rewrite Rabs_R1, Rmult_1_r. exact (loc_den _ (fun _ => v) c y D).
Qed.
Lemma over_scale e e' m c : c <> 0 -> over e m -> (forall x y, inside s t x -> means (at_ x) e y -> means (at_ x) e' (y * c)) -> over e' (MElem (TScale (Fin c)) m).
Proof.
  intros N O M. apply (over_step _ e e' m (fun y => y * c) O); auto. intros a b L _. destruct (scale_maps c a b N L) as (a' & b' & Mp).
  do 4 eexists. split; [exact Mp|]. intros y v _ D. cbv beta. rewrite Rabs_inv. exact (scale_den _ (fun _ => v) c y N D).
Qed.
Lemma over_one u e m : over e m -> (forall x, inside s t x -> exists y z, means (at_ x) e y /\ means (at_ x) (NOne u e) z /\ (u = URecip -> 0 < y)) ->
  over (NOne u e) (MElem (tr_unary u) m).
Proof.
  intros O R0.
  assert (Rg : forall y, (exists x, inside s t x /\ means (at_ x) e y) -> (u = ULog -> 0 < y) /\ (u = URecip -> 0 < y)).
  { intros y (x & X & My). destruct (R0 x X) as (y' & z & My' & Mz & P). rewrite (means_fun fs (at_ x) e y y') by auto. split; auto.
    intros ->. inversion Mz as [| | |? r M1 Q| | | | | |]; subst. rewrite (means_fun fs (at_ x) e y' r); auto. }
  destruct u; cbn [tr_unary].
  - apply (over_step TExp e _ m exp O); [|intros x y _; apply m_exp]. intros a b L _. do 4 eexists. split; [now apply exp_maps|].
    intros y v _ D. cbv beta. pose proof (exp_pos y) as P. pose proof (Rinv_0_lt_compat _ P). rewrite Rabs_pos_eq by lra. now apply exp_den.
  - apply (over_step TLog e _ m ln O); [|intros x y X My; apply m_log; auto; refine (proj1 (Rg y _) eq_refl); eauto]. intros a b L I.
    assert (P : forall y, inside a b y -> 0 < y) by (intros y Y; exact (proj1 (Rg y (I y Y)) eq_refl)).
    destruct (log_maps a b L P) as (a' & b' & Mp). do 4 eexists. split; [exact Mp|]. intros y v Y D. specialize (P y Y).
    cbv beta. rewrite exp_ln, Rabs_pos_eq by lra. now apply log_den.
  - apply (over_step TRecip e _ m Rinv O).
    2: { intros x y X My. apply m_recip; auto. apply Rgt_not_eq. refine (proj2 (Rg y _) eq_refl); eauto. }
    intros a b L I. assert (P : forall y, inside a b y -> 0 < y) by (intros y Y; exact (proj2 (Rg y (I y Y)) eq_refl)).
    destruct (recip_maps a b L P) as (a' & b' & Mp). do 4 eexists. split; [exact Mp|]. intros y v Y D. specialize (P y Y).
    cbv beta. replace (- / (/ y * / y)) with (- (y * y)) by (field; lra). rewrite Rabs_Ropp, Rabs_pos_eq by nra. now apply (recip_den _ (fun _ => v)).
Qed.
End On.

Lemma app_mid (l : list nexpr) : forall e r l' e' r', l ++ e :: r = l' ++ e' :: r' -> flat_map occs l = [] -> flat_map occs l' = [] ->
  occs e <> [] -> occs e' <> [] -> l = l' /\ e = e' /\ r = r'.
Proof.
  induction l as [|a l IH]; intros e r [|a' l'] e' r' E O O' N N'; cbn in *.
  - injection E as -> ->. auto.
  - injection E as -> _. apply app_eq_nil in O' as [O' _]. now rewrite O' in N.
  - injection E as -> _. apply app_eq_nil in O as [O _]. now rewrite O in N'.
  - injection E as -> E. apply app_eq_nil in O as [_ O]. apply app_eq_nil in O' as [_ O']. destruct (IH e r l' e' r' E O O' N N') as (-> & -> & ->). auto.
Qed.
Lemma regular_chain rho i e : regular rho i e -> chain i e.
Proof. induction 1; [apply c_rv|apply c_one|apply c_many|apply c_many|apply c_sub_l|apply c_sub_r|apply c_div_l|apply c_div_r]; auto. Qed.
Lemma chain_ne i e : chain i e -> occs e <> [].
Proof. intros C. now rewrite (chain_occs i e C). Qed.
Lemma regular_many rho i n ll e r : regular rho i (NMany n (ll ++ e :: r)) -> flat_map occs ll = [] -> chain i e ->
  regular rho i e /\ (n = NMul -> exists ls rs, Forall2 (means rho) ll ls /\ Forall2 (means rho) r rs /\ rprod ls * rprod rs <> 0).
Proof.
  intros G O C. inversion G as [| |l1 e1 r1 G2 O1 O2 N2 Q1|l1 e1 r1 ls1 rs1 G2 O1 O2 N2 F1 F2 NZ Q1| | | |]; subst; cbn in O1, O2;
    match goal with E : _ = _ ++ _ :: _ |- _ => apply app_mid in E as (-> & -> & ->) | E : _ ++ _ :: _ = _ |- _ => apply app_mid in E as (-> & -> & ->) end;
    auto; try (eapply chain_ne; eauto using regular_chain).
  - split; auto. discriminate.
  - split; auto. intros _. eauto.
Qed.
Lemma chain_not rho i e : regular rho i e -> occs e = [] -> False.
Proof. intros G. exact (chain_ne i e (regular_chain rho i e G)). Qed.

Lemma nested_over rho i lps f s t l e : dt i <> DInt -> (forall x, inside s t x -> denotes (lps i (Fin x)) (f x)) -> prim f s t l -> chain i e ->
  (forall x, inside s t x -> regular (upd rho i x) i e /\ exists y, means (upd rho i x) e y) ->
  exists m, a_m (annotate e) = Some m /\ mbase m = i /\ over rho i lps s t l e m.
Proof.
  intros D L0 P C. destruct (inside_ex s t (proj1 P)) as [x0 X0].
  induction C as [|u e C IH|n ll e r C IH Ol Or N|a b C IH O|a b C IH O|a b C IH O|a b C IH O]; intros G;
    cbn [ModelNest.annotate rw_unary rw_nary rw_sub rw_div a_m].
  - exists (MBase i). repeat split. exists (fun x => x), s, t, f. split; [|split; [|split]]; auto.
    + intros x X. split; auto. pose proof (m_rv fs (upd rho i x) i) as Q. now rewrite upd_rv in Q.
    + intros y Y. exists y. auto.
  - destruct IH as (m & E & B & Gd).
    { intros x X. destruct (G x X) as [G1 _]. inversion G1 as [|? ? r G2 M _| | | | | |]; subst. split; eauto. }
    rewrite (construct_1 dt _ m) by (auto; eapply starts_base; eauto). eexists; repeat split; [exact B|].
    apply over_one; auto. intros x X. destruct (G x X) as [G1 [z Mz]]. inversion G1 as [|? ? r G2 M Q| | | | | |]; subst. eauto.
  - cbn in Ol, Or.
    assert (Vals : exists ls rs, Forall2 (means (upd rho i x0)) ll ls /\ Forall2 (means (upd rho i x0)) r rs).
    { destruct (G x0 X0) as [_ [z Mz]]. inversion Mz as [| | | | |? vs F|? vs F| | |]; subst;
      apply Forall2_app_inv_l in F as (ls & vs' & Fl & Fr & ->); inversion Fr; subst; eauto. }
    destruct Vals as (ls & rs & Fl & Fr).
    assert (In : forall x, inside s t x -> regular (upd rho i x) i e /\ exists y, means (upd rho i x) e y).
    { intros x X. destruct (G x X) as [G1 [z Mz]]. split.
      - now apply (regular_many _ i n ll e r).
      - inversion Mz as [| | | | |? vs F|? vs F| | |]; subst;
      apply Forall2_app_inv_l in F as (ls' & vs' & Fl' & Fr' & ->); inversion Fr'; subst; eauto. }
    destruct (IH In) as (m & E & B & Gd). rewrite map_app. cbn [map].
    rewrite (construct_mid dt _ _ _ m) by (auto; try (now apply plain_map); eapply starts_base; eauto).
    rewrite map_app, (vals_plain dt fs _ ll ls Ol Fl), (vals_plain dt fs _ r rs Or Fr), <- map_app.
    unfold tr_nary. rewrite fold_others_fin.
    2: { intros Z. apply N. apply app_eq_nil in Z as [-> ->]. inversion Fl; inversion Fr; reflexivity. }
    eexists; repeat split; [exact B|]. destruct n; cbn [rfold].
    + apply (over_loc rho i lps s t l e); auto. intros x z X Mz. rewrite Rplus_comm, (Rplus_comm _ z), <- rtotal_mid. constructor.
      apply Forall2_app; [now apply (means_indeps fs (upd rho i x0))|]. constructor; auto. now apply (means_indeps fs (upd rho i x0)).
    + apply (over_scale rho i lps s t l e); auto.
      * rewrite rprod_app. destruct (G x0 X0) as [G1 _].
        destruct (proj2 (regular_many _ i NMul ll e r G1 Ol C) eq_refl) as (ls1 & rs1 & F1 & F2 & NZ).
        rewrite (nonrandom_sames fs _ _ ll ls ls1 Ol Fl F1), (nonrandom_sames fs _ _ r rs rs1 Or Fr F2). exact NZ.
      * intros x z X Mz. rewrite rprod_app, <- rprod_mid. constructor.
        apply Forall2_app; [now apply (means_indeps fs (upd rho i x0))|]. constructor; auto. now apply (means_indeps fs (upd rho i x0)).
  - destruct (G x0 X0) as [_ [z0 M0]]. inversion M0 as [| | | | | | |? ? v w Ma Mb| |]; subst.
    destruct IH as (m & E & B & Gd).
    { intros x X. destruct (G x X) as [G1 [z Mz]]. inversion Mz; subst. split; eauto. inversion G1; subst; auto. exfalso. eapply chain_not; eauto. }
    rewrite (construct_l dt _ _ m); auto; [|now apply neg_plain|eapply starts_base; eauto].
    cbn [rw_nary a_val map con]. rewrite (means_plain dt fs _ b w O Mb). change [Fin (-1); Fin w] with (map Fin [-1; w]). rewrite nary_fin.
    unfold tr_nary. cbn [fold_others]. eexists; repeat split; [exact B|]. apply (over_loc rho i lps s t l a); auto.
    intros x z X Mz. replace (z + rfold NMul [-1; w]) with (z - w) by (unfold rfold, rprod; cbn; ring). constructor; auto. now apply (means_indep fs (upd rho i x0)).
  - destruct (G x0 X0) as [_ [z0 M0]]. inversion M0 as [| | | | | | |? ? v w Ma Mb| |]; subst.
    destruct IH as (m & E & B & Gd).
    { intros x X. destruct (G x X) as [G1 [z Mz]]. inversion Mz; subst. split; eauto. inversion G1; subst; auto. exfalso. eapply chain_not; eauto. }
    rewrite (construct_r dt _ _ (MElem (TScale (Fin (-1))) m)); auto; [|now apply ann_plain|].
    2: { cbn [rw_nary a_m]. rewrite (construct_r dt _ _ m); auto; [apply con_plain|eapply starts_base; eauto]. }
    rewrite (means_plain dt fs _ a v O Ma). unfold tr_nary. cbn [fold_others].
    eexists; repeat split; [exact B|]. apply (over_loc rho i lps s t l (NMany NMul [b; NCon (Fin (-1))])).
    + apply (over_scale rho i lps s t l b); auto; [lra|]. intros x z X Mz. replace (z * -1) with (rprod [z; -1]) by (unfold rprod; cbn; ring).
      constructor. repeat constructor; auto.
    + clear B. intros x z X Mz. inversion Mz as [| | | | | |? vs F| | |]; subst. inversion F as [|? z1 ? F1 Mz1 F2]; subst. inversion F2 as [|? z2 ? F3 Mz2 F4]; subst. inversion F4; subst. inversion Mz2; subst.
      replace (rprod [z1; -1] + v) with (v - z1) by (unfold rprod; cbn; ring). constructor; auto. now apply (means_indep fs (upd rho i x0)).
  - destruct (G x0 X0) as [_ [z0 M0]]. inversion M0 as [| | | | | | | |? ? v w Ma Mb Nw|]; subst.
    destruct IH as (m & E & B & Gd).
    { intros x X. destruct (G x X) as [G1 [z Mz]]. inversion Mz; subst. split; eauto. inversion G1; subst; auto. exfalso. eapply chain_not; eauto. }
    rewrite (construct_l dt _ _ m); auto; [|now apply inv_plain|eapply starts_base; eauto].
    cbn [rw_unary a_val]. rewrite (means_plain dt fs _ b w O Mb). cbn [un_val]. rewrite xrecip_fin by auto. unfold tr_nary. cbn [fold_others].
    eexists; repeat split; [exact B|]. apply (over_scale rho i lps s t l a); auto; [now apply Rinv_neq_0_compat|].
    intros x z X Mz. constructor; auto. now apply (means_indep fs (upd rho i x0)).
  - assert (Sd : forall x, inside s t x -> regular (upd rho i x) i b /\ exists v w, means (upd rho i x) a v /\ v <> 0 /\ means (upd rho i x) b w /\ 0 < w).
    { intros x X. destruct (G x X) as [G1 _]. inversion G1; subst; [exfalso; eapply chain_not; eauto|]. eauto 10. }
    destruct IH as (m & E & B & Gd).
    { intros x X. destruct (Sd x X) as (G1 & v & w & _ & _ & Mw & _). eauto. }
    destruct (Sd x0 X0) as (_ & v & w & Mv & Nv & Mw & Pw).
    rewrite (construct_r dt _ _ (MElem TRecip m)); auto; [|now apply ann_plain|].
    2: { cbn [rw_unary a_m]. rewrite (construct_1 dt _ m); auto. eapply starts_base; eauto. }
    rewrite (means_plain dt fs _ a v O Mv). unfold tr_nary. cbn [fold_others].
    eexists; repeat split; [exact B|]. apply (over_scale rho i lps s t l (NOne URecip b)); auto.
    + apply (over_one rho i lps s t l URecip b m); auto. intros x X. destruct (Sd x X) as (_ & v' & w' & _ & _ & Mw' & Pw'). exists w', (/ w'). repeat split; auto. constructor; auto. lra.
    + clear B. intros x z X Mz. inversion Mz; subst. match goal with |- context [/ ?r * v] => replace (/ r * v) with (v / r) by (field; auto) end.
      constructor; auto. now apply (means_indep fs (upd rho i x0)).
Qed.
Lemma nested_law rho i lps f s t l e : dt i <> DInt -> Rbar_lt s t ->
  (forall x, inside s t x -> continuous f x /\ denotes (lps i (Fin x)) (f x)) -> is_RInt_gen f (Fr s) (Fl t) l ->
  (forall x, inside s t x -> regular (upd rho i x) i e /\ exists y, means (upd rho i x) e y) ->
  exists m c d p, a_m (annotate e) = Some m /\
    (forall y, inside c d y <-> exists x, inside s t x /\ means (upd rho i x) e y) /\
    (forall y, inside c d y -> denotes (nested_logprob lps m (Fin y)) (p y)) /\ is_RInt_gen p (Fr c) (Fl d) l.
Proof.
  intros D L F I G. destruct (inside_ex s t L) as [x0 X0].
  destruct (nested_over rho i lps f s t l e D) as (m & E & B & H & c & d & g & A1 & A2 & A3 & A4); auto.
  - intros x X. now apply F.
  - apply RInt_gen_prim; auto. intros x X. now apply F.
  - destruct (G x0 X0) as [G0 _]. now apply regular_chain in G0.
  - exists m, c, d, g. split; auto. split; [|split; auto; now apply prim_RInt_gen]. intros y. split.
    + intros Y. destruct (A2 y Y) as (x & X & <-). exists x. split; auto. now apply A1.
    + intros (x & X & M). destruct (A1 x X) as [M' Y]. now rewrite (means_fun fs _ e y (H x) M M').
Qed.
End Nest.
