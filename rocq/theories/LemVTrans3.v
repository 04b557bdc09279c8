(** Element-wise transforms before the simplex transform. *)
From Coq Require Import Reals Lra Lia List Bool Arith.
From Coquelicot Require Import Coquelicot.
From Verif Require Import XR SpecDist ModelDist ModelVec SpecVec SpecMvn ModelTrans SpecTrans LemTrans LemTrans2 LemScan ModelSimplex SpecSimplex LemSimplex LemSimplex3 LemVec RMx LemMvn2 LemMvn3 LemSys3
  ModelVTrans SpecVTrans LemVTrans LemVTrans2.
Import ListNotations.
Open Scope R_scope.

Lemma backward_app a b v : chain_backward (a ++ b) v = bind (chain_backward b v) (chain_backward a).
Proof. induction a as [|t a IH]; cbn [app chain_backward]; [now destruct (chain_backward b v)|]. rewrite IH. now destruct (chain_backward b v). Qed.
Lemma dets_app a b v w dets n0 w' dets' n1 : chain_dets b v = Val (w, dets, n0) -> (n0 <= 1)%nat -> chain_dets a w = Val (w', dets', n1) ->
  chain_dets (a ++ b) v = Val (w', dets ++ dets', Nat.min n0 n1).
Proof.
  intros B N. revert w' dets' n1. induction a as [|t a IH]; intros w' dets' n1 A; cbn [app chain_dets] in *.
  - injection A as <- <- <-. rewrite B, app_nil_r. do 2 f_equal. lia.
  - destruct (chain_dets a w) as [[[w1 d1] m1]|] eqn:E; [|discriminate]. rewrite (IH w1 d1 m1 eq_refl). cbn [bind] in *. destruct (vlog_jac_det t w1) as [d|]; [|discriminate]. cbn [bind] in *.
    destruct (vbackward t w1) as [w2|]; [|discriminate]. cbn [bind] in *. injection A as <- <- <-. rewrite app_assoc. do 2 f_equal. lia.
Qed.
Definition dsum (d : vdet) : xr := match d with DSca x => x | DVec l => xsum l end.
Lemma summed0 dets x : fold_left (fun det d => vadd det (if (0 <? ndim d)%nat then vsum d else d)) dets (DSca x) = DSca (fold_left (fun x d => xadd x (dsum d)) dets x).
Proof. revert x. induction dets as [|d dets IH]; intros x; [reflexivity|]. cbn [fold_left]. destruct d; cbn; apply IH. Qed.
Lemma shift dets x r : fold_left (fun x d => xadd x (dsum d)) dets (Fin 0) = Fin r -> fold_left (fun x d => xadd x (dsum d)) dets (Fin x) = Fin (x + r).
Proof.
  assert (Q : forall dets y r, fold_left (fun x d => xadd x (dsum d)) dets (Fin y) = Fin r -> fold_left (fun x d => xadd x (dsum d)) dets (Fin (x + y)) = Fin (x + r)).
  { clear. induction dets as [|d dets IH]; intros y r H; cbn [fold_left] in *; [congruence|].
    assert (STUCK : forall z, (forall r, z <> Fin r) -> forall r, fold_left (fun x d => xadd x (dsum d)) dets z <> Fin r).
    { clear. induction dets as [|d dets IH]; intros z Z r; [apply Z|]. cbn [fold_left]. apply IH. intros r'. destruct z, (dsum d); cbn; try discriminate; congruence. }
    destruct (dsum d) as [s| | |]; cbn [xadd] in *; [|exfalso; eapply STUCK; [|exact H]; discriminate..].
    replace (x + y + s) with (x + (y + s)) by ring. now apply IH. }
  intros H. rewrite <- (Rplus_0_r x) at 1. now apply Q.
Qed.
Lemma summed0_app ds ds' x y : summed 0 ds = DSca (Fin x) -> summed 0 ds' = DSca (Fin y) -> summed 0 (ds ++ ds') = DSca (Fin (x + y)).
Proof. unfold summed. rewrite fold_left_app, !summed0. intros A B. injection A as A. injection B as B. rewrite A. f_equal. now apply shift. Qed.

Lemma map_backward_good l v : List.Forall (good l) v -> chain_backward (map VElem l) (map Fin v) = Val (map Fin (map (rb l) v)).
Proof.
  intros G. apply map_backward. induction G as [|y v H G IH]; cbn; constructor; [|exact IH]. destruct (good_at l y H) as [C _]. exact (locally_singleton _ _ C).
Qed.
Section Before.
Variables (l1 l2 : list tr) (v : list R).
Hypothesis G2 : List.Forall (good l2) v.
Let w := soft (map (rb l2) v).
Hypothesis G1 : List.Forall (good l1) w.
Let n := length v.
Let LW : length w = S n.
Proof. unfold w, soft, ext. now rewrite map_length, app_length, map_length, Nat.add_1_r. Qed.
Let path j t := soft (map (rb l2) (upd v j t)).
Let LP j t : length (path j t) = S n.
Proof. unfold path, soft, ext. now rewrite map_length, app_length, map_length, upd_length, Nat.add_1_r. Qed.
Lemma upd_id (u : list R) j : (j < length u)%nat -> upd u j (nth j u 0) = u.
Proof. revert j. induction u as [|a u IH]; intros [|j] H; cbn in *; try lia; [reflexivity|]. now rewrite IH by lia. Qed.
Lemma path_at j : (j < n)%nat -> path j (nth j v 0) = w.
Proof. intros H. unfold path. now rewrite upd_id. Qed.
Lemma sumn_cont (f : nat -> R -> R) m x : (forall k, (k < m)%nat -> continuous (f k) x) -> continuous (fun t => sumn m (fun k => f k t)) x.
Proof.
  induction m as [|m IH]; intros H; cbn [sumn]; [apply continuous_const|]. apply (continuous_plus (fun t => sumn m (fun k => f k t)) (f m)); [apply IH; intros; apply H; lia|apply H; lia].
Qed.
Lemma path_cont j k : (j < n)%nat -> (k <= n)%nat -> continuous (fun t => nth k (path j t) 0) (nth j v 0).
Proof.
  intros Hj Hk.
  assert (C : forall k, (k < n)%nat -> continuous (fun t => nth k (path j t) 0) (nth j v 0)).
  { intros i Hi. apply (ex_derive_continuous (K := R_AbsRing) (V := R_NormedModule) (fun t => nth i (path j t) 0)). eexists. exact (soft_rb_jacobian l2 v G2 i j Hi Hj). }
  destruct (Nat.eq_dec k n) as [->|]; [|apply C; lia].
  apply continuous_ext with (f := fun t => 1 - sumn n (fun i => nth i (path j t) 0)).
  - intros t. destruct (soft_simplex (map (rb l2) (upd v j t))) as (_ & _ & T). fold (path j t) in T. rewrite rtotal_sumn, LP in T. cbn [sumn] in T. lra.
  - apply (continuous_minus (fun _ => 1) (fun t => sumn n (fun i => nth i (path j t) 0))); [apply continuous_const|]. apply (sumn_cont (fun i t => nth i (path j t) 0)). exact C.
Qed.
Lemma list_near (P : R -> Prop) (u : list R) : (forall k, (k < length u)%nat -> P (nth k u 0)) -> List.Forall P u.
Proof. intros H. apply Forall_forall. intros x I. destruct (In_nth _ _ 0 I) as (k & Hk & <-). auto. Qed.
Lemma eventually_all {T} (F : (T -> Prop) -> Prop) {FF : Filter F} (Q : nat -> T -> Prop) m : (forall k, (k < m)%nat -> F (Q k)) -> F (fun t => forall k, (k < m)%nat -> Q k t).
Proof.
  induction m as [|m IH]; intros H; [apply filter_forall; intros t k K; lia|].
  eapply filter_imp; [|exact (filter_and (F := F) (fun t => forall k, (k < m)%nat -> Q k t) (Q m) (IH (fun k K => H k (Nat.lt_lt_succ_r _ _ K))) (H m (Nat.lt_succ_diag_r m)))]. intros t [A B] k K. destruct (Nat.eq_dec k m) as [->|]; [exact B|apply A; lia].
Qed.
Lemma before_around : computes_around (chain_backward (map VElem l1 ++ VSimplex :: map VElem l2)) v (fun u => map (rb l1) (soft (map (rb l2) u))).
Proof.
  intros j Hj.
  assert (A : locally (nth j v 0) (fun t => forall k, (k < S n)%nat -> go_back l1 (Fin (nth k (path j t) 0)) = Val (Fin (rb l1 (nth k (path j t) 0))))).
  { apply (eventually_all (locally (nth j v 0)) (fun k t => go_back l1 (Fin (nth k (path j t) 0)) = Val (Fin (rb l1 (nth k (path j t) 0))))).
    intros k Hk. assert (Gk : good l1 (nth k w 0)) by (apply (proj1 (Forall_forall _ _) G1), nth_In; lia).
    destruct (good_at l1 _ Gk) as [C _]. rewrite <- (path_at j Hj) in C. exact (path_cont j k Hj ltac:(lia) _ C). }
  eapply filter_imp; [|exact (filter_and _ _ (around l2 v G2 j Hj) A)]. intros t [T1 T2]. cbv beta in T1, T2.
  rewrite backward_app. cbn [chain_backward]. rewrite T1. cbn [bind vbackward]. rewrite backward_soft. apply map_backward. fold (path j t).
  assert (F : List.Forall (fun x => go_back l1 (Fin x) = Val (Fin (rb l1 x))) (path j t)) by (apply list_near; intros k Hk; apply T2; now rewrite LP in Hk).
  clear -F. induction F; cbn; constructor; auto.
Qed.
Lemma before_jacobian : is_jacobian n (fun u => map (rb l1) (soft (map (rb l2) u))) v
  (fun i j => Derive (rb l1) (nth i w 0) * (Js (map (rb l2) v) i j * Derive (rb l2) (nth j v 0))).
Proof.
  intros i j Hi Hj. pose proof (soft_rb_jacobian l2 v G2 i j Hi Hj) as D2. cbv beta in D2. fold (path j) in D2.
  assert (Gi : good l1 (nth i w 0)) by (apply (proj1 (Forall_forall _ _) G1), nth_In; lia). destruct (good_at l1 _ Gi) as (_ & D1 & _).
  rewrite <- (path_at j Hj) in D1 at 1. pose proof (is_derive_comp (rb l1) (fun t => nth i (path j t) 0) _ _ _ D1 D2) as X.
  eapply is_derive_ext; [|rewrite Rmult_comm; exact X]. intros t. cbv beta. symmetry. apply nth_map_R. fold (path j t). rewrite LP. lia.
Qed.
Lemma before_det : exists e, log_abs_det (chain_backward (map VElem l1 ++ VSimplex :: map VElem l2)) v e /\
  e + dlog l1 (nth n w 0) = rtotal (map (dlog l1) w) + (rtotal (map (dlog l2) v) + ln (Rabs (rdet (length (map (rb l2) v)) (Js (map (rb l2) v))))).
Proof.
  set (u := map (rb l2) v). destruct (simplex_det u) as [ND LD]. assert (LU : length u = n) by apply map_length. rewrite LU in *.
  assert (NZ2 : forall k, (k < n)%nat -> Derive (rb l2) (nth k v 0) <> 0).
  { intros k Hk. pose proof (proj1 (Forall_forall _ _) G2 _ (nth_In _ 0 Hk)) as Gk. now destruct (good_at l2 _ Gk) as (_ & _ & N & _). }
  assert (NZ1 : forall k, (k < n)%nat -> Derive (rb l1) (nth k w 0) <> 0).
  { intros k Hk. assert (Hk' : (k < length w)%nat) by lia. pose proof (proj1 (Forall_forall _ _) G1 _ (nth_In _ 0 Hk')) as Gk. now destruct (good_at l1 _ Gk) as (_ & _ & N & _). }
  assert (PN : forall f : nat -> R, (forall k, (k < n)%nat -> f k <> 0) -> prodn n f <> 0).
  { intros f Hf. assert (forall m, (m <= n)%nat -> prodn m f <> 0) as Q; [|apply Q; lia]. induction m as [|m IH]; intros Hm; cbn; [apply R1_neq_R0|].
    apply Rmult_integral_contrapositive_currified; [apply IH; lia|apply Hf; lia]. }
  exists (ln (Rabs (rdet n (fun i j => Derive (rb l1) (nth i w 0) * (Js u i j * Derive (rb l2) (nth j v 0)))))). split.
  - exists (fun u => map (rb l1) (soft (map (rb l2) u))), (fun i j => Derive (rb l1) (nth i w 0) * (Js u i j * Derive (rb l2) (nth j v 0))).
    split; [exact before_around|]. split; [exact before_jacobian|]. split; [|reflexivity]. fold n.
    rewrite (rdet_rows n (fun i j => Js u i j * Derive (rb l2) (nth j v 0)) (fun i => Derive (rb l1) (nth i w 0))), (rdet_cols n (Js u) (fun j => Derive (rb l2) (nth j v 0))).
    apply Rmult_integral_contrapositive_currified; [now apply PN|]. apply Rmult_integral_contrapositive_currified; [exact ND|now apply PN].
  - rewrite (rdet_rows n (fun i j => Js u i j * Derive (rb l2) (nth j v 0)) (fun i => Derive (rb l1) (nth i w 0))), (rdet_cols n (Js u) (fun j => Derive (rb l2) (nth j v 0))).
    pose proof (PN _ NZ1) as P1. pose proof (PN _ NZ2) as P2.
    rewrite !Rabs_mult, !ln_mult by (try apply Rmult_lt_0_compat; now apply Rabs_pos_lt).
    rewrite !prodn_abs, <- !sumn_ln by (intros i Hi; apply Rabs_pos_lt; auto).
    rewrite (rtotal_sumn (map (dlog l1) w)), (rtotal_sumn (map (dlog l2) v)), !map_length, LW. fold n. cbn [sumn].
    rewrite (sumn_ext n (fun k => nth k (map (dlog l1) w) 0) (fun i => ln (Rabs (Derive (rb l1) (nth i w 0))))) by (intros k Hk; rewrite nth_map_R by lia; reflexivity).
    rewrite (sumn_ext n (fun k => nth k (map (dlog l2) v) 0) (fun i => ln (Rabs (Derive (rb l2) (nth i v 0))))) by (intros k Hk; rewrite nth_map_R by (fold n; lia); reflexivity).
    rewrite nth_map_R by lia. ring.
Qed.
Hypothesis U1 : List.Forall unscaled l1.
Hypothesis U2 : List.Forall unscaled l2.
Lemma before_ok : exists d e ls, chain_log_jac_det (map VElem l1 ++ VSimplex :: map VElem l2) (map Fin v) = Val (DSca (Fin d)) /\
  log_abs_det (chain_backward (map VElem l1 ++ VSimplex :: map VElem l2)) v e /\
  chain_backward (VSimplex :: map VElem l2) (map Fin v) = Val (map Fin w) /\ log_abs_derivs (chain_backward (map VElem l1)) w ls /\ d = e + last ls 0.
Proof.
  destruct before_det as (e & De & E). destruct (chain_good l2 v U2 G2) as (d2 & C2 & _ & S2). destruct (chain_good l1 w U1 G1) as (d1 & C1 & _ & S1).
  set (u := map (rb l2) v) in *. destruct (simplex_det u) as [ND LD].
  assert (CS : chain_dets (VSimplex :: map VElem l2) (map Fin v) = Val (map Fin w, d2 ++ [DSca (simplex_log_jac_det (map Fin u))], 0%nat)).
  { cbn [chain_dets]. rewrite C2. cbn [bind vlog_jac_det vbackward ndim Nat.min]. now rewrite backward_soft. }
  exists (e + dlog l1 (nth n w 0)), e, (map (dlog l1) w). split; [|split; [exact De|split; [|split; [now apply derivs_good|]]]].
  - unfold chain_log_jac_det. rewrite (dets_app _ _ _ _ _ _ _ _ _ CS ltac:(lia) C1). cbn [bind Nat.min].
    fold (summed 0 ((d2 ++ [DSca (simplex_log_jac_det (map Fin u))]) ++ d1)).
    assert (SA : summed 0 (d2 ++ [DSca (simplex_log_jac_det (map Fin u))]) = DSca (Fin (rtotal (map (dlog l2) v) + ln (Rabs (rdet (length u) (Js u)))))) by (rewrite summed_snoc, S2, LD; reflexivity).
    rewrite (summed0_app _ _ _ _ SA S1).
    do 3 f_equal. rewrite E. ring.
  - cbn [chain_backward]. rewrite (map_backward_good l2 v G2). cbn [bind vbackward]. now rewrite backward_soft.
  - f_equal. assert (NE : w <> []) by (intros Z; rewrite Z in LW; discriminate). rewrite (app_removelast_last 0 NE) at 2. rewrite map_app; cbn [map]; rewrite last_last. f_equal.
    assert (LR : length (removelast w) = n) by (pose proof (app_removelast_last 0 NE) as Q; apply (f_equal (@length R)) in Q; rewrite app_length in Q; cbn in Q; lia).
    rewrite (app_removelast_last 0 NE) at 1. rewrite app_nth2 by lia. now rewrite LR, Nat.sub_diag.
Qed.
End Before.
Lemma map_fin_inj (a b : list R) : map Fin a = map Fin b -> a = b.
Proof. revert b. induction a as [|x a IH]; intros [|y b] H; try discriminate; [reflexivity|]. injection H as -> H. f_equal. auto. Qed.
Lemma before_simplex l1 l2 v w : List.Forall unscaled l1 -> List.Forall unscaled l2 -> List.Forall (good l2) v ->
  chain_backward (VSimplex :: map VElem l2) (map Fin v) = Val (map Fin w) -> List.Forall (good l1) w -> exists d e ls,
  chain_log_jac_det (map VElem l1 ++ VSimplex :: map VElem l2) (map Fin v) = Val (DSca (Fin d)) /\
  log_abs_det (chain_backward (map VElem l1 ++ VSimplex :: map VElem l2)) v e /\ log_abs_derivs (chain_backward (map VElem l1)) w ls /\ d = e + last ls 0.
Proof.
  intros U1 U2 G2 E G1. cbn [chain_backward] in E. rewrite (map_backward_good l2 v G2) in E. cbn [bind vbackward] in E. rewrite backward_soft in E. injection E as E. apply map_fin_inj in E. subst w.
  destruct (before_ok l1 l2 v G2 G1 U1 U2) as (d & e & ls & A & B & _ & C & D). eauto 10.
Qed.
(** the derivatives along the coordinates are determined *)
Lemma derivs_unique g v a b : log_abs_derivs g v a -> log_abs_derivs g v b -> a = b.
Proof.
  intros (f & J & C & D & E & _ & N) (f' & J' & C' & D' & E' & _ & N'). apply nth_ext with (d := 0) (d' := 0); [congruence|]. intros k Hk. rewrite E in Hk.
  rewrite (proj2 (N k Hk)), (proj2 (N' k Hk)). do 2 f_equal. pose proof (D k k Hk Hk) as D1. pose proof (D' k k Hk Hk) as D2.
  assert (L : locally (nth k v 0) (fun t => nth k (f (upd v k t)) 0 = nth k (f' (upd v k t)) 0)).
  { eapply filter_imp; [|exact (filter_and _ _ (C k Hk) (C' k Hk))]. intros t [T1 T2]. rewrite T1 in T2. injection T2 as T2. apply map_fin_inj in T2. now rewrite T2. }
  apply (is_derive_ext_loc _ _ _ _ L) in D1. rewrite <- (is_derive_unique _ _ _ D1). apply is_derive_unique. exact D2.
Qed.
Lemma dlog_log y : dlog [TLog] y = y.
Proof.
  unfold dlog. rewrite (Derive_ext (rb [TLog]) exp) by reflexivity. rewrite (is_derive_unique exp y (exp y)) by apply is_derive_exp. rewrite Rabs_pos_eq by (left; apply exp_pos). apply ln_exp.
Qed.
