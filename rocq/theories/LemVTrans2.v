(** Lemmas on chains of transforms of vectors. *)
From Coq Require Import Reals Lra Lia List Bool Arith.
From Coquelicot Require Import Coquelicot.
From Verif Require Import XR SpecDist ModelDist ModelVec SpecVec SpecMvn ModelTrans SpecTrans LemTrans LemTrans2 LemScan ModelSimplex SpecSimplex LemSimplex LemSimplex3 LemVec RMx LemMvn2 LemMvn3 LemSys3
  ModelVTrans SpecVTrans LemVTrans.
Import ListNotations.
Open Scope R_scope.

(** ** one coordinate *)
Definition go_back (l : list tr) (v : xr) : res xr := backward (TChain l) v.
Lemma go_back_cons t l v : go_back (t :: l) v = bind (go_back l v) (backward t).
Proof. reflexivity. Qed.
Lemma map_backward l (v w : list xr) : Forall2 (fun x y => go_back l x = Val y) v w -> chain_backward (map VElem l) v = Val w.
Proof.
  revert w. induction l as [|t l IH]; intros w H.
  - cbn [map chain_backward]. f_equal. induction H as [|x y v w E H IHH]; [reflexivity|]. unfold go_back in E. cbn in E. injection E as ->. now f_equal.
  - cbn [map chain_backward]. assert (X : exists u, Forall2 (fun x y => go_back l x = Val y) v u /\ Forall2 (fun x y => backward t x = Val y) u w).
    { clear IH. induction H as [|x y v w E H IHH]; [exists []; split; constructor|]. destruct IHH as (u & A & B). rewrite go_back_cons in E.
      destruct (go_back l x) as [z|] eqn:F; [|discriminate]. exists (z :: u). split; constructor; auto. }
    destruct X as (u & A & B). rewrite (IH u A). cbn [bind vbackward]. clear - B. induction B as [|x y u w E B IHB]; [reflexivity|]. cbn. rewrite E, IHB. reflexivity.
Qed.

Definition rb (l : list tr) (y : R) : R := match go_back l (Fin y) with Val (Fin r) => r | _ => 0 end.
Definition dlog (l : list tr) (y : R) : R := ln (Rabs (Derive (rb l) y)).
Lemma good_at l y : good l y -> locally y (fun z => go_back l (Fin z) = Val (Fin (rb l z))) /\
  is_derive (rb l) y (Derive (rb l) y) /\ Derive (rb l) y <> 0 /\ log_jac_det (TChain l) (Fin y) = Val (Fin (dlog l y)).
Proof.
  intros (x & M & P). destruct (jac_maps _ _ _ M P) as (b & j & C & L & d & Dd & N & ->). unfold computes_near in C. fold (go_back l) in C.
  assert (E : locally y (fun z => b z = rb l z)) by (eapply filter_imp; [|exact C]; intros z Z; unfold rb; unfold go_back; cbv beta in Z; now rewrite Z).
  assert (D : is_derive (rb l) y d) by (eapply is_derive_ext_loc; [exact E|exact Dd]).
  pose proof (is_derive_unique _ _ _ D) as U. split; [|split; [rewrite U; exact D|split; [rewrite U; exact N|unfold dlog; rewrite U; exact L]]].
  eapply filter_imp; [|exact (filter_and _ _ C E)]. intros z [Z1 Z2]. unfold go_back. cbv beta in Z1. now rewrite Z1, Z2.
Qed.
(** ** the maps *)
Lemma upd_map (f : R -> R) v j t : map f (upd v j t) = upd (map f v) j (f t).
Proof. revert j; induction v as [|a v IH]; intros [|j]; cbn; try reflexivity. now rewrite IH. Qed.
Lemma around l v : List.Forall (good l) v -> computes_around (chain_backward (map VElem l)) v (map (rb l)).
Proof.
  intros G j Hj. pose proof (proj1 (Forall_forall _ _) G) as G'.
  destruct (good_at l (nth j v 0)) as [C _]; [apply G', nth_In, Hj|]. eapply filter_imp; [|exact C]. intros t T. cbv beta in T. apply map_backward.
  assert (O : forall y, In y v -> go_back l (Fin y) = Val (Fin (rb l y))) by (intros y Y; destruct (good_at l y (G' y Y)) as [C' _]; exact (locally_singleton _ _ C')).
  clear - T O. revert j; induction v as [|a v IH]; intros [|j]; cbn; constructor; auto using in_eq.
  - clear IH. induction v as [|b v IHv]; cbn; constructor; auto using in_eq, in_cons. apply IHv. intros y [<-|Y]; apply O; cbn; auto.
  - apply IH. auto using in_cons.
Qed.
Lemma rb_jacobian l v : List.Forall (good l) v -> is_jacobian (length v) (map (rb l)) v (fun i j => if Nat.eq_dec i j then Derive (rb l) (nth j v 0) else 0).
Proof.
  intros G i j Hi Hj. pose proof (proj1 (Forall_forall _ _) G _ (nth_In _ 0 Hj)) as Gj. destruct (good_at l _ Gj) as (_ & D & _).
  destruct (Nat.eq_dec i j) as [->|N].
  - eapply is_derive_ext; [|exact D]. intros t. rewrite upd_map, upd_nth by (now rewrite map_length). now destruct (Nat.eq_dec j j).
  - eapply is_derive_ext; [|apply (is_derive_const (nth i (map (rb l) v) 0))]. intros t. rewrite upd_map, upd_nth by (now rewrite map_length). now destruct (Nat.eq_dec i j).
Qed.
Lemma soft_rb_jacobian l v : List.Forall (good l) v -> is_jacobian (length v) (fun u => soft (map (rb l) u)) v (fun i j => Js (map (rb l) v) i j * Derive (rb l) (nth j v 0)).
Proof.
  intros G i j Hi Hj. pose proof (proj1 (Forall_forall _ _) G _ (nth_In _ 0 Hj)) as Gj. destruct (good_at l _ Gj) as (_ & D & _).
  pose proof (soft_jacobian (map (rb l) v) i j) as S. rewrite map_length in S. specialize (S Hi Hj).
  assert (E : nth j (map (rb l) v) 0 = rb l (nth j v 0)) by (rewrite (nth_indep _ 0 (rb l 0)) by (now rewrite map_length); apply map_nth).
  rewrite E in S. pose proof (is_derive_comp _ _ _ _ _ S D) as X.
  eapply is_derive_ext; [|replace (Js (map (rb l) v) i j * Derive (rb l) (nth j v 0)) with (scal (Derive (rb l) (nth j v 0)) (Js (map (rb l) v) i j)) by apply Rmult_comm; exact X].
  intros t. cbv beta. now rewrite <- upd_map.
Qed.
(** ** the log-determinants *)
Definition go_dets (l : list tr) (v : xr) : res (xr * xr) :=
  (fix go l v : res (xr * xr) :=
     match l with
     | [] => Val (v, Fin 0)
     | t :: l => bind (go l v) (fun '(w, det) => bind (log_jac_det t w) (fun d => bind (backward t w) (fun w' => Val (w', xadd det d))))
     end) l v.
Lemma go_dets_cons t l v : go_dets (t :: l) v = bind (go_dets l v) (fun '(w, det) => bind (log_jac_det t w) (fun d => bind (backward t w) (fun w' => Val (w', xadd det d)))).
Proof. reflexivity. Qed.
Lemma go_dets_log l v : log_jac_det (TChain l) v = rmap snd (go_dets l v).
Proof. reflexivity. Qed.
Lemma go_dets_back l v w d : go_dets l v = Val (w, d) -> go_back l v = Val w.
Proof.
  revert w d. induction l as [|t l IH]; intros w d H; [unfold go_dets in H; injection H as <- _; reflexivity|]. rewrite go_dets_cons in H. rewrite go_back_cons.
  destruct (go_dets l v) as [[u e]|] eqn:E; [|discriminate]. rewrite (IH u e eq_refl). cbn [bind] in *. destruct (log_jac_det t u); [|discriminate]. cbn [bind] in H.
  destruct (backward t u); [|discriminate]. cbn [bind] in H. now injection H as -> _.
Qed.
Lemma good_dets l y : good l y -> go_dets l (Fin y) = Val (Fin (rb l y), Fin (dlog l y)).
Proof.
  intros G. destruct (good_at l y G) as (C & _ & _ & L). pose proof (locally_singleton _ _ C) as B. cbv beta in B. rewrite go_dets_log in L.
  destruct (go_dets l (Fin y)) as [[w d]|] eqn:E; [|discriminate]. cbn in L. injection L as ->. pose proof (go_dets_back _ _ _ _ E) as B'. rewrite B in B'. now injection B' as <-.
Qed.
Definition summed (n0 : nat) (dets : list vdet) : vdet := fold_left (fun det d => vadd det (if (n0 <? ndim d)%nat then vsum d else d)) dets (DSca (Fin 0)).
Lemma summed_snoc n0 dets d : summed n0 (dets ++ [d]) = vadd (summed n0 dets) (if (n0 <? ndim d)%nat then vsum d else d).
Proof. unfold summed. now rewrite fold_left_app. Qed.
Record stage : Type := { sy : xr; su : xr; se : R; sf : R; sw : xr }.
Record obs : Type := { oy : xr; ow : xr; od : R }.
Lemma split_dets t l (L : list obs) : List.Forall (fun o => go_dets (t :: l) (oy o) = Val (ow o, Fin (od o))) L ->
  exists K : list stage, L = map (fun k => {| oy := sy k; ow := sw k; od := se k + sf k |}) K /\
    List.Forall (fun k => go_dets l (sy k) = Val (su k, Fin (se k)) /\ log_jac_det t (su k) = Val (Fin (sf k)) /\ backward t (su k) = Val (sw k)) K.
Proof.
  induction 1 as [|[y w d] L H F (K & -> & A)]; [exists []; split; [reflexivity|constructor]|]. cbn [oy ow od] in H. rewrite go_dets_cons in H. destruct (go_dets l y) as [[u e]|] eqn:E1; [|discriminate]. cbn [bind] in H.
  destruct (log_jac_det t u) as [f|] eqn:E2; [|discriminate]. cbn [bind] in H. destruct (backward t u) as [w'|] eqn:E3; [|discriminate]. cbn [bind] in H. injection H as -> H.
  destruct e as [e| | |], f as [f| | |]; try discriminate. injection H as <-. exists ({| sy := y; su := u; se := e; sf := f; sw := w |} :: K). split; [reflexivity|]. constructor; auto.
Qed.
Lemma rseq_stage {A} (f : A -> res xr) (g : A -> xr) K : List.Forall (fun k => f k = Val (g k)) K -> rseq (map f K) = Val (map g K).
Proof. induction 1 as [|k K E F IH]; [reflexivity|]. cbn. rewrite E. cbn. now rewrite IH. Qed.
Lemma map2_same {A} (f g : A -> R) K : map2 xadd (map (fun k => Fin (f k)) K) (map (fun k => Fin (g k)) K) = map (fun k => Fin (f k + g k)) K.
Proof. induction K as [|k K IH]; [reflexivity|]. cbn. now rewrite IH. Qed.
Lemma rtotal_two {A} (f g : A -> R) K : rtotal (map (fun k => f k + g k) K) = rtotal (map f K) + rtotal (map g K).
Proof. induction K as [|k K IH]; cbn; [ring|]. unfold rtotal in IH. rewrite IH. ring. Qed.
Lemma xsum_of {A} (f : A -> R) K : xsum (map (fun k => Fin (f k)) K) = Fin (rtotal (map f K)).
Proof. rewrite <- (map_map f Fin). apply xsum_Fin. Qed.
Lemma vlog_unscaled t v : unscaled t -> vlog_jac_det (VElem t) v = rmap DVec (rseq (map (log_jac_det t) v)).
Proof. now destruct t. Qed.
Lemma chain_ok l (L : list obs) : List.Forall unscaled l -> List.Forall (fun o => go_dets l (oy o) = Val (ow o, Fin (od o))) L ->
  exists dets, chain_dets (map VElem l) (map oy L) = Val (map ow L, dets, 1%nat) /\
    summed 1 dets = (match l with [] => DSca (Fin 0) | _ => DVec (map (fun o => Fin (od o)) L) end) /\ summed 0 dets = DSca (Fin (rtotal (map od L))).
Proof.
  revert L. induction l as [|t l IH]; intros L U H.
  - exists []. cbn [map chain_dets]. assert (E : map oy L = map ow L /\ rtotal (map od L) = 0).
    { induction H as [|o L E H [I1 I2]]; [now split|]. unfold go_dets in E. cbn in E. injection E as E1 E2. unfold rtotal in *. cbn [map fold_right]. rewrite I1, I2, E1, <- E2. split; [reflexivity|ring]. }
    destruct E as [-> ->]. now repeat split.
  - inversion U as [|? ? Ut Ul]; subst. destruct (split_dets t l L H) as (K & -> & A). clear H.
    destruct (IH (map (fun k => {| oy := sy k; ow := su k; od := se k |}) K) Ul) as (dets & C & S1 & S0).
    { rewrite Forall_map. eapply Forall_impl; [|exact A]. intros k (E & _). exact E. }
    rewrite !(map_map _ oy), !(map_map _ ow) in C. rewrite map_map in S1, S0. cbn [oy ow od] in C, S1, S0. cbn [map chain_dets]. rewrite !map_map. cbn [oy ow od]. rewrite C. cbn [bind]. rewrite vlog_unscaled by exact Ut.
    rewrite (map_map su (log_jac_det t)), (rseq_stage _ (fun k => Fin (sf k))) by (eapply Forall_impl; [|exact A]; intros k (_ & E & _); exact E). cbn [rmap bind vbackward].
    rewrite (map_map su (backward t)), (rseq_stage _ sw) by (eapply Forall_impl; [|exact A]; intros k (_ & _ & E); exact E). cbn [bind ndim Nat.min].
    eexists. split; [reflexivity|]. rewrite !summed_snoc, S1, S0. cbn [ndim Nat.ltb Nat.leb vsum vadd]. split.
    + destruct l as [|t' l']; cbn [vadd]; [|now rewrite map2_same]. rewrite map_map. f_equal. apply map_ext_in. intros k Hk.
      pose proof (proj1 (Forall_forall _ _) A k Hk) as (E & _). unfold go_dets in E. injection E as _ E. cbn [xadd]. now rewrite <- E.
    + rewrite xsum_of, rtotal_two. reflexivity.
Qed.
Lemma good_obs l v : List.Forall (good l) v -> List.Forall (fun o => go_dets l (oy o) = Val (ow o, Fin (od o))) (map (fun y => {| oy := Fin y; ow := Fin (rb l y); od := dlog l y |}) v).
Proof. intros G. rewrite Forall_map. eapply Forall_impl; [|exact G]. intros y. apply good_dets. Qed.
Lemma chain_good l v : List.Forall unscaled l -> List.Forall (good l) v ->
  exists dets, chain_dets (map VElem l) (map Fin v) = Val (map Fin (map (rb l) v), dets, 1%nat) /\
    summed 1 dets = (match l with [] => DSca (Fin 0) | _ => DVec (map Fin (map (dlog l) v)) end) /\ summed 0 dets = DSca (Fin (rtotal (map (dlog l) v))).
Proof.
  intros U G. destruct (chain_ok l _ U (good_obs l v G)) as (dets & C & S1 & S0). rewrite !(map_map _ oy), !(map_map _ ow) in C. rewrite map_map in S1, S0. cbn [oy ow od] in C, S1, S0. exists dets. rewrite !map_map. auto.
Qed.
Lemma nth_map_R (f : R -> R) v k : (k < length v)%nat -> nth k (map f v) 0 = f (nth k v 0).
Proof. intros H. rewrite (nth_indep _ 0 (f 0)) by (now rewrite map_length). apply map_nth. Qed.
(** ** element-wise chains *)
Lemma derivs_good l v : List.Forall (good l) v -> log_abs_derivs (chain_backward (map VElem l)) v (map (dlog l) v).
Proof.
  intros G. exists (map (rb l)), (fun i j => if Nat.eq_dec i j then Derive (rb l) (nth j v 0) else 0). split; [now apply around|]. split; [now apply rb_jacobian|].
  split; [apply map_length|]. split; [intros i j _ _ N; now destruct (Nat.eq_dec i j)|]. intros k Hk. destruct (Nat.eq_dec k k) as [_|]; [|easy].
  pose proof (proj1 (Forall_forall _ _) G _ (nth_In _ 0 Hk)) as Gk. destruct (good_at l _ Gk) as (_ & _ & N & _). split; [exact N|]. now rewrite nth_map_R.
Qed.
Lemma rtotal_sumn ls : rtotal ls = sumn (length ls) (fun k => nth k ls 0).
Proof.
  induction ls as [|x ls IH] using rev_ind; [reflexivity|]. rewrite app_length, Nat.add_1_r. cbn [sumn]. rewrite app_nth2, Nat.sub_diag by lia. cbn [nth].
  transitivity (rtotal ls + x); [unfold rtotal; rewrite fold_right_app; cbn; clear; induction ls as [|a ls IH]; cbn; [ring|rewrite IH; ring]|]. rewrite IH. f_equal.
  clear. assert (forall n, (n <= length ls)%nat -> sumn n (fun k => nth k ls 0) = sumn n (fun k => nth k (ls ++ [x]) 0)) as Q; [|apply Q; lia].
  induction n as [|n IH]; intros Hn; [reflexivity|]. cbn. rewrite IH by lia. now rewrite app_nth1 by lia.
Qed.
Lemma sumn_ext n f g : (forall k, (k < n)%nat -> f k = g k) -> sumn n f = sumn n g.
Proof. induction n as [|n IH]; intros H; [reflexivity|]. cbn. rewrite IH by auto. now rewrite H by lia. Qed.
Lemma det_derivs g v ls : log_abs_derivs g v ls -> log_abs_det g v (rtotal ls).
Proof.
  intros (f & J & C & D & E & O & N). exists f, J. split; [exact C|]. split; [exact D|]. rewrite (rdet_diag _ _ O). split.
  - assert (forall n, (n <= length v)%nat -> prodn n (fun k => J k k) <> 0) as Q; [|apply Q; lia]. induction n as [|n IH]; intros Hn; cbn; [apply R1_neq_R0|]. apply Rmult_integral_contrapositive_currified; [apply IH; lia|apply N; lia].
  - rewrite rtotal_sumn, prodn_abs, <- sumn_ln, E by (intros i Hi; apply Rabs_pos_lt, N, Hi). apply sumn_ext. intros k Hk. now apply N.
Qed.
Lemma elementwise_ok l v : l <> [] -> List.Forall unscaled l -> List.Forall (good l) v ->
  exists ls, chain_log_jac_det (map VElem l) (map Fin v) = Val (DVec (map Fin ls)) /\ log_abs_derivs (chain_backward (map VElem l)) v ls.
Proof.
  intros N U G. exists (map (dlog l) v). split; [|now apply derivs_good]. destruct (chain_good l v U G) as (dets & C & S1 & _). unfold chain_log_jac_det. rewrite C. cbn [bind]. fold (summed 1 dets). rewrite S1. now destruct l.
Qed.
(** ** the simplex first *)
Lemma simplex_det_good l v : List.Forall (good l) v -> log_abs_det (chain_backward (VSimplex :: map VElem l)) v
  (rtotal (map (dlog l) v) + ln (Rabs (rdet (length (map (rb l) v)) (Js (map (rb l) v))))).
Proof.
  intros G. set (w := map (rb l) v) in *. destruct (simplex_det w) as [ND LD].
  assert (LW : length w = length v) by apply map_length. assert (NZ : forall k, (k < length v)%nat -> Derive (rb l) (nth k v 0) <> 0).
  { intros k Hk. pose proof (proj1 (Forall_forall _ _) G _ (nth_In _ 0 Hk)) as Gk. now destruct (good_at l _ Gk) as (_ & _ & N & _). }
  exists (fun u => soft (map (rb l) u)), (fun i j => Js w i j * Derive (rb l) (nth j v 0)). split; [|split; [now apply soft_rb_jacobian|]].
  - intros j Hj. eapply filter_imp; [|exact (around l v G j Hj)]. intros t T. cbv beta in T. cbn [chain_backward]. rewrite T. cbn [bind vbackward]. now rewrite backward_soft.
  - rewrite rdet_cols with (A := Js w) (d := fun j => Derive (rb l) (nth j v 0)). rewrite LW in ND. assert (PN : prodn (length v) (fun j => Derive (rb l) (nth j v 0)) <> 0).
    { assert (forall n, (n <= length v)%nat -> prodn n (fun j => Derive (rb l) (nth j v 0)) <> 0) as Q; [|apply Q; lia]. induction n as [|n IH]; intros Hn; cbn; [apply R1_neq_R0|]. apply Rmult_integral_contrapositive_currified; [apply IH; lia|apply NZ; lia]. }
    split; [now apply Rmult_integral_contrapositive_currified|]. rewrite Rabs_mult, ln_mult by (now apply Rabs_pos_lt). rewrite LW, Rplus_comm. f_equal.
    rewrite prodn_abs, <- sumn_ln by (intros i Hi; now apply Rabs_pos_lt, NZ). rewrite rtotal_sumn, map_length. apply sumn_ext. intros k Hk. now rewrite nth_map_R.
Qed.
Lemma simplex_ok l v : List.Forall unscaled l -> List.Forall (good l) v ->
  exists d, chain_log_jac_det (VSimplex :: map VElem l) (map Fin v) = Val (DSca (Fin d)) /\ log_abs_det (chain_backward (VSimplex :: map VElem l)) v d.
Proof.
  intros U G. destruct (chain_good l v U G) as (dets & C & _ & S0). eexists. split; [|exact (simplex_det_good l v G)].
  set (w := map (rb l) v) in *. destruct (simplex_det w) as [ND LD].
  unfold chain_log_jac_det. cbn [chain_dets]. rewrite C. cbn [bind vlog_jac_det vbackward ndim Nat.min]. fold (summed 0 (dets ++ [DSca (simplex_log_jac_det (map Fin w))])).
  rewrite summed_snoc, S0, LD. reflexivity.
Qed.
(** ** scales *)
Lemma scales_good cs y : List.Forall (fun c => c <> 0) cs -> good (map (fun c => TScale (Fin c)) cs) y.
Proof.
  revert y. induction cs as [|c cs IH]; intros y H; [exists y; repeat split|]. inversion H as [|? ? Hc Hcs]; subst. destruct (IH y Hcs) as (x & [Dx Ex] & Px).
  exists (x / c). assert (X : x / c * c = x) by (field; exact Hc). split; [split|].
  - cbn. rewrite X. split; [exact Hc|exact Dx].
  - cbn. rewrite X. exact Ex.
  - cbn. rewrite X. split; [exact I|exact Px].
Qed.
Fixpoint minus_logs (cs : list R) : R := match cs with [] => 0 | c :: cs => minus_logs cs + - ln (Rabs c) end.
Lemma xlog_abs c : c <> 0 -> xneg (xlog (xabs (Fin c))) = Fin (- ln (Rabs c)).
Proof. intros H. pose proof (Rabs_pos_lt c H). cbn [xabs]. rewrite xlog_pos by assumption. reflexivity. Qed.
Lemma vscale_back c (v : list R) : c <> 0 -> vbackward (VElem (TScale (Fin c))) (map Fin v) = Val (map Fin (map (fun x => x / c) v)).
Proof.
  intros H. cbn [vbackward]. induction v as [|x v IH]; [reflexivity|]. cbn [map]. cbn [rseq]. rewrite IH. assert (E : backward (TScale (Fin c)) (Fin x) = Val (Fin (x / c))).
  { apply maps_both. split; [exact H|]. cbn [tfun]. field. exact H. }
  rewrite E. reflexivity.
Qed.
Lemma scales_chain cs (v : list R) : List.Forall (fun c => c <> 0) cs -> exists w dets n0,
  chain_dets (map (fun c => VElem (TScale (Fin c))) cs) (map Fin v) = Val (map Fin w, dets, n0) /\ n0 = (match cs with [] => 1%nat | _ => O end) /\ forall n, summed n dets = DSca (Fin (minus_logs cs)).
Proof.
  induction 1 as [|c cs Hc Hcs (w & dets & n0 & C & E & S)]; [exists v, [], 1%nat; repeat split|]. cbn [map chain_dets]. rewrite C. cbn [bind vlog_jac_det]. rewrite (vscale_back c w Hc). cbn [bind ndim].
  rewrite xlog_abs by exact Hc. rewrite Nat.min_0_r. do 3 eexists. split; [reflexivity|]. split; [reflexivity|]. intros n. rewrite summed_snoc, S. cbn [ndim]. destruct (n <? 0)%nat; reflexivity.
Qed.
Lemma dlog_scale c l y : good (TScale (Fin c) :: l) y -> good l y /\ c <> 0 /\ dlog (TScale (Fin c) :: l) y = dlog l y + - ln (Rabs c).
Proof.
  intros G. pose proof G as (x & [[Dc Dx] Ex] & [_ Px]). cbn [tdom] in Dc. assert (Gl : good l y) by (exists (x * c); repeat split; assumption). split; [exact Gl|]. split; [exact Dc|].
  pose proof (good_dets _ _ G) as E. rewrite go_dets_cons, (good_dets _ _ Gl) in E. cbn [bind] in E. cbn [log_jac_det] in E. rewrite xlog_abs in E by exact Dc. cbn [bind] in E.
  destruct (backward _ _); [|discriminate]. cbn [bind xadd] in E. injection E as _ E. now rewrite <- E.
Qed.
Lemma dlog_scales cs y : List.Forall (fun c => c <> 0) cs -> dlog (map (fun c => TScale (Fin c)) cs) y = minus_logs cs.
Proof.
  induction 1 as [|c cs Hc Hcs IH]; [|].
  - assert (G : good [] y) by (exists y; repeat split). pose proof (good_dets _ _ G) as E. apply (f_equal (fun r => match r with Val (_, Fin d) => d | _ => 0 end)) in E. symmetry. exact E.
  - cbn [map]. assert (G : good (TScale (Fin c) :: map (fun c => TScale (Fin c)) cs) y) by (apply (scales_good (c :: cs)); now constructor). destruct (dlog_scale _ _ _ G) as (_ & _ & ->). rewrite IH. reflexivity.
Qed.
Lemma scales_ok cs v : List.Forall (fun c => c <> 0) cs -> exists d,
  chain_log_jac_det (map (fun c => VElem (TScale (Fin c))) cs) (map Fin v) = Val (DSca (Fin d)) /\ log_abs_derivs (chain_backward (map (fun c => VElem (TScale (Fin c))) cs)) v (repeat d (length v)).
Proof.
  intros H. exists (minus_logs cs). split.
  - destruct (scales_chain cs v H) as (w & dets & n0 & C & _ & S). unfold chain_log_jac_det. rewrite C. cbn [bind]. fold (summed n0 dets). now rewrite S.
  - assert (G : List.Forall (good (map (fun c => TScale (Fin c)) cs)) v) by (apply Forall_forall; intros y _; now apply scales_good). pose proof (derivs_good _ _ G) as D.
    rewrite map_map in D. replace (repeat (minus_logs cs) (length v)) with (map (dlog (map (fun c => TScale (Fin c)) cs)) v); [exact D|].
    clear - H. induction v as [|y v IH]; [reflexivity|]. cbn [map repeat length]. now rewrite IH, dlog_scales.
Qed.
Lemma scale_once c l v : l <> [] -> List.Forall unscaled l -> v <> [] -> List.Forall (good (TScale (Fin c) :: l)) v -> exists d ls,
  chain_log_jac_det (map VElem (TScale (Fin c) :: l)) (map Fin v) = Val (DSca (Fin d)) /\ log_abs_derivs (chain_backward (map VElem (TScale (Fin c) :: l))) v ls /\
  rtotal ls = d - (INR (length v) - 1) * ln (Rabs c).
Proof.
  intros N U V G. assert (Gl : List.Forall (good l) v) by (eapply Forall_impl; [|exact G]; intros y Y; now destruct (dlog_scale _ _ _ Y)).
  assert (Hc : c <> 0) by (destruct v as [|y v]; [easy|]; inversion G as [|? ? Gy _]; subst; now destruct (dlog_scale _ _ _ Gy) as (_ & ? & _)).
  destruct (chain_good l v U Gl) as (dets & C & _ & S0). exists (rtotal (map (dlog l) v) + - ln (Rabs c)), (map (dlog (TScale (Fin c) :: l)) v). split; [|split; [now apply derivs_good|]].
  - unfold chain_log_jac_det. cbn [map chain_dets]. rewrite C. cbn [bind]. rewrite vscale_back by exact Hc. cbn [vlog_jac_det bind ndim Nat.min]. rewrite xlog_abs by exact Hc.
    fold (summed 0 (dets ++ [DSca (Fin (- ln (Rabs c)))])). now rewrite summed_snoc, S0.
  - transitivity (rtotal (map (fun y => dlog l y + - ln (Rabs c)) v)).
    + f_equal. apply map_ext_in. intros y Hy. pose proof (proj1 (Forall_forall _ _) G y Hy) as Gy. now destruct (dlog_scale _ _ _ Gy) as (_ & _ & ->).
    + rewrite rtotal_two. assert (X : rtotal (map (fun _ : R => - ln (Rabs c)) v) = - (INR (length v) * ln (Rabs c))).
      { clear. induction v as [|y v IH]; [cbn; ring|]. cbn [map length]. rewrite S_INR. unfold rtotal in *. cbn [fold_right]. rewrite IH. ring. }
      rewrite X. ring.
Qed.
(** ** the determinant is determined *)
Lemma det_unique g v l l' : log_abs_det g v l -> log_abs_det g v l' -> l = l'.
Proof.
  intros (f & J & C & D & _ & ->) (f' & J' & C' & D' & _ & ->). f_equal. f_equal. apply rdet_ext. intros i j Hi Hj.
  pose proof (D i j Hi Hj) as A. pose proof (D' i j Hi Hj) as B. rewrite <- (is_derive_unique _ _ _ B). symmetry. apply is_derive_unique. eapply is_derive_ext_loc; [|exact A].
  eapply filter_imp; [|exact (filter_and _ _ (C j Hj) (C' j Hj))]. intros t [E E']. cbv beta in E, E'. rewrite E in E'. injection E' as E'. f_equal.
  clear - E'. remember (f (upd v j t)) as a. remember (f' (upd v j t)) as b. clear Heqa Heqb. revert b E'. induction a as [|x a IH]; intros [|y b] H; try discriminate; [reflexivity|]. injection H as -> H. f_equal. now apply IH.
Qed.
Lemma rtotal_const (x : R) (v : list R) : rtotal (map (fun _ => x) v) = INR (length v) * x.
Proof. induction v as [|y v IH]; [cbn; ring|]. cbn [map length]. rewrite S_INR. unfold rtotal in *. cbn [fold_right]. rewrite IH. ring. Qed.
Lemma simplex_scale c v : c <> 0 -> exists d e, chain_log_jac_det [VSimplex; VElem (TScale (Fin c))] (map Fin v) = Val (DSca (Fin d)) /\
  log_abs_det (chain_backward [VSimplex; VElem (TScale (Fin c))]) v e /\ e = d - (INR (length v) - 1) * ln (Rabs c).
Proof.
  intros Hc. set (l := [TScale (Fin c)]). assert (G : List.Forall (good l) v) by (apply Forall_forall; intros y _; apply (scales_good [c]); now constructor).
  set (w := map (rb l) v). assert (B : vbackward (VElem (TScale (Fin c))) (map Fin v) = Val (map Fin w)).
  { rewrite (vscale_back c v Hc). unfold w. do 2 f_equal. apply map_ext. intros y. symmetry. assert (Gy : good l y) by (apply (scales_good [c]); now constructor).
    destruct (good_at l y Gy) as (C & _). apply locally_singleton in C. assert (E : go_back l (Fin y) = Val (Fin (y / c))) by (apply (maps_both (TChain l)); split; [split; [exact Hc|exact I]|cbn; field; exact Hc]).
    rewrite E in C. now injection C as ->. }
  destruct (simplex_det w) as [ND LD]. exists (- ln (Rabs c) + ln (Rabs (rdet (length w) (Js w)))). eexists. split; [|split; [exact (simplex_det_good l v G)|]].
  - unfold chain_log_jac_det. cbn [chain_dets bind vlog_jac_det]. rewrite xlog_abs by exact Hc. rewrite B. cbn [bind vbackward ndim Nat.min app fold_left Nat.ltb Nat.leb vadd]. rewrite LD. cbn [xadd]. do 3 f_equal. ring.
  - fold w. replace (map (dlog l) v) with (map (fun _ => - ln (Rabs c)) v); [rewrite rtotal_const; ring|]. apply map_ext. intros y. symmetry. unfold l. rewrite (dlog_scales [c]) by (now constructor). cbn. ring.
Qed.
