(** C66: chains of transforms of vectors. *)
From Coq Require Import Reals Lra Lia List Bool Arith.
From Coquelicot Require Import Coquelicot.
From Verif Require Import XR ModelDist ModelVec SpecVec ModelTrans SpecTrans ModelSimplex SpecSimplex RMx ModelVTrans SpecVTrans LemVTrans2 LemVTrans3.
Import ListNotations.
Open Scope R_scope.

(** Chains of element-wise transforms, applied to vectors of any length: the
    log-determinant is the vector of the logarithms of the derivatives of the
    backward map along every coordinate. *)
Theorem C66_elementwise : forall l v, l <> [] -> List.Forall unscaled l -> List.Forall (good l) v ->
  exists ls, chain_log_jac_det (map VElem l) (map Fin v) = Val (DVec (map Fin ls)) /\ log_abs_derivs (chain_backward (map VElem l)) v ls.
Proof. exact elementwise_ok. Qed.
Print Assumptions C66_elementwise.
(** so that the sum over the entries is the log-determinant of the whole map *)
Theorem C66_total : forall g v ls, log_abs_derivs g v ls -> log_abs_det g v (rtotal ls).
Proof. exact det_derivs. Qed.
Print Assumptions C66_total.
(** The simplex transform followed by any chain of element-wise transforms:
    one number, the log-determinant of the whole backward map. *)
Theorem C66_simplex : forall l v, List.Forall unscaled l -> List.Forall (good l) v ->
  exists d, chain_log_jac_det (VSimplex :: map VElem l) (map Fin v) = Val (DSca (Fin d)) /\ log_abs_det (chain_backward (VSimplex :: map VElem l)) v d.
Proof. exact simplex_ok. Qed.
Print Assumptions C66_simplex.
(** Chains of nothing but scales: one number, the logarithm of the derivative
    along every coordinate. *)
Theorem C66_scales : forall cs v, List.Forall (fun c => c <> 0) cs -> exists d,
  chain_log_jac_det (map (fun c => VElem (TScale (Fin c))) cs) (map Fin v) = Val (DSca (Fin d)) /\
  log_abs_derivs (chain_backward (map (fun c => VElem (TScale (Fin c))) cs)) v (repeat d (length v)).
Proof. exact scales_ok. Qed.
Print Assumptions C66_scales.
(** The specification determines the number. *)
Theorem C66_determined : forall g v l l', log_abs_det g v l -> log_abs_det g v l' -> l = l'.
Proof. exact det_unique. Qed.
Print Assumptions C66_determined.
(** A scale before any chain of element-wise transforms: the other
    log-derivatives are added up, but the scale's is counted once and not once
    per coordinate. *)
Theorem C66_scale_once : forall c l v, l <> [] -> List.Forall unscaled l -> v <> [] -> List.Forall (good (TScale (Fin c) :: l)) v -> exists d ls,
  chain_log_jac_det (map VElem (TScale (Fin c) :: l)) (map Fin v) = Val (DSca (Fin d)) /\ log_abs_derivs (chain_backward (map VElem (TScale (Fin c) :: l))) v ls /\
  rtotal ls = d - (INR (length v) - 1) * ln (Rabs c).
Proof. exact scale_once. Qed.
Print Assumptions C66_scale_once.
Lemma good_log2 y : good [TScale (Fin 2); TLog] y.
Proof.
  pose proof (exp_pos y). exists (exp y / 2). unfold tmaps. cbn. replace (exp y / 2 * 2) with (exp y) by field. repeat split; try assumption; try lra. apply ln_exp.
Qed.
(** ChainedTransform([ScaleTransform(2), LogTransform()]) on two coordinates:
    the log-determinant is neither that of the map nor the logarithm of the
    derivative along each coordinate. *)
Theorem C66_refuted : exists l v d, chain_log_jac_det l (map Fin v) = Val (DSca (Fin d)) /\ (exists e, log_abs_det (chain_backward l) v e) /\
  (forall e, log_abs_det (chain_backward l) v e -> e <> d) /\ ~ log_abs_derivs (chain_backward l) v (repeat d (length v)).
Proof.
  pose (v := [1; 1]). assert (G : List.Forall (good [TScale (Fin 2); TLog]) v) by (repeat constructor; apply good_log2).
  destruct (scale_once 2 [TLog] v) as (d & ls & C & D & E); [discriminate|repeat constructor|discriminate|exact G|].
  pose proof (det_derivs _ _ _ D) as T. assert (P2 : 0 < ln 2 < 1).
  { split; [rewrite <- ln_1; apply ln_increasing; lra|]. rewrite <- (ln_exp 1). apply ln_increasing; [lra|]. pose proof (exp_ineq1 1). lra. }
  assert (L2 : ln (Rabs 2) = ln 2) by (f_equal; apply Rabs_pos_eq; lra). cbn [v length INR] in E. rewrite L2 in E.
  assert (Q : d = 2 - ln 2).
  { clear - C L2. cbv [chain_log_jac_det map chain_dets bind vlog_jac_det rmap rseq log_jac_det v] in C. rewrite (xlog_abs 2) in C by lra. cbn -[xdiv] in C. injection C as C. rewrite <- C, L2. ring. }
  exists (map VElem [TScale (Fin 2); TLog]), v, d. split; [exact C|]. split; [exists (rtotal ls); exact T|]. split.
  - intros e H. rewrite (det_unique _ _ _ _ H T). lra.
  - intros H. pose proof (det_unique _ _ _ _ (det_derivs _ _ _ H) T) as X. rewrite E in X. cbn in X. lra.
Qed.
Print Assumptions C66_refuted.
(** The same after the simplex: ChainedTransform([SimplexTransform(), ScaleTransform(c)]). *)
Theorem C66_simplex_scale : forall c v, c <> 0 -> exists d e, chain_log_jac_det [VSimplex; VElem (TScale (Fin c))] (map Fin v) = Val (DSca (Fin d)) /\
  log_abs_det (chain_backward [VSimplex; VElem (TScale (Fin c))]) v e /\ e = d - (INR (length v) - 1) * ln (Rabs c).
Proof. exact simplex_scale. Qed.
Print Assumptions C66_simplex_scale.

(** Any chain of element-wise transforms before (on the constrained side of)
    the simplex: the term of the last coordinate, which the others determine, is
    counted too, so that the result exceeds the log-determinant by it. *)
Theorem C66_before_simplex : forall l1 l2 v w, List.Forall unscaled l1 -> List.Forall unscaled l2 -> List.Forall (good l2) v ->
  chain_backward (VSimplex :: map VElem l2) (map Fin v) = Val (map Fin w) -> List.Forall (good l1) w -> exists d e ls,
  chain_log_jac_det (map VElem l1 ++ VSimplex :: map VElem l2) (map Fin v) = Val (DSca (Fin d)) /\
  log_abs_det (chain_backward (map VElem l1 ++ VSimplex :: map VElem l2)) v e /\ log_abs_derivs (chain_backward (map VElem l1)) w ls /\ d = e + last ls 0.
Proof. exact before_simplex. Qed.
Print Assumptions C66_before_simplex.
Lemma good_log y : good [TLog] y.
Proof. pose proof (exp_pos y). exists (exp y). unfold tmaps. cbn. repeat split; try assumption. apply ln_exp. Qed.
(** ChainedTransform([LogTransform(), SimplexTransform()]): the log-determinant
    is wrong at every point. *)
Theorem C66_before_simplex_refuted : exists l, forall v, exists d e, chain_log_jac_det l (map Fin v) = Val (DSca (Fin d)) /\ log_abs_det (chain_backward l) v e /\ d <> e.
Proof.
  exists [VElem TLog; VSimplex]. intros v. destruct (LemSimplex.soft_simplex v) as (LS & PS & _).
  destruct (C66_before_simplex [TLog] [] v (LemSimplex.soft v)) as (d & e & ls & A & B & C & D); [repeat constructor|constructor| | | |].
  - apply Forall_forall. intros x _. exists x. unfold tmaps. cbn. auto.
  - cbn [chain_backward map bind vbackward]. now rewrite LemSimplex.backward_soft.
  - apply Forall_forall. intros x _. apply good_log.
  - exists d, e. split; [exact A|]. split; [exact B|]. rewrite D.
    assert (ls = LemSimplex.soft v) as ->.
    { rewrite (derivs_unique _ _ _ _ C (derivs_good [TLog] _ ltac:(apply Forall_forall; intros x _; apply good_log))). clear. induction (LemSimplex.soft v) as [|x l IH]; [reflexivity|]. cbn [map]. now rewrite dlog_log, IH. }
    assert (NE : LemSimplex.soft v <> []) by (intros Z; rewrite Z in LS; discriminate). rewrite (app_removelast_last 0 NE) in PS. apply Forall_app in PS. destruct PS as (_ & PS). inversion PS. lra.
Qed.
Print Assumptions C66_before_simplex_refuted.

(** *** Examples *)
Lemma good_ex y : good [TLoc (Fin 1); TLog] y.
Proof. exists (exp y - 1). unfold tmaps. cbn. replace (exp y - 1 + 1) with (exp y) by ring. pose proof (exp_pos y). repeat split; try assumption. apply ln_exp. Qed.
Example C66_ex_elementwise : exists ls, chain_log_jac_det (map VElem [TLoc (Fin 1); TLog]) (map Fin [1; 2; 3]) = Val (DVec (map Fin ls)) /\
  log_abs_derivs (chain_backward (map VElem [TLoc (Fin 1); TLog])) [1; 2; 3] ls.
Proof. apply C66_elementwise; [discriminate|repeat constructor|]. repeat constructor; apply good_ex. Qed.
Example C66_ex_simplex : exists d, chain_log_jac_det (VSimplex :: map VElem [TLoc (Fin 1); TLog]) (map Fin [1; 2]) = Val (DSca (Fin d)) /\
  log_abs_det (chain_backward (VSimplex :: map VElem [TLoc (Fin 1); TLog])) [1; 2] d.
Proof. apply C66_simplex; [repeat constructor|]. repeat constructor; apply good_ex. Qed.
Example C66_ex_scales : exists d, chain_log_jac_det (map (fun c => VElem (TScale (Fin c))) [2; 3]) (map Fin [1; 2]) = Val (DSca (Fin d)) /\
  log_abs_derivs (chain_backward (map (fun c => VElem (TScale (Fin c))) [2; 3])) [1; 2] (repeat d 2).
Proof. apply C66_scales. repeat constructor; lra. Qed.
