(** C78: value transforms of vectors, with the default Jacobian term. *)
From Coq Require Import Reals Lra Lia List Bool Arith.
From Coquelicot Require Import Coquelicot.
From Verif Require Import XR SpecDist ModelDist ModelVec SpecVec ModelTrans SpecTrans SpecSimplex RMx ModelMvn SpecMvn LemMvn LemMvn2 LemMvn3
  ModelVTrans SpecVTrans LemVTrans LemVTrans2 ModelDefJac SpecDefJac LemDefJac.
Import ListNotations.
Open Scope R_scope.

(** Vector-valued variables with a user-defined transform: the log-density of
    the transformed vector.  Missing for the full claim, and false (below):
    vectors of independent draws, arrays with more axes. *)
Theorem C78_default_partial lp g grad v f J b : gradients_at g grad v f J -> rdet (length v) J <> 0 -> lp (map Fin (f v)) = Val (DSca (Fin b)) -> exists p,
  transformed_vector true lp g (default_vector g grad) (map Fin v) = Val (DSca (Fin p)) /\ changed_logpdf g v b p.
Proof. exact (default_vec lp g grad v f J b). Qed.
Print Assumptions C78_default_partial.
(** independent draws: the Jacobian term is counted once per draw *)
Theorem C78_default_draws lp g grad v f J bs : gradients_at g grad v f J -> rdet (length v) J <> 0 -> lp (map Fin (f v)) = Val (DVec (map Fin bs)) -> exists d p,
  transformed_vector true lp g (default_vector g grad) (map Fin v) = Val d /\ factor d = Fin (p + (INR (length bs) - 1) * ln (Rabs (rdet (length v) J))) /\ changed_logpdf g v (rtotal bs) p.
Proof. exact (default_draws lp g grad v f J bs). Qed.
Print Assumptions C78_default_draws.
(** independent draws with chains of the package's element-wise transforms *)
Theorem C78_draws_partial lp l v w bs : l <> [] -> List.Forall unscaled l -> List.Forall (good l) v ->
  chain_backward (map VElem l) (map Fin v) = Val w -> lp w = Val (DVec (map Fin bs)) -> length bs = length v -> exists d p,
  transformed_vector true lp (chain_backward (map VElem l)) (chain_log_jac_det (map VElem l)) (map Fin v) = Val d /\ factor d = Fin p /\
  changed_logpdf (chain_backward (map VElem l)) v (rtotal bs) p.
Proof. exact (elementwise_draws lp l v w bs). Qed.
Print Assumptions C78_draws_partial.
(** vector-valued variables with such chains: the base log-density is counted
    once per coordinate *)
Theorem C78_vector lp l v w b : l <> [] -> List.Forall unscaled l -> List.Forall (good l) v ->
  chain_backward (map VElem l) (map Fin v) = Val w -> lp w = Val (DSca (Fin b)) -> exists d p,
  transformed_vector true lp (chain_backward (map VElem l)) (chain_log_jac_det (map VElem l)) (map Fin v) = Val d /\ factor d = Fin (p + (INR (length v) - 1) * b) /\
  changed_logpdf (chain_backward (map VElem l)) v b p.
Proof. exact (elementwise_vector lp l v w b). Qed.
Print Assumptions C78_vector.
(** scalars with a user-defined transform: the probability of an interval of
    transformed values is that of the back-transformed interval *)
Theorem C78_scalar lp f D p q y1 y2 : y1 <= y2 -> (forall y, is_derive f y (D y)) -> (forall y, continuous D y) -> ((forall y, 0 < D y) \/ (forall y, D y < 0)) ->
  (forall y, continuous p (f y)) -> (forall y, denotes (lp (Fin (f y))) (p (f y))) ->
  (forall y, denotes (bind (lp (Fin (f y))) (fun l => bind (default_log_jac_det [] [] (fun _ _ => Fin (D y))) (fun j => Val (xadd l j)))) (q y)) ->
  is_RInt q y1 y2 (RInt p (Rmin (f y1) (f y2)) (Rmax (f y1) (f y2))).
Proof. exact (scalar_law lp f D p q y1 y2). Qed.
Print Assumptions C78_scalar.
(** scalars and vectors of one entry, on either side of the transform *)
Theorem C78_single out inp d D : In out [[]; [1%nat]] -> In inp [[]; [1%nat]] -> d (map (fun _ => 0%nat) out) (map (fun _ => 0%nat) inp) = Fin D -> D <> 0 ->
  default_log_jac_det out inp d = Val (Fin (ln (Rabs D))).
Proof. exact (default_single out inp d D). Qed.
Print Assumptions C78_single.
(** the value is a vector of one entry, the variable the cube of that entry *)
Example C78_single_ex : default_log_jac_det [] [1%nat] (fun _ i => match i with [0%nat] => Fin (3 * (2 * 2)) | _ => NaN end) = Val (Fin (ln (Rabs 12))).
Proof. apply C78_single; [now left|right; now left|cbn; f_equal; ring|lra]. Qed.
(** back-transformed values with more than one axis, and transforms changing the
    length of the vector *)
Theorem C78_raises out inp d : (2 <= length out)%nat \/ (out = [] /\ (exists n, inp = [n] /\ n <> 1%nat)) \/ (exists m n, out = [m] /\ inp = [n] /\ m <> n) ->
  default_log_jac_det out inp d = Raise.
Proof. exact (default_raises out inp d). Qed.
Print Assumptions C78_raises.

(** *** cases *)
(** backward = exp, without a Jacobian term of its own, on vectors *)
Definition exp_back (v : list xr) : res (list xr) := Val (map (fun x => match x with Fin r => Fin (exp r) | PInf => PInf | NInf => Fin 0 | NaN => NaN end) v).
Definition exp_grad (v : list xr) (i j : nat) : xr := if Nat.eq_dec i j then match nth j v NaN with Fin r => Fin (exp r) | x => x end else Fin 0.
Lemma exp_gradients v : gradients_at exp_back exp_grad v (map exp) (fun i j => if Nat.eq_dec i j then exp (nth j v 0) else 0).
Proof.
  assert (E : forall u, exp_back (map Fin u) = Val (map Fin (map exp u))) by (intros; unfold exp_back; now rewrite !map_map).
  split; [|split; [|split; [|split]]].
  - intros j _. apply filter_forall. intros t. apply E.
  - apply E.
  - apply map_length.
  - intros i j I K.
    assert (U : forall t, nth i (map exp (upd v j t)) 0 = if Nat.eq_dec i j then exp t else exp (nth i v 0)).
    { intros t. revert i j I K. induction v as [|a v IH]; intros i j I K; cbn in I, K; [lia|]. destruct j as [|j], i as [|i]; cbn [map upd nth].
      - reflexivity.
      - rewrite nth_map_R by lia. destruct (Nat.eq_dec (S i) 0); [lia|reflexivity].
      - destruct (Nat.eq_dec 0 (S j)); [lia|reflexivity].
      - rewrite IH by lia. destruct (Nat.eq_dec i j), (Nat.eq_dec (S i) (S j)); try lia; reflexivity. }
    eapply is_derive_ext; [intros t; symmetry; apply U|]. destruct (Nat.eq_dec i j); [apply is_derive_exp|apply @is_derive_const].
  - intros i j I K. unfold exp_grad. rewrite (nth_indep _ NaN (Fin 0)) by (now rewrite map_length). rewrite (map_nth Fin). destruct (Nat.eq_dec i j); reflexivity.
Qed.
Lemma exp_det v : rdet (length v) (fun i j => if Nat.eq_dec i j then exp (nth j v 0) else 0) = exp (rtotal v).
Proof.
  rewrite rdet_diag by (intros i j _ _ N; destruct (Nat.eq_dec i j); [contradiction|reflexivity]).
  assert (P : forall n (h : nat -> R), (forall k, (k < n)%nat -> h k = (if Nat.eq_dec k k then exp (nth k v 0) else 0)) -> prodn n h = exp (sumn n (fun k => nth k v 0))).
  { induction n as [|n IH]; intros h H; cbn; [now rewrite exp_0|]. rewrite (IH h) by (intros; apply H; lia). rewrite H by lia. destruct (Nat.eq_dec n n); [|lia]. now rewrite exp_plus. }
  rewrite (P (length v) _ (fun k _ => eq_refl)). f_equal. symmetry. apply rtotal_sumn.
Qed.
Definition id2 (i j : nat) : R := if Nat.eq_dec i j then 1 else 0.
Lemma id2_ok : symmetric 2 id2 /\ positive_definite 2 id2 /\ inverse 2 id2 id2.
Proof.
  split; [|split].
  - intros i j _ _. unfold id2. destruct (Nat.eq_dec i j), (Nat.eq_dec j i); congruence.
  - intros x (i & I & X). unfold quad. cbn. assert (forall a, 0 <= a * a) by (intros; apply Rle_0_sqr). assert (0 < x i * x i) by (now apply Rsqr_pos_lt).
    pose proof (H (x 0%nat)). pose proof (H (x 1%nat)). unfold id2. cbn. destruct i as [|[|i]]; [lra|lra|lia].
  - intros i j I K. destruct i as [|[|i]]; [| |lia]; (destruct j as [|[|j]]; [| |lia]); cbn; unfold id2; cbn; field.
Qed.
(** a 2-dimensional normal vector with log-scale values *)
Example C78_default_ex : exists p, transformed_vector true (fun x => rmap DSca (mvnormal_logprob 2 (map Fin [0; 0]) id2 x)) exp_back (default_vector exp_back exp_grad) (map Fin [1; 2]) = Val (DSca (Fin p)) /\
  changed_logpdf exp_back [1; 2] (mvn_logpdf 2 id2 id2 (fun i => nth i [exp 1; exp 2] 0 - nth i [0; 0] 0)) p.
Proof.
  apply (C78_default_partial _ _ _ _ (map exp) _ _ (exp_gradients [1; 2])).
  - rewrite exp_det. apply Rgt_not_eq, exp_pos.
  - rewrite (mvn_value 2 [0; 0] (map exp [1; 2]) id2 id2) by (apply id2_ok || reflexivity). reflexivity.
Qed.
Lemma exponential_at r : exponential_logprob (Fin 1) (Fin (exp r)) = Val (Fin (- exp r)).
Proof.
  pose proof (exp_pos r). unfold exponential_logprob, xge, xle, xgt, xlt, Rltb. destruct (Rlt_dec 0 (exp r)); [|lra]. destruct (Rlt_dec 0 1); [|lra].
  cbn [orb xlog xdiv]. destruct (Rlt_dec 0 1); [|lra]. destruct (Req_EM_T 1 0); [lra|]. cbn. rewrite ln_1. do 2 f_equal. field.
Qed.
(** two exponential draws with log-scale values and the default Jacobian term:
    the term is counted twice *)
Theorem C78_default_refuted : exists lp g grad v f J bs d p, gradients_at g grad v f J /\ rdet (length v) J <> 0 /\ lp (map Fin (f v)) = Val (DVec (map Fin bs)) /\ length bs = length v /\
  transformed_vector true lp g (default_vector g grad) (map Fin v) = Val d /\ changed_logpdf g v (rtotal bs) p /\ factor d <> Fin p.
Proof.
  pose (v := [1; 2]). pose (bs := map (fun r => - exp r) v). pose (lp := fun x => rmap DVec (rseq (map (exponential_logprob (Fin 1)) x))).
  assert (E : lp (map Fin (map exp v)) = Val (DVec (map Fin bs))) by (unfold lp, v, bs; cbn [map rseq]; rewrite !exponential_at; reflexivity).
  destruct (C78_default_draws lp exp_back exp_grad v (map exp) _ bs (exp_gradients v)) as (d & p & T & F & C); [rewrite exp_det; apply Rgt_not_eq, exp_pos|exact E|].
  exists lp, exp_back, exp_grad, v, (map exp). eexists. exists bs, d, p. split; [apply exp_gradients|]. split; [rewrite exp_det; apply Rgt_not_eq, exp_pos|]. split; [exact E|].
  split; [reflexivity|]. split; [exact T|]. split; [exact C|]. rewrite F, exp_det, Rabs_pos_eq, ln_exp by (left; apply exp_pos). intros Q. injection Q as Q. unfold bs, v in Q. cbn in Q. lra.
Qed.
Print Assumptions C78_default_refuted.
(** LocTransform on a normal vector of two coordinates: the log-density is
    counted twice *)
Theorem C78_vector_refuted : exists lp l v w b d p, l <> [] /\ List.Forall unscaled l /\ List.Forall (good l) v /\
  chain_backward (map VElem l) (map Fin v) = Val w /\ lp w = Val (DSca (Fin b)) /\
  transformed_vector true lp (chain_backward (map VElem l)) (chain_log_jac_det (map VElem l)) (map Fin v) = Val d /\
  changed_logpdf (chain_backward (map VElem l)) v b p /\ factor d <> Fin p.
Proof.
  pose (lp := fun x => rmap DSca (mvnormal_logprob 2 (map Fin [0; 0]) id2 x)).
  pose (v := [1; 1]). assert (G : List.Forall (good [TLoc (Fin 1)]) v).
  { repeat constructor; exists 0; unfold tmaps; cbn; repeat split; ring. }
  assert (W : chain_backward (map VElem [TLoc (Fin 1)]) (map Fin v) = Val (map Fin [0; 0])) by (cbn; replace (1 + - (1)) with 0 by ring; reflexivity).
  assert (E : lp (map Fin [0; 0]) = Val (DSca (Fin (- ln (2 * PI))))).
  { unfold lp. rewrite (mvn_value 2 [0; 0] [0; 0] id2 id2) by (apply id2_ok || reflexivity). cbn [rmap]. do 2 f_equal. f_equal. unfold mvn_logpdf. rewrite (rdet_diag 2) by (intros i j _ _ N; unfold id2; destruct (Nat.eq_dec i j); [contradiction|reflexivity]).
    unfold quad, id2. cbn. rewrite !Rmult_1_r, ln_1. lra. }
  destruct (C78_vector lp [TLoc (Fin 1)] v _ _ ltac:(discriminate) ltac:(repeat constructor) G W E) as (d & p & T & F & C).
  exists lp, [TLoc (Fin 1)], v. do 2 eexists. exists d, p. split; [discriminate|]. split; [repeat constructor|]. split; [exact G|]. split; [exact W|]. split; [exact E|]. split; [exact T|]. split; [exact C|].
  rewrite F. intros Q. injection Q as Q. cbn in Q. assert (0 < ln (2 * PI)); [|lra]. rewrite <- ln_1. apply ln_increasing; [lra|]. pose proof PI_RGT_0. pose proof PI2_3_2. unfold PI2 in *. lra.
Qed.
Print Assumptions C78_vector_refuted.
(** two exponential draws with the package's LogTransform *)
Example C78_draws_ex : exists d p, transformed_vector true (fun x => rmap DVec (rseq (map (exponential_logprob (Fin 1)) x))) (chain_backward [VElem TLog]) (chain_log_jac_det [VElem TLog]) (map Fin [1; 2]) = Val d /\
  factor d = Fin p /\ changed_logpdf (chain_backward [VElem TLog]) [1; 2] (rtotal [- exp 1; - exp 2]) p.
Proof.
  apply (C78_draws_partial _ [TLog] [1; 2] (map Fin [exp 1; exp 2])); [discriminate|repeat constructor| |reflexivity| |reflexivity].
  - assert (G : forall y, good [TLog] y) by (intros y; exists (exp y); unfold tmaps; cbn; repeat split; try apply exp_pos; apply ln_exp). apply List.Forall_forall. intros y _. apply G.
  - cbn [map rseq]. rewrite !exponential_at. reflexivity.
Qed.
(** an exponential variable with log-scale values and the default Jacobian term *)
Example C78_scalar_ex y1 y2 : y1 <= y2 -> is_RInt (fun y => exp (- exp y) * Rabs (exp y)) y1 y2 (RInt (fun x => exp (- x)) (Rmin (exp y1) (exp y2)) (Rmax (exp y1) (exp y2))).
Proof.
  intros Y. apply (C78_scalar (exponential_logprob (Fin 1)) exp exp (fun x => exp (- x))); [exact Y|intros; apply is_derive_exp|intros; apply continuous_exp|left; apply exp_pos| | |].
  - intros y. apply (ex_derive_continuous (fun x => exp (- x))). auto_derive. exact I.
  - intros y. rewrite exponential_at. reflexivity.
  - intros y. apply default_scalar_density; [apply Rgt_not_eq, exp_pos|]. rewrite exponential_at. reflexivity.
Qed.

(** Without [use_jacobian] the result is the base log-probability at the
    back-transformed value, even where the Jacobian cannot be computed. *)
Theorem C78_flag : forall lp back ljd y x, back y = Val x -> transformed_vector false lp back ljd y = lp x.
Proof. exact no_jacobian. Qed.
Print Assumptions C78_flag.
Example C78_flag_ex : transformed_vector false (fun x => rmap DSca (mvnormal_logprob 2 (map Fin [0; 0]) id2 x)) exp_back (fun _ => Raise) (map Fin [1; 2]) =
  rmap DSca (mvnormal_logprob 2 (map Fin [0; 0]) id2 (map Fin [exp 1; exp 2])).
Proof. exact (C78_flag (fun x => rmap DSca (mvnormal_logprob 2 (map Fin [0; 0]) id2 x)) exp_back (fun _ => Raise) (map Fin [1; 2]) (map Fin [exp 1; exp 2]) eq_refl). Qed.
