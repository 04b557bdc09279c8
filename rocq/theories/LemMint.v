(** Lemmas for C53 and C54: multivariate densities integrate to one. *)
From Coq Require Import Reals Lra Lia ZArith List Bool.
From Coquelicot Require Import Coquelicot.
From Verif Require Import XR Special XTac LemLim LemInt LemGamma LemNorm SpecDist ModelDist ModelVec SpecVec LemDist LemVec RMx ModelMvn SpecMvn LemMvn LemMvn2 LemMvn3 SpecMint.
Import ListNotations.
Open Scope R_scope.

(** ** Dirichlet *)
Lemma simplex_scal n : forall s f l k, integral_simplex n s f l -> integral_simplex n s (fun v => k * f v) (k * l).
Proof.
  induction n as [|n IH]; intros s f l k H; cbn in *; [now subst|]. destruct H as (F & H1 & H2).
  exists (fun x => k * F x). split; [intros x X; apply IH, H1, X|]. now apply (is_RInt_gen_scal F k l).
Qed.
Lemma simplex_ext n : forall s f g l, (forall v, length v = n -> f v = g v) -> integral_simplex n s f l -> integral_simplex n s g l.
Proof.
  induction n as [|n IH]; intros s f g l E H; cbn in *; [now rewrite <- E|]. destruct H as (F & H1 & H2).
  exists F. split; [|exact H2]. intros x X. apply (IH _ (fun v => f (x :: v))); [intros v V; apply E; cbn; now rewrite V|now apply H1].
Qed.
Lemma beta_scaled a b s : 0 < a -> 0 < b -> 0 < s ->
  prim (fun x => Rpower x (a - 1) * Rpower (s - x) (b - 1)) 0 s (Rpower s (a + b - 1) * Bet a b).
Proof.
  intros Ha Hb Hs. apply (prim_ext (fun x => Rpower s (a + b - 1) * (bet_f a b (x / s) * / s))).
  { intros x [X1 X2]; cbn in X1, X2. unfold bet_f. replace (1 - x / s) with ((s - x) / s) by (field; lra).
    rewrite !Rpower_div_base by lra. replace (a + b - 1) with ((a - 1) + (b - 1) + 1) by ring. rewrite Rpower_succ, Rpower_plus by lra.
    field. repeat split; try lra; apply Rgt_not_eq, Rpower_pos. }
  apply prim_scal. apply (prim_subst (bet_f a b) (fun x => x / s) (fun _ => / s) 0 1); cbn; try lra.
  - now apply Bet_prim.
  - intros x [X1 X2]; cbn in X1, X2. split; cbn; [apply Rdiv_lt_0_compat; lra|]. apply Rmult_lt_reg_r with s; [lra|]. unfold Rdiv. rewrite Rmult_assoc, Rinv_l by lra. lra.
  - intros x X. split; [auto_derive; auto; field; lra|apply continuous_const].
  - flim lim_right.
    + apply cont_Fr; [|field; lra]. apply deriv_cont; auto_derive; auto.
    + generalize (at_right_gt 0). apply filter_imp. intros; apply Rdiv_lt_0_compat; lra.
  - flim lim_left.
    + apply cont_Fl; [|field; lra]. apply deriv_cont; auto_derive; auto.
    + generalize (at_left_lt s). apply filter_imp. intros x X. apply Rmult_lt_reg_r with s; [lra|]. unfold Rdiv. rewrite Rmult_assoc, Rinv_l by lra. lra.
Qed.
Definition dirk (alpha v : list R) : R := rprod (map (fun ax => Rpower (snd ax) (fst ax - 1)) (combine alpha v)).
Lemma rprod_Gam_pos alpha : List.Forall (fun a => 0 < a) alpha -> 0 < rprod (map Gam alpha).
Proof. induction 1; cbn; [lra|]. apply Rmult_lt_0_compat; [now apply Gam_pos|assumption]. Qed.
Lemma rtotal_nn alpha : List.Forall (fun a => 0 < a) alpha -> 0 <= rtotal alpha.
Proof. induction 1; cbn; [lra|]. unfold rtotal in *. lra. Qed.
Lemma simplex_dir alpha b : List.Forall (fun a => 0 < a) alpha -> 0 < b -> forall s, 0 < s ->
  integral_simplex (length alpha) s (fun v => dirk alpha v * Rpower (s - rtotal v) (b - 1))
    (Rpower s (rtotal alpha + b - 1) * (rprod (map Gam alpha) * Gam b / Gam (rtotal alpha + b))).
Proof.
  intros Ha Hb. induction Ha as [|a alpha A Ha IH]; intros s Hs; cbn [length integral_simplex].
  - unfold dirk, rprod, rtotal. cbn [map combine fold_right]. replace (s - 0) with s by ring. replace (0 + b - 1) with (b - 1) by ring. replace (0 + b) with b by ring.
    pose proof (Gam_pos b Hb). field. lra.
  - set (K := rprod (map Gam alpha) * Gam b / Gam (rtotal alpha + b)) in *. pose proof (rtotal_nn alpha Ha) as T.
    exists (fun x => K * (Rpower x (a - 1) * Rpower (s - x) (rtotal alpha + b - 1))). split.
    + intros x X. replace (K * (Rpower x (a - 1) * Rpower (s - x) (rtotal alpha + b - 1)))
        with (Rpower x (a - 1) * (Rpower (s - x) (rtotal alpha + b - 1) * K)) by ring.
      apply (simplex_ext _ _ (fun v => Rpower x (a - 1) * (dirk alpha v * Rpower (s - x - rtotal v) (b - 1)))); [|apply simplex_scal, IH; lra]. intros v V. cbv beta. replace (s - x - rtotal v) with (s - rtotal (x :: v)) by (unfold rtotal; cbn; ring).
      unfold dirk. cbn [combine map fst snd rprod fold_right]. unfold rprod. ring.
    + replace (Rpower s (rtotal (a :: alpha) + b - 1) * (rprod (map Gam (a :: alpha)) * Gam b / Gam (rtotal (a :: alpha) + b)))
        with (K * (Rpower s (a + (rtotal alpha + b) - 1) * Bet a (rtotal alpha + b))).
      * apply (prim_RInt_gen _ 0 s). apply prim_scal. apply beta_scaled; lra.
      * rewrite Bet_Gam by lra. cbn [map rprod fold_right]. change (rtotal (a :: alpha)) with (a + rtotal alpha).
        replace (a + rtotal alpha + b) with (a + (rtotal alpha + b)) by ring. unfold K.
        pose proof (Gam_pos (rtotal alpha + b) ltac:(lra)). pose proof (Gam_pos (a + (rtotal alpha + b)) ltac:(lra)).
        unfold rprod. field. lra.
Qed.
Lemma dirk_app alpha b v y : length v = length alpha -> dirk (alpha ++ [b]) (v ++ [y]) = dirk alpha v * Rpower y (b - 1).
Proof.
  revert v. induction alpha as [|a alpha IH]; intros [|x v] L; try discriminate.
  - unfold dirk. cbn. ring.
  - cbn in L. injection L as L. specialize (IH v L). unfold dirk in *. cbn [combine map app fst snd rprod fold_right] in *. fold (rprod (map (fun ax : R * R => Rpower (snd ax) (fst ax - 1)) (combine (alpha ++ [b]) (v ++ [y])))). rewrite IH. unfold rprod. ring.
Qed.
Lemma rprod_app l m : rprod (l ++ m) = rprod l * rprod m.
Proof. unfold rprod. induction l as [|a l IH]; cbn [app fold_right]; [ring|]. rewrite IH. ring. Qed.
(** the last coordinate is one minus the others *)
Lemma dirichlet_total alpha b : List.Forall (fun a => 0 < a) (alpha ++ [b]) -> exists f,
  (forall v, length v = length alpha -> List.Forall (fun x => 0 < x) v -> rtotal v < 1 ->
     denotes (dirichlet_logprob (map Fin (alpha ++ [b])) (map Fin (v ++ [1 - rtotal v]))) (f v)) /\
  integral_simplex (length alpha) 1 f 1.
Proof.
  intros H. pose proof (proj1 (Forall_app _ _ _) H) as [Ha Hb]. inversion Hb as [|? ? B _]; subst.
  pose proof (rtotal_nn alpha Ha) as T.
  exists (fun v => Gam (rtotal alpha + b) / (rprod (map Gam alpha) * Gam b) * (dirk alpha v * Rpower (1 - rtotal v) (b - 1))). split.
  - intros v Lv P S. assert (E : dirichlet_pdf (alpha ++ [b]) (v ++ [1 - rtotal v]) =
      Gam (rtotal alpha + b) / (rprod (map Gam alpha) * Gam b) * (dirk alpha v * Rpower (1 - rtotal v) (b - 1))).
    { unfold dirichlet_pdf. fold (dirk (alpha ++ [b]) (v ++ [1 - rtotal v])). rewrite dirk_app by assumption. rewrite map_app, rprod_app, rtotal_app. cbn. rewrite Rplus_0_r, Rmult_1_r. reflexivity. }
    rewrite <- E. apply dirichlet_density; try assumption.
    + destruct alpha; discriminate.
    + rewrite !app_length. cbn. lia.
    + apply Forall_app. assert (G : forall u, List.Forall (fun x => 0 < x) u -> 0 <= rtotal u /\ List.Forall (fun x => 0 < x <= rtotal u) u).
      { clear. induction 1 as [|x u X U [I1 I2]]; [split; [unfold rtotal; cbn; lra|constructor]|]. change (rtotal (x :: u)) with (x + rtotal u).
        split; [lra|]. constructor; [lra|]. eapply Forall_impl; [|exact I2]. cbn. intros; lra. }
      destruct (G v P) as [G1 G2]. split; [eapply Forall_impl; [|exact G2]; cbn; intros; lra|]. constructor; [lra|constructor].
  - pose proof (simplex_dir alpha b Ha B 1 Rlt_0_1) as I. apply (simplex_scal _ _ _ _ (Gam (rtotal alpha + b) / (rprod (map Gam alpha) * Gam b))) in I.
    rewrite Rpower_1_base in I. pose proof (rprod_Gam_pos alpha Ha). pose proof (Gam_pos b B). pose proof (Gam_pos (rtotal alpha + b) ltac:(lra)).
    replace (Gam (rtotal alpha + b) / (rprod (map Gam alpha) * Gam b) * (1 * (rprod (map Gam alpha) * Gam b / Gam (rtotal alpha + b)))) with 1 in I by (field; lra).
    exact I.
Qed.

(** ** Multivariate normal *)
Lemma Rn_scal n : forall f l k, integral_Rn n f l -> integral_Rn n (fun v => k * f v) (k * l).
Proof.
  induction n as [|n IH]; intros f l k H; cbn in *; [now subst|]. destruct H as (F & H1 & H2).
  exists (fun x => k * F x). split; [intros x; apply IH, H1|]. now apply (is_RInt_gen_scal F k l).
Qed.
Lemma Rn_ext n : forall f g l, (forall v, length v = n -> f v = g v) -> integral_Rn n f l -> integral_Rn n g l.
Proof.
  induction n as [|n IH]; intros f g l E H; cbn in *; [now rewrite <- E|]. destruct H as (F & H1 & H2).
  exists F. split; [|exact H2]. intros x. apply (IH (fun v => f (x :: v))); [intros v V; apply E; cbn; now rewrite V|now apply H1].
Qed.
Section Mvn.
Variables (c : nat -> nat -> R) (mu : nat -> R) (n : nat).
Hypothesis C : forall m, (m < n)%nat -> 0 < c m m.
(** the mean of coordinate [length z] given the standardised coordinates before it *)
Definition cmean (z : list R) : R := mu (length z) + sumn (length z) (fun k => c k (length z) * nth k z 0).
Fixpoint dens (z v : list R) : R :=
  match v with
  | [] => 1
  | x :: v => normal_pdf (cmean z) (c (length z) (length z)) x * dens (z ++ [(x - cmean z) / c (length z) (length z)]) v
  end.
Lemma dens_int : forall m z, (length z + m = n)%nat -> integral_Rn m (dens z) 1.
Proof.
  induction m as [|m IH]; intros z L; cbn [integral_Rn]; [reflexivity|].
  exists (fun x => normal_pdf (cmean z) (c (length z) (length z)) x * 1). split.
  - intros x. apply Rn_scal, IH. rewrite app_length. cbn. lia.
  - apply (prim_RInt_gen _ m_infty p_infty). apply (prim_ext (normal_pdf (cmean z) (c (length z) (length z)))); [intros; ring|].
    apply normal_prim, C. lia.
Qed.
Fixpoint tailprod (k : nat) (z : list R) : R :=
  match z with [] => 1 | a :: z => / (c k k * sqrt (2 * PI)) * exp (- (a * a) / 2) * tailprod (S k) z end.
Lemma dens_tail : forall z2 z1 x2, length x2 = length z2 -> (length z1 + length z2 = n)%nat ->
  (forall i, (i < length z2)%nat -> let j := (length z1 + i)%nat in
     sumn (S j) (fun k => c k j * nth k (z1 ++ z2) 0) = nth i x2 0 - mu j) -> dens z1 x2 = tailprod (length z1) z2.
Proof.
  induction z2 as [|a z2 IH]; intros z1 [|x x2] L N H; try discriminate; [reflexivity|]. cbn [dens tailprod].
  assert (A : a = (x - cmean z1) / c (length z1) (length z1)).
  { specialize (H 0%nat ltac:(cbn; lia)). cbv zeta in H. rewrite Nat.add_0_r in H. cbn [sumn nth] in H.
    rewrite app_nth2, Nat.sub_diag in H by lia. cbn [nth] in H.
    rewrite sumn_ext with (g := fun k => c k (length z1) * nth k z1 0) in H by (intros k K; now rewrite app_nth1).
    unfold cmean. pose proof (C (length z1) ltac:(cbn in N; lia)). replace x with (mu (length z1) + (sumn (length z1) (fun k => c k (length z1) * nth k z1 0) + c (length z1) (length z1) * a)) by lra.
    field. lra. }
  rewrite <- A. rewrite IH.
  - rewrite app_length. cbn [length]. rewrite Nat.add_1_r. f_equal. unfold normal_pdf. f_equal. f_equal. rewrite A.
    pose proof (C (length z1) ltac:(cbn in N; lia)). field. lra.
  - now injection L.
  - rewrite app_length. cbn in *. lia.
  - intros i I j. unfold j. clear j. specialize (H (S i) ltac:(cbn; lia)). cbv zeta in H. rewrite app_length. cbn [length] in *. rewrite <- app_assoc. cbn [app].
    replace (length z1 + 1 + i)%nat with (length z1 + S i)%nat by lia. exact H.
Qed.
Lemma tailprod_app k z a : tailprod k (z ++ [a]) = tailprod k z * (/ (c (k + length z) (k + length z) * sqrt (2 * PI)) * exp (- (a * a) / 2)).
Proof.
  revert k. induction z as [|b z IH]; intros k; cbn [app tailprod length]; [rewrite Nat.add_0_r; ring|].
  rewrite IH. replace (k + S (length z))%nat with (S k + length z)%nat by lia. ring.
Qed.
Lemma tailprod_exp z : (length z <= n)%nat ->
  exp (-1/2 * INR (length z) * ln (2 * PI) - 1/2 * sumn (length z) (fun i => nth i z 0 * nth i z 0) - sumn (length z) (fun i => ln (c i i))) = tailprod 0 z.
Proof.
  rewrite <- (rev_involutive z). induction (rev z) as [|a l IH]; intros N.
  - cbn. replace (-1/2 * 0 * ln (2 * PI) - 1/2 * 0 - 0) with 0 by ring. apply exp_0.
  - cbn [rev] in *. rewrite app_length in N. cbn in N. rewrite tailprod_app, app_length. cbn [length]. rewrite Nat.add_1_r, S_INR. cbn [sumn].
    rewrite sumn_ext with (g := fun i => nth i (rev l) 0 * nth i (rev l) 0) by (intros k K; now rewrite app_nth1).
    rewrite app_nth2, Nat.sub_diag by lia. cbn [nth]. rewrite !Nat.add_0_l. rewrite <- IH by lia.
    pose proof (C (length (rev l)) ltac:(lia)) as D. pose proof PI_RGT_0.
    assert (Q : 0 < sqrt (2 * PI)) by (apply sqrt_lt_R0; lra).
    rewrite <- (exp_ln (/ (c (length (rev l)) (length (rev l)) * sqrt (2 * PI)))) by (apply Rinv_0_lt_compat, Rmult_lt_0_compat; assumption).
    rewrite <- !exp_plus. f_equal. rewrite ln_Rinv by (now apply Rmult_lt_0_compat). rewrite (ln_mult _ _ D Q).
    replace (ln (2 * PI)) with (2 * ln (sqrt (2 * PI))).
    + lra.
    + rewrite <- (sqrt_sqrt (2 * PI)) at 2 by lra. rewrite (ln_mult _ _ Q Q). ring.
Qed.
End Mvn.
Lemma mvn_total n (mu : list R) A : symmetric n A -> positive_definite n A -> length mu = n -> exists f,
  (forall x, length x = n -> denotes (mvnormal_logprob n (map Fin mu) A (map Fin x)) (f x)) /\ integral_Rn n f 1.
Proof.
  intros Sy PD Lm. destruct (proj1 (chol_iff A n Sy) PD) as (cs & E). pose proof (chol_factor A n cs E) as F. destruct F as (D & T & F).
  exists (dens (colf cs) (fun i => nth i mu 0) []). split; [|apply (dens_int _ _ n D); reflexivity].
  intros x Lx.
  unfold mvnormal_logprob. cbv zeta. unfold cholesky. rewrite E.
  change (fun i : nat => Fin (nth i cs (fun _ => 0) i)) with (fun i : nat => Fin (colf cs i i)).
  assert (AP : forallb (fun d => xgt d (Fin 0)) (map (fun i => Fin (colf cs i i)) (seq 0 n)) = true).
  { apply forallb_forall. intros d J. apply in_map_iff in J. destruct J as (i & <- & J). apply in_seq in J. apply xgt_true. apply D. lia. }
  rewrite AP, check_true by reflexivity.
  destruct (map2_sub x mu ltac:(congruence)) as (R & RL & RN). rewrite R.
  destruct (solve_fin (fun i j => Fin (nth j cs (fun _ => 0) i)) (fun i j => colf cs j i) (map2 Rminus x mu) n) as (z & Z & Lz & SZ).
  - rewrite RL, Lx. apply le_n.
  - reflexivity.
  - intros i H. specialize (D i H). lra.
  - rewrite Z. rewrite map_map.
    rewrite map_ext with (f := fun x0 => xsq (Fin x0)) (g := fun x0 => Fin (x0 * x0)) by (intros a; apply xsq_fin).
    rewrite (xsum_list z (fun a => a * a)), Lz. rewrite map_map.
    rewrite map_ext_in with (g := fun i => Fin (ln (colf cs i i))).
    2:{ intros i J. apply in_seq in J. apply xlog_pos. apply D. lia. }
    rewrite xsum_seq. assert (0 < 2 * PI) by (pose proof PI_RGT_0; lra). rewrite xlog_pos by assumption. rewrite !xmul_fin, !xsub_fin.
    cbn [denotes]. rewrite map_length, Lx.
    rewrite (dens_tail (colf cs) (fun i => nth i mu 0) n D z [] x); [|congruence|exact Lz|].
    + pose proof (tailprod_exp (colf cs) n D z ltac:(lia)) as TE. rewrite Lz in TE. exact TE.
    + intros i I j. unfold j. cbn [length plus app]. rewrite Lz in I. transitivity (nth i (map2 Rminus x mu) 0); [exact (SZ i I)|apply RN].
Qed.

(** the iterated integrals are unique *)
Lemma Rn_unique n : forall f l m, integral_Rn n f l -> integral_Rn n f m -> l = m.
Proof.
  induction n as [|n IH]; intros f l m; cbn; [congruence|]. intros (F & F1 & F2) (G & G1 & G2).
  assert (E : forall x, F x = G x) by (intros x; apply (IH (fun v => f (x :: v))); auto).
  assert (G2' : is_RInt_gen F (Rbar_locally m_infty) (Rbar_locally p_infty) m).
  { eapply is_RInt_gen_ext; [|exact G2]. apply filter_forall. intros p x _. symmetry. apply E. }
  assert (E1 := is_RInt_gen_unique (V:=R_CompleteNormedModule) F l F2).
  assert (E2 := is_RInt_gen_unique (V:=R_CompleteNormedModule) F m G2'). congruence.
Qed.
Lemma simplex_unique n : forall s f l m, 0 < s -> integral_simplex n s f l -> integral_simplex n s f m -> l = m.
Proof.
  induction n as [|n IH]; intros s f l m Hs; cbn; [congruence|]. intros (F & F1 & F2) (G & G1 & G2).
  assert (E : forall x, 0 < x < s -> F x = G x) by (intros x X; apply (IH (s - x) (fun v => f (x :: v))); auto; lra).
  assert (G2' : is_RInt_gen F (at_right 0) (at_left s) m).
  { eapply is_RInt_gen_ext; [|exact G2].
    apply (Filter_prod _ _ _ (fun x => 0 < x < s) (fun x => 0 < x < s)); [now apply at_right_lt|now apply at_left_gt|].
    intros x y X Y z Z. cbn in Z. symmetry. apply E. unfold Rmin, Rmax in Z. destruct (Rle_dec x y); lra. }
  assert (E1 := is_RInt_gen_unique (V:=R_CompleteNormedModule) F l F2).
  assert (E2 := is_RInt_gen_unique (V:=R_CompleteNormedModule) F m G2'). congruence.
Qed.
