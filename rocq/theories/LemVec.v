(** Lemmas for C05/C06 (categorical) and C52 (multinomial, Dirichlet). *)
From Coq Require Import Reals Lra Lia ZArith List Bool.
From Verif Require Import XR Special LemGamma SpecDist XTac ModelDist ModelVec LemDist LemDisc LemCheck SpecScan LemScan LemChain LemJoint SpecVec.
Import ListNotations.
Open Scope R_scope.

Lemma xsum_Fin (l : list R) : xsum (map Fin l) = Fin (rtotal l).
Proof. induction l as [|x l IH]; [reflexivity|]. unfold xsum in *. cbn [map fold_right]. rewrite IH. reflexivity. Qed.
Lemma rtotal_INR (k : list nat) : rtotal (map INR k) = INR (list_sum k).
Proof. induction k as [|x l IH]; [reflexivity|]. cbn [map rtotal fold_right]. fold (rtotal (map INR l)). rewrite IH. change (list_sum (x :: l)) with (x + list_sum l)%nat. now rewrite plus_INR. Qed.
Lemma rtotal_nneg l : List.Forall (fun q => 0 <= q) l -> 0 <= rtotal l.
Proof. induction 1; cbn; [lra|]. unfold rtotal in IHForall. lra. Qed.
Lemma rtotal_ge l x : List.Forall (fun q => 0 <= q) l -> In x l -> x <= rtotal l.
Proof.
  induction 1 as [|y l H F IH]; [easy|]. intros [<-|I]; cbn.
  - pose proof (rtotal_nneg l F). unfold rtotal in *. lra.
  - specialize (IH I). unfold rtotal in *. lra.
Qed.
Lemma rtotal_scal c l : rtotal (map (fun x => x / c) l) = rtotal l / c.
Proof. induction l as [|x l IH]; cbn; [unfold Rdiv; ring|]. unfold rtotal in IH. rewrite IH. unfold Rdiv. ring. Qed.
Lemma rtotal_seq (l : list R) : rtotal (map (fun k => nth k l 0) (seq 0 (length l))) = rtotal l.
Proof.
  f_equal. apply nth_ext with (d := 0) (d' := 0); [now rewrite map_length, seq_length|].
  intros i H. rewrite map_length, seq_length in H. rewrite (nth_indep _ 0 (nth 0%nat l 0)) by (now rewrite map_length, seq_length).
  rewrite (map_nth (fun k => nth k l 0) (seq 0 (length l)) 0%nat i), seq_nth by auto. reflexivity.
Qed.

(** ** Categorical *)
Lemma cat_norm w : weights w -> map (fun x => xdiv x (xsum (map Fin w))) (map Fin w) = map Fin (map (fun x => x / rtotal w) w).
Proof. intros [_ H]. rewrite xsum_Fin, !map_map. apply map_ext. intros x. apply xdiv_fin. lra. Qed.
Lemma cat_check w : weights w -> forallb (fun x => xge x (Fin 0)) (map Fin (map (fun x => x / rtotal w) w)) = true /\
  forallb (fun x => xle x (Fin 1)) (map Fin (map (fun x => x / rtotal w) w)) = true.
Proof.
  intros [F H]. assert (A : forall x, In x w -> 0 <= x / rtotal w <= 1).
  { intros x I. pose proof (rtotal_ge w x F I). rewrite List.Forall_forall in F. specialize (F x I). split.
    - apply Rmult_le_pos; [exact F|]. left. now apply Rinv_0_lt_compat.
    - apply Rmult_le_reg_r with (rtotal w); [exact H|]. unfold Rdiv. rewrite Rmult_assoc, Rinv_l by lra. lra. }
  split; apply forallb_forall; intros y I; rewrite map_map in I; apply in_map_iff in I; destruct I as (x & <- & I); specialize (A x I).
  - apply xge_true. lra.
  - apply xle_true. lra.
Qed.
Lemma cat_index {A} (l : list A) z : (- Z.of_nat (length l) <= z < Z.of_nat (length l))%Z ->
  exists a, np_index l z = Val a /\ nth_error l (Z.to_nat (if (z <? 0)%Z then z + Z.of_nat (length l) else z)) = Some a.
Proof.
  intros H. unfold np_index. destruct (Z.ltb_spec z 0).
  - replace ((0 <=? z + Z.of_nat (length l)) && (z + Z.of_nat (length l) <? Z.of_nat (length l)))%Z with true
      by (symmetry; apply andb_true_intro; split; [apply Z.leb_le|apply Z.ltb_lt]; lia).
    destruct (nth_error l (Z.to_nat (z + Z.of_nat (length l)))) eqn:E; [eauto|]. apply nth_error_None in E. lia.
  - replace ((0 <=? z) && (z <? Z.of_nat (length l)))%Z with true
      by (symmetry; apply andb_true_intro; split; [apply Z.leb_le|apply Z.ltb_lt]; lia).
    destruct (nth_error l (Z.to_nat z)) eqn:E; [eauto|]. apply nth_error_None in E. lia.
Qed.
Lemma categorical_mass w k : weights w -> (k < length w)%nat ->
  denotes (categorical_logprob (map Fin w) (Z.of_nat k)) (categorical_pmf w k).
Proof.
  intros W K. unfold categorical_logprob. cbv zeta. rewrite (cat_norm w W).
  destruct (cat_index (map Fin (map (fun x => x / rtotal w) w)) (Z.of_nat k)) as (a & -> & E); [rewrite !map_length; lia|].
  rewrite check_true by (cbn; destruct (cat_check w W) as [-> ->]; reflexivity).
  rewrite !map_length. replace ((0 <=? Z.of_nat k) && (Z.of_nat k <? Z.of_nat (length w)))%Z with true
    by (symmetry; apply andb_true_intro; split; [apply Z.leb_le|apply Z.ltb_lt]; lia).
  replace (Z.of_nat k <? 0)%Z with false in E by (symmetry; apply Z.ltb_ge; lia).
  rewrite Nat2Z.id, map_map in E.
  rewrite (map_nth_error (fun x => Fin (x / rtotal w)) k w (nth_error_nth' w 0 K)) in E. injection E as <-.
  change (denotes (Val (xlog (Fin (nth k w 0 / rtotal w)))) (nth k w 0 / rtotal w)). apply den_xlog.
  destruct W as [F H]. rewrite List.Forall_forall in F. apply Rmult_le_pos; [apply F, nth_In, K|]. left. now apply Rinv_0_lt_compat.
Qed.
Lemma categorical_neg w z : weights w -> (- Z.of_nat (length w) <= z < 0)%Z -> categorical_logprob (map Fin w) z = Val NInf.
Proof.
  intros W K. unfold categorical_logprob. cbv zeta. rewrite (cat_norm w W).
  destruct (cat_index (map Fin (map (fun x => x / rtotal w) w)) z) as (a & -> & E); [rewrite !map_length; lia|].
  rewrite check_true by (cbn; destruct (cat_check w W) as [-> ->]; reflexivity).
  replace (0 <=? z)%Z with false by (symmetry; apply Z.leb_gt; lia). reflexivity.
Qed.
Lemma categorical_raise p z : (z < - Z.of_nat (length p) \/ Z.of_nat (length p) <= z)%Z -> categorical_logprob p z = Raise.
Proof.
  intros H. unfold categorical_logprob. cbv zeta. unfold np_index. rewrite map_length.
  replace ((0 <=? if (z <? 0)%Z then z + Z.of_nat (length p) else z) && ((if (z <? 0)%Z then z + Z.of_nat (length p) else z) <? Z.of_nat (length p)))%Z with false; [reflexivity|].
  symmetry. destruct (Z.ltb_spec z 0); apply andb_false_iff; rewrite Z.leb_gt, Z.ltb_ge; lia.
Qed.
Lemma categorical_one w : weights w -> exists f : nat -> R,
  (forall k, (k < length w)%nat -> denotes (categorical_logprob (map Fin w) (Z.of_nat k)) (f k)) /\
  rtotal (map f (seq 0 (length w))) = 1.
Proof.
  intros W. exists (categorical_pmf w). split; [intros; now apply categorical_mass|].
  unfold categorical_pmf. fold (rtotal w).
  rewrite <- (map_map (fun k => nth k w 0) (fun x => x / rtotal w)), rtotal_scal, rtotal_seq. destruct W. field. lra.
Qed.

(** ** Multinomial *)
Lemma map2_map {A B C D E} (f : C -> D -> E) (g : A -> C) (h : B -> D) l m :
  map2 f (map g l) (map h m) = map2 (fun a b => f (g a) (h b)) l m.
Proof. revert m; induction l as [|a l IH]; intros [|b m]; cbn; [easy..|now rewrite IH]. Qed.
Lemma mult_sum p k : List.Forall (fun q => 0 <= q) p -> length k = length p ->
  denotes (Val (xsum (map2 (fun v q => xadd (xneg (xgammaln (xadd v (Fin 1)))) (xlogy0 v q)) (map Fin (map INR k)) (map Fin p))))
    (/ rprod (map (fun j => INR (fact j)) k) * rprod (map (fun pk => fst pk ^ snd pk) (combine p k))).
Proof.
  intros F. revert k. induction F as [|q p Hq F IH]; intros [|j k] L; try discriminate.
  - cbn. rewrite exp_0. field.
  - cbn [map map2 xsum fold_right combine rprod fst snd].
    eapply den_ext; [apply den_add; [|apply IH; now injection L]|].
    + rewrite xadd_fin, xgammaln_nat. cbn [xneg]. apply den_add; [apply den_fin|now apply den_xlogy0].
    + rewrite pw_INR by auto. rewrite exp_Ropp, exp_ln_fact. fold (rprod (map (fun j => INR (fact j)) k)).
      fold (rprod (map (fun pk => fst pk ^ snd pk) (combine p k))).
      assert (rprod (map (fun j => INR (fact j)) k) <> 0).
      { clear. induction k; cbn; [lra|]. apply Rmult_integral_contrapositive. split; [apply INR_fact_neq_0|exact IHk]. }
      field. split; [exact H|apply INR_fact_neq_0].
Qed.
Lemma mult_check n p : prob_vector p ->
  forallb (fun b => b) [forallb (fun q => xle q (Fin 1)) (map Fin p); xeq (xsum (map Fin p)) (Fin 1); xge (Fin (INR n)) (Fin 0)] = true.
Proof.
  intros [F H]. rewrite xsum_Fin. cbn [forallb].
  rewrite xeq_true by exact H. rewrite xge_true by (apply pos_INR).
  replace (forallb _ (map Fin p)) with true; [reflexivity|]. symmetry. apply forallb_forall.
  intros y I. apply in_map_iff in I. destruct I as (x & <- & I). apply xle_true. rewrite <- H. now apply rtotal_ge.
Qed.
Lemma multinomial_mass n p k : prob_vector p -> length k = length p ->
  denotes (multinomial_logprob (Fin (INR n)) (map Fin p) (map (fun j => Fin (INR j)) k)) (multinomial_pmf n p k).
Proof.
  intros P L. unfold multinomial_logprob. rewrite <- (map_map INR Fin). rewrite check_true by (now apply mult_check).
  replace (forallb (fun v => xle (Fin 0) v) (map Fin (map INR k))) with true.
  2:{ symmetry. apply forallb_forall. intros y I. rewrite map_map in I. apply in_map_iff in I. destruct I as (x & <- & I). apply xle_true, pos_INR. }
  rewrite xsum_Fin, rtotal_INR. unfold multinomial_pmf. destruct (Nat.eqb_spec (list_sum k) n) as [->|N].
  - rewrite xeq_true by reflexivity. cbn [andb]. eapply den_ext.
    + apply den_add; [|apply mult_sum; [apply P|exact L]]. rewrite xadd_fin, xgammaln_nat. apply den_fin.
    + rewrite exp_ln_fact. unfold Rdiv. ring.
  - rewrite xeq_false by (intros E; now apply INR_eq in E). cbn. reflexivity.
Qed.
Lemma multinomial_neg n p (v : list R) : prob_vector p -> (exists x, In x v /\ x < 0) ->
  multinomial_logprob (Fin (INR n)) (map Fin p) (map Fin v) = Val NInf.
Proof.
  intros P (x & I & N). unfold multinomial_logprob. rewrite check_true by (now apply mult_check).
  replace (forallb (fun v => xle (Fin 0) v) (map Fin v)) with false; [reflexivity|].
  symmetry. apply not_true_iff_false. intros F. rewrite forallb_forall in F. specialize (F (Fin x) (in_map Fin v x I)).
  rewrite xle_false in F by exact N. discriminate.
Qed.

(** *** the multinomial theorem *)
Definition wt (p : list R) (k : list nat) : R := rprod (map (fun pk => fst pk ^ snd pk / INR (fact (snd pk))) (combine p k)).
Fixpoint comps (m n : nat) : list (list nat) :=
  match m with
  | O => match n with O => [[]] | _ => [] end
  | S m => flat_map (fun j => map (cons j) (comps m (n - j))) (seq 0 (S n))
  end.
Lemma comps_in m n k : In k (comps m n) <-> length k = m /\ list_sum k = n.
Proof.
  revert n k. induction m as [|m IH]; intros n k; cbn [comps].
  - destruct n; cbn; split.
    + intros [<-|[]]; easy.
    + intros [L _]. destruct k; [now left|discriminate].
    + easy.
    + intros [L S]. destruct k; discriminate.
  - rewrite in_flat_map. split.
    + intros (j & J & I). apply in_seq in J. apply in_map_iff in I. destruct I as (k' & <- & I). apply IH in I. destruct I as [L S].
      split; [cbn; now rewrite L|]. change (list_sum (j :: k')) with (j + list_sum k')%nat. lia.
    + intros [L S]. destruct k as [|j k]; [discriminate|]. change (list_sum (j :: k)) with (j + list_sum k)%nat in S.
      exists j. split; [apply in_seq; lia|]. apply in_map. apply IH. split; [now injection L|lia].
Qed.
Lemma comps_nodup m n : NoDup (comps m n).
Proof.
  revert n. induction m as [|m IH]; intros n; cbn [comps].
  - destruct n; repeat constructor; easy.
  - generalize (seq_NoDup (S n) 0). generalize (seq 0 (S n)). intros l. induction 1 as [|j l N D IHl]; [constructor|].
    cbn [flat_map]. assert (D1 : NoDup (map (cons j) (comps m (n - j)))).
    { apply FinFun.Injective_map_NoDup; [intros x y E; now injection E|apply IH]. }
    revert D1. generalize (fun x => proj1 (in_map_iff (cons j) (comps m (n - j)) x)). generalize (map (cons j) (comps m (n - j))).
    intros l1 H1 D1. induction D1 as [|x l1 N1 D1 IH1]; [exact IHl|]. cbn. constructor.
    + intros I. apply in_app_iff in I. destruct I as [I|I]; [easy|]. apply in_flat_map in I. destruct I as (j' & J & I).
      apply in_map_iff in I. destruct I as (y & <- & _). destruct (H1 _ (or_introl eq_refl)) as (z & E & _). injection E as -> _. easy.
    + apply IH1. intros y I. apply H1. now right.
Qed.
Lemma rtotal_app a b : rtotal (a ++ b) = rtotal a + rtotal b.
Proof. unfold rtotal. induction a as [|x a IH]; cbn [app fold_right]; [ring|]. rewrite IH. ring. Qed.
Lemma rtotal_perm a b : Permutation.Permutation a b -> rtotal a = rtotal b.
Proof. unfold rtotal. induction 1; cbn; lra. Qed.
Lemma rtotal_map_scal {A} c (f : A -> R) l : rtotal (map (fun x => c * f x) l) = c * rtotal (map f l).
Proof. induction l as [|x l IH]; cbn; [ring|]. unfold rtotal in IH. rewrite IH. ring. Qed.
Lemma rtotal_flat {A B} (f : B -> R) (g : A -> list B) l : rtotal (map f (flat_map g l)) = rtotal (map (fun a => rtotal (map f (g a))) l).
Proof. induction l as [|x l IH]; [reflexivity|]. cbn [flat_map map]. rewrite map_app, rtotal_app, IH. reflexivity. Qed.
Lemma rtotal_sumf (f : nat -> R) n : rtotal (map f (seq 0 (S n))) = sum_f_R0 f n.
Proof.
  induction n as [|n IH]; [cbn; ring|]. rewrite seq_S, map_app, rtotal_app, IH. cbn. ring.
Qed.
Lemma wt_total p n : rtotal (map (wt p) (comps (length p) n)) = rtotal p ^ n / INR (fact n).
Proof.
  revert n. induction p as [|q p IH]; intros n.
  - destruct n; cbn; [unfold wt; cbn; field|]. unfold Rdiv; ring.
  - cbn [length comps]. rewrite rtotal_flat.
    rewrite map_ext with (g := fun j => q ^ j / INR (fact j) * (rtotal p ^ (n - j) / INR (fact (n - j)))).
    2:{ intros j. rewrite map_map. rewrite <- IH, <- rtotal_map_scal. reflexivity. }
    rewrite rtotal_sumf. change (rtotal (q :: p)) with (q + rtotal p). rewrite binomial. unfold Rdiv at 3. rewrite Rmult_comm, scal_sum. apply sum_eq.
    intros j J. unfold Binomial.C. field. repeat split; apply INR_fact_neq_0.
Qed.
Lemma pmf_wt n p k : length k = length p -> list_sum k = n -> multinomial_pmf n p k = INR (fact n) * wt p k.
Proof.
  intros L S. unfold multinomial_pmf. rewrite S, Nat.eqb_refl. unfold Rdiv. rewrite Rmult_assoc. f_equal.
  clear n S. revert k L. induction p as [|q p IH]; intros [|j k] L; try discriminate; unfold wt in *; cbn; [field|].
  specialize (IH k ltac:(now injection L)). unfold rprod in *. rewrite <- IH. 
  assert (fold_right Rmult 1 (map (fun j => INR (fact j)) k) <> 0).
  { clear. induction k; cbn; [lra|]. apply Rmult_integral_contrapositive. split; [apply INR_fact_neq_0|exact IHk]. }
  field. split; [exact H|apply INR_fact_neq_0].
Qed.
Lemma multinomial_total n p l : rtotal p = 1 -> count_vectors (length p) n l -> rtotal (map (multinomial_pmf n p) l) = 1.
Proof.
  intros P [D I]. rewrite (rtotal_perm _ (map (multinomial_pmf n p) (comps (length p) n))).
  2:{ apply Permutation.Permutation_map, Permutation.NoDup_Permutation; [exact D|apply comps_nodup|]. intros k. rewrite comps_in. apply I. }
  rewrite map_ext_in with (g := fun k => INR (fact n) * wt p k).
  2:{ intros k K. apply comps_in in K. now apply pmf_wt. }
  rewrite rtotal_map_scal, wt_total, P, pow1. field. apply INR_fact_neq_0.
Qed.
Lemma multinomial_one n p l : prob_vector p -> count_vectors (length p) n l -> exists f,
  (forall k, In k l -> denotes (multinomial_logprob (Fin (INR n)) (map Fin p) (map (fun j => Fin (INR j)) k)) (f k)) /\
  rtotal (map f l) = 1.
Proof.
  intros P C. exists (multinomial_pmf n p). split.
  - intros k I. apply multinomial_mass; [exact P|]. now apply C in I.
  - apply multinomial_total; [apply P|exact C].
Qed.
Lemma count_vectors_ex m n : exists l, count_vectors m n l.
Proof. exists (comps m n). split; [apply comps_nodup|]. intros k. apply comps_in. Qed.
Lemma multinomial_fraction : exists (p v : list R), prob_vector p /\ rtotal v = 1 /\ length v = length p /\
  (exists x, In x v /\ forall z, x <> IZR z) /\ exists r, multinomial_logprob (Fin 1) (map Fin p) (map Fin v) = Val (Fin r).
Proof.
  exists [1/2; 1/2], [1/2; 1/2]. split; [split; [repeat constructor; lra|cbn; lra]|].
  split; [cbn; lra|]. split; [reflexivity|]. split.
  { exists (1/2). split; [now left|]. intros z H. assert (H1 : IZR 0 < IZR z < IZR 1) by lra. destruct H1 as [H1 H2]. apply lt_IZR in H1. apply lt_IZR in H2. lia. }
  unfold multinomial_logprob. rewrite check_true.
  2:{ apply (mult_check 1). split; [repeat constructor; lra|cbn; lra]. }
  rewrite xsum_Fin. cbn [map forallb]. rewrite xeq_true by (cbn; lra). xrun. cbn [map2 xsum fold_right]. xrun.
  rewrite !xlogy0_pos by lra. xrun. eexists. reflexivity.
Qed.

(** ** Dirichlet *)
Lemma dir_check alpha : List.Forall (fun a => 0 < a) alpha -> forallb (fun b => b) [forallb (fun a => xlt (Fin 0) a) (map Fin alpha)] = true.
Proof.
  intros F. cbn [forallb]. rewrite andb_true_r. apply forallb_forall. intros y I. apply in_map_iff in I. destruct I as (x & <- & I).
  rewrite List.Forall_forall in F. apply xlt_true. now apply F.
Qed.
Lemma dir_sum alpha x : List.Forall (fun a => 0 < a) alpha -> List.Forall (fun v => 0 < v) x -> length x = length alpha ->
  denotes (Val (xsum (map2 (fun a v => xsub (xlogy0 (xsub a (Fin 1)) v) (xgammaln a)) (map Fin alpha) (map Fin x))))
    (/ rprod (map Gam alpha) * rprod (map (fun ax => Rpower (snd ax) (fst ax - 1)) (combine alpha x))) /\ rprod (map Gam alpha) > 0.
Proof.
  intros F. revert x. induction F as [|a alpha Ha F IH]; intros [|v x] Fx L; try discriminate.
  - cbn. rewrite exp_0. split; [field|lra].
  - inversion Fx as [|? ? Hv Fx']; subst. destruct (IH x Fx' ltac:(now injection L)) as [IHd IHp].
    cbn [map map2 xsum fold_right combine rprod fst snd]. pose proof (Gam_pos a Ha).
    fold (rprod (map Gam alpha)). split; [|apply Rmult_lt_0_compat; assumption].
    eapply den_ext; [apply den_add; [|exact IHd]|].
    + rewrite xsub_fin, xgammaln_fin by auto. rewrite xlogy0_pos by auto. apply den_sub; [apply den_fin|now apply exp_ln].
    + fold (rprod (map (fun ax => Rpower (snd ax) (fst ax - 1)) (combine alpha x))). unfold Rpower at 2. field. lra.
Qed.
Lemma rtotal_pos l : l <> [] -> List.Forall (fun a => 0 < a) l -> 0 < rtotal l.
Proof.
  intros N F. destruct F as [|x l H F]; [easy|]. cbn. fold (rtotal l).
  assert (0 <= rtotal l) by (apply rtotal_nneg; eapply Forall_impl; [|exact F]; intros; cbv beta in *; lra). lra.
Qed.
Lemma dirichlet_density alpha x : alpha <> [] -> length x = length alpha ->
  List.Forall (fun a => 0 < a) alpha -> List.Forall (fun v => 0 < v <= 1) x ->
  denotes (dirichlet_logprob (map Fin alpha) (map Fin x)) (dirichlet_pdf alpha x).
Proof.
  intros N L Fa Fx. unfold dirichlet_logprob. rewrite check_true by (now apply dir_check).
  assert (F1 : forallb (fun v => xle (Fin 0) v) (map Fin x) = true).
  { apply forallb_forall. intros y I. apply in_map_iff in I. destruct I as (v & <- & I). rewrite List.Forall_forall in Fx. apply xle_true. specialize (Fx v I). lra. }
  assert (F2 : forallb (fun v => xle v (Fin 1)) (map Fin x) = true).
  { apply forallb_forall. intros y I. apply in_map_iff in I. destruct I as (v & <- & I). rewrite List.Forall_forall in Fx. apply xle_true. specialize (Fx v I). lra. }
  rewrite F1, F2. cbn [andb]. destruct (dir_sum alpha x Fa) as [D P]; [eapply Forall_impl; [|exact Fx]; intros; cbv beta in *; lra|exact L|].
  pose proof (rtotal_pos alpha N Fa) as T. rewrite xsum_Fin, xgammaln_fin by auto. eapply den_ext; [apply den_add; [exact D|apply den_fin]|].
  rewrite exp_ln by (now apply Gam_pos). unfold dirichlet_pdf. unfold Rdiv. ring.
Qed.
Lemma dirichlet_outside alpha (x : list R) : List.Forall (fun a => 0 < a) alpha -> (exists v, In v x /\ (v < 0 \/ 1 < v)) ->
  dirichlet_logprob (map Fin alpha) (map Fin x) = Val NInf.
Proof.
  intros Fa (v & I & H). unfold dirichlet_logprob. rewrite check_true by (now apply dir_check).
  destruct H as [H|H].
  - replace (forallb (fun v => xle (Fin 0) v) (map Fin x)) with false; [reflexivity|]. symmetry. apply not_true_iff_false. intros F.
    rewrite forallb_forall in F. specialize (F (Fin v) (in_map Fin x v I)). rewrite xle_false in F by exact H. discriminate.
  - replace (forallb (fun v => xle v (Fin 1)) (map Fin x)) with false; [now rewrite andb_false_r|]. symmetry. apply not_true_iff_false. intros F.
    rewrite forallb_forall in F. specialize (F (Fin v) (in_map Fin x v I)). rewrite xle_false in F by exact H. discriminate.
Qed.
Lemma dirichlet_raises alpha (x : list xr) : (exists a, In a alpha /\ a <= 0) -> dirichlet_logprob (map Fin alpha) x = Raise.
Proof.
  intros (a & I & H). unfold dirichlet_logprob. apply check_false. cbn [forallb]. rewrite andb_true_r. apply not_true_iff_false. intros F.
  rewrite forallb_forall in F. specialize (F (Fin a) (in_map Fin alpha a I)). rewrite xlt_false in F by lra. discriminate.
Qed.
Lemma dirichlet_no_sum : exists alpha x : list R, length x = length alpha /\ List.Forall (fun a => 0 < a) alpha /\ List.Forall (fun v => 0 < v <= 1) x /\
  rtotal x <> 1 /\ exists r, dirichlet_logprob (map Fin alpha) (map Fin x) = Val (Fin r).
Proof.
  exists [1; 1], [1; 1]. split; [reflexivity|]. split; [repeat constructor; lra|]. split; [repeat constructor; lra|]. split; [cbn; lra|].
  pose proof (dirichlet_density [1; 1] [1; 1] ltac:(discriminate) eq_refl ltac:(repeat constructor; lra) ltac:(repeat constructor; lra)) as D.
  destruct (dirichlet_logprob (map Fin [1; 1]) (map Fin [1; 1])) as [[r| | |]|]; cbn [denotes] in D; try easy; [eauto|].
  exfalso. unfold dirichlet_pdf in D. cbn [map combine rprod rtotal fold_right fst snd] in D.
  pose proof (Gam_pos 1 ltac:(lra)). pose proof (Gam_pos (1 + (1 + 0)) ltac:(lra)).
  assert (0 < Rpower 1 (1 - 1)) by apply exp_pos.
  apply (Rgt_not_eq (Gam (1 + (1 + 0)) / (Gam 1 * (Gam 1 * 1)) * (Rpower 1 (1 - 1) * (Rpower 1 (1 - 1) * 1))) 0); [|exact D].
  apply Rmult_lt_0_compat; [apply Rdiv_lt_0_compat; [assumption|]|]; repeat apply Rmult_lt_0_compat; lra.
Qed.
