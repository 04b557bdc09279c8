(** A model for the examples of C89: k ~ Bernoulli(1/2), y ~ N(k, 1). *)
From Coq Require Import Reals List Arith Bool Lia Lra Permutation Sorted.
From Coquelicot Require Import Coquelicot.
From Verif Require Import XR SpecDist SpecTrans LemInt LemDist LemDisc ModelVec ModelDist ModelTrans ModelJoint SpecJoint ModelGraph SpecGraph ModelLaw SpecLaw SpecAvg LemGraph LemGraph2 LemGraph3 LemLaw LemAvg.
Import ListNotations.
Open Scope nat_scope.

Definition av_graph : heap := [mk OIn []; mk OIn []; mk (ORv 0 0) [0]; mk (ORv 1 1) [2; 1]; mk OIn []].
Definition av_D (d : nat) (ps : list R) : law := match d, ps with 0, [p] => LBernoulli p | 1, [a; b] => LNormal a b | _, _ => LNormal 0 0 end.
Definition av_inp (v : nat) : R := match v with 0 => 1 / 2 | 1 => 1 | _ => 0 end.
Definition av_draw (rng dist : nat) (ps : list R) : R := 0%R.
Definition av_det (f : nat) (xs : list R) : R := 0%R.
Definition av_sem := law_sem av_D av_inp av_draw av_det.
Lemma av_model : model_graph av_graph.
Proof. intros [|[|[|[|[|v]]]]] nd H; cbn in H; try discriminate; [..|destruct v; discriminate]; injection H as <-; cbn; intuition (subst; auto; lia). Qed.
Lemma av_own u w rng dist ps dist' ps' : nth_error av_graph u = Some (mk (ORv rng dist) ps) -> nth_error av_graph w = Some (mk (ORv rng dist') ps') -> w = u.
Proof.
  intros H K. destruct u as [|[|[|[|[|u]]]]]; cbn in H; try discriminate; try (destruct u; discriminate); injection H as <- <- <-;
  destruct w as [|[|[|[|[|w]]]]]; cbn in K; try discriminate; try (destruct w; discriminate); auto; injection K as K; discriminate.
Qed.
Lemma av_drawable1 : drawable av_graph [3] [] [] [2].
Proof.
  split; [split; [exact av_model|]|].
  { split; [repeat constructor; cbn; intuition discriminate|]. split; [cbn; intuition (subst; cbn; lia)|]. split; [easy|]. intros rv H. now cbn in H. }
  split; [intros i j x y _ _ T; now cbn in T|]. split; [discriminate|]. split; [cbn; repeat constructor; cbn; intuition discriminate|].
  split; [intros rv [<-|[<-|[]]]; cbn; eauto|]. split; [intros rv tr H; discriminate|]. split; [|easy].
  intros u w rng dist ps dist' ps' _. apply av_own.
Qed.
Lemma av_drawable2 : drawable av_graph [2] [(3, 4)] [] [].
Proof.
  split; [split; [exact av_model|]|].
  { split; [repeat constructor; cbn; intuition discriminate|]. split; [cbn; intuition (subst; cbn; lia)|]. split; [intros rv val [E|[]]; injection E as <- <-; cbn; lia|]. intros rv H. now cbn in H. }
  split; [intros i j x y _ _ T; now cbn in T|]. split; [discriminate|]. split; [cbn; repeat constructor; cbn; intuition discriminate|].
  split; [intros rv [<-|[<-|[]]]; cbn; eauto|]. split; [intros rv tr H; discriminate|]. split; [easy|].
  intros rv val [E|[]]. injection E as <- <-. cbn. eauto.
Qed.
Lemma den_one y d : denotes (Val y) d -> denotes (Val (xsum [y])) d.
Proof. intros H. replace d with (prodl [d]) by (unfold prodl; cbn; ring). apply xsum_den. constructor; [exact H|constructor]. Qed.
Lemma den_val a d : denotes a d -> exists y, a = Val y /\ denotes (Val y) d.
Proof. destruct a as [y|]; [eauto|intros []]. Qed.
Lemma av_vv requested realized us h fs vv : drawable av_graph requested realized [] us -> conditional_logprob toposort true av_graph requested realized [] = Ok (h, fs, vv) ->
  List.length vv = List.length requested /\ NoDup vv /\ forall v, In v vv -> 5 <= v.
Proof. intros (RQ & FI & _) E. exact (vv_R av_graph requested realized [] RQ FI h fs vv E). Qed.
(** y requested, k drawn *)
Lemma av_point1 w zs : 5 <= w -> point (law_sem av_D (set_values [3] [w] zs av_inp) (set_draws av_graph [2] zs av_draw) av_det) av_graph [3] [w] [] [] (fun v => if v =? 3 then Some (zs 3) else None).
Proof.
  intros Lw. split; [|split; [easy|]].
  - intros [|[|i]] rv v E1 E2; try discriminate. injection E1 as <-. injection E2 as <-. cbn. unfold set_values. cbn. now rewrite Nat.eqb_refl.
  - intros rv H. destruct (rv =? 3) eqn:Q; [|easy]. apply Nat.eqb_eq in Q as ->. left. now left.
Qed.
Lemma av_in requested w zs v : v < 5 -> 5 <= w -> set_values requested [w] zs av_inp v = av_inp v.
Proof. intros Lv Lw. unfold set_values. cbn. replace (v =? w) with false; auto. symmetry. apply Nat.eqb_neq. lia. Qed.
Lemma av_joint1 h fs vv zs : conditional_logprob toposort true av_graph [3] [] [] = Ok (h, fs, vv) ->
  exists y, joint_value (law_sem av_D (set_values [3] vv zs av_inp) (set_draws av_graph [2] zs av_draw) av_det) h fs y /\ denotes (Val y) (normal_pdf (zs 2) 1 (zs 3)).
Proof.
  intros E. destruct (av_vv _ _ _ _ _ _ av_drawable1 E) as (L1 & _ & L3). destruct vv as [|w [|? ?]]; try discriminate L1. assert (Lw : 5 <= w) by (apply L3; now left).
  destruct (den_val _ _ (normal_ok (zs 2) 1 (zs 3) ltac:(lra))) as (y & Ey & Hy). pose proof av_drawable1 as (RQ & FI & NE & _).
  destruct (joint_trans true av_graph [3] [] [] h fs [w] R _ _ (fun _ => [y]) RQ FI E (av_point1 w zs Lw)) as (ys & F & J).
  - intros [|[|i]] rv v E1 E2; try discriminate. injection E1 as <-. injection E2 as <-. exists 1, 1, [2; 1], [zs 2; 1%R], (zs 3). split; [reflexivity|]. split.
    { pose (Sx := law_sem av_D (set_values [3] [w] zs av_inp) (set_draws av_graph [2] zs av_draw) av_det). pose (rho := fun v => if v =? 3 then Some (zs 3) else None).
      assert (M0 : means Sx av_graph rho 0 (s_in Sx 0)) by (eapply me_in; reflexivity).
      assert (M1 : means Sx av_graph rho 1 (s_in Sx 1)) by (eapply me_in; reflexivity).
      assert (M2 : means Sx av_graph rho 2 (s_draw Sx 0 0 [s_in Sx 0])) by (eapply me_rv; [reflexivity|reflexivity|constructor; [exact M0|constructor]]).
      assert (E1 : s_in Sx 1 = 1%R) by exact (av_in [3] w zs 1 ltac:(lia) Lw). rewrite E1 in M1.
      constructor; [exact M2|constructor; [exact M1|constructor]]. }
    split; [reflexivity|]. cbn [trans_of dget]. cbn [s_ld law_sem av_D law_logprob]. now rewrite Ey.
  - easy.
  - exact NE.
  - exists (xsum [y]). split; [exists ys; split; [exact F|exact J]|]. now apply den_one.
Qed.
Lemma av_law1 w zs : 5 <= w -> draw_law (law_sem av_D (set_values [3] [w] zs av_inp) (set_draws av_graph [2] zs av_draw) av_det) av_D av_graph [3] [w] [] [] 2 (LBernoulli (1 / 2)).
Proof.
  intros Lw. pose (Sx := law_sem av_D (set_values [3] [w] zs av_inp) (set_draws av_graph [2] zs av_draw) av_det). pose (rho := fun v => if v =? 3 then Some (zs 3) else None).
  assert (M0 : means Sx av_graph rho 0 (s_in Sx 0)) by (eapply me_in; reflexivity).
  assert (E0 : s_in Sx 0 = (1 / 2)%R) by exact (av_in [3] w zs 0 ltac:(lia) Lw). rewrite E0 in M0.
  exists rho, 0, 0, [0], [(1 / 2)%R]. split; [now apply av_point1|]. split; [reflexivity|]. split; [constructor; [exact M0|constructor]|reflexivity].
Qed.
Definition av_marginal (y : R) : R := (1 / 2 * normal_pdf 0 1 y + 1 / 2 * normal_pdf 1 1 y)%R.
Lemma av_series (f : nat -> R) : is_series (fun k => bernoulli_pmf (1 / 2) k * f k)%R (1 / 2 * f 0%nat + 1 / 2 * f 1%nat)%R.
Proof. apply (finite_series _ 1); [intros [|[|k]] H; try lia; cbn; ring|]. cbn. field. Qed.
Lemma av_average h fs vv zs : conditional_logprob toposort true av_graph [3] [] [] = Ok (h, fs, vv) ->
  average (fun zs => joint_value (law_sem av_D (set_values [3] vv zs av_inp) (set_draws av_graph [2] zs av_draw) av_det) h fs)
          (fun zs => draw_law (law_sem av_D (set_values [3] vv zs av_inp) (set_draws av_graph [2] zs av_draw) av_det) av_D av_graph [3] vv [] []) [2] zs (av_marginal (zs 3)).
Proof.
  intros E. destruct (av_vv _ _ _ _ _ _ av_drawable1 E) as (L1 & _ & L3). destruct vv as [|w [|? ?]]; try discriminate L1. assert (Lw : 5 <= w) by (apply L3; now left).
  eapply (average_sum _ _ 2 [] zs (LBernoulli (1 / 2)) (bernoulli_pmf (1 / 2)) (fun k => normal_pdf (INR k) 1 (zs 3))).
  - now apply av_law1.
  - cbn. lra.
  - reflexivity.
  - intros k _. destruct (av_joint1 h fs [w] (upd zs 2 (INR k)) E) as (y & J & Hd). exact (average_here _ _ _ _ _ J Hd).
  - exact (av_series (fun k => normal_pdf (INR k) 1 (zs 3))).
Qed.
(** all requested *)
Lemma av_fd l zs k : request av_graph l [] [] -> In 2 l -> In 3 l -> ~ In 0 l -> ~ In 1 l -> zs 2 = INR k ->
  fd av_D av_inp av_draw av_det av_graph l [] zs 2 (bernoulli_pmf (1 / 2) k) /\ fd av_D av_inp av_draw av_det av_graph l [] zs 3 (normal_pdf (INR k) 1 (zs 3)).
Proof.
  intros RQ I2 I3 N0 N1 Ez. destruct (natural_ex av_D av_inp av_draw av_det av_graph l [] RQ zs) as (rho & N). pose proof N as (P1 & P2).
  pose proof (P1 2 I2) as R2. cbn in R2. pose proof (P2 0 N0) as R0. pose proof (P2 1 N1) as R1.
  assert (M0 : means av_sem av_graph rho 0 (1 / 2)%R) by (eapply (me_in av_sem); [exact R0|reflexivity]).
  assert (M1 : means av_sem av_graph rho 1 1%R) by (eapply (me_in av_sem); [exact R1|reflexivity]).
  assert (M2 : means av_sem av_graph rho 2 (zs 2)) by (apply me_val; exact R2).
  split.
  - exists (LBernoulli (1 / 2)). split; [exists rho, 0, 0, [0], [(1 / 2)%R]; split; [exact N|]; split; [reflexivity|]; split; [constructor; [exact M0|constructor]|reflexivity]|].
    cbn [dget]. rewrite Ez. apply (proj1 (law_disc (LBernoulli (1 / 2)) _ ltac:(cbn; lra) eq_refl)).
  - exists (LNormal (zs 2) 1). split; [exists rho, 1, 1, [2; 1], [zs 2; 1%R]; split; [exact N|]; split; [reflexivity|]; split; [constructor; [exact M2|constructor; [exact M1|constructor]]|reflexivity]|].
    cbn [dget]. rewrite Ez. apply normal_ok. lra.
Qed.
Lemma av_request l : Permutation l [2; 3] -> request av_graph l [] [] /\ transformed_first av_graph l [] /\ l <> [] /\ In 2 l /\ In 3 l /\ ~ In 0 l /\ ~ In 1 l.
Proof.
  intros P. assert (K : forall v, In v l <-> v = 2 \/ v = 3). { intros v. rewrite (Permutation_in' eq_refl P). cbn. intuition. }
  split; [split; [exact av_model|]|].
  { split; [cbn; rewrite app_nil_r; eapply Permutation_NoDup; [apply Permutation_sym, P|repeat constructor; cbn; intuition discriminate]|].
    split; [intros rv I; apply K in I; cbn; lia|]. split; [easy|]. intros rv H. now cbn in H. }
  split; [intros i j x y _ _ T; now cbn in T|]. split; [intros ->; apply Permutation_length in P; discriminate|]. rewrite !K. lia.
Qed.
Lemma av_all l h fs vv zs k : Permutation l [2; 3] -> conditional_logprob toposort true av_graph l [] [] = Ok (h, fs, vv) -> zs 2 = INR k ->
  exists y, joint_value (law_sem av_D (set_values l vv zs av_inp) av_draw av_det) h fs y /\ denotes (Val y) (bernoulli_pmf (1 / 2) k * normal_pdf (INR k) 1 (zs 3%nat))%R.
Proof.
  intros P E Ez. destruct (av_request l P) as (RQ & FI & NE & I2 & I3 & N0 & N1). destruct (av_fd l zs k RQ I2 I3 N0 N1 Ez) as (F2 & F3).
  replace (bernoulli_pmf (1 / 2) k * normal_pdf (INR k) 1 (zs 3%nat))%R with (prodl [bernoulli_pmf (1 / 2) k; normal_pdf (INR k) 1 (zs 3)]) by (unfold prodl; cbn; ring).
  apply (joint_here av_D av_inp av_draw av_det av_graph l [] RQ) with (vs := [2; 3]); [easy|exact FI|exact E|exact NE|now apply Permutation_sym|constructor; [exact F2|constructor; [exact F3|constructor]]].
Qed.
(** k requested, y realized *)
Lemma av_mass h fs vv zs : conditional_logprob toposort true av_graph [2] [(3, 4)] [] = Ok (h, fs, vv) ->
  mass (fun zs => joint_value (law_sem av_D (set_values [2] vv zs av_inp) av_draw av_det) h fs) (value_domain av_sem av_D av_graph [2] []) [2] zs (av_marginal 0).
Proof.
  intros E. destruct (realized_joint av_D av_inp av_draw av_det av_graph [2] [(3, 4)] [] av_drawable2) as (h1 & fs1 & vv1 & h' & fs' & vv' & E1 & E' & H).
  rewrite E in E1. injection E1 as <- <- <-. cbn [map fst app] in E'.
  apply (mass_sum _ _ 2 [] zs (bernoulli_pmf (1 / 2)) (fun k => bernoulli_pmf (1 / 2) k * normal_pdf (INR k) 1 0)%R).
  - assert (RQ : request av_graph [2] [] []). { clear. destruct av_drawable2 as (RQ & _). split; [exact av_model|]. split; [repeat constructor; easy|]. split; [apply RQ|]. split; [easy|]. intros rv K. now cbn in K. }
    destruct (natural_ex av_D av_inp av_draw av_det av_graph [2] [] RQ zs) as (rho & N). exists (LBernoulli (1 / 2)). split; [|reflexivity].
    exists rho, 0, 0, [0], [(1 / 2)%R]. split; [exact N|]. split; [reflexivity|]. split; [|reflexivity]. constructor; [|constructor].
    eapply (me_in av_sem); [|reflexivity]. apply (proj2 N). intros [Q|[]]. discriminate Q.
  - intros k _. pose (zs1 := upd (upd zs 2 (INR k)) 3 0%R).
    destruct (av_all [2; 3] h' fs' vv' zs1 k (Permutation_refl _) E' eq_refl) as (y & J & Hd).
    eapply mass_here; [|exact Hd]. apply H in J; [|intros rv val [Q|[]]; injection Q as <- <-; reflexivity].
    destruct (av_vv _ _ _ _ _ _ av_drawable2 E) as (L1 & _ & _). destruct vv as [|w [|? ?]]; try discriminate L1.
    replace (set_values [2] [w] (upd zs 2 (INR k)) av_inp) with (set_values [2] [w] zs1 av_inp); [exact J|].
    apply FunctionalExtensionality.functional_extensionality. intros v. unfold set_values. cbn. now destruct (v =? w).
  - intros k ->. ring.
  - exact (av_series (fun k => normal_pdf (INR k) 1 0)).
Qed.
Lemma av_pos m x : (0 < normal_pdf m 1 x)%R.
Proof. unfold normal_pdf. pose proof PI_RGT_0. pose proof (sqrt_lt_R0 (2 * PI) ltac:(lra)). apply Rmult_lt_0_compat; [apply Rinv_0_lt_compat; lra|apply exp_pos]. Qed.
Lemma av_lt m x : (normal_pdf m 1 x < 1)%R.
Proof.
  unfold normal_pdf. pose proof PI2_1. assert (1 < sqrt (2 * PI))%R by (rewrite <- sqrt_1; apply sqrt_lt_1; lra).
  assert (exp (- (x - m) ^ 2 / (2 * 1 ^ 2)) <= 1)%R. { assert (L : (- (x - m) ^ 2 / (2 * 1 ^ 2) <= 0)%R) by (pose proof (pow2_ge_0 (x - m)); lra). destruct (Rle_lt_or_eq_dec _ _ L) as [L1|L1]; [left; apply exp_increasing in L1; rewrite exp_0 in L1; exact L1|rewrite L1, exp_0; right; reflexivity]. }
  pose proof (exp_pos (- (x - m) ^ 2 / (2 * 1 ^ 2))). assert (/ (1 * sqrt (2 * PI)) < 1)%R. { rewrite Rmult_1_l. rewrite <- Rinv_1. apply Rinv_lt_contravar; lra. }
  assert (0 < / (1 * sqrt (2 * PI)))%R by (apply Rinv_0_lt_compat; lra). nra.
Qed.
Lemma av_less : (normal_pdf 1 1 0 < normal_pdf 0 1 0)%R.
Proof.
  unfold normal_pdf. pose proof PI_RGT_0. pose proof (sqrt_lt_R0 (2 * PI) ltac:(lra)). apply Rmult_lt_compat_l; [apply Rinv_0_lt_compat; lra|]. apply exp_increasing. lra.
Qed.
Lemma av_posterior : exists D inp draw det g requested realized h fs vv, drawable g requested realized [] [] /\
  conditional_logprob toposort true g requested realized [] = Ok (h, fs, vv) /\
  proper_model (law_sem D inp draw det) D g (requested ++ map fst realized) [] /\
  forall zs m, mass (fun zs => joint_value (law_sem D (set_values requested vv zs inp) draw det) h fs) (value_domain (law_sem D inp draw det) D g requested []) requested zs m -> m <> 1%R.
Proof.
  destruct (runs _ _ _ _ _ av_drawable2) as ((h & fs & vv & E) & _).
  exists av_D, av_inp, av_draw, av_det, av_graph, [2], [(3, 4)], h, fs, vv. split; [exact av_drawable2|]. split; [exact E|]. split.
  - clear. intros zs v L I A _. assert (I' : In v [2; 3]) by exact I. destruct A as (rho & rng & dist & ps & xs & N & Eg & M & ->). pose proof N as (_ & P2).
    assert (R0 : rho 0 = None) by (apply P2; intros [Q|[Q|[]]]; discriminate Q). assert (R1 : rho 1 = None) by (apply P2; intros [Q|[Q|[]]]; discriminate Q).
    destruct I' as [<-|[<-|[]]]; cbn in Eg; injection Eg as <- <- <-.
    + assert (xs = [(1 / 2)%R]) as ->. { eapply meanss_det; [exact av_model|exact M|]. constructor; [eapply (me_in av_sem); [exact R0|reflexivity]|constructor]. } cbn. split; [lra|intros Q; now destruct Q].
    + inversion M as [|p l x m Mx M']; subst. assert (m = [1%R]) as ->. { eapply meanss_det; [exact av_model|exact M'|]. constructor; [eapply (me_in av_sem); [exact R1|reflexivity]|constructor]. } cbn. split; [lra|intros Q; now destruct Q].
  - intros zs m K. assert (m = av_marginal 0) as ->.
    { eapply mass_unique; [| |exact K|exact (av_mass h fs vv zs E)]; [intros zs' y y'; apply joint_det|].
      assert (RQ : request av_graph [2] [] []). { clear. destruct av_drawable2 as (RQ & _). split; [exact av_model|]. split; [repeat constructor; easy|]. split; [apply RQ|]. split; [easy|]. intros rv K. now cbn in K. }
      intros zs' v s s' (L & A1 & ->) (L' & A2 & ->). now rewrite (law_loc av_D av_inp av_draw av_det av_graph [2] [] RQ zs' zs' v L L' (fun _ _ => eq_refl) A1 A2). }
    unfold av_marginal. pose proof (av_lt 0 0). pose proof (av_lt 1 0). lra.
Qed.
Lemma av_omitted : exists D inp draw det g requested us h fs vv h' fs' vv', drawable g requested [] [] us /\
  conditional_logprob toposort true g requested [] [] = Ok (h, fs, vv) /\ conditional_logprob toposort true g ((requested ++ []) ++ us) [] [] = Ok (h', fs', vv') /\
  exists zs y y', joint_value (law_sem D (set_values requested vv zs inp) (set_draws g us zs draw) det) h fs y /\
    joint_value (law_sem D (set_values ((requested ++ []) ++ us) vv' zs inp) draw det) h' fs' y' /\ y <> y'.
Proof.
  destruct (runs _ _ _ _ _ av_drawable1) as ((h & fs & vv & E) & (h' & fs' & vv' & E')).
  exists av_D, av_inp, av_draw, av_det, av_graph, [3], [2], h, fs, vv, h', fs', vv'. split; [exact av_drawable1|]. split; [exact E|]. split; [exact E'|].
  exists (fun _ => 0%R). destruct (av_joint1 h fs vv (fun _ => 0%R) E) as (y & J & Hd). destruct (av_all [3; 2] h' fs' vv' (fun _ => 0%R) 0 (perm_swap _ _ _) E' eq_refl) as (y' & J' & Hd').
  exists y, y'. split; [exact J|]. split; [exact J'|]. intros <-. pose proof (den_uniq _ _ _ Hd Hd') as Q. cbn in Q. pose proof (av_pos 0 0). lra.
Qed.
Lemma av_conditional : exists D inp draw det g requested k h fs vv f, request g requested [] [] /\
  conditional_logprob toposort true g requested [] [] = Ok (h, fs, vv) /\ In (k, f) fs /\ (forall zs, value_domain (law_sem D inp draw det) D g requested [] zs k (Points (bernoulli_pmf (1 / 2)))) /\
  exists zs a p j0 j1 d0 d1, zs k = 0%R /\ fvalue (law_sem D (set_values requested vv zs inp) draw det) h f [a] /\ denotes (Val a) p /\
    joint_value (law_sem D (set_values requested vv zs inp) draw det) h fs j0 /\ denotes (Val j0) d0 /\
    joint_value (law_sem D (set_values requested vv (upd zs k 1) inp) draw det) h fs j1 /\ denotes (Val j1) d1 /\ p <> (d0 / (d0 + d1))%R.
Proof.
  destruct (av_request [2; 3] (Permutation_refl _)) as (RQ & FI & NE & I2 & I3 & N0 & N1).
  destruct (defined_trans true av_graph [2; 3] [] [] RQ FI) as (h & fs & vv & E & _); [intros rv [<-|[<-|[]]]; cbn; eauto|].
  destruct (m_sound toposort true av_graph [2; 3] [] [] h fs vv RQ (or_introl eq_refl) E) as (KE & LV & NV & _ & VAL).
  assert (Kf : exists f, In (2, f) fs). { assert (I : In 2 (map fst fs)) by (apply KE; left; exact I2). apply in_map_iff in I as ([q f] & Q & I). cbn in Q. subst q. eauto. }
  destruct Kf as (f & If). pose (zs := fun _ : nat => 0%R).
  destruct (av_all [2; 3] h fs vv zs 0 (Permutation_refl _) E eq_refl) as (j0 & J0 & D0).
  destruct (av_all [2; 3] h fs vv (upd zs 2 1) 1 (Permutation_refl _) E eq_refl) as (j1 & J1 & D1).
  destruct (natural_ex av_D av_inp av_draw av_det av_graph [2; 3] [] RQ zs) as (rho & N).
  destruct (vv_R av_graph [2; 3] [] [] RQ FI h fs vv E) as (_ & _ & GE).
  pose proof (proj2 (point_natural av_D av_inp av_draw av_det av_graph [2; 3] [] RQ vv zs rho LV NV GE) N) as PT.
  destruct vv as [|w [|w' [|? ?]]]; try discriminate LV.
  destruct (VAL R (list xr) _ rho PT 2 f If) as (VF & _).
  destruct (den_val _ _ (proj1 (law_disc (LBernoulli (1 / 2)) _ ltac:(cbn; lra) eq_refl) 0)) as (a & Ea & Ha).
  exists av_D, av_inp, av_draw, av_det, av_graph, [2; 3], 2, h, fs, [w; w'], f. split; [exact RQ|]. split; [exact E|]. split; [exact If|]. split.
  { intros z. destruct (natural_ex av_D av_inp av_draw av_det av_graph [2; 3] [] RQ z) as (r & Nr). exists (LBernoulli (1 / 2)). split; [|reflexivity].
    exists r, 0, 0, [0], [(1 / 2)%R]. split; [exact Nr|]. split; [reflexivity|]. split; [|reflexivity]. constructor; [|constructor]. eapply (me_in av_sem); [|reflexivity]. now apply (proj2 Nr). }
  exists zs, a, (bernoulli_pmf (1 / 2) 0), j0, j1. eexists. eexists. split; [reflexivity|]. split.
  { apply (VF 0 w eq_refl eq_refl). exists 0, 0, [0], [(1 / 2)%R], 0%R. split; [reflexivity|]. split.
    - constructor; [|constructor]. assert (Q : s_in (Sat av_D av_inp av_draw av_det [2; 3] [w; w'] zs) 0 = (1 / 2)%R).
      { cbn. unfold set_values. rewrite position_none; [reflexivity|]. intros I. apply GE in I. cbn in I. lia. }
      rewrite <- Q. eapply me_in; [|reflexivity]. now apply (proj2 N).
    - split; [exact (proj1 N 2 I2)|]. cbn [trans_of dget s_ld Sat law_sem av_D]. change 0%R with (INR 0). rewrite Ea. reflexivity. }
  split; [exact Ha|]. split; [exact J0|]. split; [exact D0|]. split; [exact J1|]. split; [exact D1|].
  cbn. unfold zs, upd. cbn. pose proof av_less. pose proof (av_pos 1 0). intros Q.
  assert (A : ((1 - 1 / 2) * normal_pdf 0 1 0 + 1 / 2 * normal_pdf 1 1 0 <> 0)%R) by lra.
  assert (X : ((1 - 1 / 2) * ((1 - 1 / 2) * normal_pdf 0 1 0 + 1 / 2 * normal_pdf 1 1 0) = (1 - 1 / 2) * normal_pdf 0 1 0)%R).
  { rewrite Q at 1. field. lra. }
  lra.
Qed.
