(** Lemmas for SpecAvg. *)
From Coq Require Import Reals List Arith Bool Lia Lra Permutation Sorted.
From Coquelicot Require Import Coquelicot.
From Verif Require Import XR SpecDist SpecTrans LemInt LemDist ModelVec ModelDist ModelTrans ModelJoint SpecJoint ModelGraph SpecGraph ModelLaw SpecLaw SpecAvg LemGraph LemGraph2 LemGraph3 LemLaw.
Import ListNotations.
Open Scope nat_scope.

Lemma law_pdf_ok L lo hi x : law_valid L -> law_support L = Interval lo hi -> inside lo hi x -> denotes (law_logprob L (Fin x)) (law_pdf L x).
Proof.
  intros V E H. destruct L as [f|mu s|mu s|a b|mu s|mu s|nu m s|n p|n a b|p|mu|p|a b n|n p]; cbn in E; try discriminate; cbn [law_valid] in V; cbn [law_logprob law_pdf].
  - destruct f; injection E as <- <-; cbn [family_valid] in V; cbn [family_logprob]; unfold inside in H; cbn in H.
    + now apply uniform_ok. + now apply pareto_ok. + apply triangular_ok; try tauto. lra. + now apply halfnormal_ok. + now apply wald_ok. + now apply exponential_ok.
    + now apply lognormal_ok. + now apply halfcauchy_ok. + apply gamma_ok; try tauto. lra. + now apply invgamma_ok. + apply chisquare_ok; auto. lra. + apply weibull_ok; auto. lra.
    + apply beta_ok; try tauto; lra. + now apply vonmises_ok.
  - now apply normal_ok. - now apply laplace_ok. - now apply cauchy_ok. - now apply gumbel_ok. - now apply logistic_ok. - now apply studentt_ok.
Qed.
Lemma xsum_split l : forall d, denotes (Val (xsum l)) d -> exists ds, List.Forall2 (fun x d => denotes (Val x) d) l ds /\ prodl ds = d.
Proof.
  induction l as [|x l IH]; intros d H; cbn [xsum fold_right] in H; [cbn in H; exists []; split; [constructor|cbn; rewrite <- H, exp_0; reflexivity]|]. fold (xsum l) in H.
  destruct x as [x| | |], (xsum l) as [z| | |]; cbn in H; try easy.
  - destruct (IH (exp z)) as (ds & F & P); [reflexivity|]. exists (exp x :: ds). split; [constructor; [reflexivity|auto]|]. unfold prodl in *. cbn. rewrite P, <- exp_plus. exact H.
  - destruct (IH 0%R) as (ds & F & P); [reflexivity|]. exists (exp x :: ds). split; [constructor; [reflexivity|auto]|]. unfold prodl in *. cbn. rewrite P, H. ring.
  - destruct (IH (exp z)) as (ds & F & P); [reflexivity|]. exists (0%R :: ds). split; [constructor; [reflexivity|auto]|]. unfold prodl in *. cbn. rewrite H. ring.
  - destruct (IH 0%R) as (ds & F & P); [reflexivity|]. exists (0%R :: ds). split; [constructor; [reflexivity|auto]|]. unfold prodl in *. cbn. rewrite H. ring.
Qed.

Section Main.
Variables (D : nat -> list R -> law) (inp : nat -> R) (draw : nat -> nat -> list R -> R) (det : nat -> list R -> R).
Variables (g : heap) (requested : list nat) (realized trs : list (nat * nat)) (us : list nat).
Let all := (requested ++ map fst realized) ++ us.
Hypothesis RQ : request g requested realized trs.
Hypothesis FIRST : transformed_first g requested trs.
Hypothesis NE : requested ++ map fst realized <> [].
Hypothesis ND : NoDup all.
Hypothesis RV : forall rv, In rv all -> exists rng dist ps, nth_error g rv = Some (mk (ORv rng dist) ps).
Hypothesis TR : forall rv tr, dget trs rv = Some tr -> exists rng ps, nth_error g rv = Some (mk (ORv rng tr) ps).
(** every variable that is drawn has its own generator *)
Hypothesis OWN : forall u w rng dist ps dist' ps', In u us -> nth_error g u = Some (mk (ORv rng dist) ps) -> nth_error g w = Some (mk (ORv rng dist') ps') -> w = u.
(** the realized values are inputs *)
Hypothesis OBS : forall rv val, In (rv, val) realized -> exists ps, nth_error g val = Some (mk OIn ps).
Variables (h : heap) (fs : list (nat * factor)) (vv : list nat) (h' : heap) (fs' : list (nat * factor)) (vv' : list nat).
Hypothesis RUN : conditional_logprob toposort true g requested realized trs = Ok (h, fs, vv).
Hypothesis RUN' : conditional_logprob toposort true g all [] trs = Ok (h', fs', vv').
Lemma vv_R : List.length vv = List.length requested /\ NoDup vv /\ forall v, In v vv -> List.length g <= v.
Proof.
  destruct (m_sound toposort true g requested realized trs h fs vv RQ (or_intror (conj eq_refl FIRST)) RUN) as (_ & L & N & G & _).
  split; auto. split; auto. intros v I. destruct (In_nth_error _ _ I) as (i & Ei).
  destruct (nth_error requested i) as [rv|] eqn:Er; [|apply nth_error_None in Er; assert (i < List.length vv) by (apply nth_error_Some; congruence); lia].
  apply (G i rv v Er Ei).
Qed.
Let W : model_graph g. Proof. apply RQ. Qed.

Lemma all_lt v : In v all -> v < List.length g.
Proof. intros I. destruct (RV v I) as (rng & dist & ps & E). apply nth_error_Some. congruence. Qed.
Lemma in_parts v : In v all <-> In v requested \/ In v (map fst realized) \/ In v us.
Proof. unfold all. rewrite !in_app_iff. tauto. Qed.
Lemma parts v : (In v requested -> ~ In v us) /\ (In v (map fst realized) -> ~ In v us) /\ (In v requested -> ~ In v (map fst realized)).
Proof.
  unfold all in ND. assert (G : forall l m : list nat, NoDup (l ++ m) -> In v l -> ~ In v m).
  { induction l as [|a l IH]; cbn; intros m N I J; [destruct I|]. inversion N as [|? ? N1 N2]; subst. destruct I as [->|I]; [apply N1, in_or_app; auto|eapply IH; eauto]. }
  pose proof (G _ _ ND) as A. rewrite in_app_iff in A. split; [tauto|]. split; [tauto|]. destruct RQ as (_ & N & _). exact (G _ _ N).
Qed.
Lemma clash v : In v us -> In v requested \/ In v (map fst realized) -> False.
Proof. destruct (parts v) as (A & B & _). tauto. Qed.
Lemma clash2 v : In v requested -> In v (map fst realized) -> False.
Proof. destruct (parts v) as (_ & _ & A). tauto. Qed.
Lemma request_all : request g all [] trs.
Proof.
  destruct RQ as (_ & _ & _ & _ & R5). split; [exact W|]. split; [cbn; now rewrite app_nil_r|]. split; [apply all_lt|]. split; [easy|].
  intros rv H. destruct (R5 rv H) as (I & K). split; auto. apply in_parts. auto.
Qed.
Lemma first_all : transformed_first g all trs.
Proof.
  intros i j x y Ei Ej T Ne Dp. destruct RQ as (_ & _ & _ & _ & R5). destruct (R5 x T) as (Ix & _).
  destruct (In_nth_error _ _ Ix) as (i' & Ei'). assert (Li : i' < List.length requested) by (apply nth_error_Some; congruence).
  assert (i = i') as ->.
  { eapply (proj1 (NoDup_nth_error all) ND); [apply nth_error_Some; congruence|]. rewrite Ei. unfold all. rewrite nth_error_app1 by (rewrite app_length; lia). rewrite nth_error_app1; auto. }
  destruct (Nat.lt_ge_cases j (List.length requested)) as [L|L]; [|lia].
  unfold all in Ej. rewrite nth_error_app1 in Ej by (rewrite app_length; lia). rewrite nth_error_app1 in Ej by auto. eapply FIRST; eauto.
Qed.
Let S0 := law_sem D inp draw det.
Definition SR (zs : nat -> R) := law_sem D (set_values requested vv zs inp) (set_draws g us zs draw) det.
Let SA (zs : nat -> R) := law_sem D (set_values all vv' zs inp) draw det.
Definition observed (zs : nat -> R) : Prop := forall rv val, In (rv, val) realized -> zs rv = inp val.
Let VF := vv_facts g all trs request_all h' fs' vv' first_all RUN'.
Lemma in_R zs i rv v : nth_error requested i = Some rv -> nth_error vv i = Some v -> s_in (SR zs) v = zs rv.
Proof. intros Er Ev. cbn. unfold set_values. rewrite (position_nth _ (proj1 (proj2 vv_R)) _ _ Ev). f_equal. now apply nth_error_nth. Qed.
Lemma in_A zs i rv v : nth_error all i = Some rv -> nth_error vv' i = Some v -> s_in (SA zs) v = zs rv.
Proof. intros Er Ev. cbn. unfold set_values. rewrite (position_nth _ (proj1 (proj2 VF)) _ _ Ev). f_equal. now apply nth_error_nth. Qed.
Lemma in_g zs v : v < List.length g -> s_in (SR zs) v = inp v.
Proof. intros L. cbn. unfold set_values. rewrite position_none; auto. intros I. apply vv_R in I. lia. Qed.
Lemma generator_in rng : forall l, (forall u, In u l -> In u us) -> forall u, generator_of g l rng = Some u -> In u l /\ exists dist ps, nth_error g u = Some (mk (ORv rng dist) ps).
Proof.
  induction l as [|w l IH]; intros B u H; cbn in H; [discriminate|].
  destruct (nth_error g w) as [[o ps]|] eqn:E; [|destruct (IH (fun u I => B u (or_intror I)) u H); split; [now right|auto]].
  assert (K : generator_of g l rng = Some u -> In u (w :: l) /\ exists dist ps, nth_error g u = Some (mk (ORv rng dist) ps)) by (intros K; destruct (IH (fun u I => B u (or_intror I)) u K); split; [now right|auto]).
  destruct o as [ |r dist| | | | | ]; auto.
  destruct (Nat.eqb r rng) eqn:Q; [apply Nat.eqb_eq in Q; subst; injection H as <-; split; [now left|eauto]|].
  now apply K.
Qed.
Lemma generator_some rng dist ps u : nth_error g u = Some (mk (ORv rng dist) ps) -> forall l, In u l -> generator_of g l rng <> None.
Proof.
  intros E. induction l as [|w l IH]; intros I; [destruct I|]; destruct I as [->|I]; cbn; [rewrite E, Nat.eqb_refl; discriminate|].
  destruct (nth_error g w) as [[o qs]|]; auto. destruct o as [ |r d| | | | | ]; auto. destruct (Nat.eqb r rng); [discriminate|auto].
Qed.
Lemma drawn zs u rng dist ps xs : In u us -> nth_error g u = Some (mk (ORv rng dist) ps) -> s_draw (SR zs) rng dist xs = zs u.
Proof.
  intros I E. cbn. unfold set_draws. destruct (generator_of g us rng) as [w|] eqn:Q; [|exfalso; eapply generator_some; eauto].
  destruct (generator_in rng us (fun _ H => H) w Q) as (Iw & d' & p' & Ew). now rewrite (OWN u w _ _ _ _ _ I E Ew).
Qed.
Lemma not_drawn zs v rng dist ps xs : ~ In v us -> nth_error g v = Some (mk (ORv rng dist) ps) -> s_draw (SR zs) rng dist xs = draw rng dist xs.
Proof.
  intros N E. cbn. unfold set_draws. destruct (generator_of g us rng) as [w|] eqn:Q; auto. exfalso.
  destruct (generator_in rng us (fun _ H => H) w Q) as (Iw & d' & p' & Ew). rewrite (OWN w v _ _ _ _ _ Iw Ew E) in N. auto.
Qed.
(** the values of all variables: those of the point and those of the draws *)
Definition join (zs : nat -> R) (rho : nat -> option R) (v : nat) : option R := if in_dec Nat.eq_dec v us then Some (zs v) else rho v.
Lemma join_means zs rho : point (SR zs) g requested vv realized trs rho -> forall a x, means (SR zs) g rho a x -> means S0 g (join zs rho) a x.
Proof.
  intros (_ & _ & P3). assert (NU : forall v x, rho v = Some x -> ~ In v us).
  { intros v x E. destruct (P3 v) as [I|I]; [congruence|exact (proj1 (parts v) I)|exact (proj1 (proj2 (parts v)) I)]. }
  induction a as [a IH] using lt_wf_ind. intros x H.
  assert (A : forall l xs, (forall p, In p l -> p < a) -> meanss (SR zs) g rho l xs -> meanss S0 g (join zs rho) l xs).
  { intros l xs B M. induction M as [|p l y xs Mp M IHm]; constructor; [apply IH; auto; apply B; cbn; auto|]. apply IHm. intros q Hq. apply B. cbn. auto. }
  inversion H as [v y R|v ps R E|v rng dist ps xs R E M|v f ps xs R E M]; subst.
  - apply me_val. unfold join. destruct (in_dec Nat.eq_dec a us); [exfalso; eapply NU; eauto|auto].
  - rewrite in_g by (apply nth_error_Some; congruence). eapply (me_in S0); eauto. unfold join. destruct (in_dec Nat.eq_dec a us) as [I|]; auto.
    exfalso. destruct (RV a) as (r & d & p & E'); [apply in_parts; auto|congruence].
  - destruct (in_dec Nat.eq_dec a us) as [I|I].
    + rewrite (drawn zs a rng dist ps xs I E). apply me_val. unfold join. now destruct (in_dec Nat.eq_dec a us).
    + rewrite (not_drawn zs a rng dist ps xs I E). eapply (me_rv S0); eauto; [unfold join; now destruct (in_dec Nat.eq_dec a us)|]. apply A; auto. apply (W _ _ E).
  - eapply (me_det S0); eauto; [|apply A; auto; apply (W _ _ E)]. unfold join. destruct (in_dec Nat.eq_dec a us) as [I|]; auto.
    exfalso. destruct (RV a) as (r & d & p & E'); [apply in_parts; auto|congruence].
Qed.
Lemma join_meanss zs rho : point (SR zs) g requested vv realized trs rho -> forall l xs, meanss (SR zs) g rho l xs -> meanss S0 g (join zs rho) l xs.
Proof. intros P l xs M. induction M; constructor; auto. now apply join_means. Qed.
Lemma join_natural zs rho : observed zs -> point (SR zs) g requested vv realized trs rho -> natural S0 g all trs zs (join zs rho).
Proof.
  intros OB P. pose proof P as (P1 & P2 & P3). split.
  - intros v Iv. apply in_parts in Iv as [I|[I|I]].
    + destruct (In_nth_error _ _ I) as (i & Ei). destruct (nth_error vv i) as [w|] eqn:Ew; [|apply nth_error_None in Ew; destruct vv_R; assert (i < List.length requested) by (apply nth_error_Some; congruence); lia].
      specialize (P1 i v w Ei Ew). assert (Q : join zs rho v = rho v) by (unfold join; destruct (in_dec Nat.eq_dec v us); auto; exfalso; eapply clash; [eassumption|tauto]). rewrite Q.
      rewrite (in_R zs i v w Ei Ew) in P1. destruct (dget trs v) as [tr|]; auto. destruct P1 as (rng & dist & ps & xs & E & M & K). exists rng, dist, ps, xs. split; auto. split; auto. now apply join_meanss.
    + assert (Q : join zs rho v = rho v) by (unfold join; destruct (in_dec Nat.eq_dec v us); auto; exfalso; eapply clash; [eassumption|tauto]). rewrite Q.
      assert (T : dget trs v = None). { destruct (dget trs v) eqn:T; auto. exfalso. destruct RQ as (_ & _ & _ & _ & R5). destruct (R5 v ltac:(congruence)) as (J & _). first [eapply clash2; eassumption|eapply clash; [eassumption|tauto]]. }
      rewrite T. apply in_map_iff in I as ([v' val] & <- & I). cbn. destruct (P2 _ _ I) as (x & Ex & ->). f_equal. rewrite (OB _ _ I). destruct (OBS _ _ I) as (ps & E).
      inversion Ex as [w qs E'|w o qs xs y E' M K]; subst; [apply in_g, nth_error_Some; congruence|]. rewrite E in E'. injection E' as <- <-. discriminate.
    + assert (Q : join zs rho v = Some (zs v)) by (unfold join; now destruct (in_dec Nat.eq_dec v us)). rewrite Q.
      assert (T : dget trs v = None). { destruct (dget trs v) eqn:T; auto. exfalso. destruct RQ as (_ & _ & _ & _ & R5). destruct (R5 v ltac:(congruence)) as (J & _). first [eapply clash2; eassumption|eapply clash; [eassumption|tauto]]. }
      now rewrite T.
  - intros v N. unfold join. destruct (in_dec Nat.eq_dec v us) as [I|I]; [exfalso; apply N, in_parts; auto|].
    destruct (rho v) eqn:E; auto. exfalso. apply N, in_parts. destruct (P3 v); [congruence|auto|auto].
Qed.
(** the factor of a variable when all have the values [rho] *)
Definition factor_at (zs : nat -> R) (rho : nat -> option R) (v : nat) (y : list xr) : Prop :=
  exists rng dist ps xs x, nth_error g v = Some (mk (ORv rng dist) ps) /\ meanss S0 g rho ps xs /\ rho v = Some x /\
    y = match dget trs v with None => s_ld S0 dist xs x | Some tr => s_add S0 (s_ld S0 dist xs x) (s_lj S0 tr (zs v) xs) end.
Lemma args_g v rng dist ps : nth_error g v = Some (mk (ORv rng dist) ps) -> forall p, In p ps -> p < List.length g.
Proof. intros E p I. pose proof (W _ _ E) as B. apply B in I. assert (v < List.length g) by (apply nth_error_Some; congruence). lia. Qed.
Lemma both zs rho : observed zs -> point (SR zs) g requested vv realized trs rho -> exists Y,
  (forall v, In v all -> factor_at zs (join zs rho) v (Y v)) /\
  joint_value (SR zs) h fs (xsum (concat (map Y (requested ++ map fst realized)))) /\
  joint_value (SA zs) h' fs' (xsum (concat (map Y all))).
Proof.
  intros OB P. pose proof (join_natural zs rho OB P) as N.
  destruct (choose_on (factor_at zs (join zs rho)) [] all) as (Y & HY).
  { intros v I. destruct (RV v I) as (rng & dist & ps & E). destruct (meanss_total S0 g (join zs rho) W ps (args_g _ _ _ _ E)) as (xs & M).
    assert (X : exists x, join zs rho v = Some x). { destruct N as (N1 & _). specialize (N1 v I). destruct (dget trs v); [|eauto]. destruct N1 as (? & ? & ? & ? & _ & _ & K). eauto. }
    destruct X as (x & Ex). eexists. exists rng, dist, ps, xs, x. split; [exact E|]. split; [exact M|]. split; [exact Ex|]. reflexivity. }
  exists Y. split; [exact HY|].
  assert (MR : forall ps xs, (forall p, In p ps -> p < List.length g) -> meanss S0 g (join zs rho) ps xs -> meanss (SR zs) g rho ps xs).
  { intros ps xs B M. destruct (meanss_total (SR zs) g rho W ps B) as (xs' & M'). assert (xs = xs') as ->; auto. eapply meanss_det; [exact W|exact M|now apply join_meanss]. }
  assert (RR : forall v, In v requested \/ In v (map fst realized) -> join zs rho v = rho v).
  { intros v I. unfold join. destruct (in_dec Nat.eq_dec v us) as [J|]; auto. exfalso. eapply clash; [eassumption|tauto]. }
  split.
  - destruct (joint_trans true g requested realized trs h fs vv R (SR zs) rho Y RQ FIRST RUN P) as (ys & F & J); auto.
    + intros i rv v Ei Ev. assert (I : In rv requested) by (eapply nth_error_In; eauto). destruct (HY rv) as (rng & dist & ps & xs & x & E & M & X & ->); [apply in_parts; auto|].
      rewrite RR in X by auto. unfold trans_of. exists rng, dist, ps, xs, x. split; auto. split; [apply MR; auto; eapply args_g; eauto|]. split; auto.
      destruct (dget trs rv) as [tr|]; [|reflexivity]. rewrite (in_R zs i rv v Ei Ev). reflexivity.
    + intros rv I. destruct (HY rv) as (rng & dist & ps & xs & x & E & M & X & ->); [apply in_parts; auto|].
      rewrite RR in X by auto. exists rng, dist, ps, xs, x. split; auto. split; [apply MR; auto; eapply args_g; eauto|]. split; auto.
      assert (T : dget trs rv = None). { destruct (dget trs rv) eqn:T; auto. exfalso. destruct RQ as (_ & _ & _ & _ & R5). destruct (R5 rv ltac:(congruence)) as (J & _). first [eapply clash2; eassumption|eapply clash; [eassumption|tauto]]. }
      now rewrite T.
    + exists ys. split; auto.
  - destruct VF as (L1 & L2 & L3). pose proof (proj2 (point_natural D inp draw det g all trs request_all vv' zs (join zs rho) L1 L2 L3) N) as PA.
    destruct (joint_trans true g all [] trs h' fs' vv' R (SA zs) (join zs rho) Y request_all first_all RUN' PA) as (ys & F & J).
    + intros i rv v Ei Ev. assert (I : In rv all) by (eapply nth_error_In; eauto). destruct (HY rv I) as (rng & dist & ps & xs & x & E & M & X & ->).
      unfold trans_of. exists rng, dist, ps, xs, x. split; auto. split.
      { apply (meanss_swap S0 (SA zs) g (join zs rho) (join zs rho) (List.length g)); auto; [|eapply args_g; eauto]. intros w Lw. cbn. unfold set_values. rewrite position_none; auto. intros J. apply L3 in J. lia. }
      split; auto. destruct (dget trs rv) as [tr|]; [|reflexivity]. rewrite (in_A zs i rv v Ei Ev). reflexivity.
    + easy.
    + cbn [map]. rewrite app_nil_r. intros Z. apply NE. exact (proj1 (app_eq_nil _ _ Z)).
    + cbn [map] in J. rewrite app_nil_r in J. exists ys. split; auto.
Qed.
Lemma point_ex zs : exists rho, point (SR zs) g requested vv realized trs rho.
Proof. apply (point_exists (SR zs) g W); [exact RQ|apply vv_R]. Qed.
(** with nothing left to draw the two joints agree *)
Lemma observed_joint zs y : us = [] -> observed zs -> joint_value (SR zs) h fs y <-> joint_value (SA zs) h' fs' y.
Proof.
  intros U OB. destruct (point_ex zs) as (rho & P). destruct (both zs rho OB P) as (Y & _ & J1 & J2). unfold all in J2. rewrite U, app_nil_r in J2.
  split; intros K; [rewrite (joint_det _ _ _ _ _ K J1); exact J2|rewrite (joint_det _ _ _ _ _ K J2); exact J1].
Qed.

(** ** Averages *)
Let JR (zs : nat -> R) (y : xr) := joint_value (SR zs) h fs y.
Let JA (zs : nat -> R) (y : xr) := joint_value (SA zs) h' fs' y.
Let lawR (zs : nat -> R) := draw_law (SR zs) D g requested vv realized trs.
Let dom := value_domain S0 D g all trs.
Let fdA := fd D inp draw det g all trs.
Lemma plain u : In u us -> dget trs u = None.
Proof. intros I. destruct (dget trs u) eqn:T; auto. exfalso. destruct RQ as (_ & _ & _ & _ & R5). destruct (R5 u ltac:(congruence)) as (J & _). first [eapply clash2; eassumption|eapply clash; [eassumption|tauto]]. Qed.
Lemma law_both zs u L : observed zs -> lawR zs u L -> law_at S0 D g all trs zs u L.
Proof.
  intros OB (rho & rng & dist & ps & xs & P & E & M & ->). exists (join zs rho), rng, dist, ps, xs. split; [now apply join_natural|]. split; auto. split; auto. now apply join_meanss.
Qed.
Lemma leaf zs y d es : observed zs -> JR zs y -> denotes (Val y) d -> List.Forall2 (fdA zs) us es -> exists y', JA zs y' /\ denotes (Val y') (prodl es * d)%R.
Proof.
  intros OB Hy Hd F. destruct (point_ex zs) as (rho & P). destruct (both zs rho OB P) as (Y & HY & J1 & J2). eexists. split; [exact J2|].
  rewrite (joint_det _ _ _ _ _ Hy J1) in Hd. apply xsum_split in Hd as (ds & Fd & <-).
  unfold all. rewrite map_app, concat_app, Rmult_comm, <- prodl_app. apply xsum_den, Forall2_app; auto.
  assert (K : forall u, In u us -> exists l, Y u = [l] /\ forall e, fdA zs u e -> denotes (Val l) e).
  { intros u I. assert (Ia : In u all) by (apply in_parts; auto). destruct (HY u Ia) as (rng & dist & ps & xs & x & E & M & X & ->). rewrite (plain u I).
    assert (x = zs u) as -> by (unfold join in X; destruct (in_dec Nat.eq_dec u us); [congruence|easy]).
    cbn [s_ld S0 law_sem]. unfold S0. cbn [s_ld law_sem].
    assert (LA : law_at S0 D g all trs zs u (D dist xs)) by (exists (join zs rho), rng, dist, ps, xs; split; [now apply join_natural|auto]).
    destruct (law_logprob (D dist xs) (Fin (zs u))) as [l|] eqn:El.
    - exists l. split; [reflexivity|]. intros e (L & A & H). rewrite (plain u I) in H. assert (L = D dist xs) as -> by (eapply (law_loc D inp draw det g all trs request_all zs zs u); eauto). rewrite El in H. exact H.
    - exists NaN. split; [reflexivity|]. intros e (L & A & H). rewrite (plain u I) in H. assert (L = D dist xs) as -> by (eapply (law_loc D inp draw det g all trs request_all zs zs u); eauto). rewrite El in H. destruct H. }
  assert (Gn : forall (l : list nat) (P : nat -> R -> Prop) es, List.Forall2 P l es -> (forall u, In u l -> exists y, Y u = [y] /\ forall e, P u e -> denotes (Val y) e) -> List.Forall2 (fun x d => denotes (Val x) d) (concat (map Y l)) es).
  { intros l P0 es' F'. induction F' as [|u e l es' Hu F' IH]; intros K'; [constructor|]. cbn [map concat]. destruct (K' u (or_introl eq_refl)) as (y0 & -> & Hl). cbn. constructor; [now apply Hl|apply IH; intros; apply K'; now right]. }
  eapply Gn; eauto.
Qed.
Lemma average_mass : StronglySorted lt us -> forall todo zs m, average JR lawR todo zs m -> forall done es, observed zs -> done ++ todo = us -> List.Forall2 (fdA zs) done es -> mass JA dom todo zs (prodl es * m).
Proof.
  intros SO todo zs m H. induction H as [zs y d Hy Hd|u todo zs L lo hi f m A V E Hf IH Hi|u todo zs L pm f m A V E Hf IH Hs]; intros done es OB Q F.
  - rewrite app_nil_r in Q. subst done. destruct (leaf zs y d es OB Hy Hd F) as (y' & K1 & K2). eapply mass_here; eauto.
  - assert (Iu : In u us) by (rewrite <- Q; apply in_or_app; right; now left). assert (Ia : In u all) by (apply in_parts; auto).
    assert (LT : forall w, In w done -> w < u). { intros w Iw. rewrite <- Q in SO. clear -SO Iw. induction done as [|x done IH]; [easy|]. cbn in SO. inversion SO as [|? ? S1 S2]; subst. destruct Iw as [<-|Iw]; auto. rewrite Forall_forall in S2. apply S2. apply in_or_app. right. now left. }
    pose proof (law_both zs u L OB A) as LA.
    assert (AU : forall x, law_at S0 D g all trs (upd zs u x) u L).
    { intros x. destruct (law_ex D inp draw det g all trs request_all RV (upd zs u x) u Ia) as (M & B). replace L with M; auto. symmetry. eapply (law_loc D inp draw det g all trs request_all); [|exact LA|exact B]. intros w Lw. now apply upd_lt. }
    assert (OBU : forall x, observed (upd zs u x)). { intros x rv val I. unfold upd. destruct (Nat.eqb rv u) eqn:Z; [|now apply OB]. apply Nat.eqb_eq in Z as ->. exfalso. apply (clash u Iu). right. apply in_map_iff. exists (u, val). auto. }
    apply (mass_int JA dom u todo zs lo hi (fun x => (prodl es * (law_pdf L x * f x))%R)).
    + exists L. split; auto. now rewrite (plain u Iu).
    + eapply law_order; eauto.
    + intros x Hx. replace (prodl es * (law_pdf L x * f x))%R with (prodl (es ++ [law_pdf L x]) * f x)%R by (rewrite prodl_app; unfold prodl; cbn; ring).
      apply (IH x Hx (done ++ [u])); auto; [rewrite <- app_assoc; exact Q|]. apply Forall2_app.
      * eapply F2_in; [exact F|]. intros w e Iw Hw. eapply (fd_move D inp draw det g all trs request_all RV); [| |exact Hw]; [apply in_parts; right; right; rewrite <- Q; apply in_or_app; now left|].
        intros z Lz. apply upd_lt. specialize (LT w Iw). lia.
      * constructor; [|constructor]. exists L. split; auto. rewrite (plain u Iu), upd_same. eapply law_pdf_ok; eauto.
    + exact (is_RInt_gen_scal (fun x => (law_pdf L x * f x)%R) (prodl es) m Hi).
  - assert (Iu : In u us) by (rewrite <- Q; apply in_or_app; right; now left). assert (Ia : In u all) by (apply in_parts; auto).
    assert (LT : forall w, In w done -> w < u). { intros w Iw. rewrite <- Q in SO. clear -SO Iw. induction done as [|x done IH]; [easy|]. cbn in SO. inversion SO as [|? ? S1 S2]; subst. destruct Iw as [<-|Iw]; auto. rewrite Forall_forall in S2. apply S2. apply in_or_app. right. now left. }
    pose proof (law_both zs u L OB A) as LA.
    assert (AU : forall x, law_at S0 D g all trs (upd zs u x) u L).
    { intros x. destruct (law_ex D inp draw det g all trs request_all RV (upd zs u x) u Ia) as (M & B). replace L with M; auto. symmetry. eapply (law_loc D inp draw det g all trs request_all); [|exact LA|exact B]. intros w Lw. now apply upd_lt. }
    assert (OBU : forall x, observed (upd zs u x)). { intros x rv val I. unfold upd. destruct (Nat.eqb rv u) eqn:Z; [|now apply OB]. apply Nat.eqb_eq in Z as ->. exfalso. apply (clash u Iu). right. apply in_map_iff. exists (u, val). auto. }
    apply (mass_sum JA dom u todo zs pm (fun k => (prodl es * (pm k * f k))%R)).
    + exists L. split; auto. now rewrite (plain u Iu).
    + intros k Hk. replace (prodl es * (pm k * f k))%R with (prodl (es ++ [pm k]) * f k)%R by (rewrite prodl_app; unfold prodl; cbn; ring).
      apply (IH k Hk (done ++ [u])); auto; [rewrite <- app_assoc; exact Q|]. apply Forall2_app.
      * eapply F2_in; [exact F|]. intros w e Iw Hw. eapply (fd_move D inp draw det g all trs request_all RV); [| |exact Hw]; [apply in_parts; right; right; rewrite <- Q; apply in_or_app; now left|].
        intros z Lz. apply upd_lt. specialize (LT w Iw). lia.
      * constructor; [|constructor]. exists L. split; auto. rewrite (plain u Iu), upd_same. now apply law_disc.
    + intros k ->. ring.
    + exact (is_series_scal (prodl es) (fun k => (pm k * f k)%R) m Hs).
Qed.
End Main.
Lemma runs g requested realized trs us : drawable g requested realized trs us ->
  (exists h fs vv, conditional_logprob toposort true g requested realized trs = Ok (h, fs, vv)) /\
  (exists h fs vv, conditional_logprob toposort true g ((requested ++ map fst realized) ++ us) [] trs = Ok (h, fs, vv)).
Proof.
  intros (RQ & FI & NE & ND & RV & TR & OWN & OBS). split.
  - destruct (defined_trans true g requested realized trs RQ FI) as (h & fs & vv & E & _); [|eauto]. intros rv I. apply RV, in_or_app. auto.
  - destruct (defined_trans true g ((requested ++ map fst realized) ++ us) [] trs) as (h & fs & vv & E & _); [exact (request_all (fun _ _ => LNormal 0 0) (fun _ => 0%R) (fun _ _ _ => 0%R) (fun _ _ => 0%R) g requested realized trs us RQ ND RV)|exact (first_all g requested realized trs us RQ FI ND)| |eauto].
    intros rv I. apply in_app_or in I as [I|[]]. auto.
Qed.
Lemma averaged D inp draw det g requested realized trs us : drawable g requested realized trs us -> StronglySorted lt us ->
  exists h fs vv h' fs' vv', conditional_logprob toposort true g requested realized trs = Ok (h, fs, vv) /\
  conditional_logprob toposort true g ((requested ++ map fst realized) ++ us) [] trs = Ok (h', fs', vv') /\
  forall zs m, (forall rv val, In (rv, val) realized -> zs rv = inp val) ->
  average (fun zs => joint_value (law_sem D (set_values requested vv zs inp) (set_draws g us zs draw) det) h fs)
          (fun zs => draw_law (law_sem D (set_values requested vv zs inp) (set_draws g us zs draw) det) D g requested vv realized trs) us zs m ->
  forall m', mass (fun zs => joint_value (law_sem D (set_values ((requested ++ map fst realized) ++ us) vv' zs inp) draw det) h' fs')
       (value_domain (law_sem D inp draw det) D g ((requested ++ map fst realized) ++ us) trs) us zs m' <-> m' = m.
Proof.
  intros DR SO. destruct (runs _ _ _ _ _ DR) as ((h & fs & vv & E) & (h' & fs' & vv' & E')). destruct DR as (RQ & FI & NE & ND & RV & TR & OWN & OBS).
  exists h, fs, vv, h', fs', vv'. split; auto. split; auto. intros zs m OB A.
  assert (M : mass (fun zs => joint_value (law_sem D (set_values ((requested ++ map fst realized) ++ us) vv' zs inp) draw det) h' fs')
       (value_domain (law_sem D inp draw det) D g ((requested ++ map fst realized) ++ us) trs) us zs m).
  { replace m with (prodl [] * m)%R by (cbn; ring). eapply average_mass with (done := []); eauto. }
  intros m'. split; [|intros ->; exact M]. intros K. eapply mass_unique; [| |exact K|exact M].
  - intros zs' y y'. apply joint_det.
  - intros zs' v s s' (L & A1 & ->) (L' & A2 & ->). rewrite (law_loc D inp draw det g _ trs (request_all D inp draw det g requested realized trs us RQ ND RV) zs' zs' v L L' (fun _ _ => eq_refl) A1 A2). reflexivity.
Qed.
Lemma realized_joint D inp draw det g requested realized trs : drawable g requested realized trs [] ->
  exists h fs vv h' fs' vv', conditional_logprob toposort true g requested realized trs = Ok (h, fs, vv) /\
  conditional_logprob toposort true g (requested ++ map fst realized) [] trs = Ok (h', fs', vv') /\
  forall zs y, (forall rv val, In (rv, val) realized -> zs rv = inp val) ->
  joint_value (law_sem D (set_values requested vv zs inp) draw det) h fs y <->
  joint_value (law_sem D (set_values (requested ++ map fst realized) vv' zs inp) draw det) h' fs' y.
Proof.
  intros DR. destruct (runs _ _ _ _ _ DR) as ((h & fs & vv & E) & (h' & fs' & vv' & E')). destruct DR as (RQ & FI & NE & ND & RV & TR & OWN & OBS).
  exists h, fs, vv, h', fs', vv'. split; auto. rewrite app_nil_r in E'. split; auto. intros zs y OB.
  pose proof (observed_joint D inp draw det g requested realized trs [] RQ FI NE ND RV OWN OBS h fs vv h' fs' vv' E) as K. rewrite app_nil_r in K. exact (K E' zs y eq_refl OB).
Qed.
