(** Proofs for the total mass of joint log-probabilities. *)
From Coq Require Import Reals List Arith Bool Lia Lra Permutation Sorted.
From Coquelicot Require Import Coquelicot.
From Verif Require Import XR SpecDist SpecTrans LemInt LemSupp LemDisc LemDisc2 LemRef ModelVec ModelDist ModelTrans LemTrans LemTrans2 ModelJoint SpecJoint ModelGraph SpecGraph LemGraph2 LemGraph3 ModelLaw SpecLaw.
Import ListNotations.
Open Scope nat_scope.

(** ** One law *)
Lemma den_uniq r a b : denotes r a -> denotes r b -> a = b.
Proof. destruct r as [[x| | |]|]; cbn; intros; try easy; congruence. Qed.
Lemma mass_series lp pmf : masses_sum_to_one lp -> (forall k, denotes (lp (Fin (INR k))) (pmf k)) -> is_series pmf 1%R.
Proof. intros (f & H1 & _ & H3) H. eapply is_series_ext; [|exact H3]. intros k. eapply den_uniq; eauto. Qed.
Lemma law_cont L lo hi : law_valid L -> law_support L = Interval lo hi -> integrates_to_one (law_logprob L) lo hi.
Proof.
  intros V E. destruct L as [f|mu s|mu s|a b|mu s|mu s|nu m s|n p|n a b|p|mu|p|a b n|n p]; cbn in E; try discriminate; cbn [law_valid] in V; cbn [law_logprob].
  - destruct f; injection E as <- <-; cbn [family_valid] in V; cbn [family_logprob].
    + now apply uniform_int. + now apply pareto_int. + now apply triangular_int. + now apply halfnormal_int. + now apply wald_int. + now apply exponential_int.
    + now apply lognormal_int. + now apply halfcauchy_int. + now apply gamma_int. + now apply invgamma_int. + now apply chisquare_int. + now apply weibull_int.
    + now apply beta_int. + now apply vonmises_int.
  - injection E as <- <-. now apply normal_int.
  - injection E as <- <-. now apply laplace_int.
  - injection E as <- <-. now apply cauchy_int.
  - injection E as <- <-. now apply gumbel_int.
  - injection E as <- <-. now apply logistic_int.
  - injection E as <- <-. now apply studentt_int.
Qed.
Lemma law_order L lo hi : law_valid L -> law_support L = Interval lo hi -> Rbar_lt lo hi.
Proof.
  intros V E. destruct L as [f|mu s|mu s|a b|mu s|mu s|nu m s|n p|n a b|p|mu|p|a b n|n p]; cbn in E; try discriminate; [|injection E as <- <-; exact I..].
  destruct f; injection E as <- <-; cbn in *; auto; try lra. pose proof PI_RGT_0. lra.
Qed.
Lemma law_disc L pm : law_valid L -> law_support L = Points pm -> (forall k, denotes (law_logprob L (Fin (INR k))) (pm k)) /\ is_series pm 1%R.
Proof.
  intros V E. assert (K : (forall k, denotes (law_logprob L (Fin (INR k))) (pm k)) /\ masses_sum_to_one (law_logprob L)).
  { destruct L as [f|mu s|mu s|a b|mu s|mu s|nu m s|n p|n a b|p|mu|p|a b n|n p]; cbn in E; try discriminate; try (destruct f; discriminate); injection E as <-; cbn [law_valid] in V; cbn [law_logprob].
    - split; [intros; now apply binomial_mass|now apply binomial_one].
    - split; [intros; now apply betabinomial_mass|now apply betabinomial_one].
    - split; [intros; now apply bernoulli_mass|now apply bernoulli_one].
    - split; [intros; now apply poisson_mass|now apply poisson_one].
    - split; [intros; now apply geometric_mass|now apply geometric_one].
    - split; [intros; now apply hypergeometric_mass|now apply hypergeometric_one].
    - split; [intros; now apply nbinom_mass|now apply nbinom_one]. }
  destruct K as (K1 & K2). split; auto. eapply mass_series; eauto.
Qed.
(** ** Meanings *)
Lemma means_det {V L} (S : sem V L) g rho : model_graph g -> forall a x y, means S g rho a x -> means S g rho a y -> x = y.
Proof.
  intros W. induction a as [a IH] using lt_wf_ind. intros x y Hx Hy.
  assert (A : forall l xs ys, (forall p, In p l -> p < a) -> meanss S g rho l xs -> meanss S g rho l ys -> xs = ys).
  { induction l as [|p l IHl]; intros xs ys B M N; inversion M; inversion N; subst; auto. f_equal.
    - eapply IH; eauto. apply B. now left.
    - eapply IHl; eauto. intros q Hq. apply B. now right. }
  inversion Hx as [v z R|v ps R E|v rng dist ps xs R E M|v f ps xs R E M]; subst; inversion Hy as [v' z' R'|v' ps' R' E'|v' rng' dist' ps' xs' R' E' M'|v' f' ps' xs' R' E' M']; subst; try congruence.
  - rewrite E in E'. injection E' as <- <- <-. f_equal. eapply A; eauto. apply (W _ _ E).
  - rewrite E in E'. injection E' as <- <-. f_equal. eapply A; eauto. apply (W _ _ E).
Qed.
Lemma meanss_det {V L} (S : sem V L) g rho : model_graph g -> forall l xs ys, meanss S g rho l xs -> meanss S g rho l ys -> xs = ys.
Proof.
  intros W. induction l as [|p l IHl]; intros xs ys M N; inversion M; inversion N; subst; auto. f_equal; [eapply means_det; eauto|eauto].
Qed.
(** the meaning of a node depends only on the values of the nodes up to it *)
Lemma means_swap {V L} (S S' : sem V L) g rho rho' n : model_graph g -> s_draw S = s_draw S' -> s_det S = s_det S' -> (forall v, v < List.length g -> s_in S v = s_in S' v) ->
  (forall u, u < n -> rho u = rho' u) -> forall a x, a < n -> means S g rho a x -> means S' g rho' a x.
Proof.
  intros W Ed Et Ei Er. induction a as [a IH] using lt_wf_ind. intros x La H.
  assert (A : forall l xs, (forall p, In p l -> p < a) -> meanss S g rho l xs -> meanss S' g rho' l xs).
  { intros l xs B M. induction M as [|p l y xs Mp M IHm]; constructor.
    - assert (p < a) by (apply B; cbn; auto). apply IH; auto. lia.
    - apply IHm. intros q Hq. apply B. cbn. auto. }
  inversion H as [v y R|v ps R E|v rng dist ps xs R E M|v f ps xs R E M]; subst.
  - apply me_val. rewrite <- Er; auto.
  - rewrite Ei by (apply nth_error_Some; congruence). eapply me_in; eauto. rewrite <- Er; auto.
  - rewrite Ed. eapply me_rv; eauto; [rewrite <- Er; auto|]. apply A; auto. intros p I. apply (W _ _ E), I.
  - rewrite Et. eapply me_det; eauto; [rewrite <- Er; auto|]. apply A; auto. intros p I. apply (W _ _ E), I.
Qed.
Lemma meanss_swap {V L} (S S' : sem V L) g rho rho' n : model_graph g -> s_draw S = s_draw S' -> s_det S = s_det S' -> (forall v, v < List.length g -> s_in S v = s_in S' v) ->
  (forall u, u < n -> rho u = rho' u) -> forall l xs, (forall p, In p l -> p < n) -> meanss S g rho l xs -> meanss S' g rho' l xs.
Proof.
  intros W Ed Et Ei Er l xs B M. induction M as [|p l y xs Mp M IHm]; constructor.
  - eapply means_swap; eauto. apply B. now left.
  - apply IHm. intros q Hq. apply B. now right.
Qed.
Lemma position_nth vv : NoDup vv -> forall i v, nth_error vv i = Some v -> position v vv = Some i.
Proof.
  induction 1 as [|w vv N ND IH]; intros i v E; [destruct i; discriminate|]. cbn. destruct (Nat.eqb v w) eqn:Q.
  - apply Nat.eqb_eq in Q. subst. destruct i; auto. cbn in E. exfalso. apply N. eapply nth_error_In; eauto.
  - destruct i; cbn in E; [injection E as ->; rewrite Nat.eqb_refl in Q; discriminate|]. now rewrite (IH i v E).
Qed.
Lemma position_none vv v : ~ In v vv -> position v vv = None.
Proof. induction vv as [|w vv IH]; cbn; auto. intros H. destruct (Nat.eqb v w) eqn:Q; [apply Nat.eqb_eq in Q; subst; exfalso; auto|]. rewrite IH; auto. Qed.
Lemma choose_on {A} (P : nat -> A -> Prop) (a0 : A) : forall l, (forall v, In v l -> exists a, P v a) -> exists f, forall v, In v l -> P v (f v).
Proof.
  induction l as [|v l IH]; intros H; [exists (fun _ => a0); easy|]. destruct (H v (or_introl eq_refl)) as (a & Ha). destruct IH as (f & Hf); [intros; apply H; now right|].
  exists (fun u => if Nat.eqb u v then a else f u). intros u [<-|Hu]; [now rewrite Nat.eqb_refl|]. destruct (Nat.eqb u v) eqn:E; [apply Nat.eqb_eq in E; now subst|auto].
Qed.
Definition prodl (l : list R) : R := fold_right Rmult 1%R l.
Lemma prodl_app a b : prodl (a ++ b) = (prodl a * prodl b)%R.
Proof. unfold prodl. induction a as [|x a IH]; cbn; [lra|]. rewrite IH. ring. Qed.
Lemma prodl_perm a b : Permutation a b -> prodl a = prodl b.
Proof. unfold prodl. induction 1; cbn; [reflexivity|congruence|ring|congruence]. Qed.
Lemma xsum_den l ds : List.Forall2 (fun x d => denotes (Val x) d) l ds -> denotes (Val (xsum l)) (prodl ds).
Proof.
  induction 1 as [|x d l ds Hx _ IH]; [cbn; apply exp_0|]. cbn [xsum fold_right prodl]. fold (xsum l) (prodl ds).
  destruct x as [x| | |]; cbn in Hx; try easy; destruct (xsum l) as [z| | |]; cbn in IH; try easy; cbn.
  - rewrite exp_plus. congruence.
  - rewrite IH. lra.
  - rewrite Hx. lra.
  - rewrite Hx. lra.
Qed.

Lemma F2_in {A B} (P Q : A -> B -> Prop) l m : List.Forall2 P l m -> (forall x y, In x l -> P x y -> Q x y) -> List.Forall2 Q l m.
Proof. induction 1; intros H'; constructor; [apply H'; [now left|auto]|apply IHForall2; intros; apply H'; [now right|auto]]. Qed.
Lemma F2_map {A B} (P : A -> B -> Prop) f l m : List.Forall2 P l m -> (forall x y, In x l -> P x y -> y = f x) -> m = map f l.
Proof. induction 1; intros H'; auto. cbn. f_equal; [apply H'; [now left|auto]|apply IHForall2; intros; apply H'; [now right|auto]]. Qed.
Section Main.
Variables (D : nat -> list R -> law) (inp : nat -> R) (draw : nat -> nat -> list R -> R) (det : nat -> list R -> R).
Variables (g : heap) (requested : list nat) (trs : list (nat * nat)).
Let S0 := law_sem D inp draw det.
Hypothesis RQ : request g requested [] trs.
Hypothesis RV : forall rv, In rv requested -> exists rng dist ps, nth_error g rv = Some (mk (ORv rng dist) ps).
Hypothesis TR : forall rv tr, dget trs rv = Some tr -> exists rng ps, nth_error g rv = Some (mk (ORv rng tr) ps).
Let W : model_graph g. Proof. apply RQ. Qed.
Let args_lt v rng dist ps : nth_error g v = Some (mk (ORv rng dist) ps) -> forall p, In p ps -> p < v.
Proof. intros E p I. apply (W _ _ E), I. Qed.
Let ND : NoDup requested. Proof. destruct RQ as (_ & N & _). cbn in N. now rewrite app_nil_r in N. Qed.

Definition Sat (vv : list nat) (zs : nat -> R) : sem R (list xr) := law_sem D (set_values requested vv zs inp) draw det.
Lemma point_natural vv zs rho : List.length vv = List.length requested -> NoDup vv -> (forall v, In v vv -> List.length g <= v) ->
  point (Sat vv zs) g requested vv [] trs rho <-> natural S0 g requested trs zs rho.
Proof.
  intros LV NV GE.
  assert (IN : forall i rv v, nth_error requested i = Some rv -> nth_error vv i = Some v -> s_in (Sat vv zs) v = zs rv).
  { intros i rv v Er Ev. cbn. unfold set_values. rewrite (position_nth _ NV _ _ Ev). f_equal. now apply nth_error_nth. }
  assert (SW : forall l xs, (forall p, In p l -> p < List.length g) -> meanss (Sat vv zs) g rho l xs <-> meanss S0 g rho l xs).
  { intros l xs B. split; apply (meanss_swap _ _ g rho rho (List.length g)); auto; intros v Lv; cbn; unfold set_values; (rewrite position_none; [reflexivity|]); intros I; apply GE in I; lia. }
  assert (LP : forall v rng dist ps, nth_error g v = Some (mk (ORv rng dist) ps) -> forall p, In p ps -> p < List.length g).
  { intros v rng dist ps E p I. apply args_lt with (p := p) in E as Lp; auto. assert (v < List.length g) by (apply nth_error_Some; congruence). lia. }
  split.
  - intros (P1 & _ & P3). split.
    + intros v Hv. destruct (In_nth_error _ _ Hv) as (i & Ei). destruct (nth_error vv i) as [w|] eqn:Ew; [|apply nth_error_None in Ew; assert (i < List.length requested) by (apply nth_error_Some; congruence); lia].
      specialize (P1 i v w Ei Ew). destruct (dget trs v) as [tr|].
      * destruct P1 as (rng & dist & ps & xs & E & M & Q). exists rng, dist, ps, xs. split; auto. rewrite (IN i v w Ei Ew) in Q. split; [apply SW; eauto|exact Q].
      * now rewrite (IN i v w Ei Ew) in P1.
    + intros v N. destruct (rho v) eqn:Q; auto. exfalso. destruct (P3 v); [congruence|auto|easy].
  - intros (N1 & N2). split; [|split].
    + intros i rv v Er Ev. specialize (N1 rv (nth_error_In _ _ Er)). destruct (dget trs rv) as [tr|].
      * destruct N1 as (rng & dist & ps & xs & E & M & Q). exists rng, dist, ps, xs. split; auto. rewrite (IN i rv v Er Ev). split; [apply SW; eauto|exact Q].
      * now rewrite (IN i rv v Er Ev).
    + easy.
    + intros rv Q. destruct (in_dec Nat.eq_dec rv requested); auto. now rewrite N2 in Q.
Qed.
Lemma natural_ex zs : exists rho, natural S0 g requested trs zs rho.
Proof.
  set (vv := seq (List.length g) (List.length requested)).
  destruct (point_exists (Sat vv zs) g W requested [] trs vv RQ (seq_length _ _)) as (rho & P). exists rho.
  apply (point_natural vv zs rho (seq_length _ _) (seq_NoDup _ _)); auto. intros v I. apply in_seq in I. lia.
Qed.
Lemma natural_loc zs zs' rho rho' n : natural S0 g requested trs zs rho -> natural S0 g requested trs zs' rho' -> (forall u, u < n -> zs u = zs' u) ->
  forall u, u < n -> rho u = rho' u.
Proof.
  intros (N1 & N2) (N1' & N2') E. induction u as [u IH] using lt_wf_ind. intros Lu. destruct (in_dec Nat.eq_dec u requested) as [I|I].
  - specialize (N1 u I). specialize (N1' u I). destruct (dget trs u) as [tr|].
    + destruct N1 as (rng & dist & ps & xs & Eg & M & ->). destruct N1' as (rng' & dist' & ps' & xs' & Eg' & M' & ->).
      rewrite Eg in Eg'. injection Eg' as <- <- <-.
      assert (xs = xs') as <-. { eapply meanss_det; [exact W| |exact M']. eapply (meanss_swap S0 S0 g rho rho' u); eauto. intros w Lw. apply IH; lia. }
      now rewrite E.
    + rewrite N1, N1', E; auto.
  - now rewrite N2, N2'.
Qed.
Lemma law_ex zs v : In v requested -> exists L, law_at S0 D g requested trs zs v L.
Proof.
  intros I. destruct (natural_ex zs) as (rho & N). destruct (RV v I) as (rng & dist & ps & E).
  destruct (meanss_total S0 g rho W ps) as (xs & M). { intros a Ha. apply (args_lt _ _ _ _ E) in Ha. assert (v < List.length g) by (apply nth_error_Some; congruence). lia. }
  exists (D dist xs), rho, rng, dist, ps, xs. auto.
Qed.
Lemma law_loc zs zs' v L M : (forall u, u < v -> zs u = zs' u) -> law_at S0 D g requested trs zs v L -> law_at S0 D g requested trs zs' v M -> L = M.
Proof.
  intros Q (rho & rng & dist & ps & xs & N & E & Mx & ->) (rho' & rng' & dist' & ps' & xs' & N' & E' & Mx' & ->).
  rewrite E in E'. injection E' as <- <- <-. f_equal. eapply meanss_det; [exact W| |exact Mx'].
  eapply (meanss_swap S0 S0 g rho rho' v); eauto. eapply natural_loc; eauto.
Qed.
Lemma value_loc zs zs' v x y : (forall u, u < S v -> zs u = zs' u) -> value_at S0 g requested trs zs v x -> value_at S0 g requested trs zs' v y -> x = y.
Proof. intros Q (rho & N & E) (rho' & N' & E'). pose proof (natural_loc _ _ _ _ _ N N' Q v (Nat.lt_succ_diag_r v)). congruence. Qed.
(** density of the factor of a variable *)
Definition fd (zs : nat -> R) (v : nat) (d : R) : Prop := exists L, law_at S0 D g requested trs zs v L /\
  match dget trs v with
  | None => denotes (law_logprob L (Fin (zs v))) d
  | Some _ => exists f, L = LFam f /\ (exists b, backward (default_transform f) (Fin (zs v)) = Val (Fin b)) /\ denotes (transformed_logprob true (family_logprob f) (default_transform f) (Fin (zs v))) d
  end.
Lemma fd_loc zs zs' v d e : (forall u, u < S v -> zs u = zs' u) -> fd zs v d -> fd zs' v e -> d = e.
Proof.
  intros Q (L & A & H) (M & B & K). assert (L = M) as <- by (eapply law_loc; [|exact A|exact B]; intros; apply Q; lia).
  rewrite (Q v) in H by lia. destruct (dget trs v) as [tr|].
  - destruct H as (f & E & _ & H), K as (f' & E' & _ & K). rewrite E in E'. injection E' as <-. eapply den_uniq; eauto.
  - eapply den_uniq; eauto.
Qed.
Lemma fd_move zs zs' v d : In v requested -> (forall u, u < S v -> zs u = zs' u) -> fd zs v d -> fd zs' v d.
Proof.
  intros I Q (L & A & H). destruct (law_ex zs' v I) as (M & B). assert (L = M) as <- by (eapply law_loc; [|exact A|exact B]; intros; apply Q; lia).
  exists L. split; auto. now rewrite <- (Q v) by lia.
Qed.
Definition within (zs : nat -> R) (v : nat) : Prop := forall M x, law_at S0 D g requested trs zs v M -> value_at S0 g requested trs zs v x -> contains (law_support M) x.
Lemma within_move zs zs' v : In v requested -> (forall u, u < S v -> zs u = zs' u) -> within zs v -> within zs' v.
Proof.
  intros I Q H M x A B. destruct (law_ex zs v I) as (L & A'). assert (L = M) as -> by (eapply law_loc; [|exact A'|exact A]; intros; apply Q; lia).
  apply H; auto. destruct (natural_ex zs) as (rho & N). destruct B as (rho' & N' & E). exists rho. split; auto. now rewrite (natural_loc _ _ _ _ _ N N' Q v) by lia.
Qed.
Lemma within_plain zs v L : dget trs v = None -> In v requested -> law_at S0 D g requested trs zs v L -> contains (law_support L) (zs v) -> within zs v.
Proof.
  intros T I A C M x B (rho & (N1 & _) & E). assert (L = M) as <- by (eapply law_loc; eauto). specialize (N1 v I). rewrite T in N1. rewrite N1 in E. injection E as <-. exact C.
Qed.
Lemma within_trans zs v tr f : dget trs v = Some tr -> In v requested -> law_at S0 D g requested trs zs v (LFam f) -> family_valid f -> ~ misplaced f -> (forall m k, f <> FVonMises m k) -> within zs v.
Proof.
  intros T I A V Mp NV M x B (rho & N & E). assert (LFam f = M) as <- by (eapply law_loc; eauto). pose proof N as (N1 & _). specialize (N1 v I). rewrite T in N1.
  destruct N1 as (rng & dist & ps & xs & Eg & Mx & Q). rewrite Q in E. injection E as <-. destruct (TR v tr T) as (rng' & ps' & Eg'). rewrite Eg in Eg'. injection Eg' as <- <- <-.
  assert (K : law_at S0 D g requested trs zs v (D dist xs)) by (exists rho, rng, dist, ps, xs; auto).
  assert (D dist xs = LFam f) as Ef by (eapply law_loc; eauto). unfold S0. cbn. rewrite Ef.
  destruct (default_into f (zs v) V Mp) as (x & -> & Sx). cbn [real]. destruct f; cbn in *; unfold inside; cbn; try lra; try tauto. exfalso. eapply NV. reflexivity.
Qed.

(** the joint log-probability at a point *)
Variables (h : heap) (fs : list (nat * factor)) (vv : list nat).
Hypothesis FIRST : transformed_first g requested trs.
Hypothesis RUN : conditional_logprob toposort true g requested [] trs = Ok (h, fs, vv).
Hypothesis NE : requested <> [].
Lemma vv_facts : List.length vv = List.length requested /\ NoDup vv /\ forall v, In v vv -> List.length g <= v.
Proof.
  destruct (m_sound toposort true g requested [] trs h fs vv RQ (or_intror (conj eq_refl FIRST)) RUN) as (_ & L & N & G & _).
  split; auto. split; auto. intros v I. destruct (In_nth_error _ _ I) as (i & Ei).
  destruct (nth_error requested i) as [rv|] eqn:Er; [|apply nth_error_None in Er; assert (i < List.length vv) by (apply nth_error_Some; congruence); lia].
  apply (G i rv v Er Ei).
Qed.
Lemma joint_here zs ds vs : Permutation vs requested -> List.Forall2 (fd zs) vs ds -> exists y, joint_value (Sat vv zs) h fs y /\ denotes (Val y) (prodl ds).
Proof.
  intros PM F. destruct vv_facts as (LV & NV & GE). destruct (natural_ex zs) as (rho & N).
  pose proof (proj2 (point_natural vv zs rho LV NV GE) N) as P.
  assert (ALL : forall v, In v requested -> exists d, fd zs v d).
  { intros v I. apply (Permutation_in _ (Permutation_sym PM)) in I. clear -F I. induction F; [easy|destruct I as [<-|I]; eauto]. }
  destruct (choose_on (fun v (p : xr * R) => fd zs v (snd p) /\ denotes (Val (fst p)) (snd p) /\
     forall i w, nth_error requested i = Some v -> nth_error vv i = Some w -> model_factor (Sat vv zs) g rho v (trans_of (Sat vv zs) true trs v w) [fst p]) (NaN, 0%R) requested) as (Y & HY).
  { intros v I. destruct (ALL v I) as (d & Hd). pose proof Hd as (L & (rho' & rng & dist & ps & xs & N' & Eg & Mx & ->) & H).
    assert (Mx' : meanss S0 g rho ps xs). { eapply (meanss_swap S0 S0 g rho' rho v); eauto. eapply natural_loc; eauto. }
    assert (LG : v < List.length g) by (apply nth_error_Some; congruence).
    assert (Mv : meanss (Sat vv zs) g rho ps xs).
    { apply (meanss_swap S0 (Sat vv zs) g rho rho (List.length g)); auto.
      - intros u Lu. cbn. unfold set_values. rewrite position_none; auto. intros J. apply GE in J. lia.
      - intros p J. apply (args_lt _ _ _ _ Eg) in J. lia. }
    pose proof (proj1 N v I) as Nv.
    assert (SI : forall i w, nth_error requested i = Some v -> nth_error vv i = Some w -> s_in (Sat vv zs) w = zs v).
    { intros i w Er Ew. cbn. unfold set_values. rewrite (position_nth _ NV _ _ Ew). f_equal. now apply nth_error_nth. }
    unfold trans_of. destruct (dget trs v) as [tr|] eqn:T.
    - destruct Nv as (rng' & dist' & ps' & xs' & Eg' & Mn & Rv). rewrite Eg in Eg'. injection Eg' as <- <- <-.
      assert (xs' = xs) as -> by (eapply meanss_det; eauto). destruct (TR v tr T) as (rng' & ps' & Eg'). rewrite Eg in Eg'. injection Eg' as <- <- <-.
      destruct H as (f & Ef & (b0 & Eb) & H). unfold transformed_logprob in H. rewrite Eb in H. cbn [bind] in H.
      destruct (family_logprob f (Fin b0)) as [l|] eqn:El; [|easy]. cbn [bind] in H. destruct (log_jac_det (default_transform f) (Fin (zs v))) as [j|] eqn:Ej; [|easy]. cbn [bind] in H.
      exists (xadd l j, d). cbn [fst snd]. split; auto. split; auto. intros i w Er Ew. rewrite (SI i w Er Ew).
      exists rng, dist, ps, xs, b0. split; auto. split; auto. split.
      + rewrite Rv. unfold S0. cbn. now rewrite Ef, Eb.
      + cbn. now rewrite Ef; cbn; rewrite El, Ej.
    - destruct (law_logprob (D dist xs) (Fin (zs v))) as [l|] eqn:El; [|easy]. exists (l, d). cbn [fst snd]. split; auto. split; auto. intros i w Er Ew.
      exists rng, dist, ps, xs, (zs v). split; auto. split; auto. split; auto. cbn. now rewrite El. }
  destruct (joint_trans true g requested [] trs h fs vv R (Sat vv zs) rho (fun v => [fst (Y v)]) RQ FIRST RUN P) as (ys & HF & HJ).
  - intros i rv w Er Ew. destruct (HY rv (nth_error_In _ _ Er)) as (_ & _ & H). exact (H i w Er Ew).
  - easy.
  - cbn. now rewrite app_nil_r.
  - cbn [map] in HJ. rewrite app_nil_r in HJ. eexists. split; [exists ys; split; [exact HF|exact HJ]|].
    assert (C : concat (map (fun v => [fst (Y v)]) requested) = map (fun v => fst (Y v)) requested). { clear. induction requested; cbn; congruence. }
    rewrite C.
    assert (Ed : ds = map (fun v => snd (Y v)) vs).
    { apply (F2_map (fd zs)); auto. intros v d I Hd. eapply fd_loc; [reflexivity|exact Hd|]. apply HY. eapply Permutation_in; eauto. }
    rewrite Ed, (prodl_perm _ (map (fun v => snd (Y v)) requested)) by now apply Permutation_map.
    apply xsum_den. assert (K : forall v, In v requested -> denotes (Val (fst (Y v))) (snd (Y v))) by (intros v I; apply (HY v I)).
    clear -K. induction requested as [|v l IH]; [constructor|]. constructor; [apply K; now left|apply IH; intros; apply K; now right].
Qed.
Variable vs : list nat.
Hypothesis PM : Permutation vs requested.
Hypothesis SO : StronglySorted lt vs.
Hypothesis PR : proper_model S0 D g requested trs.
Let J (zs : nat -> R) (y : xr) := joint_value (Sat vv zs) h fs y.
Let dom := value_domain S0 D g requested trs.
Lemma upd_same zs v x : upd zs v x v = x.
Proof. unfold upd. now rewrite Nat.eqb_refl. Qed.
Lemma upd_lt zs v x u : u < v -> zs u = upd zs v x u.
Proof. intros. unfold upd. replace (Nat.eqb u v) with false; auto. symmetry. apply Nat.eqb_neq. lia. Qed.
Lemma total_from : forall todo done zs ds, done ++ todo = vs -> List.Forall2 (fd zs) done ds -> (forall u, In u done -> within zs u) -> mass J dom todo zs (prodl ds).
Proof.
  induction todo as [|v todo IH]; intros done zs ds E F Wd.
  - rewrite app_nil_r in E. subst done. destruct (joint_here zs ds vs PM F) as (y & Hy & Hd). eapply mass_here; eauto.
  - assert (Iv : In v requested). { apply (Permutation_in _ PM). rewrite <- E. apply in_or_app. right. now left. }
    assert (LT : forall u, In u done -> u < v). { intros u Iu. rewrite <- E in SO. clear -SO Iu. induction done as [|w done IH]; [easy|]. cbn in SO. inversion SO as [|? ? S1 S2]; subst. destruct Iu as [<-|Iu]; auto. rewrite Forall_forall in S2. apply S2. apply in_or_app. right. now left. }
    assert (GE : forall u, In u requested -> u < v -> In u done). { intros u Iu Lu. apply (Permutation_in _ (Permutation_sym PM)) in Iu. rewrite <- E in Iu. apply in_app_or in Iu as [Iu|[<-|Iu]]; auto; [lia|]. exfalso.
      rewrite <- E in SO. clear -SO Iu Lu. induction done as [|w done IH]; cbn in SO; inversion SO as [|? ? S1 S2]; subst; auto. rewrite Forall_forall in S2. apply S2 in Iu. lia. }
    assert (Rq : forall u, In u done -> In u requested). { intros u Iu. apply (Permutation_in _ PM). rewrite <- E. apply in_or_app. now left. }
    destruct (law_ex zs v Iv) as (L & A). destruct (PR zs v L Iv A) as (V & T). { intros u M x Iu Lu B C. exact (Wd u (GE u Iu Lu) M x B C). }
    assert (STEP : forall x d, fd (upd zs v x) v d -> within (upd zs v x) v -> mass J dom todo (upd zs v x) (prodl ds * d)).
    { intros x d Hd Hw. replace (prodl ds * d)%R with (prodl (ds ++ [d])) by (rewrite prodl_app; cbn; ring).
      apply (IH (done ++ [v])); [rewrite <- app_assoc; exact E| |].
      - apply Forall2_app; [|constructor; auto]. eapply F2_in; [exact F|]. intros u d' Iu Hu. eapply fd_move; [now apply Rq| |exact Hu]. intros w Lw. apply upd_lt. specialize (LT u Iu). lia.
      - intros u Iu. apply in_app_or in Iu as [Iu|[<-|[]]]; auto. eapply within_move; [now apply Rq| |now apply Wd]. intros w Lw. apply upd_lt. specialize (LT u Iu). lia. }
    assert (AU : forall x, law_at S0 D g requested trs (upd zs v x) v L).
    { intros x. destruct (law_ex (upd zs v x) v Iv) as (M & B). replace L with M; auto. symmetry. eapply law_loc; [|exact A|exact B]. intros u Lu. now apply upd_lt. }
    assert (CONT : forall lo hi lp, dom zs v (Interval lo hi) -> Rbar_lt lo hi -> integrates_to_one lp lo hi -> (forall x d, inside lo hi x -> denotes (lp (Fin x)) d -> fd (upd zs v x) v d /\ within (upd zs v x) v) -> mass J dom (v :: todo) zs (prodl ds)).
    { intros lo hi lp Hd Hlt (f & H1 & _ & H3) K. apply (mass_int J dom v todo zs lo hi (fun x => (prodl ds * f x)%R)); auto.
      - intros x Hx. destruct (K x (f x) Hx (H1 x Hx)). now apply STEP.
      - pose proof (is_RInt_gen_scal f (prodl ds) 1%R H3) as Q. change (scal (prodl ds) 1%R) with (prodl ds * 1)%R in Q. rewrite Rmult_1_r in Q. exact Q. }
    destruct (dget trs v) as [tr|] eqn:Etr.
    + destruct (T ltac:(discriminate)) as (f & -> & Mp & NV). apply (CONT m_infty p_infty (transformed_logprob true (family_logprob f) (default_transform f))).
      * exists (LFam f). split; auto. now rewrite Etr.
      * exact I.
      * now apply default_normalised.
      * intros x d Hx Hd. split.
        -- exists (LFam f). split; auto. rewrite Etr. exists f. split; auto. rewrite upd_same. split; auto. destruct (default_into f x V Mp) as (b & Hb & _). eauto.
        -- eapply within_trans; eauto.
    + assert (dom zs v (law_support L)) as DM by (exists L; split; auto; now rewrite Etr). destruct (law_support L) as [lo hi|pm] eqn:Es.
      * apply (CONT lo hi (law_logprob L)); auto; [now apply (law_order L)|now apply law_cont|]. intros x d Hx Hd. split.
        -- exists L. split; auto. now rewrite Etr, upd_same.
        -- eapply within_plain; eauto. rewrite Es, upd_same. exact Hx.
      * destruct (law_disc L pm V Es) as (H1 & H2). apply (mass_sum J dom v todo zs pm (fun k => (prodl ds * pm k)%R)); auto.
        -- intros k Hk. apply STEP; [exists L; split; auto; rewrite Etr, upd_same; apply H1|]. eapply within_plain; eauto. rewrite Es, upd_same. exists k. auto.
        -- intros k ->. ring.
        -- pose proof (is_series_scal (prodl ds) pm 1%R H2) as Q. change (scal (prodl ds) 1%R) with (prodl ds * 1)%R in Q. rewrite Rmult_1_r in Q. exact Q.
Qed.
Lemma total_one zs : mass J dom vs zs 1.
Proof. exact (total_from vs [] zs [] eq_refl ltac:(constructor) ltac:(easy)). Qed.
End Main.
(** ** The mass is unique *)
Lemma mass_unique (J : (nat -> R) -> xr -> Prop) (dom : (nat -> R) -> nat -> support -> Prop) : (forall zs y y', J zs y -> J zs y' -> y = y') -> (forall zs v s s', dom zs v s -> dom zs v s' -> s = s') ->
  forall vs zs m m', mass J dom vs zs m -> mass J dom vs zs m' -> m = m'.
Proof.
  intros JF DF vs zs m m' H. revert m'. induction H as [zs y d Hy Hd|v vs zs lo hi f m Hd Hlt Hf IH Hi|v vs zs pm f m Hd Hf IH Hz Hs]; intros m' K.
  - inversion K; subst. assert (y = y0) as <- by eauto. eapply den_uniq; eauto.
  - inversion K as [|v' vs' zs' lo' hi' f' m1 Hd' Hlt' Hf' Hi'|v' vs' zs' pm' f' m1 Hd' Hf' Hz' Hs']; subst; pose proof (DF _ _ _ _ Hd Hd') as Q; [|discriminate]. injection Q as <- <-.
    assert (X : is_RInt_gen f' (Fr lo) (Fl hi) m).
    { eapply (is_RInt_gen_ext f f'); [|exact Hi]. exists (inside lo hi) (inside lo hi); [now apply Fr_inside|now apply Fl_inside|].
      intros a b Ha Hb x Hx. cbn in Hx. assert (inside lo hi x) as Ix by (eapply (inside_ge lo hi a b); eauto; lra). apply (IH x Ix). auto. }
    rewrite <- (is_RInt_gen_unique f' m X). apply (is_RInt_gen_unique f' m' Hi').
  - inversion K as [|v' vs' zs' lo' hi' f' m1 Hd' Hlt' Hf' Hi'|v' vs' zs' pm' f' m1 Hd' Hf' Hz' Hs']; subst; pose proof (DF _ _ _ _ Hd Hd') as Q; [discriminate|]. injection Q as <-.
    rewrite <- (is_series_unique f m Hs), <- (is_series_unique f' m' Hs'). apply Series_ext. intros k. destruct (Req_dec (pm k) 0) as [Z|Z]; [now rewrite Hz, Hz'|]. apply (IH k Z). auto.
Qed.
Lemma joint_det S h fs y y' : joint_value S h fs y -> joint_value S h fs y' -> y = y'.
Proof.
  intros (ys & F & J) (ys' & F' & J'). assert (ys = ys') as <-; [|congruence]. clear J J'. revert ys' F'. induction F as [|p z fs ys Hz F IH]; intros ys' F'; inversion F'; subst; auto. f_equal; auto. eapply fvalue_det; eauto.
Qed.
Lemma total_mass_only D inp draw det g requested trs vs h fs vv zs m :
  request g requested [] trs -> transformed_first g requested trs -> requested <> [] ->
  (forall rv, In rv requested -> exists rng dist ps, nth_error g rv = Some (mk (ORv rng dist) ps)) ->
  (forall rv tr, dget trs rv = Some tr -> exists rng ps, nth_error g rv = Some (mk (ORv rng tr) ps)) ->
  Permutation vs requested -> StronglySorted lt vs ->
  proper_model (law_sem D inp draw det) D g requested trs ->
  conditional_logprob toposort true g requested [] trs = Ok (h, fs, vv) ->
  mass (fun zs => joint_value (law_sem D (set_values requested vv zs inp) draw det) h fs)
       (value_domain (law_sem D inp draw det) D g requested trs) vs zs m <-> m = 1%R.
Proof.
  intros RQ FI NE RV TR PM SO PR E. pose proof (total_one D inp draw det g requested trs RQ RV TR h fs vv FI E NE vs PM SO PR zs) as T. split.
  - intros H. eapply mass_unique; [| |exact H|exact T].
    + intros zs' y y'. apply joint_det.
    + intros zs' v s s' (L & A & ->) (M & B & ->). now rewrite (law_loc D inp draw det g requested trs RQ zs' zs' v L M (fun _ _ => eq_refl) A B).
  - intros ->. exact T.
Qed.
Lemma total_mass D inp draw det g requested trs vs :
  request g requested [] trs -> transformed_first g requested trs -> requested <> [] ->
  (forall rv, In rv requested -> exists rng dist ps, nth_error g rv = Some (mk (ORv rng dist) ps)) ->
  (forall rv tr, dget trs rv = Some tr -> exists rng ps, nth_error g rv = Some (mk (ORv rng tr) ps)) ->
  Permutation vs requested -> StronglySorted lt vs ->
  proper_model (law_sem D inp draw det) D g requested trs ->
  exists h fs vv, conditional_logprob toposort true g requested [] trs = Ok (h, fs, vv) /\
  forall zs m, mass (fun zs => joint_value (law_sem D (set_values requested vv zs inp) draw det) h fs)
                  (value_domain (law_sem D inp draw det) D g requested trs) vs zs m <-> m = 1%R.
Proof.
  intros RQ FI NE RV TR PM SO PR. destruct (defined_trans true g requested [] trs RQ FI) as (h & fs & vv & E & _).
  - intros rv I. cbn in I. rewrite app_nil_r in I. auto.
  - exists h, fs, vv. split; auto. intros zs m. now apply total_mass_only.
Qed.
