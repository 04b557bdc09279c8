(** Lemmas on the order of the rewrites in bodies of scans (C74). *)
From Coq Require Import List Arith Bool Lia.
From Verif Require Import XR ModelJoint ModelGraph SpecGraph ModelScanBody SpecScanBody LemScanBody ModelScanOpts SpecScanOpts LemScanOpts ModelScanOrder.
Import ListNotations.
Open Scope nat_scope.

Section Order.
Variable kind : nat -> rkind.
Variable discrete : nat -> bool.
Variable g : heap.
Hypothesis W : model_graph g.
Notation M := (m kind discrete g).
Notation suc := (succeeds kind discrete g).
(** between the beginning and the end *)
Definition partway (st : nat -> bool) : Prop := (forall v, random g v -> st v = true) /\ forall v, st v = true -> M v = true.
Lemma m_suc v f l : nth_error g v = Some (mk (ODet f) l) -> M v = suc M f l.
Proof. intros E. rewrite (m_det kind discrete g W v f l E). reflexivity. Qed.
Lemma touch st b : partway st -> b < length g -> touches g st (length g) b = touches g M (length g) b.
Proof.
  intros [P1 P2] L. apply eq_true_iff_eq. rewrite !(touches_iff g W) by exact L. split; intros (a & D & H).
  - exists a. auto.
  - destruct (m_dep kind discrete g W a H) as (c & D' & R). exists c. split; [exact (dep_trans g _ _ _ D D')|exact (P1 c R)].
Qed.
Lemma below st v f l : partway st -> nth_error g v = Some (mk (ODet f) l) -> suc st f l = true -> M v = true.
Proof.
  intros P E H. rewrite (m_suc v f l E). unfold succeeds in *. pose proof (here g _ _ E) as Lv. assert (A : forall b, In b l -> b < length g) by (intros b I; pose proof (args_lt g W _ _ _ E I); lia).
  destruct (kind f); [discriminate| | |].
  - destruct (filter st l) as [|x [|? ?]] eqn:F; try discriminate. apply andb_true_iff in H as [H1 H2]. rewrite forallb_forall in H2. destruct (filter_one _ _ _ F) as (l1 & l2 & El & Sx & N).
    assert (N' : forall b, In b (l1 ++ l2) -> touches g M (length g) b = false).
    { intros b I. assert (Il : In b l) by (rewrite El; apply in_app_iff in I as [I|I]; apply in_or_app; [now left|right; now right]). specialize (H2 b Il). rewrite (N b I) in H2. cbn in H2. apply negb_true_iff in H2. now rewrite <- (touch st b P (A b Il)). }
    assert (NM : forall b, In b (l1 ++ l2) -> M b = false).
    { intros b I. apply not_true_iff_false. intros Mb. specialize (N' b I). apply not_true_iff_false in N'. apply N'. apply touches_iff; [exact W| |exists b; split; [constructor|exact Mb]].
      apply A. rewrite El. apply in_app_iff in I as [I|I]; apply in_or_app; [now left|right; now right]. }
    rewrite El, (filter_only M l1 x l2 (proj2 P x Sx) NM), H1. cbn [andb]. apply forallb_forall. intros b I.
    assert (Ib : b = x \/ In b (l1 ++ l2)) by (apply in_app_iff in I as [I|[I|I]]; [right; apply in_or_app; now left|left; now symmetry|right; apply in_or_app; now right]).
    destruct Ib as [->|Ib]; [now rewrite (proj2 P x Sx)|]. rewrite (N' b Ib). apply orb_true_r.
  - destruct l as [|a l]; [discriminate|]. apply andb_true_iff in H as [H1 H2]. now rewrite (proj2 P a H1), H2.
  - apply andb_true_iff in H as [H1 H2]. rewrite H1. cbn. rewrite forallb_forall in *. intros b I. apply (proj2 P), H2, I.
Qed.
Lemma convert_partway st st' : partway st -> convert kind discrete g st st' -> partway st'.
Proof.
  intros P C. destruct C as [st v f l N E S]. split; intros w; [intros R; rewrite (proj1 P w R); apply orb_true_r|]. intros H. apply orb_true_iff in H as [H|H]; [|exact (proj2 P w H)].
  apply Nat.eqb_eq in H as ->. exact (below st v f l P E S).
Qed.
Lemma rv_partway : partway (is_rv g).
Proof. split; intros v H; [now apply is_rv_random|]. apply m_rv. now apply is_rv_random. Qed.
Lemma finished_all st : partway st -> finished kind discrete g st -> forall v, st v = M v.
Proof.
  intros P Fi. induction v as [v IH] using lt_wf_ind. destruct (st v) eqn:S; [symmetry; exact (proj2 P v S)|]. destruct (M v) eqn:Mv; [exfalso|reflexivity].
  destruct (converted kind discrete g v) eqn:C; [|pose proof (proj1 P v (not_cv kind discrete g v C Mv)); congruence].
  destruct (LemScanOpts.cv_node kind discrete g W v C) as (f & l & E & B). apply (Fi (fun w => (w =? v) || st w)). apply cv_node with (f := f) (l := l); [exact S|exact E|].
  pose proof (here g _ _ E) as Lv. assert (A : forall b, In b l -> b < v) by (intros b I; exact (args_lt g W _ _ _ E I)). assert (Q : forall b, In b l -> st b = M b) by (intros b I; apply IH, A, I).
  change (suc M f l = true) in B. rewrite <- B. unfold succeeds. destruct (kind f); [reflexivity| | |].
  - rewrite (filter_in st M l Q). destruct (filter M l) as [|x [|? ?]]; try reflexivity. f_equal. apply forallb_in. intros b I. rewrite (Q b I), (touch st b P); [reflexivity|]. pose proof (A b I). lia.
  - destruct l as [|a l]; [reflexivity|]. now rewrite (Q a (or_introl eq_refl)).
  - f_equal. apply forallb_in. exact Q.
Qed.
Lemma runs_partway st st' : conversions kind discrete g st st' -> partway st -> partway st'.
Proof. induction 1 as [st|a b c C R IH]; intros P; [exact P|]. apply IH. exact (convert_partway a b P C). Qed.
Lemma body_order st : conversions kind discrete g (is_rv g) st -> finished kind discrete g st -> forall v, st v = M v.
Proof. intros R. apply finished_all. exact (runs_partway _ _ R rv_partway). Qed.
(** every run ends *)
Definition left_over (st : nat -> bool) : nat := length (filter (fun v => negb (st v)) (seq 0 (length g))).
Lemma convert_less st st' : convert kind discrete g st st' -> left_over st' < left_over st.
Proof.
  intros C. destruct C as [st v f l N E S]. unfold left_over. pose proof (here g _ _ E) as L. assert (I : In v (seq 0 (length g))) by (apply in_seq; lia). revert I. generalize (seq 0 (length g)) as s.
  assert (H : forall s, length (filter (fun w => negb ((w =? v) || st w)) s) <= length (filter (fun w => negb (st w)) s)).
  { induction s as [|w s IH]; [cbn; lia|]. cbn. destruct (w =? v); cbn; destruct (st w); cbn; lia. }
  induction s as [|w s IH]; intros I; [destruct I|]. cbn. destruct (Nat.eqb_spec w v) as [->|D]; cbn.
  - rewrite N. cbn. specialize (H s). lia.
  - destruct I as [X|I]; [congruence|]. specialize (IH I). destruct (st w); cbn; lia.
Qed.
Lemma body_ends : forall n st, left_over st <= n -> exists st', conversions kind discrete g st st' /\ finished kind discrete g st'.
Proof.
  assert (D : forall st, (exists st', convert kind discrete g st st') \/ finished kind discrete g st).
  { intros st. destruct (existsb (fun v => negb (st v) && match nth_error g v with Some {| nop := ODet f; nargs := l |} => suc st f l | _ => false end) (seq 0 (length g))) eqn:X.
    - left. apply existsb_exists in X as (v & _ & X). apply andb_true_iff in X as [X1 X2]. destruct (nth_error g v) as [[o l]|] eqn:E; [|discriminate]. destruct o as [|r d|f| |tr r d|tr|]; try discriminate.
      exists (fun w => (w =? v) || st w). apply (cv_node kind discrete g st v f l); [now apply negb_true_iff|exact E|exact X2].
    - right. intros st' C. destruct C as [st v f l N E S]. apply not_true_iff_false in X. apply X. apply existsb_exists. exists v. split; [apply in_seq; pose proof (here g _ _ E); lia|]. now rewrite N, E, S. }
  induction n as [|n IH]; intros st L; (destruct (D st) as [(st1 & C)|F]; [|exists st; split; [constructor|exact F]]); pose proof (convert_less st st1 C); [lia|].
  destruct (IH st1 ltac:(lia)) as (st2 & R & F). exists st2. split; [|exact F]. econstructor; eauto.
Qed.
End Order.
