(** Lemmas for the bodies of scans that are accepted (C74). *)
From Coq Require Import List Arith Bool Lia.
From Verif Require Import XR ModelJoint ModelGraph SpecGraph LemSys ModelScanBody SpecScanBody LemScanBody ModelScanOpts SpecScanOpts.
Import ListNotations.
Open Scope nat_scope.

Lemma existsb_in {A} (p q : A -> bool) l : (forall a, In a l -> p a = q a) -> existsb p l = existsb q l.
Proof. induction l as [|a l IH]; intros H; [reflexivity|]. cbn. rewrite (H a) by now left. rewrite IH; [reflexivity|]. intros b I. apply H. now right. Qed.
Lemma forallb_in {A} (p q : A -> bool) l : (forall a, In a l -> p a = q a) -> forallb p l = forallb q l.
Proof. induction l as [|a l IH]; intros H; [reflexivity|]. cbn. rewrite (H a) by now left. rewrite IH; [reflexivity|]. intros b I. apply H. now right. Qed.
Lemma filter_in {A} (p q : A -> bool) l : (forall a, In a l -> p a = q a) -> filter p l = filter q l.
Proof. induction l as [|a l IH]; intros H; [reflexivity|]. cbn. rewrite (H a) by now left. rewrite IH; [reflexivity|]. intros b I. apply H. now right. Qed.
Lemma filter_none {A} (p : A -> bool) l : filter p l = [] -> forall b, In b l -> p b = false.
Proof. induction l as [|a l IH]; intros E b I; [destruct I|]. cbn in E. destruct (p a) eqn:Pa; [discriminate|]. destruct I as [->|I]; [exact Pa|exact (IH E b I)]. Qed.
Lemma filter_one {A} (p : A -> bool) l x : filter p l = [x] -> exists l1 l2, l = l1 ++ x :: l2 /\ p x = true /\ forall b, In b (l1 ++ l2) -> p b = false.
Proof.
  induction l as [|a l IH]; cbn; [discriminate|]. destruct (p a) eqn:Pa; intros E.
  - injection E as -> E. exists [], l. split; [reflexivity|]. split; [exact Pa|]. exact (filter_none p l E).
  - destruct (IH E) as (l1 & l2 & -> & Px & H). exists (a :: l1), l2. split; [reflexivity|]. split; [exact Px|]. intros b [<-|I]; [exact Pa|exact (H b I)].
Qed.
Lemma filter_only {A} (p : A -> bool) l1 x l2 : p x = true -> (forall b, In b (l1 ++ l2) -> p b = false) -> filter p (l1 ++ x :: l2) = [x].
Proof.
  intros Px H. rewrite filter_app. cbn [filter]. rewrite Px.
  assert (N : forall l, (forall b, In b l -> p b = false) -> filter p l = []) by (induction l as [|a l IH]; intros Hl; [reflexivity|]; cbn; rewrite (Hl a) by (now left); apply IH; intros b I; apply Hl; now right).
  rewrite !N; [reflexivity| |]; intros b I; apply H, in_or_app; auto.
Qed.

Section Opts.
Variable kind : nat -> rkind.
Variable discrete : nat -> bool.
Variable g : heap.
Hypothesis W : model_graph g.
Notation M := (m kind discrete g).
Notation meas := (measurable kind discrete g).
Notation cv := (converted kind discrete g).

Lemma args_lt v nd a : nth_error g v = Some nd -> In a (nargs nd) -> a < v.
Proof. intros E I. exact (proj2 (W v nd E) a I). Qed.
Lemma here v nd : nth_error g v = Some nd -> v < length g.
Proof. intros E. apply nth_error_Some. congruence. Qed.
Lemma dep_le u a : depends g u a -> a <= u.
Proof. induction 1 as [u|u nd a v E I D IH]; [lia|]. pose proof (args_lt _ _ _ E I). lia. Qed.
Lemma dep_trans u a b : depends g u a -> depends g a b -> depends g u b.
Proof. induction 1 as [u|u nd a v E I D IH]; intros H; [exact H|]. eapply dep_step; eauto. Qed.
Lemma touches_ext p q b : (forall a, a <= b -> p a = q a) -> forall F, touches g p F b = touches g q F b.
Proof.
  induction b as [b IH] using lt_wf_ind. intros H F. destruct F as [|F]; cbn; rewrite (H b (le_n b)); [reflexivity|]. f_equal. destruct (nth_error g b) as [nd|] eqn:E; [|reflexivity].
  apply existsb_in. intros a I. pose proof (args_lt _ _ _ E I). apply IH; [lia|]. intros c L. apply H. lia.
Qed.
Lemma touches_iff p : forall F b, b < F -> touches g p F b = true <-> exists a, depends g b a /\ p a = true.
Proof.
  induction F as [|F IH]; intros b L; [lia|]. cbn [touches]. rewrite orb_true_iff. split.
  - intros [H|H]; [exists b; split; [constructor|exact H]|]. destruct (nth_error g b) as [nd|] eqn:E; [|discriminate]. apply existsb_exists in H as (a & I & H). pose proof (args_lt _ _ _ E I).
    apply IH in H as (c & D & P); [|lia]. exists c. split; [eapply dep_step; eauto|exact P].
  - intros (a & D & P). destruct D as [u|u nd a v E I D]; [now left|]. right. rewrite E. apply existsb_exists. exists a. split; [exact I|]. pose proof (args_lt _ _ _ E I). apply IH; [lia|]. eauto.
Qed.
Lemma meas_fuel : forall v f1 f2, v < f1 -> v < f2 -> meas f1 v = meas f2 v.
Proof.
  induction v as [v IH] using lt_wf_ind. intros f1 f2 L1 L2. destruct f1 as [|f1]; [lia|]. destruct f2 as [|f2]; [lia|]. cbn. destruct (nth_error g v) as [[[|rng d|f| |tr rng d|tr|] l]|] eqn:E; try reflexivity.
  assert (H : forall a, In a l -> a < v) by (intros a I; exact (args_lt v _ a E I)).
  assert (Q : forall a, In a l -> meas f1 a = meas f2 a) by (intros a I; pose proof (H a I); apply IH; lia).
  destruct (kind f); [reflexivity| | |].
  - rewrite (filter_in _ _ l Q). destruct (filter (meas f2) l) as [|x [|? ?]]; try reflexivity. f_equal. apply forallb_in. intros a I. rewrite (Q a I). f_equal. f_equal. apply touches_ext. intros c Lc. pose proof (H a I). apply IH; lia.
  - destruct l as [|a l]; [reflexivity|]. now rewrite (Q a (or_introl eq_refl)).
  - f_equal. apply forallb_in. exact Q.
Qed.
Lemma m_rv v : random g v -> M v = true.
Proof. intros (rng & d & ps & E). unfold m. pose proof (here _ _ E). destruct (length g) as [|n]; [lia|]. cbn. now rewrite E. Qed.
(** what makes a computed node measurable *)
Definition by_operands (f : nat) (l : list nat) : bool :=
  match kind f with
  | KNone => false
  | KElem => match filter M l with [x] => negb (is_int kind discrete g (length g) x) && forallb (fun b => M b || negb (touches g M (length g) b)) l | _ => false end
  | KFirst fl => match l with a :: _ => M a && negb (fl && is_int kind discrete g (length g) a) | [] => false end
  | KAll => negb (match l with [] => true | _ => false end) && forallb M l
  end.
Lemma m_det v f l : nth_error g v = Some (mk (ODet f) l) -> M v = by_operands f l.
Proof.
  intros E. unfold m at 1. pose proof (here _ _ E). rewrite (meas_fuel v (length g) (S (length g))) by lia. cbn [measurable]. rewrite E.
  assert (Q : forall a, In a l -> meas (length g) a = M a) by reflexivity. reflexivity.
Qed.
Lemma m_other v : (forall rng d ps, nth_error g v <> Some (mk (ORv rng d) ps)) -> (forall f l, nth_error g v <> Some (mk (ODet f) l)) -> M v = false.
Proof.
  intros H1 H2. unfold m. destruct (length g) as [|n]; [reflexivity|]. cbn. destruct (nth_error g v) as [[o l]|]; [|reflexivity]. destruct o; try reflexivity; [now destruct (H1 _ _ _ eq_refl)|now destruct (H2 _ _ eq_refl)].
Qed.
Lemma cv_node v : cv v = true -> exists f l, nth_error g v = Some (mk (ODet f) l) /\ by_operands f l = true.
Proof.
  unfold converted. intros H. apply andb_true_iff in H as [Hm Hr]. unfold is_rv in Hr. destruct (nth_error g v) as [[o l]|] eqn:E.
  - destruct o as [|rng d|f| |tr rng d|tr|]; try (rewrite m_other in Hm; [discriminate|rewrite E; discriminate|rewrite E; discriminate]). exists f, l. split; [reflexivity|]. now rewrite <- (m_det v f l E).
  - rewrite m_other in Hm; [discriminate|rewrite E; discriminate|rewrite E; discriminate].
Qed.
Lemma node_cv v f l : nth_error g v = Some (mk (ODet f) l) -> by_operands f l = true -> cv v = true.
Proof. intros E B. unfold converted. rewrite (m_det v f l E), B. unfold is_rv. now rewrite E. Qed.
Lemma not_cv v : cv v = false -> M v = true -> random g v.
Proof. unfold converted. intros H Hm. rewrite Hm in H. cbn in H. apply is_rv_random. now apply negb_false_iff. Qed.
Lemma m_dep v : M v = true -> exists a, depends g v a /\ random g a.
Proof.
  induction v as [v IH] using lt_wf_ind. intros Hm. destruct (cv v) eqn:C; [|exists v; split; [constructor|now apply not_cv]].
  apply cv_node in C as (f & l & E & B). assert (X : exists a, In a l /\ M a = true).
  { unfold by_operands in B. destruct (kind f); [discriminate| | |].
    - destruct (filter M l) as [|x [|? ?]] eqn:F; try discriminate. exists x. assert (I : In x (filter M l)) by (rewrite F; now left). now apply filter_In in I.
    - destruct l as [|a l]; [discriminate|]. apply andb_true_iff in B as [B _]. exists a. split; [now left|exact B].
    - apply andb_true_iff in B as [N B]. destruct l as [|a l]; [discriminate|]. cbn in B. apply andb_true_iff in B as [B _]. exists a. split; [now left|exact B]. }
  destruct X as (a & I & Ma). destruct (IH a (args_lt _ _ _ E I) Ma) as (c & D & R). exists c. split; [|exact R]. eapply dep_step; eauto.
Qed.
Lemma int_rv x rng d ps : nth_error g x = Some (mk (ORv rng d) ps) -> is_int kind discrete g (length g) x = discrete d.
Proof. intros E. pose proof (here _ _ E). destruct (length g) as [|n]; [lia|]. cbn. now rewrite E. Qed.
Lemma plain_none v : (forall a, depends g v a -> ~ transforms_draws kind discrete g a) -> cv v = false.
Proof.
  induction v as [v IH] using lt_wf_ind. intros H. destruct (cv v) eqn:C; [exfalso|reflexivity]. apply cv_node in C as (f & l & E & B).
  assert (N : forall b, In b l -> cv b = false). { intros b I. apply IH; [exact (args_lt _ _ _ E I)|]. intros a D. apply H. eapply dep_step; eauto. }
  apply (H v (dep_refl g v)). exists f, l. split; [exact E|]. unfold by_operands in B. destruct (kind f); [discriminate| | |].
  - destruct (filter M l) as [|x [|? ?]] eqn:F; try discriminate. apply andb_true_iff in B as [B1 B2]. destruct (filter_one _ _ _ F) as (l1 & l2 & El & Mx & Nm). exists l1, x, l2. split; [exact El|].
    assert (Ix : In x l) by (rewrite El; apply in_elt). destruct (not_cv x (N x Ix) Mx) as (rng & d & ps & Ex). rewrite (int_rv x rng d ps Ex) in B1. split; [exists rng, d, ps; split; [exact Ex|now apply negb_true_iff]|].
    intros b a Ib D R. assert (Il : In b l) by (rewrite El; apply in_app_iff in Ib as [Ib|Ib]; apply in_or_app; [now left|right; now right]).
    rewrite forallb_forall in B2. specialize (B2 b Il). rewrite (Nm b Ib) in B2. cbn in B2. apply negb_true_iff in B2. apply not_true_iff_false in B2. apply B2. apply touches_iff; [|exists a; split; [exact D|now apply m_rv]].
    pose proof (args_lt _ _ _ E Il). pose proof (here _ _ E). lia.
  - destruct l as [|x l]; [discriminate|]. apply andb_true_iff in B as [Mx B]. pose proof (not_cv x (N x (or_introl eq_refl)) Mx) as R. exists x, l. split; [reflexivity|]. split; [exact R|]. intros ->. destruct R as (rng & d & ps & Ex).
    rewrite (int_rv x rng d ps Ex) in B. exists rng, d, ps. split; [exact Ex|]. now apply negb_true_iff.
  - apply andb_true_iff in B as [B1 B2]. split; [destruct l; [discriminate|discriminate]|]. intros x I. rewrite forallb_forall in B2. exact (not_cv x (N x I) (B2 x I)).
Qed.
Lemma draws_cv v : transforms_draws kind discrete g v -> cv v = true.
Proof.
  intros (f & l & E & H). apply (node_cv v f l E). unfold by_operands. destruct (kind f); [destruct H| | |].
  - destruct H as (l1 & x & l2 & -> & (rng & d & ps & Ex & Ed) & Ho). assert (Mx : M x = true) by (apply m_rv; now exists rng, d, ps).
    assert (Nm : forall b, In b (l1 ++ l2) -> M b = false). { intros b I. apply not_true_iff_false. intros Mb. destruct (m_dep b Mb) as (a & D & R). exact (Ho b a I D R). }
    rewrite (filter_only M l1 x l2 Mx Nm). rewrite (int_rv x rng d ps Ex), Ed. cbn [negb andb]. apply forallb_forall. intros b I.
    assert (Ib : b = x \/ In b (l1 ++ l2)) by (apply in_app_iff in I as [I|[I|I]]; [right; apply in_or_app; now left|left; now symmetry|right; apply in_or_app; now right]).
    destruct Ib as [->|Ib]; [now rewrite Mx|]. rewrite (Nm b Ib). cbn. apply negb_true_iff, not_true_iff_false. intros T. apply touches_iff in T as (a & D & Ma).
    + destruct (m_dep a Ma) as (c & D' & R). exact (Ho b c Ib (dep_trans _ _ _ D D') R).
    + pose proof (args_lt _ _ _ E I). pose proof (here _ _ E). lia.
  - destruct H as (x & l' & -> & R & F). rewrite (m_rv x R). destruct fl; [|reflexivity]. destruct (F eq_refl) as (rng & d & ps & Ex & Ed). now rewrite (int_rv x rng d ps Ex), Ed.
  - destruct H as [N H]. apply andb_true_iff. split; [now destruct l|]. apply forallb_forall. intros x I. apply m_rv, H, I.
Qed.
Notation oo := (only_outputs kind discrete g).
Lemma inputs_all v nd a : nth_error g v = Some nd -> In a (nargs nd) -> exists s, In (a, s) (new_inputs kind discrete g v).
Proof.
  intros E I. unfold new_inputs. rewrite E. assert (A : forall l (q : nat -> bool), In a l -> exists s, In (a, s) (map (fun b => (b, q b)) l)) by (intros l q J; exists (q a); exact (in_map (fun b => (b, q b)) l a J)).
  destruct (cv v); [|apply (A _ (fun _ => false)), I]. destruct (nop nd); try (apply A, I). destruct (nargs nd) as [|b l]; [destruct I|]. destruct (kind f); try (apply A, I).
  destruct I as [->|I]; [exists true; now left|]. destruct (A l (fun _ => false) I) as (s & J). exists s. now right.
Qed.
Lemma cv_copy v : cv v = true -> exists x nd, nth_error g v = Some nd /\ In x (nargs nd) /\ In (x, true) (new_inputs kind discrete g v) /\ M x = true.
Proof.
  intros C. destruct (cv_node v C) as (f & l & E & B). assert (X : exists x, In x l /\ M x = true /\ In (x, true) (new_inputs kind discrete g v)).
  { unfold new_inputs. rewrite E, C. cbn [nop nargs]. assert (A : forall x l, In x l -> M x = true -> In (x, true) (map (fun b => (b, M b)) l)) by (intros x l0 I Mx; apply in_map_iff; exists x; now rewrite Mx).
    unfold by_operands in B. destruct (kind f); [discriminate| | |].
    - destruct (filter M l) as [|x [|? ?]] eqn:F; try discriminate. assert (I : In x (filter M l)) by (rewrite F; now left). apply filter_In in I as [I Mx]. exists x. split; [exact I|]. split; [exact Mx|]. destruct l as [|a l]; [destruct I|]. now apply A.
    - destruct l as [|a l]; [discriminate|]. apply andb_true_iff in B as [B _]. exists a. split; [now left|]. split; [exact B|now left].
    - apply andb_true_iff in B as [N B]. destruct l as [|a l]; [discriminate|]. cbn in B. apply andb_true_iff in B as [B _]. exists a. split; [now left|]. split; [exact B|]. apply A; [now left|exact B]. }
  destruct X as (x & I & Mx & J). exists x, (mk (ODet f) l). auto.
Qed.
Lemma oo_path outs u v : depends g u v -> forall F s, u <= F -> oo outs F (u, s) = true -> exists F' s', v <= F' /\ oo outs F' (v, s') = true.
Proof.
  induction 1 as [u|u nd a v E I D IH]; intros F s L H; [eauto|]. pose proof (args_lt _ _ _ E I). destruct F as [|F]; [lia|]. cbn [only_outputs fst] in H. apply andb_true_iff in H as [_ H].
  destruct (inputs_all u nd a E I) as (s' & J). rewrite forallb_forall in H. apply (IH F s'); [lia|]. exact (H _ J).
Qed.
Lemma oo_head outs F v s : oo outs F (v, s) = true -> M v = true -> s = false /\ In v outs.
Proof. destruct F; cbn [only_outputs fst snd]; intros H Mv; apply andb_true_iff in H as [H _]; rewrite Mv in H; cbn in H; apply andb_true_iff in H as [H1 H2]; (split; [now apply negb_true_iff|now apply mem_In]). Qed.
Lemma accepted_iff outs : (forall o, In o outs -> o < length g) ->
  (scan_accepted kind discrete g outs = true <-> all_output g outs /\ forall o a, In o outs -> depends g o a -> ~ transforms_draws kind discrete g a).
Proof.
  intros Lo. unfold scan_accepted. rewrite forallb_forall. split.
  - intros H. split.
    + intros o a Io D R. destruct (oo_path outs o a D (length g) false (Nat.lt_le_incl _ _ (Lo o Io)) (H o Io)) as (F & s & _ & HF). exact (proj2 (oo_head outs F a s HF (m_rv a R))).
    + intros o a Io D T. destruct (oo_path outs o a D (length g) false (Nat.lt_le_incl _ _ (Lo o Io)) (H o Io)) as (F & s & L & HF).
      destruct (cv_copy a (draws_cv a T)) as (x & nd & E & Ix & J & Mx). pose proof (args_lt _ _ _ E Ix). destruct F as [|F]; [lia|]. cbn [only_outputs fst] in HF. apply andb_true_iff in HF as [_ HF].
      rewrite forallb_forall in HF. destruct (oo_head outs F x true (HF _ J) Mx). discriminate.
  - intros [A P] o Io. assert (G : forall F v, depends g o v -> oo outs F (v, false) = true); [|apply G; constructor].
    induction F as [|F IH]; intros v D; cbn [only_outputs fst snd]; apply andb_true_iff; (split; [destruct (M v) eqn:Mv; [|reflexivity]; cbn; apply mem_In; apply (A o v Io D); apply not_cv; [|exact Mv]; apply plain_none; intros a Da; apply (P o a Io); exact (dep_trans _ _ _ D Da)|]); [reflexivity|].
    apply forallb_forall. intros p Ip. unfold new_inputs in Ip. destruct (nth_error g v) as [nd|] eqn:E; [|destruct Ip].
    rewrite (plain_none v) in Ip by (intros a Da; apply (P o a Io); exact (dep_trans _ _ _ D Da)). apply in_map_iff in Ip as (b & <- & Ib). apply IH. apply (dep_trans _ v); [exact D|]. eapply dep_step; [exact E|exact Ib|constructor].
Qed.
Lemma accepted_found outs : (forall o, In o outs -> o < length g) -> scan_accepted kind discrete g outs = true -> find_measurable_scans g outs = true.
Proof. intros Lo H. apply guard_iff; [exact W|]. exact (proj1 (proj1 (accepted_iff outs Lo) H)). Qed.
Lemma integers_is x : integers kind discrete g x -> forall n, x < n -> is_int kind discrete g n x = true.
Proof.
  induction 1 as [v rng d ps E D|v f fl a l E K _ IH|v f a l E K _ IH]; intros n L; (destruct n as [|n]; [lia|]); cbn [is_int]; rewrite E; [exact D| |]; rewrite K.
  - apply IH. pose proof (args_lt v _ a E (or_introl eq_refl)). lia.
  - apply forallb_forall. intros b I. apply (IH b I). pose proof (args_lt v _ b E I). lia.
Qed.
Lemma integers_rv x : integers kind discrete g x -> exists a, depends g x a /\ random g a.
Proof.
  induction 1 as [v rng d ps E D|v f fl a l E K _ (c & Dc & R)|v f a l E K _ IH].
  - exists v. split; [constructor|now exists rng, d, ps].
  - exists c. split; [|exact R]. apply (dep_step g v _ a c E); [now left|exact Dc].
  - destruct (IH a (or_introl eq_refl)) as (c & Dc & R). exists c. split; [|exact R]. apply (dep_step g v _ a c E); [now left|exact Dc].
Qed.
Lemma integers_elem v f l x : nth_error g v = Some (mk (ODet f) l) -> kind f = KElem -> In x l -> integers kind discrete g x -> M v = false.
Proof.
  intros E K I X. rewrite (m_det v f l E). unfold by_operands. rewrite K. pose proof (args_lt v _ x E I) as Lx. pose proof (here _ _ E) as Lv. cbn in Lx.
  destruct (filter M l) as [|y [|z r]] eqn:F; try reflexivity. destruct (M x) eqn:Mx.
  - assert (J : In x (filter M l)) by (apply filter_In; now split). rewrite F in J. destruct J as [->|[]]. rewrite (integers_is x X) by lia. reflexivity.
  - apply andb_false_iff. right. apply not_true_iff_false. intros B. rewrite forallb_forall in B. specialize (B x I). rewrite Mx in B. cbn in B. apply negb_true_iff, not_true_iff_false in B.
    apply B. apply touches_iff; [lia|]. destruct (integers_rv x X) as (a & D & R). exists a. split; [exact D|now apply m_rv].
Qed.
End Opts.
