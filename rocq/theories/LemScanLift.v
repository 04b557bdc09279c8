(** Lemmas for indexed random variables in bodies of scans (C74). *)
From Coq Require Import List Arith Bool Lia.
From Verif Require Import XR ModelJoint ModelGraph SpecGraph ModelScanBody SpecScanBody ModelScanOpts SpecScanOpts LemScanOpts ModelScanLift SpecScanLift.
Import ListNotations.
Open Scope nat_scope.

Lemma nth_ext_same {A} (l l' : list A) : (forall v, nth_error l v = nth_error l' v) -> l = l'.
Proof.
  revert l'. induction l as [|a l IH]; intros [|b l'] H; [reflexivity|discriminate (H 0)|discriminate (H 0)|]. pose proof (H 0) as H0. injection H0 as ->. f_equal. apply IH. intros v. exact (H (S v)).
Qed.
Section Lift.
Variable takes : nat -> bool.
Variable g : heap.
Hypothesis W : model_graph g.
Notation dr := (drawn takes g).
Notation en := (entry_of takes g).
Lemma entry_here v r d ps : en v r d ps -> v < length g.
Proof. intros E. apply nth_error_Some. destruct E as [v r d ps E|v f a idx r d ps E]; congruence. Qed.
Lemma drawn_entry : forall F v nd, dr F v = Some nd -> exists r d ps, nd = mk (ORv r d) ps /\ en v r d ps.
Proof.
  induction F as [|F IH]; intros v nd; cbn; [discriminate|]. destruct (nth_error g v) as [[o l]|] eqn:E; [|discriminate]. destruct o as [|r d|f| |tr r d|tr|]; try discriminate.
  - intros X. injection X as <-. exists r, d, l. split; [reflexivity|]. now constructor.
  - destruct l as [|a idx]; [discriminate|]. destruct (takes f) eqn:T; [|discriminate]. destruct (dr F a) as [[o ps]|] eqn:Ea; [|discriminate]. intros X. injection X as <-.
    destruct (IH a _ Ea) as (r & d & ps' & Q & H). injection Q as -> ->. exists r, d, (ps' ++ idx). split; [reflexivity|]. eapply en_take; eauto.
Qed.
Lemma entry_drawn v r d ps : en v r d ps -> forall F, v < F -> dr F v = Some (mk (ORv r d) ps).
Proof.
  induction 1 as [v r d ps E|v f a idx r d ps E T H IH]; intros F L; (destruct F as [|F]; [lia|]); cbn; rewrite E; [reflexivity|].
  rewrite T. rewrite IH; [reflexivity|]. pose proof (proj2 (W v _ E) a (or_introl eq_refl)). lia.
Qed.
Lemma entry_args v r d ps : en v r d ps -> forall a, In a ps -> a < v.
Proof.
  induction 1 as [v r d ps E|v f b idx r d ps E T H IH]; intros a I; [exact (proj2 (W v _ E) a I)|]. pose proof (proj2 (W v _ E)) as A. cbn in A. apply in_app_iff in I as [I|I]; [|apply A; now right].
  pose proof (IH a I). pose proof (A b (or_introl eq_refl)). lia.
Qed.
Lemma lift_nth v : nth_error (lift takes g) v = match nth_error g v with Some nd => Some (match dr (length g) v with Some nd' => nd' | None => nd end) | None => None end.
Proof.
  unfold lift. rewrite nth_error_map. assert (Q : forall (l : heap) k, nth_error (combine (seq k (length l)) l) v = match nth_error l v with Some nd => Some (k + v, nd) | None => None end).
  { revert v. intros v. induction v as [|v IH]; intros [|x l] k; try reflexivity; cbn [length seq combine nth_error].
    - now rewrite Nat.add_0_r.
    - rewrite IH. destruct (nth_error l v); [|reflexivity]. now rewrite <- Nat.add_succ_comm. }
  rewrite Q. now destruct (nth_error g v).
Qed.
Lemma lift_spec : with_entries takes g (lift takes g).
Proof.
  split; [unfold lift; rewrite map_length, combine_length, seq_length; lia|]. split.
  - intros v r d ps H. rewrite lift_nth. pose proof (entry_here _ _ _ _ H) as L. rewrite (entry_drawn _ _ _ _ H _ L). destruct (nth_error g v) eqn:E; [reflexivity|]. apply nth_error_None in E. lia.
  - intros v N. rewrite lift_nth. destruct (dr (length g) v) as [nd|] eqn:E; [|now destruct (nth_error g v)]. destruct (drawn_entry _ _ _ E) as (r & d & ps & _ & H). destruct (N r d ps H).
Qed.
Lemma lift_unique g' : with_entries takes g g' -> g' = lift takes g.
Proof.
  intros (L & H1 & H2). destruct lift_spec as (L' & H1' & H2'). apply nth_ext_same. intros v. destruct (dr (length g) v) as [nd|] eqn:E.
  - destruct (drawn_entry _ _ _ E) as (r & d & ps & _ & H). now rewrite (H1 v r d ps H), (H1' v r d ps H).
  - assert (N : forall r d ps, ~ en v r d ps). { intros r d ps H. rewrite (entry_drawn _ _ _ _ H _ (entry_here _ _ _ _ H)) in E. discriminate. } now rewrite (H2 v N), (H2' v N).
Qed.
Lemma lift_model : model_graph (lift takes g).
Proof.
  intros v nd E. rewrite lift_nth in E. destruct (nth_error g v) as [nd0|] eqn:E0; [|discriminate]. destruct (dr (length g) v) as [nd'|] eqn:D; injection E as <-; [|exact (W v nd0 E0)].
  destruct (drawn_entry _ _ _ D) as (r & d & ps & -> & H). split; [exact I|]. exact (entry_args v r d ps H).
Qed.
Lemma lifted_iff kind discrete g' outs : with_entries takes g g' -> (forall o, In o outs -> o < length g) ->
  (scan_accepted_lifted takes kind discrete g outs = true <-> all_output g' outs /\ forall o a, In o outs -> depends g' o a -> ~ transforms_draws kind discrete g' a).
Proof.
  intros H L. rewrite (lift_unique g' H). unfold scan_accepted_lifted. apply accepted_iff; [exact lift_model|]. intros o I. rewrite (proj1 lift_spec). exact (L o I).
Qed.
End Lift.
