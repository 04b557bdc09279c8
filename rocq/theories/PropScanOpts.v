(** C74, which scans are made measurable. *)
From Coq Require Import List Arith Bool Lia.
From Verif Require Import XR ModelJoint ModelGraph SpecGraph ModelScanBody SpecScanBody ModelScanOpts SpecScanOpts LemScanOpts ModelScanLift SpecScanLift LemScanLift ModelScanOrder LemScanOrder PropScanBody.
Import ListNotations.
Open Scope nat_scope.

(** A scan is accepted exactly when every random variable from which its outputs
    are computed is an output and none of the operations on the way is one that
    the rewrites give a density. *)
Theorem C74_accepted : forall kind discrete g, model_graph g -> forall outs, (forall o, In o outs -> o < length g) ->
  (scan_accepted kind discrete g outs = true <-> all_output g outs /\ forall o a, In o outs -> depends g o a -> ~ transforms_draws kind discrete g a).
Proof. exact accepted_iff. Qed.
Print Assumptions C74_accepted.
(** So without the lifts below the rewrites of the body only refuse scans. *)
Theorem C74_rewrites_only_refuse : forall kind discrete g, model_graph g -> forall outs, (forall o, In o outs -> o < length g) ->
  scan_accepted kind discrete g outs = true -> find_measurable_scans g outs = true.
Proof. exact accepted_found. Qed.
Print Assumptions C74_rewrites_only_refuse.

(** No element-wise operation on integers is given a density in a body, whatever
    clips and stacks lie between it and the discrete variables. *)
Theorem C74_integers : forall kind discrete g, model_graph g -> forall v f l x, nth_error g v = Some (mk (ODet f) l) -> kind f = KElem -> In x l ->
  integers kind discrete g x -> m kind discrete g v = false.
Proof. exact integers_elem. Qed.
Print Assumptions C74_integers.
(** exp(clip(N, a, a)) for a count N; the clip has a probability *)
Definition cl_kind (f : nat) : rkind := match f with 0 => KFirst false | _ => KElem end.
Definition cl : heap := [mk OIn []; mk OIn []; mk (ORv 1 0) [0; 0]; mk (ODet 0) [2; 0; 0]; mk (ODet 1) [3]].
Example C74_integers_ex : m cl_kind (fun _ => true) cl 3 = true /\ integers cl_kind (fun _ => true) cl 3 /\ m cl_kind (fun _ => true) cl 4 = false.
Proof.
  assert (I : integers cl_kind (fun _ => true) cl 3) by (eapply in_clip; [reflexivity|reflexivity|]; eapply in_rv; reflexivity).
  split; [reflexivity|]. split; [exact I|]. apply (C74_integers cl_kind (fun _ => true) cl) with (f := 1) (l := [3]) (x := 3); try reflexivity; [|now left|exact I].
  intros v nd E. do 5 (destruct v as [|v]; [cbn in E; injection E as <-; split; [reflexivity|cbn; intuition lia]|]). destruct v; discriminate.
Qed.

(** the Ops of [sv]: 0 is softplus, which no rewrite looks at, 1 a product *)
Definition sv_kind (f : nat) : rkind := match f with 1 => KElem | _ => KNone end.
(** the same with the exponential instead of softplus *)
Definition ev_kind (f : nat) : rkind := KElem.
Example C74_accepted_ex : scan_accepted sv_kind (fun _ => false) sv [2; 6] = true.
Proof. reflexivity. Qed.
(** y_t ~ N(y_{t-1}, 1), x_t ~ N(a_t x_{t-1}, exp(y_t)), both output: the
    rewrites of the body (scan.py:491-526) turn exp(y_t) into a measurable
    variable that is not an output, and the scan is refused (scan.py:341-351). *)
Theorem C74_transformed_refuted : exists kind discrete g outs, model_graph g /\ (forall o, In o outs -> random g o) /\ all_output g outs /\ scan_accepted kind discrete g outs = false.
Proof.
  exists ev_kind, (fun _ => false), sv, [2; 6]. split; [exact sv_model|]. split; [exact sv_random|]. split; [|reflexivity].
  apply (C74_guard sv [2; 6] sv_model). reflexivity.
Qed.
Print Assumptions C74_transformed_refuted.
(** outputs that are transformed draws: x_t = exp(z_t) for a random z_t *)
Example C74_output_ex : scan_accepted ev_kind (fun _ => false) sv [3] = false /\ scan_accepted ev_kind (fun _ => false) sv [2; 3] = false.
Proof. split; reflexivity. Qed.
(** a product of two draws is not rewritten: m_t = y_t z_t *)
Definition pr : heap := [mk OIn []; mk (ORv 0 0) [0]; mk (ORv 1 0) [0]; mk (ODet 0) [1; 2]; mk (ORv 2 0) [3]].
Example C74_product_ex : scan_accepted ev_kind (fun _ => false) pr [1; 2; 4] = true.
Proof. reflexivity. Qed.
(** counts are not rewritten: x_t ~ N(exp(n_t), ...) for a count n_t *)
Example C74_counts_ex : scan_accepted ev_kind (fun _ => true) sv [2; 6] = true.
Proof. reflexivity. Qed.

(** With indexed random variables: a scan is accepted exactly when this holds
    of the body in which entries of random variables are random variables. *)
Theorem C74_entries : forall takes g, model_graph g -> forall kind discrete g' outs, with_entries takes g g' -> (forall o, In o outs -> o < length g) ->
  (scan_accepted_lifted takes kind discrete g outs = true <-> all_output g' outs /\ forall o a, In o outs -> depends g' o a -> ~ transforms_draws kind discrete g' a).
Proof. exact lifted_iff. Qed.
Print Assumptions C74_entries.
(** There is such a body. *)
Theorem C74_entries_exist : forall takes g, model_graph g -> exists g', with_entries takes g g'.
Proof. exact (fun takes g W => ex_intro _ (lift takes g) (lift_spec takes g W)). Qed.
Print Assumptions C74_entries_exist.
(** s_t ~ categorical(p), y_t = normal(mu, sigma)[s_t], both output (the case of
    tests/test_scan.py:254-261): the guard alone would refuse it *)
Definition em : heap := [mk OIn []; mk OIn []; mk (ORv 0 1) [0]; mk (ORv 1 0) [0; 1]; mk (ODet 0) [3; 2]].
Definition em' : heap := [mk OIn []; mk OIn []; mk (ORv 0 1) [0]; mk (ORv 1 0) [0; 1]; mk (ORv 1 0) [0; 1; 2]].
Lemma em_model : model_graph em.
Proof. intros v nd E. do 5 (destruct v as [|v]; [injection E as <-; cbn; split; [easy|]; intros a I; repeat (destruct I as [<-|I]; [lia|]); destruct I|]). destruct v; discriminate. Qed.
Example C74_entries_ex : with_entries (Nat.eqb 0) em em' /\ scan_accepted_lifted (Nat.eqb 0) (fun _ => KNone) (Nat.eqb 1) em [4; 2] = true /\ find_measurable_scans em [4; 2] = false /\
  all_output em' [4; 2].
Proof.
  assert (H : with_entries (Nat.eqb 0) em em') by exact (lift_spec (Nat.eqb 0) em em_model). split; [exact H|]. split; [reflexivity|]. split; [reflexivity|].
  apply (C74_entries (Nat.eqb 0) em em_model (fun _ => KNone) (Nat.eqb 1) em' [4; 2] H); [cbn; lia|reflexivity].
Qed.

(** The rewrites of the body may come in any order: every run can be finished,
    and finished runs agree on what is measurable, as used in [scan_accepted]. *)
Theorem C74_order : forall kind discrete g, model_graph g -> forall st, conversions kind discrete g (is_rv g) st -> finished kind discrete g st -> forall v, st v = m kind discrete g v.
Proof. exact body_order. Qed.
Print Assumptions C74_order.
Theorem C74_order_ends : forall kind discrete g st, conversions kind discrete g (is_rv g) st -> exists st', conversions kind discrete g st st' /\ finished kind discrete g st'.
Proof. exact (fun kind discrete g st _ => body_ends kind discrete g _ st (le_n _)). Qed.
Print Assumptions C74_order_ends.
(** exp(y_t) is converted, the product a_t x_{t-1} of inputs is not *)
Example C74_order_ex : exists st, conversions ev_kind (fun _ => false) sv (is_rv sv) st /\ finished ev_kind (fun _ => false) sv st /\ st 3 = true /\ st 5 = false.
Proof.
  exists (fun w => (w =? 3) || is_rv sv w). split; [eapply cs_more; [|apply cs_none]; apply (cv_node _ _ _ (is_rv sv) 3 0 [2]); reflexivity|]. split; [|split; reflexivity].
  intros st' C. inversion C as [st v f l N E S]; subst. do 7 (destruct v as [|v]; [cbn in N, E; try discriminate; injection E as <- <-; cbn in S; discriminate|]). destruct v; discriminate.
Qed.
