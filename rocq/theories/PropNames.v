(** C85: names of value variables and log-probabilities. *)
From Coq Require Import List String Bool Lia.
From Verif Require Import ModelNames LemNames.
Import ListNotations.
Open Scope string_scope.

(** Named variables have log-probabilities with different names, each that of its variable. *)
Theorem C85_logprobs requested realized : (forall r, In r requested -> exists s, r_name r = Some s /\ s <> "") -> (forall n, In n realized -> exists s, n = Some s /\ s <> "") ->
  NoDup (map r_name requested ++ realized)%list ->
  NoDup (fst (result_names requested realized)) /\
  forall k s, nth_error (map r_name requested ++ realized)%list k = Some (Some s) -> nth_error (fst (result_names requested realized)) k = Some (Some (s ++ "_logprob")).
Proof. exact (factors_distinct requested realized). Qed.
Print Assumptions C85_logprobs.
Definition two : list rvar := [{| r_name := Some "mu"; r_trans := false |}; {| r_name := Some "sigma"; r_trans := false |}].
Lemma two_named r : In r two -> exists s, r_name r = Some s /\ s <> "".
Proof. intros [<-|[<-|[]]]; eexists; (split; [reflexivity|discriminate]). Qed.
Example C85_logprobs_ex : NoDup (fst (result_names two [Some "Y"])) /\ fst (result_names two [Some "Y"]) = [Some "mu_logprob"; Some "sigma_logprob"; Some "Y_logprob"].
Proof.
  split; [|reflexivity]. apply C85_logprobs; [exact two_named| |].
  - intros n [<-|[]]. eexists. split; [reflexivity|discriminate].
  - cbn. repeat constructor; cbn; intuition discriminate.
Qed.

(** So have the value variables of variables without transform.  Missing:
    transformed variables (refuted below). *)
Theorem C85_values_partial requested realized : (forall r, In r requested -> exists s, r_name r = Some s /\ s <> "") ->
  (forall r, In r requested -> r_trans r = false) -> NoDup (map r_name requested) ->
  NoDup (snd (result_names requested realized)) /\
  forall k r s, nth_error requested k = Some r -> r_name r = Some s -> nth_error (snd (result_names requested realized)) k = Some (Some (s ++ "_vv")).
Proof. exact (values_distinct requested realized). Qed.
Print Assumptions C85_values_partial.
Example C85_values_ex : NoDup (snd (result_names two [])) /\ snd (result_names two []) = [Some "mu_vv"; Some "sigma_vv"].
Proof.
  split; [|reflexivity]. apply C85_values_partial; [exact two_named|intros r [<-|[<-|[]]]; reflexivity|]. cbn. repeat constructor; cbn; intuition discriminate.
Qed.
(** The value variables of two variables A and B with transforms have the same
    name, [val_clone-trans], and not [A_vv-trans] as documented (transforms.py:299):
    the new value variable is named after the internal clone of the value variable,
    which has lost its name (transforms.py:221-222, rewriting.py:250). *)
Theorem C85_transformed_refuted : exists requested, NoDup (map r_name requested) /\ (forall r, In r requested -> exists s, r_name r = Some s /\ s <> "") /\ ~ NoDup (snd (result_names requested [])) /\
  exists k s, nth_error (map r_name requested) k = Some (Some s) /\ nth_error (snd (result_names requested [])) k <> Some (Some (s ++ "_vv-trans")).
Proof. exact trans_collide. Qed.
Print Assumptions C85_transformed_refuted.
(** [logprob] of several values is named after the last one that has a name. *)
Theorem C85_logprob_name values acc a s b : values = (a ++ Some s :: b)%list -> s <> "" -> (forall n, In n b -> n = None \/ n = Some "") ->
  logprob_name values acc = Some (s ++ "_logprob").
Proof. exact (logprob_last values acc a s b). Qed.
Print Assumptions C85_logprob_name.
Example C85_logprob_name_ex : logprob_name [Some "x"; Some "y"; None] None = Some "y_logprob".
Proof. apply (C85_logprob_name _ _ [Some "x"] "y" [None]); [reflexivity|discriminate|]. intros n [<-|[]]. auto. Qed.
(** The names of a value variable, a log-probability, a log-CDF and an inverse CDF tell the kind and the variable. *)
Theorem C85_kinds k1 k2 (s1 s2 : string) acc : s1 <> "" -> s2 <> "" -> kind_name k1 (Some s1) acc = kind_name k2 (Some s2) acc -> k1 = k2 /\ s1 = s2.
Proof. exact (kinds_distinct k1 k2 s1 s2 acc). Qed.
Print Assumptions C85_kinds.
Example C85_kinds_ex : kind_name KLogcdf (Some "x") None = Some "x_logcdf" /\ kind_name KLogcdf (Some "x") None <> kind_name KIcdf (Some "x_log") None.
Proof. split; [reflexivity|]. intros E. apply C85_kinds in E as [E _]; discriminate. Qed.
(** [logprob] gives a result unless the log-probabilities are a list (scans) and a
    value has a name. *)
Theorem C85_logprob_defined sequence values acc : logprob_call sequence values acc <> None <-> (sequence = true -> forall s, In (Some s) values -> s = "").
Proof. exact (logprob_defined sequence values acc). Qed.
Print Assumptions C85_logprob_defined.
Example C85_logprob_defined_ex : logprob_call true [None; Some ""] None = Some None /\ logprob_call false [Some "y"] None = Some (Some "y_logprob").
Proof. split; reflexivity. Qed.
(** The log-probability of a scan with one output at a value "y" raises an
    AttributeError: the list that the scan returns is given the name. *)
Theorem C85_scan_refuted : exists values acc, values = [Some "y"] /\ logprob_call true values acc = None.
Proof. exists [Some "y"], None. split; reflexivity. Qed.
Print Assumptions C85_scan_refuted.
