(** C84: scans whose body is a model graph form probability laws. *)
From Coq Require Import Reals List Arith ZArith Bool Lia Lra Permutation Sorted.
From Coquelicot Require Import Coquelicot.
From Verif Require Import XR SpecDist LemInt ModelVec ModelTrans ModelDist ModelJoint ModelGraph SpecGraph LemGraph2 ModelLaw SpecLaw SpecLawArr
  ModelScan SpecScan LemScan ModelScanBody SpecScanBody LemScanBody ModelScanLaw SpecScanLaw LemScanLaw.
Import ListNotations.
Open Scope nat_scope.

(** A scan all of whose random variables are outputs, with laws that are proper
    at all possible earlier values: over the values of all outputs at all steps
    its log-probability has total mass one, whatever draws are made. *)
Theorem C84_total (D : nat -> list R -> law) (det : nat -> list R -> R) (g : heap) (outs : list nat) (lag : nat -> Z -> option nat) (seqs : nat -> nat -> R)
    (inits : list (list Z * list R)) (N : nat) (us : list nat) :
  model_graph g -> NoDup outs -> outs <> [] -> (forall o, In o outs -> random g o) -> find_measurable_scans g outs = true ->
  length inits = length outs -> (forall taps xs, In (taps, xs) inits -> tap_list taps /\ max_lag taps (length xs) /\ symmetric taps) ->
  lag_inputs g lag (map (fun p => {| s_taps := fst p; s_value := snd p |}) inits) ->
  Permutation us (seq 0 (length outs)) -> StronglySorted lt (map (fun u => nth u outs 0) us) ->
  proper_body (scan_sem D det) D g outs lag seqs inits N ->
  exists h fs, inner_logps g outs = Ok (h, fs, []) /\
    forall draw step, step_runs g lag seqs (scan_sem D det) draw h fs step ->
    forall zs m, total (scan_value inits N step) (step_domain (scan_sem D det) D g outs lag seqs inits N) (entries N us) zs m <-> m = 1%R.
Proof. exact (scan_mass D det g outs lag seqs inits N us). Qed.
Print Assumptions C84_total.

(** A case: counts n_t ~ Poisson(x_t) of a rate x_t ~ Exponential(x_{t-1}) that
    starts at 2; the parameters are proper because the rates are positive.  The
    counts are the first output, so the values are integrated in the order
    rate, count at every step. *)
Definition cr : heap := [mk OIn []; mk (ORv 0 0) [0]; mk (ORv 1 1) [1]].
Definition cr_law (dist : nat) (ps : list R) : law :=
  match dist, ps with 0, [m] => LFam (FExponential m) | _, m :: _ => LPoisson m | _, _ => LPoisson 0 end.
Definition cr_det (f : nat) (ps : list R) : R := 0%R.
Definition cr_lag (u : nat) (k : Z) : option nat := if (u =? 1) && (k =? -1)%Z then Some 0 else None.
Definition cr_seqs (t n : nat) : R := 0%R.
Definition cr_inits : list (list Z * list R) := [([], []); ([-1]%Z, [2]%R)].
Definition cr_step (t v : nat) (env : list ((nat * Z) * R)) : res xr :=
  let i := input_values cr cr_lag cr_seqs t env in
  match v with 0 => law_logprob (LPoisson (i 4)) (Fin (i 3)) | _ => law_logprob (LFam (FExponential (i 0))) (Fin (i 4)) end.
Notation cr_M := (scan_sem cr_law cr_det).
Lemma cr_model : model_graph cr.
Proof.
  intros v nd E. do 3 (destruct v as [|v]; [injection E as <-; cbn; split; [easy|]; intros a I; repeat (destruct I as [<-|I]; [lia|]); destruct I|]).
  destruct v; discriminate.
Qed.
Lemma cr_random o : In o [2; 1] -> random cr o.
Proof. intros [<-|[<-|[]]]; [exists 1, 1, [1]|exists 0, 0, [0]]; reflexivity. Qed.
Lemma cr_nodup : NoDup [2; 1].
Proof. constructor; [cbn; lia|]. constructor; [easy|constructor]. Qed.
Lemma cr_taps taps xs : In (taps, xs) cr_inits -> tap_list taps /\ max_lag taps (length xs) /\ symmetric taps.
Proof.
  destruct (lags_ok 0) as (T1 & T2 & T3). destruct (lags_ok 1) as (T4 & T5 & T6). cbn in T1, T2, T3, T4, T5, T6.
  intros [E|[E|[]]]; injection E as <- <-; auto.
Qed.
Lemma cr_lag_some u k n : cr_lag u k = Some n -> u = 1 /\ k = (-1)%Z /\ n = 0.
Proof.
  unfold cr_lag. destruct (Nat.eqb_spec u 1) as [->|]; [|discriminate]. destruct (Z.eqb_spec k (-1)) as [->|]; [|discriminate]. cbn. intros E. injection E as <-. auto.
Qed.
Lemma cr_lags : lag_inputs cr cr_lag (map (fun p => {| s_taps := fst p; s_value := snd p |}) cr_inits).
Proof.
  split; [|split].
  - intros u k. split.
    + intros E. destruct (cr_lag u k) as [n|] eqn:Q; [|easy]. apply cr_lag_some in Q as (-> & -> & ->). eexists. split; [reflexivity|]. cbn. auto.
    + intros (x & Ex & I). destruct u as [|[|u]]; [| |destruct u; discriminate]; injection Ex as <-; cbn in I; [destruct I|]. destruct I as [<-|[]]. discriminate.
  - intros u k n E. apply cr_lag_some in E as (-> & -> & ->). reflexivity.
  - intros u k u' k' n E E'. apply cr_lag_some in E as (-> & -> & _). apply cr_lag_some in E' as (-> & -> & _). auto.
Qed.
Lemma cr_guard : find_measurable_scans cr [2; 1] = true.
Proof. reflexivity. Qed.
Definition cr_res := Eval vm_compute in inner_logps cr [2; 1].
Lemma cr_runs draw h fs vv : inner_logps cr [2; 1] = Ok (h, fs, vv) -> step_runs cr cr_lag cr_seqs cr_M draw h fs cr_step.
Proof.
  intros E. assert (E' : inner_logps cr [2; 1] = cr_res) by (vm_compute; reflexivity). rewrite E in E'. injection E' as -> -> ->.
  intros t v env rv f y Ef FV. unfold cr_step. set (i := input_values cr cr_lag cr_seqs t env) in *. set (S := with_inputs cr_M i (draw t)) in *.
  assert (EI : forall h n, nth_error h n = Some (mk OIn []) -> ev S h n (i n)).
  { intros h n E0. change (i n) with (s_in S n). eapply ev_in; exact E0. }
  destruct v as [|[|v]]; [| |destruct v; discriminate]; injection Ef as <- <-; (eapply fvalue_det; [|exact FV]); clear FV.
  - exists [i 4], (i 3). cbn [f_params f_value f_trans f_dist]. split; [|split; [apply EI; reflexivity|reflexivity]].
    constructor; [apply EI; reflexivity|constructor].
  - exists [i 0], (i 4). cbn [f_params f_value f_trans f_dist]. split; [|split; [apply EI; reflexivity|reflexivity]].
    constructor; [apply EI; reflexivity|constructor].
Qed.
Lemma cr_step_law N zs t u L : t < N -> step_law cr_M cr_law cr [2; 1] cr_lag cr_seqs cr_inits N zs t u L ->
  u = 0 /\ L = LPoisson (zs t [1]) \/ u = 1 /\ L = LFam (FExponential (match t with 0 => 2 | S s => zs s [1] end)).
Proof.
  intros Ht (o & i & rho & draw & rng & dist & ps & xs & Eo & (BI & _) & (RO & RN) & G & MS & ->).
  destruct u as [|[|u]]; [left|right|destruct u; discriminate]; (split; [reflexivity|]); injection Eo as <-; cbn in G; injection G as <- <- <-;
    inversion MS as [|p l x m M1 M2]; subst; inversion M2; subst.
  - pose proof (RO 1 1 eq_refl) as Q. rewrite (past_now [2; 1] cr_inits N eq_refl) in Q by (cbn; lia).
    inversion M1 as [w z Rr|w ps Rr E|w r0 d0 ps ys Rr E K|w f0 ps ys Rr E K]; subst; try congruence. rewrite Q in Rr. injection Rr as <-. reflexivity.
  - pose proof (BI 1 (-1)%Z 0 eq_refl) as Q. assert (R0 : rho 0 = None) by (apply RN; cbn; lia).
    inversion M1 as [w z Rr|w ps Rr E|w r0 d0 ps ys Rr E K|w f0 ps ys Rr E K]; subst; try congruence; try discriminate. cbn [s_in with_inputs cr_law]. f_equal. f_equal.
    unfold past, history in Q. rewrite (series_nth cr_inits N) in Q by (cbn; lia). unfold lagged, initial in Q. cbn [out_init cr_inits nth fst snd s_value length] in Q.
    destruct (Z.leb_spec 0 (Z.of_nat t + Z.of_nat 1 + -1)); [|lia]. replace (Z.to_nat (Z.of_nat t + Z.of_nat 1 + -1)) with t in Q by lia.
    destruct t as [|t]; cbn [app nth_error] in Q; [injection Q; auto|].
    rewrite nth_error_map, nth_seq in Q by lia. cbn in Q. injection Q. auto.
Qed.
Lemma cr_proper N : proper_body cr_M cr_law cr [2; 1] cr_lag cr_seqs cr_inits N.
Proof.
  intros zs t u L Ht S H.
  assert (POS : forall t', t' < t \/ t' = t /\ u = 0 -> (0 < zs t' [1%nat])%R).
  { intros t' C. assert (Ht' : t' < N) by lia.
    destruct (law_ex cr_law cr_det cr [2; 1] cr_lag cr_seqs cr_inits N) with (zs := zs) (t := t') (u := 1) as (L' & S'); auto using cr_model, cr_nodup, cr_random, cr_lags; [exact cr_taps|].
    pose proof (H t' 1 L' ltac:(lia) ltac:(intros ->; destruct C as [C|(_ & ->)]; [lia|cbn; lia]) S') as Q.
    apply cr_step_law in S'; [|exact Ht']. destruct S' as [(? & _)|(_ & ->)]; [discriminate|]. cbn in Q. unfold LemInt.inside in Q. cbn in Q. tauto. }
  apply cr_step_law in S; [|exact Ht]. destruct S as [(-> & ->)|(-> & ->)]; cbn.
  - left. apply POS. auto.
  - destruct t as [|t]; [lra|]. apply POS. lia.
Qed.
Example C84_case : exists h fs, inner_logps cr [2; 1] = Ok (h, fs, []) /\ forall N zs m,
  total (scan_value cr_inits N cr_step) (step_domain cr_M cr_law cr [2; 1] cr_lag cr_seqs cr_inits N) (entries N [1; 0]) zs m <-> m = 1%R.
Proof.
  destruct (inner_def cr [2; 1] cr_model cr_nodup cr_random) as (h & fs & E & _). exists h, fs. split; [exact E|]. intros N.
  destruct (C84_total cr_law cr_det cr [2; 1] cr_lag cr_seqs cr_inits N [1; 0]) as (h' & fs' & E' & T).
  - exact cr_model.
  - exact cr_nodup.
  - discriminate.
  - exact cr_random.
  - exact cr_guard.
  - reflexivity.
  - exact cr_taps.
  - exact cr_lags.
  - apply perm_swap.
  - cbn. repeat constructor.
  - apply cr_proper.
  - rewrite E in E'. injection E' as <- <-. apply (T (fun _ _ _ _ => 0%R)). eapply cr_runs, E.
Qed.
(** without the positivity of the rates the laws would not be proper *)
Example C84_proper_needed : exists zs L, step_law cr_M cr_law cr [2; 1] cr_lag cr_seqs cr_inits 1 zs 0 0 L /\ ~ law_valid L.
Proof.
  destruct (law_ex cr_law cr_det cr [2; 1] cr_lag cr_seqs cr_inits 1) with (zs := fun (_ : nat) (_ : list nat) => (-1)%R) (t := 0) (u := 0) as (L & S);
    auto using cr_model, cr_nodup, cr_random, cr_lags; [exact cr_taps|cbn; lia|].
  exists (fun _ _ => (-1)%R), L. split; [exact S|]. apply cr_step_law in S; [|lia]. destruct S as [(_ & ->)|(? & _)]; [cbn; lra|discriminate].
Qed.
