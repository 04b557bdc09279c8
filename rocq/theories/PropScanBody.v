(** C74: scans whose body is a model graph. *)
From Coq Require Import Reals List Arith ZArith Lia Lra.
From Verif Require Import XR SpecDist ModelVec ModelDist LemDist ModelJoint ModelGraph SpecGraph LemGraph2 ModelScan SpecScan LemScan ModelScanBody SpecScanBody LemScanBody.
Import ListNotations.
Open Scope nat_scope.

(** A scan is made measurable exactly when every random variable its outputs
    depend on is an output. *)
Theorem C74_guard (g : heap) (outs : list nat) : model_graph g -> (find_measurable_scans g outs = true <-> all_output g outs).
Proof. exact (guard_iff g outs). Qed.
Print Assumptions C74_guard.

(** The inner graph gets one log-probability per output, in the order of the outputs. *)
Theorem C74_defined (g : heap) (outs : list nat) : model_graph g -> NoDup outs -> (forall o, In o outs -> random g o) ->
  exists h fs, inner_logps g outs = Ok (h, fs, []) /\ map fst fs = outs.
Proof. exact (inner_def g outs). Qed.
Print Assumptions C74_defined.

(** The log-probability of the scan is the log of the product, over steps and
    outputs, of the densities of the body's random variables at the given
    values; it does not depend on any draw. *)
Theorem C74_scan_partial (g : heap) (outs : list nat) lag seqs M draw h fs vv step vars D L N :
  model_graph g -> NoDup outs -> outs <> [] -> (forall o, In o outs -> random g o) -> find_measurable_scans g outs = true ->
  length vars = length outs -> lag_inputs g lag vars ->
  (forall u x, nth_error vars u = Some x -> tap_list (s_taps x) /\ max_lag (s_taps x) (L u) /\ symmetric (s_taps x) /\ length (s_value x) = N + L u) ->
  inner_logps g outs = Ok (h, fs, vv) -> step_runs g lag seqs M draw h fs step -> body_density g outs lag seqs M D vars L N ->
  exists out, logprob_scan step vars = Val (map (fun v => map (out v) (seq 0 N)) (seq 0 (length vars))) /\
    (forall v t, v < length vars -> t < N -> denotes (Val (out v t)) (D t v (history vars L t))) /\
    denotes (Val (xsum (concat (map (fun v => map (out v) (seq 0 N)) (seq 0 (length vars)))))) (scan_density D vars L N).
Proof. exact (body_scan g outs lag seqs M draw h fs vv step vars D L N). Qed.
Print Assumptions C74_scan_partial.

(** A case: stochastic volatility, y_t ~ N(y_{t-1}, 1) and
    x_t ~ N(a_t x_{t-1}, softplus(y_t)), with a sequence a (with exp(y_t) instead
    the scan is refused: C74_transformed_refuted). *)
Definition splus (a : R) : R := ln (1 + exp a).
Lemma splus_pos a : (0 < splus a)%R.
Proof. unfold splus. rewrite <- ln_1. apply ln_increasing; [lra|]. pose proof (exp_pos a). lra. Qed.
Definition sv : heap := [mk OIn []; mk OIn []; mk (ORv 0 0) [0]; mk (ODet 0) [2]; mk OIn []; mk (ODet 1) [4; 1]; mk (ORv 1 1) [5; 3]].
Definition sv_lag (u : nat) (k : Z) : option nat :=
  if (k =? -1)%Z then match u with 0 => Some 0 | 1 => Some 1 | _ => None end else None.
Definition sv_seqs (t n : nat) : R := match n with 4 => (/ INR (t + 2))%R | _ => 0%R end.
Definition sv_sem : sem R (res xr) := {|
  s_in := fun _ => 0%R; s_draw := fun _ _ _ => 0%R; s_back := fun _ _ _ => 0%R; s_lj := fun _ _ _ => Raise; s_add := fun a _ => a;
  s_det := fun f xs => match f, xs with 0, [a] => splus a | 1, [a; b] => (a * b)%R | _, _ => 0%R end;
  s_ld := fun d xs x => match d, xs with
                        | 0, [mu] => normal_logprob (Fin mu) (Fin 1) (Fin x)
                        | 1, [mu; s] => normal_logprob (Fin mu) (Fin s) (Fin x) | _, _ => Raise end |}.
Definition sv_step (t v : nat) (env : list ((nat * Z) * R)) : res xr :=
  let i := input_values sv sv_lag sv_seqs t env in
  match v with
  | 0 => normal_logprob (Fin (i 0%nat)) (Fin 1) (Fin (i 7))
  | _ => normal_logprob (Fin (i 4%nat * i 1%nat)) (Fin (splus (i 7))) (Fin (i 8))
  end.
Definition sv_density (t v : nat) (hist : nat -> Z -> option R) : R :=
  match hist 0 0%Z, hist 0 (-1)%Z, hist 1 0%Z, hist 1 (-1)%Z with
  | Some y, Some y', Some x, Some x' =>
      match v with 0 => normal_pdf y' 1 y | _ => normal_pdf (/ INR (t + 2) * x') (splus y) x end
  | _, _, _, _ => 0%R
  end.
Definition sv_vars (ys xs : list R) : list (svar R) := [{| s_taps := [-1]%Z; s_value := ys |}; {| s_taps := [-1]%Z; s_value := xs |}].
Lemma sv_model : model_graph sv.
Proof.
  intros v nd E. do 7 (destruct v as [|v]; [injection E as <-; cbn; split; [easy|]; intros a I; repeat (destruct I as [<-|I]; [lia|]); destruct I|]).
  destruct v; discriminate.
Qed.
Lemma sv_random o : In o [2; 6] -> random sv o.
Proof. intros [<-|[<-|[]]]; [exists 0, 0, [0]|exists 1, 1, [5; 3]]; reflexivity. Qed.
Lemma sv_lags ys xs : lag_inputs sv sv_lag (sv_vars ys xs).
Proof.
  assert (LN : forall u k n, sv_lag u k = Some n -> k = (-1)%Z /\ u = n /\ u < 2).
  { intros u k n E. unfold sv_lag in E. destruct (k =? -1)%Z eqn:Ek; [|discriminate]. apply Z.eqb_eq in Ek.
    destruct u as [|[|u]]; try discriminate; injection E as <-; repeat split; auto; lia. }
  split; [|split].
  - intros u k. split.
    + intros E. destruct (sv_lag u k) as [n|] eqn:Q; [|easy]. apply LN in Q as (-> & -> & Hu). destruct n as [|[|n]]; [| |lia]; eexists; (split; [reflexivity|cbn; auto]).
    + intros (x & Ex & I). destruct u as [|[|u]]; [| |destruct u; discriminate]; injection Ex as <-; cbn in I; destruct I as [<-|[]]; discriminate.
  - intros u k n E. apply LN in E as (-> & -> & Hu). destruct n as [|[|n]]; [reflexivity|reflexivity|lia].
  - intros u k u' k' n E E'. apply LN in E as (-> & -> & _). apply LN in E' as (-> & -> & _). auto.
Qed.
Lemma sv_body ys xs T : length ys = T + 1 -> length xs = T + 1 -> body_density sv [2; 6] sv_lag sv_seqs sv_sem sv_density (sv_vars ys xs) (fun _ => 1) T.
Proof.
  intros Ly Lx t v o i rho Ht Eo (BI & BS) (BO & BN). exists (fun _ _ _ => 0%R).
  assert (HZ : forall u, u < 2 -> history (sv_vars ys xs) (fun _ => 1) t u 0%Z <> None).
  { intros [|[|u]] Hu; [| |lia]; unfold history, sv_vars, lagged; cbn [nth_error s_value]; (destruct (Z.leb_spec 0 (Z.of_nat t + Z.of_nat 1 + 0)); [|lia]); apply nth_error_Some; lia. }
  set (hist := history (sv_vars ys xs) (fun _ => 1) t) in *. clearbody hist.
  assert (R2 := BO 0 2 eq_refl). assert (R6 := BO 1 6 eq_refl).
  assert (I0 := BI 0 (-1)%Z 0 eq_refl). assert (I1 := BI 1 (-1)%Z 1 eq_refl).
  assert (I4 : i 4 = (/ INR (t + 2))%R).
  { rewrite BS; [reflexivity|]. intros u k E. unfold sv_lag in E. destruct (k =? -1)%Z; [|discriminate]. destruct u as [|[|u]]; discriminate. }
  assert (Z0 := HZ 0 ltac:(cbn; lia)). assert (Z1 := HZ 1 ltac:(cbn; lia)).
  destruct (hist 0 0%Z) as [y|] eqn:Hy; [|easy]. destruct (hist 1 0%Z) as [x|] eqn:Hx; [|easy].
  assert (N : forall n, n < 6 -> n <> 2 -> rho n = None) by (intros n Hn Hd; apply BN; cbn; lia).
  unfold sv_density. rewrite Hy, Hx, I0, I1.
  destruct v as [|[|v]]; [| |destruct v; discriminate]; injection Eo as <-.
  - exists (normal_logprob (Fin (i 0%nat)) (Fin 1) (Fin y)). split; [|apply normal_ok; lra].
    exists 0, 0, [0], [i 0], y. split; [reflexivity|]. split; [|split; [exact R2|reflexivity]].
    constructor; [|constructor]. change (i 0) with (s_in (with_inputs sv_sem i (fun _ _ _ => 0%R)) 0).
    apply me_in with (ps := []); [apply N; lia|reflexivity].
  - exists (normal_logprob (Fin (i 4%nat * i 1%nat)) (Fin (splus y)) (Fin x)). split; [|rewrite I4; apply normal_ok, splus_pos].
    exists 1, 1, [5; 3], [(i 4%nat * i 1%nat)%R; splus y], x. split; [reflexivity|]. split; [|split; [exact R6|reflexivity]].
    constructor; [|constructor; [|constructor]].
    + change (i 4%nat * i 1%nat)%R with (s_det (with_inputs sv_sem i (fun _ _ _ => 0%R)) 1 [i 4; i 1]).
      apply me_det with (ps := [4; 1]); [apply N; lia|reflexivity|]. constructor; [|constructor; [|constructor]].
      * change (i 4) with (s_in (with_inputs sv_sem i (fun _ _ _ => 0%R)) 4). apply me_in with (ps := []); [apply N; lia|reflexivity].
      * change (i 1) with (s_in (with_inputs sv_sem i (fun _ _ _ => 0%R)) 1). apply me_in with (ps := []); [apply N; lia|reflexivity].
    + change (splus y) with (s_det (with_inputs sv_sem i (fun _ _ _ => 0%R)) 0 [y]).
      apply me_det with (ps := [2]); [apply N; lia|reflexivity|]. constructor; [|constructor]. apply me_val, R2.
Qed.
Definition sv_res := Eval vm_compute in inner_logps sv [2; 6].
Lemma sv_runs draw h fs vv : inner_logps sv [2; 6] = Ok (h, fs, vv) -> step_runs sv sv_lag sv_seqs sv_sem draw h fs sv_step.
Proof.
  intros E. assert (E' : inner_logps sv [2; 6] = sv_res) by (vm_compute; reflexivity). rewrite E in E'. injection E' as -> -> ->.
  intros t v env rv f y Ef FV. set (i := input_values sv sv_lag sv_seqs t env) in *. set (S := with_inputs sv_sem i (draw t)) in *.
  assert (EI : forall h n, nth_error h n = Some (mk OIn []) -> ev S h n (i n)).
  { intros h n E0. change (i n) with (s_in S n). eapply ev_in; exact E0. }
  destruct v as [|[|v]]; [| |destruct v; discriminate]; injection Ef as <- <-; (eapply fvalue_det; [|exact FV]); clear FV.
  - exists [i 0], (i 7). cbn [f_params f_value f_trans f_dist]. split; [|split; [apply EI; reflexivity|reflexivity]].
    constructor; [apply EI; reflexivity|constructor].
  - exists [(i 4%nat * i 1%nat)%R; splus (i 7)], (i 8). cbn [f_params f_value f_trans f_dist]. split; [|split; [apply EI; reflexivity|reflexivity]].
    constructor; [|constructor; [|constructor]].
    + eapply ev_op; [reflexivity| |]; [constructor; [apply EI; reflexivity|constructor; [apply EI; reflexivity|constructor]]|reflexivity].
    + eapply ev_op; [reflexivity| |]; [constructor; [apply EI; reflexivity|constructor]|reflexivity].
Qed.
Lemma sv_guard : find_measurable_scans sv [2; 6] = true.
Proof. reflexivity. Qed.
Example C74_scan_ex : exists out, logprob_scan sv_step (sv_vars [0; 1; 3]%R [2; 5; 4]%R) = Val (map (fun v => map (out v) (seq 0 2)) (seq 0 2)) /\
  denotes (Val (xsum (concat (map (fun v => map (out v) (seq 0 2)) (seq 0 2)))))
    (normal_pdf 0 1 1 * normal_pdf 1 1 3 * (normal_pdf (/ 2 * 2) (splus 1) 5 * normal_pdf (/ 3 * 5) (splus 3) 4)).
Proof.
  destruct (C74_defined sv [2; 6] sv_model ltac:(repeat constructor; cbn; lia) sv_random) as (h & fs & E & _).
  destruct (C74_scan_partial sv [2; 6] sv_lag sv_seqs sv_sem (fun _ _ _ _ => 0%R) h fs [] sv_step (sv_vars [0; 1; 3]%R [2; 5; 4]%R) sv_density (fun _ => 1) 2)
    as (out & H1 & _ & H2).
  - exact sv_model.
  - repeat constructor; cbn; lia.
  - discriminate.
  - exact sv_random.
  - exact sv_guard.
  - reflexivity.
  - apply sv_lags.
  - destruct (lags_ok 1) as (T1 & T2 & T3). cbn in T1, T2, T3.
    intros u x Ex. destruct u as [|[|u]]; [| |destruct u; discriminate]; injection Ex as <-; cbn [s_taps s_value]; split; auto.
  - exact E.
  - exact (sv_runs _ h fs [] E).
  - now apply sv_body.
  - exists out. split; [exact H1|]. match goal with |- denotes _ ?r => replace r with (scan_density sv_density (sv_vars [0; 1; 3]%R [2; 5; 4]%R) (fun _ => 1) 2) end; [exact H2|].
    unfold scan_density, history, sv_vars, sv_density. cbn. rewrite !Rmult_1_r. replace (1 + 1)%R with 2%R by lra. replace (2 + 1)%R with 3%R by lra. reflexivity.
Qed.
(** the guard on a body with a hidden random scale: not made measurable *)
Example C74_guard_ex : find_measurable_scans sv [6] = false /\ ~ all_output sv [6].
Proof.
  split; [reflexivity|]. intros H. destruct (H 6 2 (or_introl eq_refl)) as [E|[]]; [|exact (sv_random 2 (or_introl eq_refl))|discriminate].
  apply (dep_step sv 6 (mk (ORv 1 1) [5; 3]) 3 2 eq_refl); [cbn; auto|].
  apply (dep_step sv 3 (mk (ODet 0) [2]) 2 2 eq_refl); [cbn; auto|constructor].
Qed.
