(** Scans with outputs that are not random: /repo/aeppl/scan.py 231-252
    (get_random_outer_outputs), 255-263 (construct_scan), 266-313
    (logprob_ScanRV), 526-531 (_get_measurable_outputs_MeasurableScan), and the
    pairing in /repo/aeppl/joint_logprob.py 168-198. *)
From Coq Require Import Reals List Arith ZArith Bool.
From Verif Require Import XR ModelVec ModelScan.
Import ListNotations.
Open Scope nat_scope.

(** Inner inputs: variable, tap, value. *)
Definition inputs := list ((nat * Z) * R).
(** A computed output: its initial values and taps (none for a nit-sot) and its
    inner graph, a function of the step number, of the earlier values of the
    random outputs and of the earlier values of the computed outputs. *)
Record cout := { c_init : list R; c_taps : list Z; c_fn : nat -> inputs -> inputs -> res R }.
(** The outputs of the scan in their order (mit-sot, sit-sot, nit-sot), leaving
    out those of RandomType.
    Simplifications: computed values are finite; inner graphs of computed
    outputs read only earlier values of the random outputs (with the current
    draw in them the construction of the scan fails, since its generator is
    removed in scan.py:294-305); the buffers of the computed outputs, which
    construct_scan takes over from the old scan, are as long as the given values
    require. *)
Inductive scan_out := Random (taps : list Z) | Computed (c : cout).
(** scan.py:231-252: the random outputs, numbered among themselves *)
Definition random_taps (outs : list scan_out) : list (list Z) :=
  flat_map (fun o => match o with Random t => [t] | Computed _ => [] end) outs.
(** the outputs that convert_outer_out_to_in leaves in place, scan.py:86-216 *)
Definition computed (outs : list scan_out) : list cout :=
  flat_map (fun o => match o with Random _ => [] | Computed c => [c] end) outs.
(** the inner inputs that a computed output reads *)
Definition earlier (e : inputs) : inputs := filter (fun p => (snd (fst p) <? 0)%Z) e.
(** the inner inputs for the taps of computed output [j], whose buffer is filled
    up to here with [s] *)
Fixpoint taps_of (j : nat) (s : list R) (taps : list Z) : res inputs :=
  match taps with
  | [] => Val []
  | k :: taps =>
      let p := (Z.of_nat (length s) + k)%Z in
      match (if (0 <=? p)%Z then nth_error s (Z.to_nat p) else None) with
      | Some x => bind (taps_of j s taps) (fun l => Val (((j, k), x) :: l))
      | None => Raise
      end
  end.
Fixpoint own_env (j : nat) (cs : list cout) (ser : list (list R)) : res inputs :=
  match cs, ser with
  | c :: cs, s :: ser => bind (taps_of j s (c_taps c)) (fun a => bind (own_env (S j) cs ser) (fun b => Val (a ++ b)))
  | _, _ => Val []
  end.
Definition extend (ser : list (list R)) (new : list R) : list (list R) := map (fun sx => fst sx ++ [snd sx]) (combine ser new).
(** The computed outputs in the new scan (scan.py:255-263): their buffers and
    their inner inputs, step by step. *)
Fixpoint run (cs : list cout) (envs : list (nat * inputs)) (ser : list (list R)) : res (list (list R) * list inputs) :=
  match envs with
  | [] => Val (ser, [])
  | (t, e) :: envs =>
      bind (own_env 0 cs ser) (fun ce =>
      bind (rseq (map (fun c => c_fn c t (earlier e) ce) cs)) (fun new =>
      bind (run cs envs (extend ser new)) (fun r => Val (fst r, ce :: snd r))))
  end.
(** scan.py:266-313.  The values are zipped with the random outputs (273); with
    no random output the unpacking in 272 fails; the new log-probabilities come
    after the outputs left in place (scan.py:224-226), and all outputs of the
    new scan are returned (310, 263).  The inner graphs of the log-probabilities
    ([step]) read the inner inputs of the random and of the computed outputs. *)
Definition logprob_ScanRV (step : nat -> nat -> inputs -> inputs -> res xr) (outs : list scan_out) (values : list (list R)) : res (list (list xr)) :=
  match random_taps outs with
  | [] => Raise
  | taps =>
      let vars := map (fun tv => {| s_taps := fst tv; s_value := snd tv |}) (combine taps values) in
      let cs := computed outs in
      let (seqs, n_steps) := convert 0 vars ([], 0) in
      bind (rseq (map (fun t => bind (read t seqs) (fun e => Val (t, e))) (seq 0 n_steps))) (fun envs =>
      bind (run cs envs (map c_init cs)) (fun r =>
      bind (logprob_scan (fun t v e => step t v e (nth t (snd r) [])) vars) (fun ls => Val (map (map Fin) (fst r) ++ ls))))
  end.
(** joint_logprob.py:168-198: every output counts as measurable
    (scan.py:526-531), so that each needs a value (assertion in
    joint_logprob.py:178); entry [i] of the result belongs to output [i].
    [given] is in the order of the outputs (for other orders see C34). *)
Fixpoint all_given {A} (given : list (option A)) : res (list A) :=
  match given with
  | [] => Val []
  | Some v :: given => bind (all_given given) (fun l => Val (v :: l))
  | None :: _ => Raise
  end.
Definition conditional_scan (step : nat -> nat -> inputs -> inputs -> res xr) (outs : list scan_out) (given : list (option (list R))) : res (list (list xr)) :=
  bind (all_given given) (fun values => if length values =? length outs then logprob_ScanRV step outs values else Raise).
