(** What it means for the log-probability of a scan to be that of a probability
    law: integrated and summed over the values of all outputs at all steps its
    density has total mass one. *)
From Coq Require Import Reals List Arith ZArith.
From Coquelicot Require Import Coquelicot.
From Verif Require Import XR SpecDist ModelVec ModelTrans ModelJoint ModelGraph SpecGraph ModelLaw SpecLaw SpecLawArr ModelScan SpecScan ModelScanBody SpecScanBody.
Import ListNotations.
Open Scope nat_scope.

(** output number [u] has the taps and initial values [nth u inits]; its value at
    step [t] is [zs t \[u\]] *)
Definition out_init (inits : list (list Z * list R)) (u : nat) : list Z * list R := nth u inits ([], []).
Definition series (inits : list (list Z * list R)) (N : nat) (zs : point_values) : list (svar R) :=
  map (fun u => {| s_taps := fst (out_init inits u); s_value := snd (out_init inits u) ++ map (fun t => zs t [u]) (seq 0 N) |}) (seq 0 (length inits)).
Definition initial (inits : list (list Z * list R)) (u : nat) : nat := length (snd (out_init inits u)).
Definition past inits N zs (t : nat) : nat -> Z -> option R := history (series inits N zs) (initial inits) t.

Section Model.
Variables (M : sem R (res xr)) (D : nat -> list R -> law) (g : heap) (outs : list nat) (lag : nat -> Z -> option nat) (seqs : nat -> nat -> R).
Variables (inits : list (list Z * list R)) (N : nat).
(** the law of output [u] at step [t], given the values before and at that step *)
Definition step_law (zs : point_values) (t u : nat) (L : law) : Prop :=
  exists o i rho draw rng dist ps xs, nth_error outs u = Some o /\ body_inputs lag seqs t (past inits N zs t) i /\ body_outputs outs (past inits N zs t) rho /\
    nth_error g o = Some (mk (ORv rng dist) ps) /\ meanss (with_inputs M i draw) g rho ps xs /\ L = D dist xs.
(** at all possible values of the earlier steps, and of the outputs that come
    before it in the body, an output has proper parameters *)
Definition proper_body : Prop := forall zs t u L, t < N -> step_law zs t u L ->
  (forall t' u' L', t' <= t -> (t' = t -> nth u' outs 0 < nth u outs 0) -> step_law zs t' u' L' -> contains (law_support L') (zs t' [u'])) -> law_valid L.
(** the range of the value at step and output [e], given the earlier ones *)
Definition law_at (zs : point_values) (e : nat * list nat) (L : law) : Prop :=
  fst e < N /\ exists u, snd e = [u] /\ step_law zs (fst e) u L.
Definition step_domain (zs : point_values) (e : nat * list nat) (s : support) : Prop :=
  exists L, law_at zs e L /\ s = law_support L.
(** all steps, and at each step the outputs in the order [us] *)
Definition entries (us : list nat) : list (nat * list nat) := flat_map (fun t => map (fun u => (t, [u])) us) (seq 0 N).
(** the joint log-probability of the scan *)
Definition scan_value (step : nat -> nat -> list ((nat * Z) * R) -> res xr) (zs : point_values) (y : xr) : Prop :=
  exists l, logprob_scan step (series inits N zs) = Val l /\ joint_reduce l = Some y.
End Model.
