(** The body of a scan: /repo/aeppl/scan.py 316-361 (find_measurable_scans), the
    inner graph in 86-123 and 218-226 (convert_outer_out_to_in), 231-252
    (get_random_outer_outputs) and 276-284 (create_inner_out_logp).  Inner
    graphs are the model graphs of ModelGraph; inner inputs are its variables
    without owner, and the generators are folded into the RandomVariables. *)
From Coq Require Import Reals List Arith ZArith Bool.
From Verif Require Import XR ModelVec ModelJoint ModelGraph SpecGraph ModelScan.
Import ListNotations.
Open Scope nat_scope.

(** [isinstance(n.op, MeasurableVariable)], scan.py:338 *)
Definition is_rv (g : heap) (v : nat) : bool :=
  match nth_error g v with Some {| nop := ORv _ _ |} => true | _ => false end.
(** scan.py:328-351: no rewrite when some measurable node used in the body has an
    output ([clients[n]]: the outputs of [n] that are used) that is not an
    inner output.  Simplification: nodes have one output. *)
Definition find_measurable_scans (g : heap) (inner_outputs : list nat) : bool :=
  forallb (fun n => negb (is_rv g n) || mem n inner_outputs) (toposort g inner_outputs).
(** scan.py:239-252 *)
Definition random_outputs (g : heap) (inner_outputs : list nat) : list nat := filter (is_rv g) inner_outputs.
(** scan.py:119-123: a new inner input for every random output; 218-226 and
    276-284: conditional_logprob with the random outputs realized by them *)
Definition inner_logps (g : heap) (inner_outputs : list nat) : outcome (heap * list (nat * factor) * list nat) :=
  let io_vars := random_outputs g inner_outputs in
  conditional_logprob toposort true (g ++ repeat (mk OIn []) (length io_vars)) []
    (combine io_vars (seq (length g) (length io_vars))) [].
(** The inner inputs at step [t]: the new input of output [u] gets its current
    value (tap 0), the input [lag u k] of tap [k] of output [u] the value at that tap;
    other sequences and the non-sequences are [seqs t]. *)
Definition in_node (g : heap) (lag : nat -> Z -> option nat) (p : nat * Z) : option nat :=
  if (snd p =? 0)%Z then Some (length g + fst p) else lag (fst p) (snd p).
Definition input_values (g : heap) (lag : nat -> Z -> option nat) (seqs : nat -> nat -> R) (t : nat) (env : list ((nat * Z) * R)) (x : nat) : R :=
  match find (fun p => match in_node g lag (fst p) with Some n => n =? x | None => false end) env with Some p => snd p | None => seqs t x end.
(** an interpretation with other inputs and draws *)
Definition with_inputs (M : sem R (res xr)) (i : nat -> R) (draw : nat -> nat -> list R -> R) : sem R (res xr) :=
  {| s_in := i; s_draw := draw; s_det := s_det M; s_back := s_back M; s_ld := s_ld M; s_lj := s_lj M; s_add := s_add M |}.
(** [step] is the compiled inner graph of the new scan: output [v] at step [t]
    is the value of the [v]-th log-probability (scan.py:222-226, 255-263) *)
Definition step_runs (g : heap) (lag : nat -> Z -> option nat) (seqs : nat -> nat -> R) (M : sem R (res xr)) (draw : nat -> nat -> nat -> list R -> R)
    (h : heap) (fs : list (nat * factor)) (step : nat -> nat -> list ((nat * Z) * R) -> res xr) : Prop :=
  forall t v env rv f y, nth_error fs v = Some (rv, f) ->
    fvalue (with_inputs M (input_values g lag seqs t env) (draw t)) h f y -> step t v env = y.
