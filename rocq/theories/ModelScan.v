(** Log-probability scans: /repo/aeppl/scan.py 48-228 (convert_outer_out_to_in)
    and 266-313 (logprob_ScanRV). *)
From Coq Require Import List Arith ZArith Bool.
From Verif Require Import XR ModelVec.
Import ListNotations.
Open Scope nat_scope.

(** Python's [l[b:e]], as used in scan.py:198 and 204 (a TensorVariable's basic
    slice with unit step) *)
Definition py_clip (n : nat) (z : Z) : nat :=
  Z.to_nat (if (z <? 0)%Z then Z.max 0 (z + Z.of_nat n) else Z.min z (Z.of_nat n)).
Definition py_slice {A} (b : Z) (e : option Z) (l : list A) : list A :=
  let start := py_clip (length l) b in
  let stop := match e with Some e => py_clip (length l) e | None => length l end in
  firstn (stop - start) (skipn start l).
(** [sorted(…, key=lambda x: x[0])], scan.py:180-182 *)
Fixpoint insert {A} (p : Z * A) (l : list (Z * A)) : list (Z * A) :=
  match l with [] => [p] | q :: l => if (fst p <=? fst q)%Z then p :: q :: l else q :: insert p l end.
Definition sorted {A} (l : list (Z * A)) : list (Z * A) := fold_right insert [] l.
(** [at.min], scan.py:199 *)
Fixpoint list_min (l : list nat) : nat := match l with [] => 0 | [x] => x | x :: l => Nat.min x (list_min l) end.

(** One iteration of the loop (scan.py:101-214) for variable number [v] with
    taps [taps] (those of a mit-sot; [-1] for a sit-sot, none for a nit-sot)
    and the given value: inner inputs, named by variable and tap, with their
    sequences, and the number of steps.  scan.py:165-176 taps, 180-186 sorting
    and reversal, 190-198 slices, 199-201 number of steps, 203-205 truncation. *)
Definition convert1 {A} (v : nat) (taps : list Z) (value : list A) : list ((nat * Z) * list A) * nat :=
  let taps := taps ++ [0%Z] in
  let pairs := sorted (combine taps (map (fun k => (v, k)) taps)) in
  let taps := map fst pairs in
  let inner_seqs := rev (map snd pairs) in
  let slice_seqs := combine (map Z.opp taps) (map (fun n => if (n <? 0)%Z then Some n else None) (rev taps)) in
  let var_slices := map (fun be => py_slice (fst be) (snd be) value) slice_seqs in
  let n_steps := list_min (map (@length A) var_slices) in
  (combine inner_seqs (map (firstn n_steps) var_slices), n_steps).
(** The whole loop: sequences are collected, the number of steps is the last
    variable's (scan.py:201).  Simplification: outputs that are not converted
    are left out; the scan's own sequences are the dependence of [step] below
    on the step number. *)
Record svar (A : Type) := { s_taps : list Z; s_value : list A }.
Arguments s_taps {A}. Arguments s_value {A}.
Fixpoint convert {A} (v : nat) (vars : list (svar A)) (acc : list ((nat * Z) * list A) * nat) : list ((nat * Z) * list A) * nat :=
  match vars with
  | [] => acc
  | x :: vars => let (seqs, n) := convert1 v (s_taps x) (s_value x) in convert (S v) vars (fst acc ++ seqs, n)
  end.
(** The scan built by construct_scan (scan.py:255-263): step [t] gets the elements [t] of the sequences; a sequence shorter
    than the number of steps is an error. *)
Fixpoint read {A} (t : nat) (seqs : list ((nat * Z) * list A)) : res (list ((nat * Z) * A)) :=
  match seqs with
  | [] => Val []
  | (nm, s) :: seqs =>
      match nth_error s t with
      | Some x => bind (read t seqs) (fun l => Val ((nm, x) :: l))
      | None => Raise
      end
  end.
(** scan.py:266-313: step [t] computes one log-probability per variable from
    the inner inputs ([step], the inner graph's conditional_logprob, see
    ModelGraph.v); one output per variable. *)
Definition logprob_scan {A} (step : nat -> nat -> list ((nat * Z) * A) -> res xr) (vars : list (svar A)) : res (list (list xr)) :=
  let (seqs, n_steps) := convert 0 vars ([], 0) in
  bind (rseq (map (fun t => bind (read t seqs) (fun e => Val (t, e))) (seq 0 n_steps))) (fun envs =>
  rseq (map (fun v => rseq (map (fun te => step (fst te) v (snd te)) envs)) (seq 0 (length vars)))).
