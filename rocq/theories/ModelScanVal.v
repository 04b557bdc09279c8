(** Values of sliced scan outputs: /repo/aeppl/scan.py 364-488
    (update_scan_value_vars), followed by the log-probability scan. *)
From Coq Require Import List Arith ZArith Bool.
From Verif Require Import XR ModelVec ModelScan.
Import ListNotations.
Open Scope nat_scope.

(** The index of a [Subtensor] of a scan output along the time axis: an
    integer or a slice with its step.  Other axes are left alone. *)
Inductive tslice := TInt (z : Z) | TSlice (b e : option Z) (st : Z).
(** Python's [slice(b, e, st).indices(n)] *)
Definition indices (n : nat) (b e : option Z) (st : Z) : Z * Z :=
  let lower := if (st <? 0)%Z then (-1)%Z else 0%Z in
  let upper := if (st <? 0)%Z then (Z.of_nat n - 1)%Z else Z.of_nat n in
  let bound z := if (z <? 0)%Z then Z.max (z + Z.of_nat n) lower else Z.min z upper in
  (match b with Some b => bound b | None => if (st <? 0)%Z then upper else lower end,
   match e with Some e => bound e | None => if (st <? 0)%Z then lower else upper end).
(** [range(start, stop, st)], for [st] different from 0 *)
Definition range (start stop st : Z) : list nat :=
  let k := if (st <? 0)%Z then ((start - stop - st - 1) / - st)%Z else ((stop - start + st - 1) / st)%Z in
  map (fun i => Z.to_nat (start + Z.of_nat i * st)) (seq 0 (Z.to_nat k)).
(** the positions it selects in a series of length [n] *)
Definition tpositions (n : nat) (s : tslice) : res (list nat) :=
  match s with
  | TInt z => if ((- Z.of_nat n <=? z) && (z <? Z.of_nat n))%Z then Val [py_clip n z] else Raise
  | TSlice b e st => if (st =? 0)%Z then Raise else Val (range (fst (indices n b e st)) (snd (indices n b e st)) st)
  end.
(** [l[i] = x] for a valid position *)
Fixpoint upd_at {A} (l : list A) (i : nat) (x : A) : list A :=
  match l, i with [], _ => [] | _ :: l, 0 => x :: l | a :: l, S i => a :: upd_at l i x end.
(** [at.set_subtensor(l[s], val)]; a single value is broadcast *)
Definition set_positions {A} (l : list A) (ps : list nat) (val : list A) : res (list A) :=
  let val := match val with [x] => repeat x (length ps) | _ => val end in
  if length val =? length ps then Val (fold_left (fun l px => upd_at l (fst px) (snd px)) (combine ps val) l) else Raise.
Definition set_subtensor {A} (l : list A) (s : tslice) (val : list A) : res (list A) :=
  bind (tpositions (length l) s) (fun ps => set_positions l ps val).

(** An output of the scan: the initial values ([None] for an output without
    taps, whose outer input is the number of steps) and the number of steps. *)
Record sout (A : Type) := { o_init : option (list A); o_steps : nat }.
Arguments o_init {A}. Arguments o_steps {A}.
Definition o_len {A} (o : sout A) : nat := match o_init o with Some i => length i | None => 0 end + o_steps o.

(** scan.py:439-475: [at.empty] of the full shape (the contents [junk] are
    whatever the memory holds), the user's value put at the slice, then the
    initial values put at [\[:k\]] (the outer input is a single [set_subtensor]
    on an empty buffer, whose first argument is replaced).  For outputs without
    taps the assertion of 467 fails. *)
Definition full_value {A} (o : sout A) (junk : nat -> A) (s : tslice) (val : list A) : res (list A) :=
  bind (set_subtensor (map junk (seq 0 (o_len o))) s val) (fun v =>
  match o_init o with
  | None => Raise
  | Some init => set_positions v (seq 0 (length init)) init
  end).

(** A requested variable: an output itself, or a subtensor of it, with its value *)
Inductive vreq (A : Type) := VFull (v : list A) | VSlice (s : tslice) (v : list A).
Arguments VFull {A}. Arguments VSlice {A}.
(** scan.py:428-488: sliced requests in order; [live] are the outputs still in
    [replacements]: deleting one twice is a KeyError (line 482).  Requests of
    whole outputs are not touched. *)
Fixpoint update_values {A} (outs : list (sout A)) (junk : nat -> nat -> A) (live : list nat) (reqs : list (nat * vreq A)) : res (list (nat * list A)) :=
  match reqs with
  | [] => Val []
  | (i, VFull v) :: reqs => bind (update_values outs junk live reqs) (fun r => Val ((i, v) :: r))
  | (i, VSlice s v) :: reqs =>
      match nth_error outs i with
      | None => Raise
      | Some o =>
          bind (full_value o (junk i) s v) (fun w =>
          if existsb (Nat.eqb i) live then
            bind (update_values outs junk (filter (fun j => negb (Nat.eqb i j)) live) reqs) (fun r => Val ((i, w) :: r))
          else Raise)
      end
  end.
(** joint_logprob.py:173-184: all outputs must be valued; the values are used
    in the order of the requests (see C34). *)
Definition scan_request {A} (step : nat -> nat -> list ((nat * Z) * A) -> res xr) (taps : list (list Z)) (outs : list (sout A)) (junk : nat -> nat -> A)
    (reqs : list (nat * vreq A)) : res (list (list xr)) :=
  bind (update_values outs junk (seq 0 (length outs)) reqs) (fun vals =>
  if length vals =? length outs then
    logprob_scan step (map (fun tv => {| s_taps := fst tv; s_value := snd (snd tv) |}) (combine taps vals))
  else Raise).
