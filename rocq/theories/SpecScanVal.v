(** Specification of sliced scan outputs. *)
From Coq Require Import List Arith ZArith.
From Verif Require Import ModelScanVal.
Import ListNotations.
Open Scope nat_scope.

(** [z] counted from the end when negative *)
Definition counted (n : nat) (z : Z) : Z := if (z <? 0)%Z then (z + Z.of_nat n)%Z else z.
(** [p] is the [j]-th position of [series\[b:e:st\]] for a series of length [n] *)
Definition nth_of_slice (n : nat) (b e : option Z) (st : Z) (j p : nat) : Prop :=
  p < n /\
  ((0 < st)%Z /\ (Z.of_nat p = match b with Some b => Z.min (Z.of_nat n) (Z.max 0 (counted n b)) | None => 0 end + Z.of_nat j * st)%Z /\ match e with Some e => (Z.of_nat p < counted n e)%Z | None => True end \/
   (st < 0)%Z /\ (Z.of_nat p = match b with Some b => Z.max (-1) (Z.min (Z.of_nat n - 1) (counted n b)) | None => Z.of_nat n - 1 end + Z.of_nat j * st)%Z /\ match e with Some e => (counted n e < Z.of_nat p)%Z | None => True end).
(** the same for any index *)
Definition nth_of (n : nat) (s : tslice) (j p : nat) : Prop :=
  match s with TInt z => j = 0 /\ p < n /\ Z.of_nat p = counted n z | TSlice b e st => nth_of_slice n b e st j p end.
Definition valid (n : nat) (s : tslice) : Prop := match s with TInt z => (- Z.of_nat n <= z < Z.of_nat n)%Z | TSlice _ _ st => st <> 0%Z end.
(** [val] is what [series\[s\]] selects of a series that starts with [init],
    followed by [x], and every step is selected.  What [val] says about initial
    values does not matter. *)
Definition selects {A} (init x : list A) (s : tslice) (val : list A) : Prop :=
  let n := length init + length x in
  valid n s /\ (forall j, j < length val <-> exists p, nth_of n s j p) /\
  (forall i, length init <= i < n -> exists j, nth_of n s j i) /\
  (forall j p, nth_of n s j p -> length init <= p -> nth_error val j = nth_error (init ++ x) p).
(** A series, given by its initial values and what follows, with a request for
    a slice of it *)
Record sreq (A : Type) := { r_init : list A; r_rest : list A; r_slice : tslice; r_val : list A }.
Arguments r_init {A}. Arguments r_rest {A}. Arguments r_slice {A}. Arguments r_val {A}.
Fixpoint requests {A} (i : nat) (l : list (sreq A)) : list (nat * vreq A) :=
  match l with [] => [] | q :: l => (i, VSlice (r_slice q) (r_val q)) :: requests (S i) l end.
