(** Specifications for the bookkeeping of conditional_logprob (C32 - C34,
    C37, C38), written without the model's loops. *)
From Coq Require Import Reals List Arith.
From Verif Require Import XR ModelJoint.
Import ListNotations.
Open Scope nat_scope.

(** the keys are the requested variables and the realized ones, each once *)
Definition keys_exact (keys requested realized : list nat) : Prop :=
  NoDup keys /\ forall k, In k keys <-> In k requested \/ In k realized.

(** Facts about an Aesara graph: the outputs of a node are distinct, and a
    variable that is an output of [n] is owned by [n]. *)
Definition well_owned (mout : nat -> list nat) (bs : list binding) : Prop :=
  (forall n, NoDup (mout n)) /\
  (forall b n, In b bs -> In (b_var b) (mout n) -> b_node b = Some n).

(** a log-probability dispatch returns one expression per measurable output *)
Definition one_each {L} (mout : nat -> list nat) (lp : nat -> list nat -> list L) : Prop :=
  forall n vs, length vs = length (mout n) -> length (lp n vs) = length (mout n).

(** the log-probability filed under [b_old b] is the component for the output
    [b_var b] of the node's log-probability, evaluated at values [vs] in which
    every bound output of that node has the value bound to it *)
Definition paired {L} (mout : nat -> list nat) (lp : nat -> list nat -> list L)
    (bs : list binding) (out : list (nat * L)) (b : binding) : Prop :=
  exists n i vs l, b_node b = Some n /\ nth_error (mout n) i = Some (b_var b) /\
    length vs = length (mout n) /\
    (forall b' j, In b' bs -> nth_error (mout n) j = Some (b_var b') -> nth_error vs j = Some (b_valvar b')) /\
    nth_error (lp n vs) i = Some l /\ In (b_old b, l) out.

(** in-request-order values of the variables that were not realized *)
Definition unrealized_values (realized : list nat) (bs : list binding) : list nat :=
  map b_val (filter (fun b => negb (if in_dec Nat.eq_dec (b_old b) realized then true else false)) bs).

(** the bindings of one node *)
Definition of_node (n : nat) (b : binding) : bool :=
  match b_node b with Some m => m =? n | None => false end.

(** what a request may get wrong (C37) *)
Definition no_owner (bs : list binding) : Prop := exists b, In b bs /\ b_node b = None.
Definition no_measurable_form (mout : nat -> list nat) (bs : list binding) : Prop :=
  exists b, In b bs /\ forall n, b_node b = Some n -> ~ In (b_var b) (mout n).
Definition bound_twice (bs : list binding) : Prop := ~ NoDup (map b_var bs).

(** the sum of extended reals, as a relation: the entries are real, or some
    are -inf (and the others real), and so on *)
Definition all_real (l : list xr) (s : R) : Prop :=
  exists rs, l = map Fin rs /\ s = fold_right Rplus 0%R rs.
