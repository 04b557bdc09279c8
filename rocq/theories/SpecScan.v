(** Specifications for C44, C45. *)
From Coq Require Import Reals List Arith ZArith.
From Verif Require Import XR SpecDist ModelScan.
Import ListNotations.
Open Scope nat_scope.

(** taps of an output: distinct negative numbers *)
Definition tap_list (taps : list Z) : Prop := NoDup taps /\ forall k, In k taps -> (k < 0)%Z.
(** the largest lag *)
Definition max_lag (taps : list Z) (L : nat) : Prop :=
  In (- Z.of_nat L)%Z (0%Z :: taps) /\ forall k, In k taps -> (- Z.of_nat L <= k)%Z.
(** tap sets that are their own mirror image, for example all contiguous ones *)
Definition symmetric (taps : list Z) : Prop :=
  forall L, max_lag taps L -> forall k, In k (0%Z :: taps) -> In (- Z.of_nat L - k)%Z (0%Z :: taps).
(** what step [t] has to read for tap [k] (0: the current value) *)
Definition lagged {A} (value : list A) (L t : nat) (k : Z) : option A :=
  if (0 <=? Z.of_nat t + Z.of_nat L + k)%Z then nth_error value (Z.to_nat (Z.of_nat t + Z.of_nat L + k)) else None.
(** one variable: the steps are all the positions with a complete history, and
    each reads the right positions *)
Definition reads_right {A} (taps : list Z) (value : list A) (L : nat) (r : list ((nat * Z) * list A) * nat) (v : nat) : Prop :=
  snd r = length value - L /\ map fst (map fst (fst r)) = repeat v (S (length taps)) /\
  (forall k, In k (map snd (map fst (fst r))) <-> In k (0%Z :: taps)) /\
  forall k s t, In ((v, k), s) (fst r) -> t < length value - L -> nth_error s t = lagged value L t k.

(** ** joint densities *)
Open Scope R_scope.
Definition prod (l : list R) : R := fold_right Rmult 1 l.
(** the product over steps and variables of the density of the variable's value
    given everything the taps select and the step's own inputs (the step number) *)
Definition history {A} (vars : list (svar A)) (L : nat -> nat) (t : nat) (u : nat) (k : Z) : option A :=
  match nth_error vars u with Some x => lagged (s_value x) (L u) t k | None => None end.
Definition scan_density {A} (D : nat -> nat -> (nat -> Z -> option A) -> R) (vars : list (svar A)) (L : nat -> nat) (N : nat) : R :=
  prod (map (fun v => prod (map (fun t => D t v (history vars L t)) (seq 0 N)))
            (seq 0 (length vars))).
(** [step] computes the log of [D] from the inner inputs of all variables, at
    the given values *)
Definition step_computes {A} (step : nat -> nat -> list ((nat * Z) * A) -> res xr) (D : nat -> nat -> (nat -> Z -> option A) -> R) (vars : list (svar A)) (L : nat -> nat) (N : nat) : Prop :=
  forall t v env, (t < N)%nat -> (v < length vars)%nat ->
    (forall u k x, In ((u, k), x) env -> history vars L t u k = Some x) ->
    (forall u x k, nth_error vars u = Some x -> In k (0%Z :: s_taps x) -> exists y, In ((u, k), y) env) ->
    denotes (step t v env) (D t v (history vars L t)).
