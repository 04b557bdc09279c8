(** Specifications for C74: the density of the body of a loop. *)
From Coq Require Import Reals List Arith ZArith.
From Verif Require Import XR SpecDist ModelVec ModelJoint ModelGraph SpecGraph ModelScan SpecScan ModelScanBody.
Import ListNotations.
Open Scope nat_scope.

Definition random (g : heap) (v : nat) : Prop := exists rng dist ps, nth_error g v = Some (mk (ORv rng dist) ps).
(** every random variable used in computing the outputs is an output *)
Definition all_output (g : heap) (outs : list nat) : Prop :=
  forall o a, In o outs -> depends g o a -> random g a -> In a outs.
(** [lag u k] is the variable of the body that stands for the value of output
    [u] at tap [k] *)
Definition lag_inputs (g : heap) (lag : nat -> Z -> option nat) (vars : list (svar R)) : Prop :=
  (forall u k, lag u k <> None <-> exists x, nth_error vars u = Some x /\ In k (s_taps x)) /\
  (forall u k n, lag u k = Some n -> nth_error g n = Some (mk OIn [])) /\
  (forall u k u' k' n, lag u k = Some n -> lag u' k' = Some n -> u = u' /\ k = k').
(** the inputs of the body at step [t] after history [hist] *)
Definition body_inputs (lag : nat -> Z -> option nat) (seqs : nat -> nat -> R) (t : nat) (hist : nat -> Z -> option R) (i : nat -> R) : Prop :=
  (forall u k n, lag u k = Some n -> hist u k = Some (i n)) /\ (forall n, (forall u k, lag u k <> Some n) -> i n = seqs t n).
(** the outputs have their current values *)
Definition body_outputs (outs : list nat) (hist : nat -> Z -> option R) (rho : nat -> option R) : Prop :=
  (forall u o, nth_error outs u = Some o -> rho o = hist u 0%Z) /\ (forall n, ~ In n outs -> rho n = None).
(** [D t v hist] is the density of output [v] at its current value, with the
    parameters that the body computes from the earlier and current values; at the given
    values of the series *)
Definition body_density (g : heap) (outs : list nat) (lag : nat -> Z -> option nat) (seqs : nat -> nat -> R)
    (M : sem R (res xr)) (D : nat -> nat -> (nat -> Z -> option R) -> R) (vars : list (svar R)) (L : nat -> nat) (N : nat) : Prop :=
  forall t v o i rho, t < N -> nth_error outs v = Some o ->
    body_inputs lag seqs t (history vars L t) i -> body_outputs outs (history vars L t) rho ->
    exists draw y, model_factor (with_inputs M i draw) g rho o None y /\ denotes y (D t v (history vars L t)).
