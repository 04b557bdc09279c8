(** Models with missing data: [set_subtensor(X[idx], data)] stands for X with
    the entries at idx observed. *)
From Coq Require Import List Arith.
From Verif Require Import XR ModelTen ModelElsV SpecElsV.
Import ListNotations.
Open Scope nat_scope.

(** the value of a constant, a requested variable or an operation on these *)
Inductive computed (afs : nat -> list (nd xr) -> nd xr) (h : list vnode) (req : list nat) (y : nat -> nd xr) : nat -> nd xr -> Prop :=
| cp_req v : In v req -> computed afs h req y v (y v)
| cp_con v c : ~ In v req -> nth_error h v = Some (VCon c) -> computed afs h req y v c
| cp_op v k l xs : ~ In v req -> nth_error h v = Some (VOther k l) -> Forall2 (computed afs h req y) l xs -> computed afs h req y v (afs k xs).

Section Missing.
Variable afs : nat -> list (nd xr) -> nd xr.
Variable puts : nat -> option (list (nd xr) -> nd xr).
Variable h : list vnode.
Variable req : list nat.
Variable y : nat -> nd xr.
(** the requested variable [v] is no assignment *)
Definition direct (v : nat) : Prop := forall k x l, nth_error h v = Some (VOther k (x :: l)) -> puts k = None.
(** The requested variable [v] assigns the values [ds] of the nodes [l] to
    entries of [x], which has no other use and is not requested itself; the
    values of [x] are those of [v] with the data filled in, and filling them in
    again changes nothing.  [req'] and [y'] are variables and values of the
    completed model. *)
Definition completes (req' : list nat) (y' : nat -> nd xr) (v x : nat) : Prop :=
  exists k l over ds, nth_error h v = Some (VOther k (x :: l)) /\ puts k = Some over /\ ~ In x req /\ ~ In x l /\
    (forall w nd, nth_error h w = Some nd -> In x (vinputs nd) -> w = v) /\
    Forall2 (computed afs h req' y') l ds /\ y' x = over (y v :: ds) /\ afs k (over (y v :: ds) :: ds) = over (y v :: ds).
End Missing.
