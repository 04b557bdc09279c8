(** What the registries of transformed operations should satisfy. *)
From Coq Require Import Reals List Arith Bool String.
From Verif Require Import XR ModelTop.
Import ListNotations.
Open Scope nat_scope.

(** the state after importing the libraries: classes after their bases, aeppl's
    log-probabilities registered, no transformed classes yet *)
Definition fresh_state (s : tstate) : Prop :=
  (forall c k, nth_error (classes s) c = Some k -> c_transform k = None /\ forall b, c_base k = Some b -> b < c) /\
  (forall c i, In (c, i) (lp_reg s) -> c < List.length (classes s) /\ exists k, i = IBase k) /\ dt_reg s = [].
(** any number of calls, also on the ops that earlier calls made *)
Inductive reachable : tstate -> Prop :=
| r_start s : fresh_state s -> reachable s
| r_create s o t n d s' o' : reachable s -> create s o t n d = Some (s', o') -> reachable s'.
(** [a] is [c] or one of its base classes, at any distance *)
Inductive ancestor (s : tstate) : nat -> nat -> Prop :=
| an_self c k : nth_error (classes s) c = Some k -> ancestor s c c
| an_base c k b a : nth_error (classes s) c = Some k -> c_base k = Some b -> ancestor s b a -> ancestor s c a.
(** [a] is the nearest base class of [c] (or itself) with the property *)
Inductive nearest (s : tstate) (P : nat -> Prop) : nat -> nat -> Prop :=
| ne_self c k : nth_error (classes s) c = Some k -> P c -> nearest s P c c
| ne_base c k b a : nth_error (classes s) c = Some k -> ~ P c -> c_base k = Some b -> nearest s P b a -> nearest s P c a.
Definition exists_class (s : tstate) (c : nat) : Prop := c < List.length (classes s).
(** sum of two results *)
Definition plus (a b : res xr) : res xr := match a, b with Val x, Val y => Val (xadd x y) | _, _ => Raise end.
