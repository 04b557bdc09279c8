(** Specification for the bodies of scans that are accepted (C74). *)
From Coq Require Import List Arith.
From Verif Require Import XR ModelJoint ModelGraph SpecGraph ModelScanOpts SpecScanBody.
Import ListNotations.
Open Scope nat_scope.

(** a random variable that is not an integer *)
Definition float_rv (discrete : nat -> bool) (g : heap) (x : nat) : Prop :=
  exists rng d ps, nth_error g x = Some (mk (ORv rng d) ps) /\ discrete d = false.
(** [v] is an operation that the rewrites would give a density if it were
    requested, applied to random variables: an invertible operation on one random
    variable and operands that depend on none, a clip or rounding of a random
    variable, or a stack of random variables *)
Definition transforms_draws (kind : nat -> rkind) (discrete : nat -> bool) (g : heap) (v : nat) : Prop :=
  exists f l, nth_error g v = Some (mk (ODet f) l) /\
    match kind f with
    | KNone => False
    | KElem => exists l1 x l2, l = l1 ++ x :: l2 /\ float_rv discrete g x /\ forall b a, In b (l1 ++ l2) -> depends g b a -> ~ random g a
    | KFirst fl => exists x l', l = x :: l' /\ random g x /\ (fl = true -> float_rv discrete g x)
    | KAll => l <> [] /\ forall x, In x l -> random g x
    end.
(** arrays of integers: discrete random variables, clips of such arrays, stacks of them *)
Inductive integers (kind : nat -> rkind) (discrete : nat -> bool) (g : heap) : nat -> Prop :=
| in_rv v rng d ps : nth_error g v = Some (mk (ORv rng d) ps) -> discrete d = true -> integers kind discrete g v
| in_clip v f fl a l : nth_error g v = Some (mk (ODet f) (a :: l)) -> kind f = KFirst fl -> integers kind discrete g a -> integers kind discrete g v
| in_stack v f a l : nth_error g v = Some (mk (ODet f) (a :: l)) -> kind f = KAll -> (forall b, In b (a :: l) -> integers kind discrete g b) -> integers kind discrete g v.
