(** Specification for indexed random variables in bodies of scans (C74). *)
From Coq Require Import List Arith.
From Verif Require Import XR ModelJoint ModelGraph SpecGraph.
Import ListNotations.
Open Scope nat_scope.

(** [v] is a random variable of family [d] or an entry of one, and what it
    reads: parameters, and the indices *)
Inductive entry_of (takes : nat -> bool) (g : heap) : nat -> nat -> nat -> list nat -> Prop :=
| en_rv v r d ps : nth_error g v = Some (mk (ORv r d) ps) -> entry_of takes g v r d ps
| en_take v f a idx r d ps : nth_error g v = Some (mk (ODet f) (a :: idx)) -> takes f = true -> entry_of takes g a r d ps -> entry_of takes g v r d (ps ++ idx).
(** [g'] is [g] with entries of random variables as random variables *)
Definition with_entries (takes : nat -> bool) (g g' : heap) : Prop :=
  length g' = length g /\
  (forall v r d ps, entry_of takes g v r d ps -> nth_error g' v = Some (mk (ORv r d) ps)) /\
  (forall v, (forall r d ps, ~ entry_of takes g v r d ps) -> nth_error g' v = nth_error g v).
