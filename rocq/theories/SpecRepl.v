(** Specification for C39: expressions with variables replaced. *)
From Coq Require Import List Arith.
From Verif Require Import ModelJoint ModelRepl.
Import ListNotations.
Open Scope nat_scope.

(** expressions over variables without owner *)
Inductive tree := Leaf (v : nat) | Node (f : nat) (m : bool) (l : list tree).

(** the expression a variable stands for, every variable [v] with
    [dget R v = Some r] standing for what [r] stands for *)
Inductive stands (h : rheap) (R : list (nat * nat)) : nat -> tree -> Prop :=
| st_rep : forall v r t, dget R v = Some r -> stands h R r t -> stands h R v t
| st_in : forall v ps, dget R v = None -> nth_error h v = Some (rn NIn ps) -> stands h R v (Leaf v)
| st_op : forall v f m ps l, dget R v = None -> nth_error h v = Some (rn (NOp f m) ps) -> stands_all h R ps l -> stands h R v (Node f m l)
with stands_all (h : rheap) (R : list (nat * nat)) : list nat -> list tree -> Prop :=
| sa_nil : stands_all h R [] []
| sa_cons : forall p ps t l, stands h R p t -> stands_all h R ps l -> stands_all h R (p :: ps) (t :: l).

(** [v] depends on [w] along a path whose inner variables are not in [keys] *)
Inductive leads (h : rheap) (keys : list nat) : nat -> nat -> Prop :=
| le_refl : forall v, leads h keys v v
| le_step : forall v nd a w, nth_error h v = Some nd -> ~ In v keys -> In a (r_args nd) -> leads h keys a w -> leads h keys v w.

(** a graph: inputs of nodes come before them, variables without owner have none *)
Definition rgraph (h : rheap) : Prop :=
  forall v nd, nth_error h v = Some nd -> (r_op nd = NIn -> r_args nd = []) /\ forall a, In a (r_args nd) -> a < v.
(** replacements: distinct variables of the graph by variables of the graph *)
Definition replacements (h : rheap) (R : list (nat * nat)) : Prop :=
  NoDup (map fst R) /\ forall a r, In (a, r) R -> a < length h /\ r < length h.
(** no replacement value contains a variable replaced at the same time or
    earlier *)
Definition later_only (h : rheap) (R : list (nat * nat)) : Prop :=
  forall i j a r a' r', nth_error R i = Some (a, r) -> nth_error R j = Some (a', r') -> j <= i -> ~ leads h (map fst R) r a'.
