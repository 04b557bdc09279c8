(** A model of arrays spelled out element by element: a model of scalars with
    one node per element of every array. *)
From Coq Require Import Reals List Arith.
From Verif Require Import XR ModelIdx SpecIdx ModelTen ModelSub ModelNest ModelSys SpecSys ModelEls.
Import ListNotations.
Open Scope nat_scope.

Definition ginputs (nd : gnode) : list nat :=
  match nd with GCon _ => [] | GRv _ _ l | GMany _ l | GOther _ l => l | GOne _ a => [a] | GSub a b | GDiv a b => [a; b] end.
Definition gacyclic (h : list gnode) : Prop := forall v nd a, nth_error h v = Some nd -> In a (ginputs nd) -> a < v.

(** [sh v] is the shape of node [v]: Elemwise nodes have the broadcast shape of
    their inputs, the parameters of a random variable broadcast to its shape,
    the shapes of the results of other operations depend on the shapes of
    their arguments only *)
Definition well_shaped (afs : nat -> list (nd xr) -> nd xr) (h : list gnode) (sh : nat -> list nat) : Prop :=
  forall v nd, nth_error h v = Some nd ->
  match nd with
  | GCon c => nshp c = sh v
  | GRv _ s ps => s = sh v /\ forall p, In p ps -> is_broadcast [sh p; sh v] (sh v)
  | GOne _ a => sh v = sh a
  | GMany _ l => is_broadcast (map sh l) (sh v)
  | GSub a b | GDiv a b => is_broadcast [sh a; sh b] (sh v)
  | GOther k l => forall args, map nshp args = map sh l -> nshp (afs k args) = sh v
  end.
(** the elements of node [v] are numbered by [ix v] *)
Definition elements_of (sh : nat -> list nat) (ix : nat -> list nat -> nat) (v : nat) : list nat := map (ix v) (positions (sh v)).
(** the scalar node that computes the element [i] of node [v] *)
Definition element_node (afs : nat -> list (nd xr) -> nd xr) (fs : nat -> list xr -> xr) (sh : nat -> list nat) (ix : nat -> list nat -> nat)
  (v : nat) (i : list nat) (nd : gnode) (e : snode) : Prop :=
  let at_ a j := aligned (sh a) i j in
  match nd with
  | GCon c => e = SCon (nelt c i)
  | GRv d _ ps => exists l, e = SRv d l /\ Forall2 (fun p n => exists j, at_ p j /\ n = ix p j) ps l
  | GOne u a => e = SOne u (ix a i)
  | GMany n l => exists m, e = SMany n m /\ Forall2 (fun a n => exists j, at_ a j /\ n = ix a j) l m
  | GSub a b => exists j k, at_ a j /\ at_ b k /\ e = SSub (ix a j) (ix b k)
  | GDiv a b => exists j k, at_ a j /\ at_ b k /\ e = SDiv (ix a j) (ix b k)
  | GOther k l => exists k', e = SOther k' (flat_map (elements_of sh ix) l) /\
      forall args, map nshp args = map sh l -> fs k' (flat_map (fun a => map (nelt a) (positions (nshp a))) args) = nelt (afs k args) i
  end.
(** [g] has one node for every element of every node of [h] *)
Record spelled_out (afs : nat -> list (nd xr) -> nd xr) (fs : nat -> list xr -> xr) (h : list gnode) (sh : nat -> list nat)
  (g : list snode) (ix : nat -> list nat -> nat) : Prop := {
  so_node : forall v nd i, nth_error h v = Some nd -> inside (sh v) i ->
    exists e, nth_error g (ix v i) = Some e /\ element_node afs fs sh ix v i nd e;
  so_inj : forall v w i j, v < length h -> w < length h -> inside (sh v) i -> inside (sh w) j -> ix v i = ix w j -> v = w /\ i = j }.
(** no array is empty *)
Definition nonempty (h : list gnode) (sh : nat -> list nat) : Prop := forall v, v < length h -> ~ In 0 (sh v).
(** two lists of arrays with the same shapes and elements *)
Definition same_arrays (a b : list (nd xr)) : Prop :=
  Forall2 (fun a b => nshp a = nshp b /\ forall i, inside (nshp a) i -> nelt a i = nelt b i) a b.
(** the other operations read their arguments inside the shapes only *)
Definition reads_inside (afs : nat -> list (nd xr) -> nd xr) : Prop :=
  forall k a b i, same_arrays a b -> inside (nshp (afs k a)) i -> nelt (afs k a) i = nelt (afs k b) i.
