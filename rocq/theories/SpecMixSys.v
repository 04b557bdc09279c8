(** Mixtures and entries of stacks by their meaning. *)
From Coq Require Import Reals List.
From Verif Require Import XR ModelNest ModelSys SpecSys ModelStack SpecStack ModelMixSys.
Import ListNotations.
Open Scope R_scope.

(** The operations mean what their roles say.  (Indices are integers; numbers
    that are not select what the nearest integer selects, so that the value
    does not jump at the points considered.) *)
Definition roles_ok (kind : nat -> role) (fs : nat -> list xr -> xr) : Prop :=
  (forall k, kind k = Select -> forall s i rs r, Rabs (s - INR i) < / 2 -> nth_error rs i = Some r -> fs k (map Fin (s :: rs)) = Fin r) /\
  (forall k i, kind k = Entry i -> forall rs r, nth_error rs i = Some r -> fs k (map Fin rs) = Fin r).

(** [a] is entry [e] of a requested stack *)
Definition entry_of (kind : nat -> role) (h : list snode) (qs : list request) (a e : nat) : Prop :=
  exists k l xs i, nth_error h a = Some (SOther k l) /\ kind k = Entry i /\ In (QStack l xs) qs /\ nth_error l i = Some e.
(** [M] lists the nodes whose values are given: the requested nodes and the entries of requested stacks *)
Definition given_nodes (kind : nat -> role) (h : list snode) (qs : list request) (M : list nat) : Prop :=
  forall a, In a M <-> In a (q_req qs) \/ exists e, entry_of kind h qs a e.

(** node [v] is a mixture with index [idx] of the components [comps] *)
Definition mixture_node (kind : nat -> role) (h : list snode) (v idx : nat) (comps : list nat) : Prop :=
  exists k, nth_error h v = Some (SOther k (idx :: comps)) /\ kind k = Select.
