(** Dependence between the nodes of a model. *)
From Coq Require Import Reals List.
From Verif Require Import XR ModelNest ModelSys SpecSys ModelStack.
Import ListNotations.
Open Scope nat_scope.

(** all the variables whose values are given: requested nodes and elements of stacks *)
Definition q_vars (qs : list request) : list nat := flat_map (fun q => match q with QVar v => [v] | QStack l _ => l end) qs.
(** the elements of the requested stacks *)
Definition q_elems (qs : list request) : list nat := flat_map (fun q => match q with QVar _ => [] | QStack l _ => l end) qs.

(** [needs v b]: [v] is computed from [b], on a path along which no other node is requested *)
Inductive needs (h : list snode) (req : list nat) : nat -> nat -> Prop :=
| n_in v nd b : nth_error h v = Some nd -> In b (node_inputs nd) -> needs h req v b
| n_step v nd a b : nth_error h v = Some nd -> In a (node_inputs nd) -> ~ In a req -> needs h req a b -> needs h req v b.
