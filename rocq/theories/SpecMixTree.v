(** Mixtures of mixtures by their meaning. *)
From Coq Require Import Reals List.
From Verif Require Import XR ModelNest ModelSys SpecSys ModelStack SpecStack ModelMixSys SpecMixSys.
Import ListNotations.
Open Scope nat_scope.

Section Trees.
Variable kind : nat -> role.
Variable h : list snode.
Variable qs : list request.
(** the requested variables, the components of mixtures among them, the
    components of mixtures among those, and so on *)
Inductive member : nat -> Prop :=
| mb_req v : In v (q_req qs) -> member v
| mb_comp v idx comps c : member v -> mixture_node kind h v idx comps -> In c comps -> member c.

Variable ddt : nat -> dtype.
(** the nodes with values *)
Variable M : list nat.
(** computed by invertible operations from one draw, or a mixture of such
    variables and mixtures, none of which has a value *)
Inductive composed : nat -> Prop :=
| cp_chain v b : leads h M v b -> rv_dtype ddt h b <> DInt \/ b = v -> composed v
| cp_mix v idx comps : mixture_node kind h v idx comps -> (forall c, In c comps -> ~ In c M /\ composed c) -> composed v.
End Trees.
