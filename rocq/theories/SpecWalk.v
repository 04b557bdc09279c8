(** Specifications for C16, C40, C43. *)
From Coq Require Import List Arith Bool.
From Verif Require Import ModelWalk.
Import ListNotations.
Open Scope nat_scope.

(** the variables a model walk is to visit *)
Inductive visited (g : vgraph) (graphs : list nat) (past : bool) (stop : list nat) (extra : nat -> list nat) : nat -> Prop :=
| vi_root : forall v, In v graphs -> visited g graphs past stop extra v
| vi_input : forall u o v, visited g graphs past stop extra u -> nth_error g u = Some (Some o) ->
    past = true \/ o_meas o = false -> ~ In u stop -> In v (o_args o) -> visited g graphs past stop extra v
| vi_extra : forall u v, visited g graphs past stop extra u -> In v (extra u) -> visited g graphs past stop extra v.

(** inputs of nodes are variables of the graph *)
Definition closed (g : vgraph) : Prop := forall v o a, nth_error g v = Some (Some o) -> In a (o_args o) -> a < length g.

(** an un-valued random quantity *)
Definition unvalued_random (g : vgraph) (v : nat) : Prop :=
  exists o, nth_error g v = Some (Some o) /\ o_meas o = true /\ o_valued o = false.
(** [v] is computed from [w], not only through values given by the user *)
Inductive computed_from (g : vgraph) : nat -> nat -> Prop :=
| cf_refl : forall v, computed_from g v v
| cf_step : forall v o a w, nth_error g v = Some (Some o) -> o_valued o = false -> In a (o_args o) ->
    computed_from g a w -> computed_from g v w.
Definition stochastic (g : vgraph) (v : nat) : Prop := exists w, computed_from g v w /\ unvalued_random g w.

(** ancestors through any node, and independence of the inputs of a sum: no
    two of them are the same variable, and none is computed from another *)
Definition independent (g : vgraph) (inputs : list nat) : Prop :=
  NoDup inputs /\ forall x y, In x inputs -> In y inputs -> x <> y -> ~ computed_from g x y.
