(** Property C39: replacement of random variables in graphs. *)
From Coq Require Import List Arith Lia.
From Verif Require Import ModelJoint ModelWalk ModelRepl SpecRepl LemRepl.
Import ListNotations.
Open Scope nat_scope.

(** the new graphs are the old ones with every replaced variable standing for
    its value, also inside other values, when values contain later variables
    only *)
Theorem C39_replaced_partial : forall h graphs past stop R h' graphs' R', rgraph h -> replacements h R -> later_only h R ->
  (forall v, In v graphs -> v < length h) ->
  rvs_to_value_vars h graphs past stop R = (h', graphs', R') ->
  R' = R /\ length graphs' = length graphs /\
  (forall i o v, nth_error graphs' i = Some o -> nth_error graphs i = Some v -> forall t, stands h' [] o t <-> stands h R v t) /\
  (forall o a, In o graphs' -> In a (map fst R) -> ~ leads h' [] o a) /\
  (forall v, In v graphs -> exists t, stands h R v t).
Proof. exact repl_main. Qed.
Print Assumptions C39_replaced_partial.

(** a chain of variables 2, 3, 4 and a function of the last two; the value of 3
    is a function of 4, whose value is the input 0 *)
Definition rchain : rheap :=
  [rn NIn []; rn NIn []; rn (NOp 1 true) [1]; rn (NOp 2 true) [2]; rn (NOp 3 true) [3]; rn (NOp 8 false) [4; 2]; rn (NOp 9 false) [3; 4]].
Example C39_case : rgraph rchain /\ replacements rchain [(3, 5); (4, 0)] /\ later_only rchain [(3, 5); (4, 0)] /\
  (exists h', rvs_to_value_vars rchain [6] true [] [(3, 5); (4, 0)] = (h', [13], [(3, 5); (4, 0)]) /\
     stands h' [] 13 (Node 9 false [Node 8 false [Leaf 0; Node 1 true [Leaf 1]]; Leaf 0])) /\
  stands rchain [] 6 (Node 9 false [Node 2 true [Node 1 true [Leaf 1]]; Node 3 true [Node 2 true [Node 1 true [Leaf 1]]]]).
Proof.
  split; [intros [|[|[|[|[|[|[|v]]]]]]] nd H; cbn in H; try discriminate; [..|destruct v; discriminate]; injection H as <-; cbn; intuition (subst; try discriminate; lia)|].
  split; [split; [repeat constructor; cbn; intuition discriminate|intros a r [E|[E|[]]]; injection E as <- <-; cbn; lia]|]. split.
  - intros [|[|[|i]]] [|[|[|j]]] a r a' r' H1 H2 L Ld; cbn in H1, H2; try discriminate; try lia; injection H1 as <- <-; injection H2 as <- <-.
    + inversion Ld as [|v nd b w E N I Ld']; subst. cbn in E. injection E as <-. destruct I as [<-|[<-|[]]]; inversion Ld' as [|v nd b w E N' I Ld'']; subst.
      * apply N'. cbn. auto.
      * cbn in E. injection E as <-. destruct I as [<-|[]]. inversion Ld'' as [|v nd b w E N'' I Ld3]; subst. cbn in E. injection E as <-. easy.
    + inversion Ld as [|v nd b w E N I Ld']; subst. cbn in E. injection E as <-. easy.
    + inversion Ld as [|v nd b w E N I Ld']; subst. cbn in E. injection E as <-. easy.
  - split; [eexists; split; [vm_compute; reflexivity|]|].
    + repeat (first [apply st_in with (ps := []); [reflexivity|reflexivity]|eapply st_op; [reflexivity|reflexivity|]|apply sa_cons|apply sa_nil]).
    + repeat (first [apply st_in with (ps := []); [reflexivity|reflexivity]|eapply st_op; [reflexivity|reflexivity|]|apply sa_cons|apply sa_nil]).
Qed.

(** with {B: b, A: f(B)} the variable B is still in the result *)
Theorem C39_order_refuted : exists h graphs R h' graphs' o a, rgraph h /\ replacements h R /\
  rvs_to_value_vars h graphs false [] R = (h', graphs', R) /\ In o graphs' /\ In a (map fst R) /\ leads h' [] o a /\
  (exists t, stands h R 4 t /\ In 4 graphs /\ ~ stands h' [] o t) /\
  later_only h (rev R).
Proof.
  exists [rn NIn []; rn (NOp 1 true) []; rn (NOp 7 false) [1]; rn (NOp 2 true) []; rn (NOp 9 false) [3]], [4], [(1, 0); (3, 2)].
  eexists _, [9], 9, 1.
  split; [intros [|[|[|[|[|v]]]]] nd H; cbn in H; try discriminate; [..|destruct v; discriminate]; injection H as <-; cbn; intuition (subst; try discriminate; lia)|].
  split; [split; [repeat constructor; cbn; intuition discriminate|intros a r [E|[E|[]]]; injection E as <- <-; cbn; lia]|].
  split; [vm_compute; reflexivity|]. split; [cbn; auto|]. split; [cbn; auto|].
  split; [eapply le_step; [reflexivity|easy|left; reflexivity|]; eapply le_step; [reflexivity|easy|left; reflexivity|]; constructor|]. split.
  - exists (Node 9 false [Node 7 false [Leaf 0]]). split; [|split; [cbn; auto|]].
    + eapply st_op; [reflexivity|reflexivity|]. apply sa_cons; [|apply sa_nil]. eapply st_rep; [reflexivity|]. eapply st_op; [reflexivity|reflexivity|].
      apply sa_cons; [|apply sa_nil]. eapply st_rep; [reflexivity|]. apply st_in with (ps := []); reflexivity.
    + intros S. inversion S as [| |v f m ps l D E Sl]; subst; [discriminate|]. cbn in E. injection E as <-.
      inversion Sl as [|p ps t l S' Sl']; subst. inversion S' as [| |v f m ps l D' E' Sl2]; subst; [discriminate|]. cbn in E'. injection E' as <-.
      inversion Sl2 as [|p ps t l S2 Sl3]; subst. inversion S2; subst; discriminate.
  - intros [|[|[|i]]] [|[|[|j]]] a r a' r' H1 H2 L Ld; cbn in H1, H2; try discriminate; try lia; injection H1 as <- <-; injection H2 as <- <-.
    + inversion Ld as [|v nd b w E N I Ld']; subst. cbn in E. injection E as <-. destruct I as [<-|[]]. inversion Ld' as [|v nd b w E N' I Ld'']; subst.
      cbn in E. injection E as <-. easy.
    + inversion Ld as [|v nd b w E N I Ld']; subst. cbn in E. injection E as <-. easy.
    + inversion Ld as [|v nd b w E N I Ld']; subst. cbn in E. injection E as <-. easy.
Qed.
Print Assumptions C39_order_refuted.
(** with {A: A + 1} the variable A is still in the result *)
Theorem C39_self_refuted : exists h graphs a r h' graphs' o, rgraph h /\ replacements h [(a, r)] /\
  rvs_to_value_vars h graphs false [] [(a, r)] = (h', graphs', [(a, r)]) /\ In o graphs' /\ leads h' [] o a.
Proof.
  exists [rn (NOp 1 true) []; rn (NOp 7 false) [0]; rn (NOp 9 false) [0]], [2], 0, 1. eexists _, [5], 5.
  split; [intros [|[|[|v]]] nd H; cbn in H; try discriminate; [..|destruct v; discriminate]; injection H as <-; cbn; intuition (subst; try discriminate; lia)|].
  split; [split; [repeat constructor; cbn; intuition discriminate|intros a r [E|[]]; injection E as <- <-; cbn; lia]|].
  split; [vm_compute; reflexivity|]. split; [cbn; auto|].
  eapply le_step; [reflexivity|easy|left; reflexivity|]. eapply le_step; [reflexivity|easy|left; reflexivity|]. constructor.
Qed.
Print Assumptions C39_self_refuted.
(** the caller's own graph is changed: with {A: a, B: b} and B a function of A,
    the node of B reads [a] afterwards *)
Theorem C39_in_place_refuted : exists h graphs R h' graphs' v, rgraph h /\ replacements h R /\ later_only h R /\
  rvs_to_value_vars h graphs false [] R = (h', graphs', R) /\ v < length h /\ nth_error h' v <> nth_error h v.
Proof.
  exists [rn NIn []; rn NIn []; rn (NOp 1 true) []; rn (NOp 2 true) [2]; rn (NOp 9 false) [3]], [4], [(2, 0); (3, 1)].
  eexists _, [9], 3.
  split; [intros [|[|[|[|[|v]]]]] nd H; cbn in H; try discriminate; [..|destruct v; discriminate]; injection H as <-; cbn; intuition (subst; try discriminate; lia)|].
  split; [split; [repeat constructor; cbn; intuition discriminate|intros a r [E|[E|[]]]; injection E as <- <-; cbn; lia]|]. split.
  - intros [|[|[|i]]] [|[|[|j]]] a r a' r' H1 H2 L Ld; cbn in H1, H2; try discriminate; try lia; injection H1 as <- <-; injection H2 as <- <-;
      inversion Ld as [|v nd b w E N I Ld']; subst; cbn in E; injection E as <-; easy.
  - split; [vm_compute; reflexivity|]. split; [cbn; lia|]. cbn. discriminate.
Qed.
Print Assumptions C39_in_place_refuted.
