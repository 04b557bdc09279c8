(** Properties C16, C40, C43: walks and guards of rewrites. *)
From Coq Require Import List Arith Lia.
From Verif Require Import ModelWalk SpecWalk LemWalk.
Import ListNotations.
Open Scope nat_scope.

(** ** C40 *)
Theorem C40_walk : forall g graphs past stop, NoDup (walk_model g graphs past stop (fun _ => [])) /\
  forall v, In v (walk_model g graphs past stop (fun _ => [])) <-> visited g graphs past stop (fun _ => []) v.
Proof. intros g graphs past stop. exact (walk_model_spec g graphs past stop (fun _ => []) (fun v _ => eq_refl)). Qed.
Print Assumptions C40_walk.
(** also with further variables to visit *)
Theorem C40_walk_extra : forall g graphs past stop extra, (forall v, length g <= v -> extra v = []) ->
  NoDup (walk_model g graphs past stop extra) /\
  forall v, In v (walk_model g graphs past stop extra) <-> visited g graphs past stop extra v.
Proof. exact walk_model_spec. Qed.
Print Assumptions C40_walk_extra.
Definition op_ (l : list nat) := Some {| o_meas := false; o_valued := false; o_normal := false; o_args := l |}.
Definition rv_ (l : list nat) := Some {| o_meas := true; o_valued := false; o_normal := false; o_args := l |}.
Definition normal_ (l : list nat) := Some {| o_meas := true; o_valued := false; o_normal := true; o_args := l |}.
Definition valued_ (l : list nat) := Some {| o_meas := true; o_valued := true; o_normal := false; o_args := l |}.
(** a, x ~ (a), f(x), g(x, f), h(g, x): in order; through x; stopping at f and at g *)
Example C40_case : let g := [None; rv_ [0]; op_ [1]; op_ [1; 2]; op_ [3; 1]] in
  walk_model g [4] false [] (fun _ => []) = [4; 3; 1; 2] /\ walk_model g [4; 2] true [] (fun _ => []) = [2; 1; 0; 4; 3] /\
  walk_model g [4] false [3] (fun _ => []) = [4; 3; 1] /\ visited g [4] true [] (fun _ => []) 0.
Proof.
  split; [reflexivity|]. split; [reflexivity|]. split; [reflexivity|].
  eapply (vi_input _ _ _ _ _ 1); [|reflexivity|left; easy|easy|cbn; auto].
  eapply (vi_input _ _ _ _ _ 4); [constructor; cbn; auto|reflexivity|left; easy|easy|cbn; auto].
Qed.

(** ** C16 *)
(** the rewrite applies exactly when one input is an un-valued random quantity
    (of a dtype whose name does not start with "int") and nothing else depends
    on any *)
Theorem C16_single_source : forall g int_dtype inputs m others, construct_elemwise g int_dtype inputs = Some (m, others) <->
  unvalued_random g m /\ int_dtype m = false /\
  exists l1 l2, inputs = l1 ++ m :: l2 /\ others = l1 ++ l2 /\ (forall x, In x others -> ~ stochastic g x).
Proof. exact construct_iff. Qed.
Print Assumptions C16_single_source.
(** two stochastic inputs, possibly the same variable twice, are refused *)
Theorem C16_two_sources : forall g int_dtype inputs i j x y, i <> j -> nth_error inputs i = Some x -> nth_error inputs j = Some y ->
  stochastic g x -> stochastic g y -> construct_elemwise g int_dtype inputs = None.
Proof. exact construct_two. Qed.
Print Assumptions C16_two_sources.
Theorem C16_sub : forall g int_dtype a b, closed g -> a < length g -> b < length g ->
  (measurable_sub g int_dtype a b <> None <->
   (unvalued_random g a /\ int_dtype a = false /\ ~ stochastic g b) \/ (unvalued_random g b /\ int_dtype b = false /\ ~ stochastic g a)).
Proof. exact sub_iff. Qed.
Print Assumptions C16_sub.
Theorem C16_true_divide : forall g int_dtype a b, closed g -> a < length g -> b < length g ->
  (measurable_true_divide g int_dtype a b <> None <->
   (unvalued_random g a /\ int_dtype a = false /\ ~ stochastic g b) \/ (unvalued_random g b /\ int_dtype b = false /\ ~ stochastic g a)).
Proof. exact div_iff. Qed.
Print Assumptions C16_true_divide.
(** x, its value node, y of x, f(y), f(value of x): x + x, x * y, x + f(y) and
    y + f(y) are refused; x + c and y + f(value of x) are accepted *)
Example C16_case : let g := [None; rv_ [0]; valued_ [1; 0]; rv_ [1]; op_ [3]; op_ [2]] in
  closed g /\ construct_elemwise g (fun _ => false) [1; 1] = None /\ construct_elemwise g (fun _ => false) [1; 3] = None /\
  construct_elemwise g (fun _ => false) [1; 4] = None /\ construct_elemwise g (fun _ => false) [4; 3] = None /\
  construct_elemwise g (fun _ => false) [0; 1] = Some (1, [0]) /\ construct_elemwise g (fun _ => false) [3; 5] = Some (3, [5]) /\
  stochastic g 4 /\ measurable_sub g (fun _ => false) 5 3 <> None /\ measurable_sub g (fun _ => false) 1 1 = None /\
  measurable_true_divide g (fun _ => false) 0 3 <> None /\ measurable_true_divide g (fun _ => false) 3 4 = None.
Proof.
  split. { intros [|[|[|[|[|[|v]]]]]] o a E I; cbn in E; try discriminate; [..|destruct v; discriminate]; injection E as <-; cbn in I; cbn; intuition lia. }
  repeat (split; [reflexivity|]). split.
  { exists 3. split; [eapply cf_step; [reflexivity|easy|cbn; auto|constructor]|]. eexists. split; [reflexivity|easy]. }
  repeat split; try reflexivity; discriminate.
Qed.

(** ** C43 *)
(** what the rewrite does check *)
Theorem C43_guard_partial : forall g inputs,
  (forall v o, nth_error g v = Some (Some o) -> o_normal o = true -> o_meas o = true /\ o_valued o = false) ->
  add_normals_applies g inputs = true ->
  2 <= length inputs /\ forall v, In v inputs -> unvalued_random g v /\ exists o, nth_error g v = Some (Some o) /\ o_normal o = true.
Proof. exact normals_guard. Qed.
Print Assumptions C43_guard_partial.
(** x + x *)
Theorem C43_same_refuted : exists g inputs, closed g /\ add_normals_applies g inputs = true /\ ~ NoDup inputs.
Proof.
  exists [None; normal_ [0]], [1; 1].
  split. { intros [|[|v]] o a E I; cbn in E; try discriminate; [|destruct v; discriminate]; injection E as <-; cbn in I; cbn; lia. }
  split; [reflexivity|]. intros N. inversion N as [|x l H]; subst. apply H. left. easy.
Qed.
Print Assumptions C43_same_refuted.
(** x + y where y is computed from x *)
Theorem C43_dependent_refuted : exists g inputs, closed g /\ add_normals_applies g inputs = true /\ NoDup inputs /\ ~ independent g inputs.
Proof.
  exists [None; normal_ [0]; normal_ [1]], [1; 2].
  split. { intros [|[|[|v]]] o a E I; cbn in E; try discriminate; [..|destruct v; discriminate]; injection E as <-; cbn in I; cbn; lia. }
  split; [reflexivity|]. split; [repeat constructor; cbn; intuition discriminate|]. intros (_ & H).
  apply (H 2 1); [cbn; auto|cbn; auto|discriminate|]. eapply cf_step; [reflexivity|easy|cbn; auto|constructor].
Qed.
Print Assumptions C43_dependent_refuted.
