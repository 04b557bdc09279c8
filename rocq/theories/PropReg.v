(** Property C41: the registry of measurable outputs. *)
From Coq Require Import List Arith Lia.
From Verif Require Import XR ModelReg SpecReg LemReg.
Import ListNotations.
Open Scope nat_scope.

(** a node that was marked: the same function again gives it back, any other raises *)
Theorem C41_remark_partial : forall hp H s ns n f s1 n1 s2 ns2, reachable hp H (s, ns) -> In n ns -> assign hp H s n f = Val (s1, n1) ->
  later hp H (s1, n1 :: ns) (s2, ns2) -> no_collision hp H s2 ->
  assign hp H s2 n1 f = Val (s2, n1) /\ forall g, g <> f -> assign hp H s2 n1 g = Raise.
Proof. exact remark. Qed.
Print Assumptions C41_remark_partial.
(** no later call changes the measurable outputs of a node *)
Theorem C41_outputs_kept_partial : forall hp H mro meas F s ns s2 ns2, reachable hp H (s, ns) -> later hp H (s, ns) (s2, ns2) -> no_collision hp H s2 ->
  forall n, In n ns -> get_measurable_outputs hp H mro meas F s2 n = get_measurable_outputs hp H mro meas F s n /\
                       get_measurable_outputs hp H mro meas F s n <> None.
Proof. exact outputs_kept. Qed.
Print Assumptions C41_outputs_kept_partial.
(** a marked node has the outputs its function gives *)
Theorem C41_marked_outputs_partial : forall hp H mro meas F s ns n f s1 n1 s2 ns2, reachable hp H (s, ns) -> In n ns -> assign hp H s n f = Val (s1, n1) ->
  later hp H (s1, n1 :: ns) (s2, ns2) -> no_collision hp H s2 ->
  exists t, ty_of s n = Some t /\ get_measurable_outputs hp H mro meas F s2 n1 = Some (if is_measurable meas t then F f (a_outs n1) else Some []).
Proof. exact marked_outputs. Qed.
Print Assumptions C41_marked_outputs_partial.
(** hashes decide: with any hash of finitely many values there are histories
    that change the outputs of an earlier node *)
Theorem C41_collision_refuted : forall hp H B, (forall x y z, H x y z < B) -> exists s ns n s2 ns2 mro meas F,
  reachable hp H (s, ns) /\ later hp H (s, ns) (s2, ns2) /\ In n ns /\
  get_measurable_outputs hp H mro meas F s2 n <> get_measurable_outputs hp H mro meas F s n.
Proof. exact collision. Qed.
Print Assumptions C41_collision_refuted.

(** one op marked with functions 2 and 3, then a marked node again with 2 *)
Example C41_case : let H := fun x y z => z in let n := {| a_op := 0; a_outs := [0; 1] |} in
  let o t := {| o_ty := t; o_props := 7 |} in
  let gmo := get_measurable_outputs (fun k => k) H (fun k => [k]) (fun _ => true) (fun f l => if f =? 2 then None else Some (skipn 1 l)) in
  let s0 := {| ops := [o (Plain 4)]; reg := [(Plain 4, 1)]; fresh := 2 |} in
  reachable (fun k => k) H (s0, [n]) /\
  exists s1 n1 s2 n2, assign (fun k => k) H s0 n 2 = Val (s1, n1) /\ assign (fun k => k) H s1 n 3 = Val (s2, n2) /\
    later (fun k => k) H (s0, [n]) (s2, [n2; n1; n]) /\ no_collision (fun k => k) H s2 /\
    assign (fun k => k) H s2 n1 2 = Val (s2, n1) /\ assign (fun k => k) H s2 n1 3 = Raise /\
    gmo s2 n = Some (Some [1]) /\ gmo s2 n1 = Some None /\ gmo s2 n2 = Some (Some [5]).
Proof.
  cbv zeta. split.
  - eexists ({| ops := []; reg := map (fun p => (Plain (fst p), snd p)) [(4, 1)]; fresh := 0 |}, []). split; [exists [(4, 1)], 0; easy|].
    eapply la_step; [eapply la_step; [apply la_refl|apply (ev_op _ _ _ _ 4 7)]|]. exact (ev_node _ _ {| ops := [{| o_ty := Plain 4; o_props := 7 |}]; reg := [(Plain 4, 1)]; fresh := 0 |} [] 0 2 (le_n 1)).
  - eexists _, _, _, _. split; [reflexivity|]. split; [reflexivity|]. split.
    { eapply la_step; [eapply la_step; [apply la_refl|eapply (ev_mark _ _ _ _ _ 2); [left; reflexivity|reflexivity]]|eapply (ev_mark _ _ _ _ _ 3); [right; left; reflexivity|reflexivity]]. }
    split; [intros i j b p f b' p' f' q q' _ _ E; exact E|]. repeat split; reflexivity.
Qed.
