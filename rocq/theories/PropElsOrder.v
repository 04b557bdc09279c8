(** C99: the order of the rewrites in whole models of arrays. *)
From Coq Require Import Reals List Arith Bool Lia.
From Verif Require Import XR ModelVec ModelJoint ModelTen ModelElem ModelNest ModelEls ModelElsV SpecElsV PropEls PropElsV ModelElsOrder LemElsOrder.
Import ListNotations.
Open Scope nat_scope.

(** A run has at most one rewrite per node. *)
Theorem C99_bound : forall ddt afs h req y n st, run ddt afs h req y n (start h) st -> n <= length h.
Proof. exact v_order_bound. Qed.
Print Assumptions C99_bound.
(** Every run can be completed. *)
Theorem C99_extends : forall ddt afs h req y n st, run ddt afs h req y n (start h) st ->
  exists k st', run ddt afs h req y k st st' /\ complete ddt afs h req y st'.
Proof. exact (fun ddt afs h req y n st _ => v_order_extends ddt afs h req y _ st (le_n _)). Qed.
Print Assumptions C99_extends.
(** Complete runs agree on which nodes are measurable, and on their forms. *)
Theorem C99_agree : forall ddt afs h req y n st k st', no_empty h -> vacyclic h ->
  run ddt afs h req y n (start h) st -> complete ddt afs h req y st -> run ddt afs h req y k (start h) st' -> complete ddt afs h req y st' ->
  forall v, v < length h -> st v = st' v.
Proof.
  exact (fun ddt afs h req y n st k st' NE Ac R C R' C' v L =>
    eq_trans (v_order_form ddt afs h NE req y Ac n st R C v L) (eq_sym (v_order_form ddt afs h NE req y Ac k st' R' C' v L))).
Qed.
Print Assumptions C99_agree.
(** A form found at any moment of any run is the one of every complete run. *)
Theorem C99_stable : forall ddt afs h req y n st k st' v m, no_empty h -> vacyclic h ->
  run ddt afs h req y n (start h) st -> st v = Some m -> run ddt afs h req y k (start h) st' -> complete ddt afs h req y st' -> st' v = Some m.
Proof. exact v_order_final. Qed.
Print Assumptions C99_stable.
(** So every complete run gives the joint log-probability of which C91, C95 and
    C98 speak. *)
Theorem C99_joint : forall ddt afs dlp h req y n st, no_empty h -> vacyclic h -> (forall v, In v req -> v < length h) ->
  run ddt afs h req y n (start h) st -> complete ddt afs h req y st -> found_joint ddt afs dlp h req y st = v_joint ddt afs dlp h req y.
Proof. exact (fun ddt afs dlp h req y n st NE Ac L R C => v_order_joint ddt afs h NE dlp req y Ac n st R C L). Qed.
Print Assumptions C99_joint.

(** stack([exp(X), exp(Z)]): either exponential may be rewritten first *)
Definition oe_h : list vnode := [VCon (ex_num (Fin 0)); VCon (ex_num (Fin 1)); VRv 0 [] [0; 1]; VRv 0 [] [0; 1]; VOne UExp 2; VOne UExp 3; VVec [4; 5]].
Definition oe_y (_ : nat) : nd xr := {| nshp := [2]; nelt := fun _ => Fin 1 |}.
Definition oe_x (v : nat) : vexpr := WElem (GFun UExp) (WBase v).
Definition oe_end (a b : nat) : progress := put (put (put (start oe_h) a (oe_x (a - 2))) b (oe_x (b - 2))) 6 (WVec [oe_x 2; oe_x 3]).
Notation oe_run := (run (fun _ => DFloat) ex_afs oe_h [6] oe_y).
Lemma oe_runs a b : (a = 4 /\ b = 5) \/ (a = 5 /\ b = 4) -> oe_run 3 (start oe_h) (oe_end a b).
Proof.
  intros D. unfold oe_end. eapply r_cons; [|eapply r_cons; [|eapply r_cons; [|apply r_nil]]]; apply st_node; destruct D as [[-> ->]|[-> ->]]; try (cbn; lia); reflexivity.
Qed.
Lemma oe_complete a b : (a = 4 /\ b = 5) \/ (a = 5 /\ b = 4) -> complete (fun _ => DFloat) ex_afs oe_h [6] oe_y (oe_end a b).
Proof.
  intros [[-> ->]|[-> ->]] st' T; inversion T as [st v m L N E]; subst; do 7 (destruct v as [|v]; [cbn in N, E; discriminate|]); cbn in L; lia.
Qed.
Example C99_agree_ex : forall v, v < 7 -> oe_end 4 5 v = oe_end 5 4 v.
Proof.
  apply (C99_agree (fun _ => DFloat) ex_afs oe_h [6] oe_y 3 (oe_end 4 5) 3 (oe_end 5 4)); [| |apply oe_runs; auto|apply oe_complete; auto|apply oe_runs; auto|apply oe_complete; auto].
  - intros v nd E. do 7 (destruct v as [|v]; [injection E as <-; easy|]). now destruct v.
  - intros v nd a E I. do 7 (destruct v as [|v]; [injection E as <-; cbn in I; repeat (destruct I as [<-|I]; [lia|]); destruct I|]). now destruct v.
Qed.
(** the stack cannot be rewritten before both of its parts *)
Example C99_early_ex : rule (fun _ => DFloat) ex_afs oe_h [6] oe_y (put (start oe_h) 4 (oe_x 2)) 6 = None.
Proof. reflexivity. Qed.
