(** Full turns of arrays of values given by the circular transform. *)
From Coq Require Import Reals Lra Lia List Arith Bool FunctionalExtensionality.
From Verif Require Import XR ModelDist ModelVec ModelTen ModelElem ModelTrans LemTrans LemTrans2 ModelJoint ModelNest ModelSys ModelEls SpecEls ModelElsT LemElsT2 SpecTurns LemTurns.
Import ListNotations.
Open Scope nat_scope.

Lemma same_map {B} (f : xr -> B) a a' : (forall x n, f (Fin (x + 2 * IZR n * PI)) = f (Fin x)) -> same_angles a a' -> nd_map f a = nd_map f a'.
Proof.
  intros P [S E]. unfold nd_map. rewrite S. f_equal. extensionality i. destruct (E i) as [->|(x & n & -> & ->)]; [reflexivity|apply P].
Qed.
Lemma same_backward a a' : same_angles a a' -> x_backward XCircular a = x_backward XCircular a'.
Proof. intros S. cbn [x_backward]. f_equal. apply same_map; [|exact S]. intros x n. now destruct (sin_2kPI x n) as [-> ->]. Qed.
Lemma same_jac a a' : same_angles a a' -> x_log_jac_det XCircular a = x_log_jac_det XCircular a'.
Proof. intros S. cbn [x_log_jac_det]. f_equal. apply same_map; [reflexivity|exact S]. Qed.

Section Same.
Variable ddt : nat -> dtype.
Variable afs : nat -> list (nd xr) -> nd xr.
Variable dlp : nat -> list xr -> xr -> res xr.
Variable h : list gnode.
Variable req : list nat.
Variable tf : nat -> option (list (nd xr) -> atr).
Variables z z' : nat -> nd xr.
Hypothesis GA : gacyclic h.
Hypothesis TN : forall v, tf v <> None -> v < length h.
Hypothesis same : forall v, turned_array tf z z' v.

Lemma aturned_untransformed y y' v : (forall q, In q req -> q < v -> y q = y' q) -> g_untransformed ddt afs h req tf z y v = g_untransformed ddt afs h req tf z' y' v.
Proof.
  intros Q. unfold g_untransformed. rewrite (g_operand_ext ddt afs h req GA y y' v Q). destruct (same v) as [<-|(F & T & C & S)]; [reflexivity|]. rewrite T.
  destruct (g_operand_values ddt afs h req y' v) as [l|]; cbn [bind].
  - now rewrite C, (same_backward _ _ S).
  - now destruct S as [-> _].
Qed.
Lemma aturned_values n : g_values ddt afs h req tf z n = g_values ddt afs h req tf z' n.
Proof.
  induction n as [|n IH]; [reflexivity|]. cbn [g_values]. rewrite IH. f_equal. f_equal. apply aturned_untransformed. intros q _ L. apply nth_indep. now rewrite g_values_length.
Qed.
Lemma aturned_value_of : g_value_of ddt afs h req tf z = g_value_of ddt afs h req tf z'.
Proof.
  extensionality v. unfold g_value_of. rewrite aturned_values. destruct (le_lt_dec (length h) v) as [L|L].
  - rewrite !nth_overflow by (rewrite g_values_length; exact L). destruct (same v) as [E|(F & T & _)]; [exact E|]. exfalso. assert (tf v <> None) by now rewrite T. apply TN in H. lia.
  - apply nth_indep. now rewrite g_values_length.
Qed.
Lemma aturned_conditional uj before v : g_conditional_trans ddt afs dlp h req tf uj z before v = g_conditional_trans ddt afs dlp h req tf uj z' before v.
Proof.
  unfold g_conditional_trans. rewrite aturned_value_of. destruct (g_conditional ddt afs dlp h req (g_value_of ddt afs h req tf z') v) as [r|]; [|reflexivity].
  destruct (same v) as [<-|(F & T & C & S)]; [reflexivity|]. rewrite T. f_equal. destruct (g_operand_values _ _ _ _ _ _) as [l|]; [|reflexivity]. cbn [bind]. cbv zeta.
  now rewrite C, (same_backward _ _ S), (same_jac _ _ S).
Qed.
Lemma aturned_conditionals uj l : forall before, g_conditionals_trans ddt afs dlp h req tf uj z before l = g_conditionals_trans ddt afs dlp h req tf uj z' before l.
Proof. induction l as [|v l IH]; intros before; [reflexivity|]. cbn [g_conditionals_trans]. now rewrite aturned_conditional, IH. Qed.
Lemma aturned_joint uj : g_joint_trans ddt afs dlp h req tf uj z = g_joint_trans ddt afs dlp h req tf uj z'.
Proof. unfold g_joint_trans. now rewrite aturned_conditionals. Qed.
End Same.
