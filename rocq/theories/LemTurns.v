(** Full turns of values given by the circular transform. *)
From Coq Require Import Reals Lra List Arith Bool.
From Verif Require Import XR ModelDist ModelVec ModelTrans LemTrans LemTrans2 ModelJoint ModelNest ModelSys ModelSysT SpecTurns.
Import ListNotations.
Open Scope R_scope.

Lemma turned_back (x : R) n : backward TCircular (Fin (x + 2 * IZR n * PI)) = backward TCircular (Fin x).
Proof. cbn [backward]. now destruct (sin_2kPI x n) as [-> ->]. Qed.

Section Same.
Variable ddt : nat -> dtype.
Variable fs : nat -> list xr -> xr.
Variable dlp : nat -> list xr -> xr -> res xr.
Variable h : list snode.
Variable req : list nat.
Variable tf : nat -> option (list xr -> tr).
Variables z z' : nat -> xr.
Hypothesis same : forall v, turned tf z z' v.

Lemma turned_untransformed y v : untransformed ddt fs h req tf z y v = untransformed ddt fs h req tf z' y v.
Proof.
  unfold untransformed. destruct (same v) as [<-|(f & T & C & x & n & E & E')]; [reflexivity|]. rewrite T, E, E', C, turned_back. reflexivity.
Qed.
Lemma turned_values n : values ddt fs h req tf z n = values ddt fs h req tf z' n.
Proof. induction n as [|n IH]; [reflexivity|]. cbn [values]. now rewrite IH, turned_untransformed. Qed.
Lemma turned_value_of : value_of ddt fs h req tf z = value_of ddt fs h req tf z'.
Proof. unfold value_of. now rewrite turned_values. Qed.
Lemma turned_conditional uj before v : conditional_trans ddt fs dlp h req tf uj z before v = conditional_trans ddt fs dlp h req tf uj z' before v.
Proof.
  unfold conditional_trans. rewrite turned_value_of. destruct (conditional ddt fs dlp h req (value_of ddt fs h req tf z') v) as [r|]; [|reflexivity].
  destruct (same v) as [<-|(f & T & C & x & n & E & E')]; [reflexivity|]. rewrite T, E, E'. cbv zeta. rewrite C, turned_back. reflexivity.
Qed.
Lemma turned_conditionals uj l : forall before, conditionals_trans ddt fs dlp h req tf uj z before l = conditionals_trans ddt fs dlp h req tf uj z' before l.
Proof. induction l as [|v l IH]; intros before; [reflexivity|]. cbn [conditionals_trans]. now rewrite turned_conditional, IH. Qed.
Lemma turned_joint uj : joint_trans ddt fs dlp h req tf uj z = joint_trans ddt fs dlp h req tf uj z'.
Proof. unfold joint_trans. now rewrite turned_conditionals. Qed.
End Same.
