(** C92, C93: full turns of values given by the circular transform. *)
From Coq Require Import Reals Lra Lia List Arith Bool.
From Coquelicot Require Import Coquelicot.
From Verif Require Import XR SpecDist ModelDist LemDist ModelTrans ModelVec SpecVec ModelJoint ModelNest SpecNest LemNest LemNest2 RMx ModelSys SpecSys LemSys LemSys2 LemSys3 ModelSysT LemTrans ModelTen ModelElem ModelEls SpecEls PropEls ModelElsT SpecTurns LemTurns LemTurnsA PropSysT.
Import ListNotations.
Open Scope nat_scope.

(** Values of variables with the circular transform count only up to full turns,
    in whole models, with and without Jacobian terms, whatever the request:
    the joint log-probability of C92_joint_partial is that of the angles. *)
Theorem C92_turns : forall ddt fs dlp h req tf z z', (forall v, turned tf z z' v) ->
  forall use_jacobian, joint_trans ddt fs dlp h req tf use_jacobian z = joint_trans ddt fs dlp h req tf use_jacobian z'.
Proof. exact turned_joint. Qed.
Print Assumptions C92_turns.
Example C92_turns_ex : forall x, (- PI < x < PI)%R -> exists r, joint_trans (fun _ => DFloat) nfs nlp rx [2] cx_tf true (fun v => if v =? 2 then Fin (x + 2 * IZR (-5) * PI) else Fin x) = Some r /\
  denotes r (rprod [normal_pdf 0 1 x] / Rabs (rdet 1 (fun _ _ => 1%R))).
Proof.
  intros x N. rewrite (C92_turns _ _ _ _ _ _ _ (fun _ => Fin x)); [exact (C92_circular_ex x N)|]. intros [|[|[|v]]]; try (left; reflexivity).
  right. exists (fun _ => TCircular). split; [reflexivity|]. split; [reflexivity|]. exists x, (-5)%Z. split; reflexivity.
Qed.

(** Arrays likewise, element by element: any number of the elements may be
    turned, each by its own number of turns.  Transforms are given for nodes of
    the model. *)
Theorem C93_turns : forall ddt afs dlp h req tf z z', gacyclic h -> (forall v, tf v <> None -> v < length h) -> (forall v, turned_array tf z z' v) ->
  forall use_jacobian, g_joint_trans ddt afs dlp h req tf use_jacobian z = g_joint_trans ddt afs dlp h req tf use_jacobian z'.
Proof. exact aturned_joint. Qed.
Print Assumptions C93_turns.
(** X ~ N(0, 1) of shape (2,), given by the circular transform: the first
    element is turned three times forth, the second five times back *)
Definition ct_h : list gnode := [GCon (ex_num (Fin 0)); GCon (ex_num (Fin 1)); GRv 0 [2] [0; 1]].
Definition ct_tf (v : nat) : option (list (nd xr) -> atr) := match v with 2 => Some (fun _ => XCircular) | _ => None end.
Example C93_turns_ex : forall x y use_jacobian, (- PI < x < PI)%R -> (- PI < y < PI)%R -> exists r,
  g_joint_trans (fun _ => DFloat) ex_afs nlp ct_h [2] ct_tf use_jacobian (fun _ => ex_vec (Fin (x + 2 * IZR 3 * PI)) (Fin (y + 2 * IZR (-5) * PI))) = Some r /\
  denotes r (normal_pdf 0 1 x * normal_pdf 0 1 y).
Proof.
  intros x y uj X Y. rewrite (C93_turns _ _ _ _ _ _ _ (fun v => if v =? 2 then ex_vec (Fin x) (Fin y) else ex_vec (Fin (x + 2 * IZR 3 * PI)) (Fin (y + 2 * IZR (-5) * PI)))).
  - assert (D : forall v, exists a, nlp 0 [Fin 0; Fin 1] (Fin v) = Val (Fin a) /\ exp a = normal_pdf 0 1 v).
    { intros v. pose proof (normal_ok 0 1 v ltac:(lra)) as N. unfold nlp. assert (P : (0 < normal_pdf 0 1 v)%R) by (unfold normal_pdf; apply Rmult_lt_0_compat; [apply Rinv_0_lt_compat, Rmult_lt_0_compat; [lra|apply sqrt_lt_R0; pose proof PI_RGT_0; lra]|apply exp_pos]).
      destruct (normal_logprob (Fin 0) (Fin 1) (Fin v)) as [[a| | |]|]; cbn in N; try contradiction; [now exists a|lra]. }
    destruct (D x) as (a & A & EA), (D y) as (b & B & EB). unfold g_joint_trans. cbn -[nlp]. destruct uj; cbn -[nlp factor_sum]; unfold factor_sum; cbn -[nlp]; rewrite !atan2_sincos by lra; rewrite A, B; (eexists; split; [reflexivity|]); cbn;
      rewrite <- EA, <- EB, <- exp_plus; f_equal; lra.
  - intros v nd a E I. destruct v as [|[|[|[|v]]]]; try discriminate E; injection E as <-; cbn in I; intuition lia.
  - intros [|[|[|v]]] T; cbn in *; try lia; now destruct T.
  - intros [|[|[|v]]]; try (left; reflexivity). right. exists (fun _ => XCircular). split; [reflexivity|]. split; [reflexivity|]. split; [reflexivity|].
    intros i. right. cbn [Nat.eqb ex_vec nelt]. destruct (hd 0 i =? 0); [exists x, 3%Z|exists y, (-5)%Z]; now split.
Qed.
