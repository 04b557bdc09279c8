(** C86: the limits of inverses, for chains of transforms as well. *)
From Coq Require Import Reals Lra List.
From Coquelicot Require Import Coquelicot.
From Verif Require Import XR ModelVec ModelTrans SpecTrans SpecTransInf SpecTransLim LemTransLim.
Import ListNotations.
Open Scope R_scope.

(** [backward] computes at infinite values the limit that the textbook inverse
    has there.  Chains may be nested and may contain circular transforms, at
    points where these are inverted. *)
Theorem C86_limits : forall t s p, infinite s -> inverse_at t s p ->
  exists b, Rbar_locally s (fun y => backward t (Fin y) = Val (Fin (b y))) /\ is_lim b s p /\ backward t (xval s) = Val (xval p).
Proof. exact inverse_limit. Qed.
Print Assumptions C86_limits.
(** exp, then minus 3, then over minus 2: from 3/2 down to minus infinity *)
Definition fall : tr := TChain [TScale (Fin (-2)); TChain [TLoc (Fin 3); TLog]].
Example C86_limits_ex : inverse_at fall p_infty m_infty /\ inverse_at fall m_infty (Finite (3 / 2)) /\
  backward fall PInf = Val NInf /\ backward fall NInf = Val (Fin (3 / 2)).
Proof.
  assert (U : inverse_at fall p_infty m_infty).
  { apply (i_cons _ _ _ p_infty).
    - apply (i_cons _ _ _ p_infty); [constructor|]. apply (i_cons _ _ _ p_infty); [|apply i_loc; now left]. apply (i_cons _ _ _ p_infty); constructor.
    - apply (i_scale_neg (-2) p_infty); [now left|lra]. }
  assert (D : inverse_at fall m_infty (Finite (3 / 2))).
  { apply (i_cons _ _ _ (Finite (-3))).
    - apply (i_cons _ _ _ m_infty); [constructor|]. apply (i_cons _ _ _ (Finite 0)); [apply (i_cons _ _ _ m_infty); constructor|]. apply i_fin; [split; simpl; [exact I|ring]|exact I].
    - apply i_fin; [split; simpl; lra|exact I]. }
  destruct (C86_limits fall p_infty m_infty) as (_ & _ & _ & E1); [now left|exact U|].
  destruct (C86_limits fall m_infty (Finite (3 / 2))) as (_ & _ & _ & E2); [now right|exact D|]. repeat split; assumption.
Qed.

(** Inverse and transform undo each other at infinite values, link by link and
    for whole chains. *)
Theorem C86_retraced : forall t s p, retraced t s p -> backward t (xval s) = Val (xval p) /\ forward t (xval p) = Val (xval s).
Proof. exact retraced_ok. Qed.
Print Assumptions C86_retraced.
Example C86_retraced_ex : backward fall NInf = Val (Fin (3 / 2)) /\ forward fall (Fin (3 / 2)) = Val NInf.
Proof.
  apply (C86_retraced fall m_infty (Finite (3 / 2))). apply (r_cons _ _ _ (Finite (-3))).
  - apply (r_cons _ _ _ m_infty); [apply r_nil|]. apply (r_cons _ _ _ (Finite 0)).
    + apply (r_cons _ _ _ m_infty); [apply r_nil|]. apply r_one; [constructor|discriminate|discriminate].
    + apply r_one; [apply i_fin; [split; simpl; [exact I|ring]|exact I]|discriminate|discriminate].
  - apply r_one; [apply i_fin; [split; simpl; lra|exact I]|discriminate|discriminate].
Qed.
