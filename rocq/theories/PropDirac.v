(** C47: Dirac deltas. *)
From Coq Require Import Reals Lra Lia List Bool.
From Verif Require Import XR ModelVec ModelIdx ModelTen ModelDirac SpecDirac LemDirac.
Import ListNotations.
Open Scope R_scope.

(** elements of the log-probability, values and constant being broadcast *)
Theorem C47_score (rtol atol : R) (values c : nd xr) (s i : list nat) : bcast_all [nshp values; nshp c] = Val s ->
  exists out, diracdelta_logprob rtol atol values c = Val out /\ nshp out = s /\
    (within rtol atol (nelt values (align (nshp values) i)) (nelt c (align (nshp c) i)) -> nelt out i = Fin 0) /\
    (~ within rtol atol (nelt values (align (nshp values) i)) (nelt c (align (nshp c) i)) -> nelt out i = NInf).
Proof. exact (dirac_score rtol atol values c s i). Qed.
Print Assumptions C47_score.
(** any chain of basic operations on a delta can be rewritten to the delta of
    the chain, with the delta's tolerances; every way of rewriting ends there;
    the value of a graph is kept throughout *)
Theorem C47_lift (ops : list (dop * list (nd xr))) (rtol atol : R) (c : nd xr) : (forall o, In o ops -> basic_op o) ->
  lifts_star (chain ops (TDelta rtol atol (TVar c))) (TDelta rtol atol (chain ops (TVar c))).
Proof. exact (chain_steps ops rtol atol c []). Qed.
Print Assumptions C47_lift.
Theorem C47_lift_end (ops : list (dop * list (nd xr))) (rtol atol : R) (c : nd xr) (t : dterm) : (forall o, In o ops -> basic_op o) ->
  lifts_star (chain ops (TDelta rtol atol (TVar c))) t -> (forall u, ~ lifts t u) -> t = TDelta rtol atol (chain ops (TVar c)).
Proof. exact (chain_normal ops rtol atol c t). Qed.
Print Assumptions C47_lift_end.
Theorem C47_value (t t' : dterm) : lifts_star t t' -> eval t' = eval t.
Proof. exact (star_value t t'). Qed.
Print Assumptions C47_value.
(** other operations are never moved into a delta: however the graph is
    rewritten, the operation stays, with its inputs rewritten one by one *)
Theorem C47_kept (o : dop) (args : list dterm) (t : dterm) : kept_op o (length args) -> lifts_star (TOp o args) t ->
  exists args', t = TOp o args' /\ Forall2 lifts_star args args'.
Proof. exact (star_kept o t args). Qed.
Print Assumptions C47_kept.
(** removal of the deltas keeps values as well *)
Theorem C47_removed (t : dterm) : eval (remove_DiracDelta t) = eval t /\ delta_free (remove_DiracDelta t).
Proof. exact (remove_value t). Qed.
Print Assumptions C47_removed.

(** cases: a delta at (2, 5) negated; scores of 3 values in a column *)
Definition neg_op : dop := {| o_listed := true; o_elemwise := true; o_single := true;
  o_sem := fun l => match l with [a] => Val {| nshp := nshp a; nelt := fun i => xneg (nelt a i) |} | _ => Raise end |}.
Definition two_five : nd xr := {| nshp := [2%nat]; nelt := fun i => nth (hd 0%nat i) [Fin 2; Fin 5] NaN |}.
Definition col : nd xr := {| nshp := [3; 1]%nat; nelt := fun i => nth (hd 0%nat i) [Fin (-2); Fin (-5); PInf] NaN |}.
Example C47_case : basic_op (neg_op, []) /\ exists c s out,
  eval (chain [(neg_op, [])] (TVar two_five)) = Val c /\ bcast_all [nshp col; nshp c] = Val s /\ s = [3; 2]%nat /\
  diracdelta_logprob (1 / 100) (1 / 100) col c = Val out /\ nelt out [0; 0]%nat = Fin 0 /\ nelt out [0; 1]%nat = NInf /\ nelt out [1; 1]%nat = Fin 0 /\ nelt out [2; 0]%nat = NInf.
Proof.
  split; [easy|]. exists {| nshp := [2%nat]; nelt := fun i => xneg (nelt two_five i) |}, [3; 2]%nat.
  set (c := Build_nd _ _ _).
  assert (E : bcast_all [nshp col; nshp c] = Val [3; 2]%nat) by reflexivity.
  eexists. split; [reflexivity|]. split; [exact E|]. split; [easy|]. split; [unfold diracdelta_logprob; rewrite E; reflexivity|].
  repeat split; cbn; try (destruct (Rle_dec _ _) as [H|H]); try reflexivity; exfalso; revert H; unfold Rabs; repeat destruct (Rcase_abs _); lra.
Qed.
(** delta + x *)
Definition add_op : dop := {| o_listed := true; o_elemwise := true; o_single := true; o_sem := fun _ => Raise |}.
Example C47_kept_case : forall r a c x t, lifts_star (TOp add_op [TDelta r a (TVar c); TVar x]) t -> forall r' a' u, t <> TDelta r' a' u.
Proof.
  intros r a c x t H r' a' u ->. assert (K : kept_op add_op 2) by (right; right; split; [reflexivity|discriminate]).
  destruct (C47_kept add_op [TDelta r a (TVar c); TVar x] _ K H) as (args & E & _). discriminate.
Qed.
