(** C75: the outcome of the measurable rewrites does not depend on the order of
    the rewrites. *)
From Coq Require Import Reals Lra Lia List Bool.
From Verif Require Import XR ModelVec ModelTrans ModelCens ModelMix ModelNest ModelGuard ModelOrder SpecOrder LemOrder.
Import ListNotations.
Open Scope R_scope.

(** Every run is finite. *)
Theorem C75_bound : forall dt fs rho e n s, run dt fs rho n (start e) s -> (n <= ops e)%nat.
Proof. exact order_bound. Qed.
Print Assumptions C75_bound.
(** Every run can be completed. *)
Theorem C75_extends : forall dt fs rho e n s, run dt fs rho n (start e) s ->
  exists k t, run dt fs rho k s t /\ complete dt fs rho t.
Proof. exact order_extends. Qed.
Print Assumptions C75_extends.
(** Complete runs agree on whether the variable is measurable, and on its form. *)
Theorem C75_agree : forall dt fs rho e n s k t,
  run dt fs rho n (start e) s -> complete dt fs rho s -> run dt fs rho k (start e) t -> complete dt fs rho t ->
  form fs rho s = form fs rho t.
Proof. exact order_agree. Qed.
Print Assumptions C75_agree.
(** A form found at any moment of any run is the final one of every run. *)
Theorem C75_stable : forall dt fs rho e n s m k t,
  run dt fs rho n (start e) s -> form fs rho s = Some m -> run dt fs rho k (start e) t -> complete dt fs rho t ->
  form fs rho t = Some m.
Proof. exact order_stable. Qed.
Print Assumptions C75_stable.
(** The graph computes the value of the expression at every moment, also when
    some of the rewrites are undone and others applied again. *)
Theorem C75_value : forall dt fs rho e s, back_and_forth dt fs rho (start e) s -> g_val (view fs rho s) = value fs rho e.
Proof. exact order_values. Qed.
Print Assumptions C75_value.
(** The measurable form found for the expression computes the expression. *)
Theorem C75_form : forall dt fs rho e n s m, run dt fs rho n (start e) s -> form fs rho s = Some m -> computes rho m = value fs rho e.
Proof. exact order_form. Qed.
Print Assumptions C75_form.
(** So the log-probability of any complete run is the one of the bottom-up
    evaluation, of which C55-C60 and C73 speak. *)
Theorem C75_logprob : forall dt fs rho rvs dlp dlc e n s v, run dt fs rho n (start e) s -> complete dt fs rho s ->
  match form fs rho s with Some m => Some (glogprob dt fs rho rvs dlp dlc false m v) | None => None end = derived dt fs rho rvs dlp dlc e v.
Proof. exact order_logprob. Qed.
Print Assumptions C75_logprob.

(** clip(exp(X), exp(Y), 5): the lower bound may be rewritten first, or not at
    all before the clip. *)
Definition or_e : gexpr := GClip DFloat (GOne UExp (GRv 0)) (GOne UExp (GRv 1)) (GCon (Fin 5)).
Definition or_dt (_ : nat) : dtype := DFloat.
Definition or_fs (_ : nat) (_ : list xr) : xr := NaN.
Definition or_rho (i : nat) : xr := match i with O => Fin 2 | _ => Fin 1 end.
Definition or_m : gm := GC DFloat (GE (tr_unary UExp) (GB 0)) (BSym (xexp (Fin 1))) (BConst (Fin 5)).
Lemma or_meas dt fs rho m : complete dt fs rho (XMeas m).
Proof. intros s T. inversion T as [? ? R| | | | | | | | | | |]. discriminate R. Qed.
Example C75_two_runs :
  run or_dt or_fs or_rho 2 (start or_e) (XMeas or_m) /\ run or_dt or_fs or_rho 3 (start or_e) (XMeas or_m) /\
  complete or_dt or_fs or_rho (XMeas or_m) /\ form or_fs or_rho (XMeas or_m) = Some or_m /\ ops or_e = 3%nat /\
  computes or_rho or_m = xclip (xexp (Fin 2)) (xexp (Fin 1)) (Fin 5).
Proof.
  split; [|split; [|split; [apply or_meas|repeat split]]].
  - eapply r_cons; [apply st_clip; apply st_here; reflexivity|]. eapply r_cons; [apply st_here; reflexivity|]. apply r_nil.
  - eapply r_cons; [apply st_clip_lo; apply st_here; reflexivity|]. eapply r_cons; [apply st_clip; apply st_here; reflexivity|].
    eapply r_cons; [apply st_here; reflexivity|]. apply r_nil.
Qed.
(** The rewrite of the lower bound undone after the base was rewritten. *)
Example C75_undone : back_and_forth or_dt or_fs or_rho (start or_e)
  (XClip DFloat (XMeas (GE (tr_unary UExp) (GB 0))) (XOne UExp (XRv 1)) (XCon (Fin 5))).
Proof.
  set (m0 := GE (tr_unary UExp) (GB 0)). set (m1 := GE (tr_unary UExp) (GB 1)).
  assert (T0 : step or_dt or_fs or_rho (XOne UExp (XRv 0)) (XMeas m0)) by (apply st_here; reflexivity).
  assert (T1 : step or_dt or_fs or_rho (XOne UExp (XRv 1)) (XMeas m1)) by (apply st_here; reflexivity).
  apply (bf_undo _ _ _ _ (XClip DFloat (XMeas m0) (XMeas m1) (XCon (Fin 5)))); [|apply st_clip_lo; exact T1].
  apply (bf_do _ _ _ _ (XClip DFloat (XOne UExp (XRv 0)) (XMeas m1) (XCon (Fin 5)))); [|apply st_clip; exact T0].
  apply (bf_do _ _ _ _ (start or_e)); [apply bf_nil|]. apply st_clip_lo. exact T1.
Qed.
(** exp(X) + exp(Y): after the first rewrite exactly one input of the addition
    is measurable; the addition is not rewritten, then or later. *)
Definition or_f : gexpr := GMany NAdd [GOne UExp (GRv 0); GOne UExp (GRv 1)].
Definition or_x : xexpr := XMeas (GE (tr_unary UExp) (GB 0)).
Definition or_y : xexpr := XMeas (GE (tr_unary UExp) (GB 1)).
Lemma or_step1 : step or_dt or_fs or_rho (start or_f) (XMany NAdd [or_x; XOne UExp (XRv 1)]).
Proof.
  apply (st_many or_dt or_fs or_rho NAdd [] (XOne UExp (XRv 0)) or_x [XOne UExp (XRv 1)]).
  exact (st_here or_dt or_fs or_rho (XOne UExp (XRv 0)) (GE (tr_unary UExp) (GB 0)) eq_refl).
Qed.
Lemma or_step2 : step or_dt or_fs or_rho (XMany NAdd [or_x; XOne UExp (XRv 1)]) (XMany NAdd [or_x; or_y]).
Proof.
  apply (st_many or_dt or_fs or_rho NAdd [or_x] (XOne UExp (XRv 1)) or_y []).
  exact (st_here or_dt or_fs or_rho (XOne UExp (XRv 1)) (GE (tr_unary UExp) (GB 1)) eq_refl).
Qed.
Example C75_blocked :
  step or_dt or_fs or_rho (start or_f) (XMany NAdd [or_x; XOne UExp (XRv 1)]) /\
  rule or_dt or_fs or_rho (XMany NAdd [or_x; XOne UExp (XRv 1)]) = None /\
  run or_dt or_fs or_rho 2 (start or_f) (XMany NAdd [or_x; or_y]) /\ complete or_dt or_fs or_rho (XMany NAdd [or_x; or_y]) /\
  form or_fs or_rho (XMany NAdd [or_x; or_y]) = None.
Proof.
  split; [exact or_step1|]. split; [reflexivity|]. split; [|split; [|reflexivity]].
  - eapply r_cons; [exact or_step1|]. eapply r_cons; [exact or_step2|]. apply r_nil.
  - intros s T. remember (XMany NAdd [or_x; or_y]) as q eqn:Q. destruct T as [s m R| |n l a b r T'| | | | | | | | |]; try discriminate; [subst; discriminate R|].
    injection Q as _ E. destruct l as [|l1 [|l2 [|l3 l]]]; cbn in E; try discriminate.
    + injection E as -> _. exact (or_meas _ _ _ _ _ T').
    + injection E as _ -> _. exact (or_meas _ _ _ _ _ T').
Qed.
