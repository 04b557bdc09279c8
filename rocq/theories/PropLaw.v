(** C72: the joint log-probability of a model is that of a probability law. *)
From Coq Require Import Reals List Arith Bool Lia Lra Permutation Sorted.
From Coquelicot Require Import Coquelicot.
From Verif Require Import XR SpecDist SpecTrans LemInt ModelVec ModelDist ModelTrans ModelJoint SpecJoint ModelGraph SpecGraph ModelLaw SpecLaw LemGraph3 LemLaw.
Import ListNotations.
Open Scope nat_scope.

(** For every model graph over aeppl's scalar distributions, every set of
    requested variables and every choice of default transforms, conditional_logprob
    succeeds, and its joint log-probability as a function of the value variables
    has total mass one: integrated over the continuous and summed over the
    discrete variables, whatever the draws of the other variables are.
    [D] gives the law of an op for parameter values, [det] the functions of the
    deterministic nodes, [inp] the inputs and [draw] the draws. *)
Theorem C72_total : forall D inp draw det g requested trs vs,
  request g requested [] trs -> transformed_first g requested trs -> requested <> [] ->
  (forall rv, In rv requested -> exists rng dist ps, nth_error g rv = Some (mk (ORv rng dist) ps)) ->
  (forall rv tr, dget trs rv = Some tr -> exists rng ps, nth_error g rv = Some (mk (ORv rng tr) ps)) ->
  Permutation vs requested -> StronglySorted lt vs ->
  proper_model (law_sem D inp draw det) D g requested trs ->
  exists h fs vv, conditional_logprob toposort true g requested [] trs = Ok (h, fs, vv) /\
  forall zs m, mass (fun zs => joint_value (law_sem D (set_values requested vv zs inp) draw det) h fs)
                  (value_domain (law_sem D inp draw det) D g requested trs) vs zs m <-> m = 1%R.
Proof. exact total_mass. Qed.
Print Assumptions C72_total.

(** s ~ Exponential(1) on the log scale, x ~ N(1, s), k ~ Poisson(exp(x)), in the
    order s, k, x *)
Definition ex_graph : heap :=
  [mk OIn []; mk (ORv 0 5) [0]; mk (ORv 1 6) [0; 1]; mk (ODet 9) [2]; mk (ORv 2 7) [3]].
Definition ex_D (d : nat) (ps : list R) : law :=
  match d, ps with 5, [a] => LFam (FExponential a) | 6, [a; b] => LNormal a b | 7, [a] => LPoisson a | _, _ => LNormal 0 0 end.
Definition ex_det (f : nat) (xs : list R) : R := match xs with [x] => exp x | _ => 0%R end.
Definition ex_inp (v : nat) : R := 1%R.
Definition ex_draw (rng dist : nat) (ps : list R) : R := 0%R.
Definition ex_trs := [(1, 5)].
Lemma ex_request : request ex_graph [1; 4; 2] [] ex_trs.
Proof.
  split; [intros [|[|[|[|[|v]]]]] nd H; cbn in H; try discriminate; [..|destruct v; discriminate]; injection H as <-; cbn; intuition (subst; auto; lia)|].
  split; [repeat constructor; cbn; intuition discriminate|]. split; [cbn; intuition (subst; cbn; lia)|].
  split; [easy|]. intros rv H. cbn in H. destruct (rv =? 1) eqn:E; [|easy]. apply Nat.eqb_eq in E as ->. split; [cbn; auto|]. cbn. eauto.
Qed.
Lemma ex_first : transformed_first ex_graph [1; 4; 2] ex_trs.
Proof.
  intros [|[|[|i]]] [|[|[|j]]] x y H1 H2 T Ne Dp; cbn in H1, H2; try (destruct i; discriminate); try (destruct j; discriminate); try discriminate; injection H1 as <-; injection H2 as <-; try easy; try lia.
Qed.
Lemma ex_proper : proper_model (law_sem ex_D ex_inp ex_draw ex_det) ex_D ex_graph [1; 4; 2] ex_trs.
Proof.
  intros zs v L I A H. destruct I as [<-|[<-|[<-|[]]]]; destruct A as (rho & rng & dist & ps & xs & N & E & M & ->); cbn in E; injection E as <- <- <-.
  - inversion M as [|p l x m M1 M2]; subst. inversion M2; subst. inversion M1 as [w y R|w ps R E|w r0 d0 ps ys R E K|w f0 ps ys R E K]; subst; try (cbn in E; discriminate).
    + exfalso. destruct N as (_ & N2). rewrite N2 in R; [discriminate|]. cbn. intuition discriminate.
    + cbn. unfold ex_inp. split; [lra|]. intros _. exists (FExponential 1). split; auto. split; [easy|discriminate].
  - inversion M as [|p l x m M1 M2]; subst. inversion M2; subst. inversion M1 as [w y R|w ps R E|w r0 d0 ps ys R E K|w f0 ps ys R E K]; subst; try (cbn in E; discriminate).
    + exfalso. destruct N as (_ & N2). rewrite N2 in R; [discriminate|]. cbn. intuition discriminate.
    + cbn in E. injection E as <- <-. inversion K as [|p l z m M1' M2']; subst. inversion M2'; subst. cbn. split; [left; apply exp_pos|easy].
  - inversion M as [|p l x m M1 M2]; subst. inversion M2 as [|p l y m' M3 M4]; subst. inversion M4; subst. cbn. split; [|easy].
    inversion M3 as [w z R|w ps R E|w r0 d0 ps ys R E K|w f0 ps ys R E K]; subst; try (cbn in E; discriminate).
    + specialize (H 1 (LFam (FExponential x)) y (or_introl eq_refl) ltac:(lia)). assert (C : contains (law_support (LFam (FExponential x))) y); [apply H|exact (proj1 C)].
      * exists rho, 0, 5, [0], [x]. split; auto. split; [reflexivity|]. split; [constructor; [exact M1|constructor]|reflexivity].
      * exists rho. auto.
    + exfalso. pose proof (proj1 N 1 (or_introl eq_refl)) as Q. cbn in Q. destruct Q as (? & ? & ? & ? & _ & _ & Q). congruence.
Qed.
Example C72_case : exists h fs vv, conditional_logprob toposort true ex_graph [1; 4; 2] [] ex_trs = Ok (h, fs, vv) /\
  forall zs m, mass (fun zs => joint_value (law_sem ex_D (set_values [1; 4; 2] vv zs ex_inp) ex_draw ex_det) h fs)
                  (value_domain (law_sem ex_D ex_inp ex_draw ex_det) ex_D ex_graph [1; 4; 2] ex_trs) [1; 2; 4] zs m <-> m = 1%R.
Proof.
  apply C72_total; [exact ex_request|exact ex_first|discriminate| | | | |exact ex_proper].
  - intros rv [<-|[<-|[<-|[]]]]; cbn; eauto.
  - intros rv tr H. cbn in H. destruct (rv =? 1) eqn:E; [|discriminate]. apply Nat.eqb_eq in E as ->. injection H as <-. cbn. eauto.
  - apply perm_skip. apply perm_swap.
  - repeat constructor; lia.
Qed.
