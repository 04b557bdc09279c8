(** C94: expectations computed from the joint log-probability of models with
    clipped, rounded and computed variables. *)
From Coq Require Import Reals List Arith Permutation Sorted Lra Lia.
From Coquelicot Require Import Coquelicot.
From Verif Require Import XR SpecDist ModelDist ModelVec SpecCens ModelCens ModelJoint ModelNest ModelGuard LemCens ModelCensSys SpecCensSys LemCensSys5.
Import ListNotations.
Open Scope R_scope.

(** Every requested variable is a random variable of its own, a clip or a
    rounding of one, continuous when rounded, or computed from a continuous one
    by exp, log, reciprocals, and sums, differences, products and quotients with
    other variables; parameters, bounds and the other operands depend on
    requested variables only.  The bounds of clipped discrete variables are
    integers, reciprocals are taken of positive numbers and no factor is 0.  If drawing the random variables one after the
    other gives [f] of the requested variables the expectation [m], then the
    joint log-probability, integrated against [f] with Lebesgue measure,
    counting measure and, for clipped variables, atoms at the bounds, gives [m]
    and nothing else.  A computed variable is integrated over the interval of
    its values.

    Partial: clipped discrete variables with other bounds (see
    C18_noninteger_bound_refuted), variables computed from clipped, rounded or
    discrete ones, mixtures (C96) and stacks (C88), value transforms (C92) and arrays
    (C91) are left out; variables rounded from a law whose distribution function is
    somewhere 0 are excluded (see C20_zero_mass_refuted). *)
Theorem C94_expectation_partial : forall ddt fs dlp dlc h cont pdf cdf proper req vs base f rho m,
  cacyclic h -> Permutation vs req -> StronglySorted lt vs -> (forall v, In v req -> observes h cont req v (base v)) ->
  (forall v w, In v req -> In w req -> base v = base w -> v = w) -> lawful h cont pdf proper req ddt dlp dlc cdf -> whole_bounds fs h cont req -> safe_chains fs h cont pdf req ->
  possible h cont rho -> expects fs h cont pdf proper req f (map base vs) rho m -> forall rho' y m',
  weighs fs h cont pdf req (fun y v => c_conditional ddt fs dlp dlc h req (fun w => Fin (y w)) rho' v)
    (fun y => c_joint ddt fs dlp dlc h req (fun w => Fin (y w)) rho') f vs y m' <-> m' = m.
Proof. exact cens_expect. Qed.
Print Assumptions C94_expectation_partial.

(** If every draw has proper parameters, the joint density of the requested
    variables has total mass 1. *)
Theorem C94_total_partial : forall ddt fs dlp dlc h cont pdf cdf proper req vs base rho,
  cacyclic h -> Permutation vs req -> StronglySorted lt vs -> (forall v, In v req -> observes h cont req v (base v)) ->
  (forall v w, In v req -> In w req -> base v = base w -> v = w) -> lawful h cont pdf proper req ddt dlp dlc cdf -> whole_bounds fs h cont req -> safe_chains fs h cont pdf req ->
  possible h cont rho -> runs fs h cont pdf proper req (map base vs) rho -> forall rho' y m',
  weighs fs h cont pdf req (fun y v => c_conditional ddt fs dlp dlc h req (fun w => Fin (y w)) rho' v)
    (fun y => c_joint ddt fs dlp dlc h req (fun w => Fin (y w)) rho') (fun _ => 1) vs y m' <-> m' = 1.
Proof. exact cens_total. Qed.
Print Assumptions C94_total_partial.

(** X ~ normal(0, 1), C = clip(X, -1, 1), Z ~ normal(C, 1), R = round(Z),
    K ~ poisson(exp(R)); C, R and K are requested *)
Example C94_model : forall rho' y m',
  weighs cs_fs cs_h cs_cont cs_pdf [8; 4; 6]%nat (fun y v => c_conditional cs_ddt cs_fs cs_lp cs_lc cs_h [8; 4; 6]%nat (fun w => Fin (y w)) rho' v)
    (fun y => c_joint cs_ddt cs_fs cs_lp cs_lc cs_h [8; 4; 6]%nat (fun w => Fin (y w)) rho') (fun _ => 1) [4; 6; 8]%nat y m' <-> m' = 1.
Proof.
  apply (C94_total_partial cs_ddt cs_fs cs_lp cs_lc cs_h cs_cont cs_pdf cs_cdf cs_proper [8; 4; 6]%nat [4; 6; 8]%nat cs_base (fun _ => 0)).
  - exact cs_acyclic.
  - apply Permutation_sym, (Permutation_cons_append [4; 6]%nat 8%nat).
  - repeat constructor.
  - exact cs_observes.
  - exact cs_inj.
  - apply cs_lawful; [apply cs_none|apply cs_plain; intros v; cbn; tauto].
  - apply cs_whole.
  - apply cs_plain; intros v; cbn; tauto.
  - apply zero_possible.
  - apply cs_runs.
Qed.
(** N ~ poisson(3), K ~ poisson(2), C = clip(K, 0, N + 1); N and C are requested *)
Example C94_count : forall rho' y m',
  weighs cs_fs cn_h cs_cont cs_pdf [7; 1]%nat (fun y v => c_conditional cs_ddt cs_fs cs_lp cs_lc cn_h [7; 1]%nat (fun w => Fin (y w)) rho' v)
    (fun y => c_joint cs_ddt cs_fs cs_lp cs_lc cn_h [7; 1]%nat (fun w => Fin (y w)) rho') (fun _ => 1) [1; 7]%nat y m' <-> m' = 1.
Proof.
  apply (C94_total_partial cs_ddt cs_fs cs_lp cs_lc cn_h cs_cont cs_pdf cs_cdf cs_proper [7; 1]%nat [1; 7]%nat cn_base (fun _ => 0)).
  - exact cn_acyclic.
  - apply perm_swap.
  - repeat constructor.
  - exact cn_observes.
  - exact cn_inj.
  - apply cs_lawful; [apply cn_none|apply cn_plain].
  - apply cn_whole.
  - apply cn_plain.
  - apply zero_possible.
  - apply cn_runs.
Qed.
(** the clipped variable alone: the probability that it is at its upper bound *)
Example C94_bound : forall rho' y m',
  weighs cs_fs cs_h cs_cont cs_pdf [4]%nat (fun y v => c_conditional cs_ddt cs_fs cs_lp cs_lc cs_h [4]%nat (fun w => Fin (y w)) rho' v)
    (fun y => c_joint cs_ddt cs_fs cs_lp cs_lc cs_h [4]%nat (fun w => Fin (y w)) rho') at_one [4]%nat y m' <-> m' = 1 - normal_cdf 0 1 1.
Proof.
  apply (C94_expectation_partial cs_ddt cs_fs cs_lp cs_lc cs_h cs_cont cs_pdf cs_cdf cs_proper [4]%nat [4]%nat cs_base at_one (fun _ => 0)).
  - exact cs_acyclic.
  - apply Permutation_refl.
  - repeat constructor.
  - exact cs_observes1.
  - intros v w [<-|[]] [<-|[]]. auto.
  - apply cs_lawful; [apply cs_none|apply cs_plain; intros v; cbn; tauto].
  - apply cs_whole.
  - apply cs_plain; intros v; cbn; tauto.
  - apply zero_possible.
  - apply cs_one.
Qed.

(** X ~ normal(0, 1), Y = exp(X), Z ~ normal(0, Y), T = 1 - Y * Z,
    K ~ poisson(Y); Y, T and K are requested *)
Example C94_computed : forall rho' y m',
  weighs cs_fs ct_h cs_cont cs_pdf [7; 3; 6]%nat (fun y v => c_conditional cs_ddt cs_fs cs_lp cs_lc ct_h [7; 3; 6]%nat (fun w => Fin (y w)) rho' v)
    (fun y => c_joint cs_ddt cs_fs cs_lp cs_lc ct_h [7; 3; 6]%nat (fun w => Fin (y w)) rho') (fun _ => 1) [3; 6; 7]%nat y m' <-> m' = 1.
Proof.
  apply (C94_total_partial cs_ddt cs_fs cs_lp cs_lc ct_h cs_cont cs_pdf cs_cdf cs_proper [7; 3; 6]%nat [3; 6; 7]%nat ct_base (fun _ => 0)).
  - exact ct_acyclic.
  - apply Permutation_sym, (Permutation_cons_append [3; 6]%nat 7%nat).
  - repeat constructor.
  - exact ct_observes.
  - exact ct_inj.
  - apply cs_lawful; [apply ct_none|apply ct_lone].
  - apply ct_whole.
  - apply ct_safe. cbn; lia.
  - apply zero_possible.
  - apply ct_runs.
Qed.
(** the probability that exp(X) is at least e *)
Example C94_exp : forall rho' y m',
  weighs cs_fs ct_h cs_cont cs_pdf [3]%nat (fun y v => c_conditional cs_ddt cs_fs cs_lp cs_lc ct_h [3]%nat (fun w => Fin (y w)) rho' v)
    (fun y => c_joint cs_ddt cs_fs cs_lp cs_lc ct_h [3]%nat (fun w => Fin (y w)) rho') from_e [3]%nat y m' <-> m' = 1 - normal_cdf 0 1 1.
Proof.
  apply (C94_expectation_partial cs_ddt cs_fs cs_lp cs_lc ct_h cs_cont cs_pdf cs_cdf cs_proper [3]%nat [3]%nat ct_base from_e (fun _ => 0)).
  - exact ct_acyclic.
  - apply Permutation_refl.
  - repeat constructor.
  - exact ct_observes1.
  - intros v w [<-|[]] [<-|[]]. auto.
  - apply cs_lawful; [apply ct_none|apply ct_lone].
  - apply ct_whole.
  - apply ct_safe. cbn; lia.
  - apply zero_possible.
  - apply ct_one.
Qed.

(** With U ~ uniform(0, 1) and R = floor(U), which is 0 with probability 1, the
    joint log-probability is NaN at negative values: no total mass can be
    computed from it. *)
Theorem C94_zero_mass_refuted : exists h v b, observes h (fun _ => true) [v] v b /\
  expects cs_fs h (fun _ => true) cz_pdf cz_proper [v] (fun _ => 1) [b] (fun _ => 0) 1 /\ forall rho y m,
  ~ weighs cs_fs h (fun _ => true) cz_pdf [v] (fun y v' => c_conditional (fun _ => DFloat) cs_fs cz_lp cz_lc h [v] (fun w => Fin (y w)) rho v')
    (fun y => c_joint (fun _ => DFloat) cs_fs cz_lp cz_lc h [v] (fun w => Fin (y w)) rho) (fun _ => 1) [v] y m.
Proof. exact (ex_intro _ cz_h (ex_intro _ 3%nat (ex_intro _ 2%nat (conj cz_observes cz_none)))). Qed.
Print Assumptions C94_zero_mass_refuted.
