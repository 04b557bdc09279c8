(** C96: expectations computed from the joint log-probability of models with
    mixtures. *)
From Coq Require Import Reals List Arith Permutation Sorted Lra Lia.
From Coquelicot Require Import Coquelicot.
From Verif Require Import XR SpecDist ModelDist ModelVec SpecCens ModelCens ModelJoint ModelNest ModelGuard LemCens ModelCensSys SpecCensSys LemCensSys5 ModelMixCens SpecMixExp LemMixExp4 LemMixExp5.
Import ListNotations.
Open Scope R_scope.

(** The model is as in C94, but requested variables can also be mixtures
    at.stack(comps)[idx] of random variables that are not requested and not
    shared, all continuous or all discrete.  The expectation [m] comes from
    drawing all random variables, the components of mixtures among them, and
    computing the requested variables.  The measures and the conditions on
    bounds and computed variables are those of the model in which a mixture is
    a random variable with the distribution of the selected component.  The
    joint log-probability integrated against [f] gives [m] and nothing else.

    Partial: components computed from other variables, mixtures inside other
    expressions, indices that count from the end or are out of range (C24,
    C88_range_refuted), shared components (C88_shared_refuted), arrays, stacks
    and value transforms are left out, and the restrictions of C94 apply. *)
Theorem C96_expectation_partial : forall sel ddt fs dlp dlc h req D cont pdf cdf proper base vs,
  selects fs sel -> numbered h D -> plain_mixtures sel h req cont -> cacyclic h ->
  (forall v, In v req -> observes (merged sel h req D) (m_cont h cont D) req v (base v)) ->
  lawful h cont pdf proper req ddt dlp dlc cdf -> Permutation vs req -> StronglySorted lt vs -> NoDup (flat_map (sources sel h base) vs) -> (0 < D)%nat ->
  whole_bounds fs (merged sel h req D) (m_cont h cont D) req -> safe_chains fs (merged sel h req D) (m_cont h cont D) (m_pdf sel h req pdf D) req ->
  forall f rho m, possible h cont rho -> expects fs h cont pdf proper req f (flat_map (sources sel h base) vs) rho m -> forall rho' y m',
  weighs fs (merged sel h req D) (m_cont h cont D) (m_pdf sel h req pdf D) req (fun y v => mc_conditional sel ddt fs dlp dlc h req (fun w => Fin (y w)) rho' v)
    (fun y => mc_joint sel ddt fs dlp dlc h req (fun w => Fin (y w)) rho') f vs y m' <-> m' = m.
Proof. exact mix_expect. Qed.
Print Assumptions C96_expectation_partial.

(** If every draw has proper parameters and every index selects a component,
    the joint density of the requested variables has total mass 1. *)
Theorem C96_total_partial : forall sel ddt fs dlp dlc h req D cont pdf cdf proper base vs,
  selects fs sel -> numbered h D -> plain_mixtures sel h req cont -> cacyclic h ->
  (forall v, In v req -> observes (merged sel h req D) (m_cont h cont D) req v (base v)) ->
  lawful h cont pdf proper req ddt dlp dlc cdf -> Permutation vs req -> StronglySorted lt vs -> NoDup (flat_map (sources sel h base) vs) -> (0 < D)%nat ->
  whole_bounds fs (merged sel h req D) (m_cont h cont D) req -> safe_chains fs (merged sel h req D) (m_cont h cont D) (m_pdf sel h req pdf D) req ->
  forall rho, possible h cont rho -> runs fs h cont pdf proper req (flat_map (sources sel h base) vs) rho -> forall rho' y m',
  weighs fs (merged sel h req D) (m_cont h cont D) (m_pdf sel h req pdf D) req (fun y v => mc_conditional sel ddt fs dlp dlc h req (fun w => Fin (y w)) rho' v)
    (fun y => mc_joint sel ddt fs dlp dlc h req (fun w => Fin (y w)) rho') (fun _ => 1) vs y m' <-> m' = 1.
Proof. exact mix_total. Qed.
Print Assumptions C96_total_partial.

(** I ~ bernoulli(1/3), X ~ normal(0, 1), Y ~ normal(5, 2),
    Z = stack([X, Y])[I], W ~ normal(Z, 1), C = clip(W, 0, 1); I, Z and C are
    requested *)
Example C96_model : forall rho' y m',
  weighs mx_fs (merged mx_sel mx_h [10; 8; 3]%nat 3) (m_cont mx_h cs_cont 3) (m_pdf mx_sel mx_h [10; 8; 3]%nat mx_pdf 3) [10; 8; 3]%nat
    (fun y v => mc_conditional mx_sel cs_ddt mx_fs mx_lp cs_lc mx_h [10; 8; 3]%nat (fun w => Fin (y w)) rho' v)
    (fun y => mc_joint mx_sel cs_ddt mx_fs mx_lp cs_lc mx_h [10; 8; 3]%nat (fun w => Fin (y w)) rho') (fun _ => 1) [3; 8; 10]%nat y m' <-> m' = 1.
Proof.
  apply (C96_total_partial mx_sel cs_ddt mx_fs mx_lp cs_lc mx_h [10; 8; 3]%nat 3 cs_cont mx_pdf cs_cdf mx_proper mx_base [3; 8; 10]%nat) with (rho := fun _ => 0).
  - exact mx_selects.
  - exact mx_numbered.
  - apply mx_plain; cbn; lia.
  - exact mx_acyclic.
  - exact mx_observes.
  - apply mx_all_lawful.
  - apply (Permutation_rev [3; 8; 10]%nat).
  - repeat constructor.
  - exact mx_nodup.
  - lia.
  - apply mx_whole. cbn; lia.
  - apply mx_chains.
  - apply zero_possible.
  - apply mx_runs.
Qed.
(** the probability that Z is at least 1 *)
Example C96_probability : forall rho' y m',
  weighs mx_fs (merged mx_sel mx_h [8; 3]%nat 3) (m_cont mx_h cs_cont 3) (m_pdf mx_sel mx_h [8; 3]%nat mx_pdf 3) [8; 3]%nat
    (fun y v => mc_conditional mx_sel cs_ddt mx_fs mx_lp cs_lc mx_h [8; 3]%nat (fun w => Fin (y w)) rho' v)
    (fun y => mc_joint mx_sel cs_ddt mx_fs mx_lp cs_lc mx_h [8; 3]%nat (fun w => Fin (y w)) rho') from_one [3; 8]%nat y m' <->
  m' = 2 / 3 * (1 - normal_cdf 0 1 1) + 1 / 3 * (1 - normal_cdf 5 2 1).
Proof.
  apply (C96_expectation_partial mx_sel cs_ddt mx_fs mx_lp cs_lc mx_h [8; 3]%nat 3 cs_cont mx_pdf cs_cdf mx_proper mx_base [3; 8]%nat) with (rho := fun _ => 0).
  - exact mx_selects.
  - exact mx_numbered.
  - apply mx_plain; cbn; lia.
  - exact mx_acyclic.
  - exact mx_observes1.
  - apply mx_all_lawful.
  - apply perm_swap.
  - repeat constructor.
  - exact mx_nodup1.
  - lia.
  - apply mx_whole. cbn; lia.
  - apply mx_chains.
  - apply zero_possible.
  - exact (mx_expects (fun _ => 0)).
Qed.
