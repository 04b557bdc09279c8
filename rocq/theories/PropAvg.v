(** C89: what variables that are omitted or realized mean for the joint log-probability. *)
From Coq Require Import Reals List Arith Bool Lia Lra Permutation Sorted.
From Coquelicot Require Import Coquelicot.
From Verif Require Import XR SpecDist SpecTrans LemInt ModelVec ModelDist ModelTrans ModelJoint SpecJoint ModelGraph SpecGraph ModelLaw SpecLaw SpecAvg LemLaw LemAvg LemAvg2.
Import ListNotations.
Open Scope nat_scope.

(** Variables [us] of the model that are neither requested nor realized are
    drawn when the result is evaluated.  The mean, over those draws, of the
    density given by the joint log-probability is the marginal density of the
    requested and realized variables: the joint density of all variables
    integrated, or summed, over all values of [us].  [zs] gives the values of the
    value variables and the draws; realized values are the inputs' values. *)
Theorem C89_average_partial : forall D inp draw det g requested realized trs us, drawable g requested realized trs us -> StronglySorted lt us ->
  exists h fs vv h' fs' vv', conditional_logprob toposort true g requested realized trs = Ok (h, fs, vv) /\
  conditional_logprob toposort true g ((requested ++ map fst realized) ++ us) [] trs = Ok (h', fs', vv') /\
  forall zs m, (forall rv val, In (rv, val) realized -> zs rv = inp val) ->
  average (fun zs => joint_value (law_sem D (set_values requested vv zs inp) (set_draws g us zs draw) det) h fs)
          (fun zs => draw_law (law_sem D (set_values requested vv zs inp) (set_draws g us zs draw) det) D g requested vv realized trs) us zs m ->
  forall m', mass (fun zs => joint_value (law_sem D (set_values ((requested ++ map fst realized) ++ us) vv' zs inp) draw det) h' fs')
       (value_domain (law_sem D inp draw det) D g ((requested ++ map fst realized) ++ us) trs) us zs m' <-> m' = m.
Proof. exact averaged. Qed.
Print Assumptions C89_average_partial.
(** k ~ Bernoulli(1/2), y ~ N(k, 1), only y requested: the mean over the draws of
    k is the density of a mixture of two normals *)
Example C89_average_ex : drawable av_graph [3] [] [] [2] /\ exists h fs vv h' fs' vv', conditional_logprob toposort true av_graph [3] [] [] = Ok (h, fs, vv) /\
  conditional_logprob toposort true av_graph [3; 2] [] [] = Ok (h', fs', vv') /\
  forall zs, average (fun zs => joint_value (law_sem av_D (set_values [3] vv zs av_inp) (set_draws av_graph [2] zs av_draw) av_det) h fs)
          (fun zs => draw_law (law_sem av_D (set_values [3] vv zs av_inp) (set_draws av_graph [2] zs av_draw) av_det) av_D av_graph [3] vv [] []) [2] zs
          (1 / 2 * normal_pdf 0 1 (zs 3%nat) + 1 / 2 * normal_pdf 1 1 (zs 3%nat))%R /\
  forall m, mass (fun zs => joint_value (law_sem av_D (set_values [3; 2] vv' zs av_inp) av_draw av_det) h' fs') (value_domain av_sem av_D av_graph [3; 2] []) [2] zs m <->
    m = (1 / 2 * normal_pdf 0 1 (zs 3%nat) + 1 / 2 * normal_pdf 1 1 (zs 3%nat))%R.
Proof.
  split; [exact av_drawable1|]. destruct (C89_average_partial av_D av_inp av_draw av_det av_graph [3] [] [] [2] av_drawable1) as (h & fs & vv & h' & fs' & vv' & E & E' & H); [repeat constructor|].
  exists h, fs, vv, h', fs', vv'. split; [exact E|]. split; [exact E'|]. intros zs. pose proof (av_average h fs vv zs E) as A. split; [exact A|].
  exact (H zs _ (fun rv val (I : In (rv, val) []) => match I with end) A).
Qed.

(** With realized values the joint log-probability is, at all values of the
    requested variables, that of all variables at the realized values: the
    posterior density times the density of the realized values. *)
Theorem C89_realized : forall D inp draw det g requested realized trs, drawable g requested realized trs [] ->
  exists h fs vv h' fs' vv', conditional_logprob toposort true g requested realized trs = Ok (h, fs, vv) /\
  conditional_logprob toposort true g (requested ++ map fst realized) [] trs = Ok (h', fs', vv') /\
  forall zs y, (forall rv val, In (rv, val) realized -> zs rv = inp val) ->
  joint_value (law_sem D (set_values requested vv zs inp) draw det) h fs y <->
  joint_value (law_sem D (set_values (requested ++ map fst realized) vv' zs inp) draw det) h' fs' y.
Proof. exact realized_joint. Qed.
Print Assumptions C89_realized.
Example C89_realized_ex : drawable av_graph [2] [(3, 4)] [] [] /\ exists h fs vv, conditional_logprob toposort true av_graph [2] [(3, 4)] [] = Ok (h, fs, vv) /\
  forall zs, mass (fun zs => joint_value (law_sem av_D (set_values [2] vv zs av_inp) av_draw av_det) h fs) (value_domain av_sem av_D av_graph [2] []) [2] zs
    (1 / 2 * normal_pdf 0 1 0 + 1 / 2 * normal_pdf 1 1 0)%R.
Proof.
  split; [exact av_drawable2|]. destruct (runs _ _ _ _ _ av_drawable2) as ((h & fs & vv & E) & _). exists h, fs, vv. split; [exact E|]. intros zs. exact (av_mass h fs vv zs E).
Qed.

(** joint_logprob's documentation (joint_logprob.py:281-285) says that with
    realized {Y: y} the result is the log of the density P(sigma2 | Y = y).  It is
    not: in a proper model its total mass over all values of the requested
    variable is not one. *)
Theorem C89_posterior_refuted : exists D inp draw det g requested realized h fs vv, drawable g requested realized [] [] /\
  conditional_logprob toposort true g requested realized [] = Ok (h, fs, vv) /\
  proper_model (law_sem D inp draw det) D g (requested ++ map fst realized) [] /\
  forall zs m, mass (fun zs => joint_value (law_sem D (set_values requested vv zs inp) draw det) h fs) (value_domain (law_sem D inp draw det) D g requested []) requested zs m -> m <> 1%R.
Proof. exact av_posterior. Qed.
Print Assumptions C89_posterior_refuted.
(** It also says (joint_logprob.py:267-271) that when sigma2 is omitted the result
    is the log of the joint density P(Y, sigma2) at the draw of sigma2.  It is the
    log of P(Y | sigma2). *)
Theorem C89_omitted_refuted : exists D inp draw det g requested us h fs vv h' fs' vv', drawable g requested [] [] us /\
  conditional_logprob toposort true g requested [] [] = Ok (h, fs, vv) /\ conditional_logprob toposort true g ((requested ++ []) ++ us) [] [] = Ok (h', fs', vv') /\
  exists zs y y', joint_value (law_sem D (set_values requested vv zs inp) (set_draws g us zs draw) det) h fs y /\
    joint_value (law_sem D (set_values ((requested ++ []) ++ us) vv' zs inp) draw det) h' fs' y' /\ y <> y'.
Proof. exact av_omitted. Qed.
Print Assumptions C89_omitted_refuted.
(** conditional_logprob's documentation (joint_logprob.py:58-62) says that the
    factor of sigma2 is the log of P(sigma2 = s | Y).  For a variable [k] with values
    0 and 1 the factor at 0 is not the joint density at 0 over the sum of those at
    0 and 1. *)
Theorem C89_conditional_refuted : exists D inp draw det g requested k h fs vv f, request g requested [] [] /\
  conditional_logprob toposort true g requested [] [] = Ok (h, fs, vv) /\ In (k, f) fs /\ (forall zs, value_domain (law_sem D inp draw det) D g requested [] zs k (Points (bernoulli_pmf (1 / 2)))) /\
  exists zs a p j0 j1 d0 d1, zs k = 0%R /\ fvalue (law_sem D (set_values requested vv zs inp) draw det) h f [a] /\ denotes (Val a) p /\
    joint_value (law_sem D (set_values requested vv zs inp) draw det) h fs j0 /\ denotes (Val j0) d0 /\
    joint_value (law_sem D (set_values requested vv (upd zs k 1) inp) draw det) h fs j1 /\ denotes (Val j1) d1 /\ p <> (d0 / (d0 + d1))%R.
Proof. exact av_conditional. Qed.
Print Assumptions C89_conditional_refuted.
