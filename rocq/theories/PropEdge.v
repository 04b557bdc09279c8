(** C87: infinite and undefined values. *)
From Coq Require Import Reals Lra Lia List Arith Bool.
From Coquelicot Require Import Coquelicot.
From Verif Require Import XR Special SpecDist LemInt ModelDist ModelVec ModelTrans SpecTrans ModelJoint ModelLaw SpecLaw ModelTen ModelUniv SpecUniv SpecEdge LemEdge.
Import ListNotations.
Open Scope R_scope.

(** An undefined (NaN) parameter, value or probability never gives a number:
    the result is an error, NaN or minus infinity, whatever the other inputs
    are, for all log-probabilities, log-CDFs and inverse CDFs of univariate
    variables.  Missing: the value of the log-CDF of a uniform variable (refuted below). *)
Theorem C87_undefined_partial : forall u x i, (i <= params u)%nat -> x i = NaN -> (u = UUniformCdf -> (i < 2)%nat) -> rejected (scalar u x).
Proof. exact scalar_nan. Qed.
Print Assumptions C87_undefined_partial.
Example C87_undefined_ex : rejected (studentt_logprob (Fin 3) NaN (Fin 2) (Fin 1)).
Proof. exact (C87_undefined_partial UStudentt (fun i => match i with 0 => Fin 3 | 1 => NaN | 2 => Fin 2 | _ => Fin 1 end)%nat 1%nat ltac:(cbn; lia) eq_refl ltac:(discriminate)). Qed.
(** The log-CDF of a uniform variable at NaN is 0, the logarithm of probability
    one: both comparisons are false (logprob.py:141-147). *)
Theorem C87_undefined_refuted : exists a b, a < b /\ uniform_logcdf (Fin a) (Fin b) NaN = Val (Fin 0).
Proof. exact cdf_nan. Qed.
Print Assumptions C87_undefined_refuted.

(** Exactly the laws on the whole real line keep an undefined value undefined;
    all others take it for a value outside their support. *)
Theorem C87_nan : forall L, law_valid L -> (whole_line L -> law_logprob L NaN = Val NaN) /\ (~ whole_line L -> law_logprob L NaN = Val NInf).
Proof. exact nan_law. Qed.
Print Assumptions C87_nan.
Example C87_nan_ex : law_logprob (LStudentT 3 0 1) NaN = Val NaN /\ law_logprob (LFam (FGamma 2 3)) NaN = Val NInf.
Proof.
  split.
  - apply C87_nan; [cbn; lra|]. intros x. split; exact I.
  - apply C87_nan; [cbn; lra|]. intros W. destruct (W 0) as [A _]. cbn in A. lra.
Qed.

(** Infinity is not a possible value: its log-density is minus infinity, except
    for the laws of [indefinite], where it is NaN. *)
Theorem C87_infinite : forall L, law_valid L -> (indefinite L -> law_logprob L PInf = Val NaN) /\ (~ indefinite L -> law_logprob L PInf = Val NInf).
Proof. exact pinf_value. Qed.
Print Assumptions C87_infinite.
(** The same for minus infinity. *)
Theorem C87_minus_infinite : forall L, law_valid L -> (indefinite_below L -> law_logprob L NInf = Val NaN) /\ (~ indefinite_below L -> law_logprob L NInf = Val NInf).
Proof. exact ninf_value. Qed.
Print Assumptions C87_minus_infinite.
Example C87_infinite_ex : law_logprob (LFam (FGamma (1/2) 3)) PInf = Val NInf /\ law_logprob (LFam (FLognormal 2 3)) PInf = Val NInf /\ law_logprob (LLaplace 1 2) NInf = Val NInf.
Proof. repeat split; [apply C87_infinite|apply C87_infinite|apply C87_minus_infinite]; cbn; lra || tauto. Qed.
(** A gamma variable with shape 2 has NaN, not minus infinity, at plus infinity
    (logprob.py:287-293); so have, by the two theorems before, Wald, Weibull,
    chi-square, Poisson, negative binomial, Gumbel and logistic variables. *)
Theorem C87_infinite_refuted : exists L, law_valid L /\ ~ denotes (law_logprob L PInf) 0.
Proof. exists (LFam (FGamma 2 1)). split; [cbn; lra|]. rewrite (proj1 (pinf_value (LFam (FGamma 2 1)) ltac:(cbn; lra))); [intros []|cbn; lra]. Qed.
Print Assumptions C87_infinite_refuted.

(** Log-CDFs run from probability zero at minus infinity to one at plus infinity. *)
Theorem C87_cdf_normal : forall m s, 0 < s -> denotes (normal_logcdf (Fin m) (Fin s) PInf) 1 /\ denotes (normal_logcdf (Fin m) (Fin s) NInf) 0.
Proof. exact cdf_normal. Qed.
Print Assumptions C87_cdf_normal.
Theorem C87_cdf_uniform : forall a b, a < b -> denotes (uniform_logcdf (Fin a) (Fin b) PInf) 1 /\ denotes (uniform_logcdf (Fin a) (Fin b) NInf) 0.
Proof. exact cdf_uniform. Qed.
Print Assumptions C87_cdf_uniform.
Theorem C87_cdf_poisson : forall mu, 0 <= mu -> denotes (poisson_logcdf (Fin mu) PInf) 1 /\ denotes (poisson_logcdf (Fin mu) NInf) 0.
Proof. exact cdf_poisson. Qed.
Print Assumptions C87_cdf_poisson.
Theorem C87_cdf_geometric : forall p, 0 < p <= 1 -> denotes (geometric_logcdf (Fin p) PInf) 1 /\ denotes (geometric_logcdf (Fin p) NInf) 0.
Proof. exact cdf_geometric. Qed.
Print Assumptions C87_cdf_geometric.
Example C87_cdf_ex : denotes (geometric_logcdf (Fin (1/3)) PInf) 1 /\ denotes (normal_logcdf (Fin 2) (Fin 3) NInf) 0.
Proof. split; [apply C87_cdf_geometric; lra|apply C87_cdf_normal; lra]. Qed.

(** The quantiles of a normal variable at 0 and 1 are the infinities; there is
    none for numbers that are not probabilities. *)
Theorem C87_quantile_normal : forall m s q, 0 < s -> normal_icdf (Fin m) (Fin s) (Fin 0) = Val NInf /\ normal_icdf (Fin m) (Fin s) (Fin 1) = Val PInf /\
  (q < 0 \/ 1 < q -> normal_icdf (Fin m) (Fin s) (Fin q) = Val NaN).
Proof. exact icdf_normal. Qed.
Print Assumptions C87_quantile_normal.
Example C87_quantile_ex : normal_icdf (Fin 3) (Fin 2) (Fin (-1)) = Val NaN.
Proof. apply (C87_quantile_normal 3 2 (-1)); lra. Qed.
(** The inverse CDF of a geometric variable accepts a negative probability
    (logprob.py:505-508). *)
Theorem C87_quantile_refuted : exists p q k, 0 < p < 1 /\ q < 0 /\ geometric_icdf (Fin p) (Fin q) = Val (Fin k).
Proof. exact icdf_negative. Qed.
Print Assumptions C87_quantile_refuted.
