(** Arrays of univariate variables, element by element: what the scalar
    functions of [ModelDist] give on the broadcast elements. *)
From Coq Require Import Reals List Arith.
From Verif Require Import XR ModelDist ModelTen SpecIdx ModelUniv.
Import ListNotations.
Open Scope nat_scope.

(** the scalar function of a family applied to the entries [x 0], [x 1], ... *)
Definition scalar (u : univ) (x : nat -> xr) : res xr :=
  match u with
  | UUniform => uniform_logprob (x 0) (x 1) (x 2)
  | UUniformCdf => uniform_logcdf (x 0) (x 1) (x 2)
  | UNormal => normal_logprob (x 0) (x 1) (x 2)
  | UNormalCdf => normal_logcdf (x 0) (x 1) (x 2)
  | UNormalIcdf => normal_icdf (x 0) (x 1) (x 2)
  | UHalfnormal => halfnormal_logprob (x 0) (x 1) (x 2)
  | UBeta => beta_logprob (x 0) (x 1) (x 2)
  | UExponential => exponential_logprob (x 0) (x 1)
  | ULaplace => laplace_logprob (x 0) (x 1) (x 2)
  | ULognormal => lognormal_logprob (x 0) (x 1) (x 2)
  | UPareto => pareto_logprob (x 0) (x 1) (x 2)
  | UCauchy => cauchy_logprob (x 0) (x 1) (x 2)
  | UHalfcauchy => halfcauchy_logprob (x 0) (x 1) (x 2)
  | UGamma => gamma_logprob (x 0) (x 1) (x 2)
  | UInvgamma => invgamma_logprob (x 0) (x 1) (x 2)
  | UChisquare => chisquare_logprob (x 0) (x 1)
  | UWald => wald_logprob (x 0) (x 1) (x 2)
  | UWeibull => weibull_logprob (x 0) (x 1)
  | UVonmises => vonmises_logprob (x 0) (x 1) (x 2)
  | UTriangular => triangular_logprob (x 0) (x 1) (x 2) (x 3)
  | UGumbel => gumbel_logprob (x 0) (x 1) (x 2)
  | ULogistic => logistic_logprob (x 0) (x 1) (x 2)
  | UBinomial => binomial_logprob (x 0) (x 1) (x 2)
  | UBetabinomial => betabinomial_logprob (x 0) (x 1) (x 2) (x 3)
  | UBernoulli => bernoulli_logprob (x 0) (x 1)
  | UPoisson => poisson_logprob (x 0) (x 1)
  | UPoissonCdf => poisson_logcdf (x 0) (x 1)
  | UNbinom => nbinom_logprob (x 0) (x 1) (x 2)
  | UGeometric => geometric_logprob (x 0) (x 1)
  | UGeometricCdf => geometric_logcdf (x 0) (x 1)
  | UGeometricIcdf => geometric_icdf (x 0) (x 1)
  | UHypergeometric => hypergeometric_logprob (x 0) (x 1) (x 2) (x 3)
  | UStudentt => studentt_logprob (x 0) (x 1) (x 2) (x 3)
  end.
(** the number of parameters *)
Definition params (u : univ) : nat :=
  match u with
  | UUniform => 2
  | UUniformCdf => 2
  | UNormal => 2
  | UNormalCdf => 2
  | UNormalIcdf => 2
  | UHalfnormal => 2
  | UBeta => 2
  | UExponential => 1
  | ULaplace => 2
  | ULognormal => 2
  | UPareto => 2
  | UCauchy => 2
  | UHalfcauchy => 2
  | UGamma => 2
  | UInvgamma => 2
  | UChisquare => 1
  | UWald => 2
  | UWeibull => 1
  | UVonmises => 2
  | UTriangular => 3
  | UGumbel => 2
  | ULogistic => 2
  | UBinomial => 2
  | UBetabinomial => 3
  | UBernoulli => 1
  | UPoisson => 1
  | UPoissonCdf => 1
  | UNbinom => 2
  | UGeometric => 1
  | UGeometricCdf => 1
  | UGeometricIcdf => 1
  | UHypergeometric => 3
  | UStudentt => 3
  end.
(** [s] is the common shape of the parameters and the value *)
Definition common (u : univ) (env : nat -> nd xr) (s : list nat) : Prop :=
  is_broadcast (map (fun k => nshp (env k)) (seq 0 (S (params u)))) s.
(** [x] are the entries of the parameters and of the value that broadcasting
    brings together at position [i] *)
Definition entries (u : univ) (env : nat -> nd xr) (i : list nat) (x : nat -> xr) : Prop :=
  forall k, k <= params u -> exists c, aligned (nshp (env k)) i c /\ x k = nelt (env k) c.
(** [l] lists the positions of an array of shape [s] once each *)
Definition lists (s : list nat) (l : list (list nat)) : Prop := NoDup l /\ forall i, In i l <-> inside s i.
