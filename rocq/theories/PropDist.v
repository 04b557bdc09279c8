(** C01 and C02 for the univariate continuous families: log-densities equal
    the textbook densities on the whole real line (inside and outside the support). *)
From Coq Require Import Reals Lra Lia ZArith List Bool.
From Coquelicot Require Import Coquelicot.
From Verif Require Import XR Special SpecDist ModelDist LemDist LemSupp LemRef LemDiscFin.
Import ListNotations.
Open Scope R_scope.

Theorem C01_uniform : forall a b x : R, a < b ->
  denotes (uniform_logprob (Fin a) (Fin b) (Fin x)) (uniform_pdf a b x).
Proof. exact uniform_ok. Qed.
Print Assumptions C01_uniform.
Example C01_uniform_ex : denotes (uniform_logprob (Fin 2) (Fin 5) (Fin 3)) (uniform_pdf 2 5 3).
Proof. apply C01_uniform; lra. Qed.

Theorem C01_normal : forall mu s x : R, 0 < s ->
  denotes (normal_logprob (Fin mu) (Fin s) (Fin x)) (normal_pdf mu s x).
Proof. exact normal_ok. Qed.
Print Assumptions C01_normal.
Example C01_normal_ex : denotes (normal_logprob (Fin 2) (Fin 3) (Fin 7)) (normal_pdf 2 3 7).
Proof. apply C01_normal; lra. Qed.

Theorem C01_halfnormal : forall l s x : R, 0 < s ->
  denotes (halfnormal_logprob (Fin l) (Fin s) (Fin x)) (halfnormal_pdf l s x).
Proof. exact halfnormal_ok. Qed.
Print Assumptions C01_halfnormal.
Example C01_halfnormal_ex : denotes (halfnormal_logprob (Fin 1) (Fin 3) (Fin 7)) (halfnormal_pdf 1 3 7).
Proof. apply C01_halfnormal; lra. Qed.

Theorem C01_beta : forall a b x : R, 0 < a -> 0 < b -> (x = 0 -> 1 <= a) -> (x = 1 -> 1 <= b) ->
  denotes (beta_logprob (Fin a) (Fin b) (Fin x)) (beta_pdf a b x).
Proof. exact beta_ok. Qed.
Print Assumptions C01_beta.
Example C01_beta_ex : denotes (beta_logprob (Fin (1/2)) (Fin 3) (Fin (1/4))) (beta_pdf (1/2) 3 (1/4)).
Proof. apply C01_beta; lra. Qed.

Theorem C01_exponential : forall mu x : R, 0 < mu ->
  denotes (exponential_logprob (Fin mu) (Fin x)) (exponential_pdf mu x).
Proof. exact exponential_ok. Qed.
Print Assumptions C01_exponential.
Example C01_exponential_ex : denotes (exponential_logprob (Fin 3) (Fin 2)) (exponential_pdf 3 2).
Proof. apply C01_exponential; lra. Qed.

Theorem C01_laplace : forall mu s x : R, 0 < s ->
  denotes (laplace_logprob (Fin mu) (Fin s) (Fin x)) (laplace_pdf mu s x).
Proof. exact laplace_ok. Qed.
Print Assumptions C01_laplace.
Example C01_laplace_ex : denotes (laplace_logprob (Fin 3) (Fin 2) (Fin 1)) (laplace_pdf 3 2 1).
Proof. apply C01_laplace; lra. Qed.

Theorem C01_lognormal : forall mu s x : R, 0 < s ->
  denotes (lognormal_logprob (Fin mu) (Fin s) (Fin x)) (lognormal_pdf mu s x).
Proof. exact lognormal_ok. Qed.
Print Assumptions C01_lognormal.
Example C01_lognormal_ex : denotes (lognormal_logprob (Fin 3) (Fin 2) (Fin 5)) (lognormal_pdf 3 2 5).
Proof. apply C01_lognormal; lra. Qed.

Theorem C01_pareto : forall a m x : R, 0 < a -> 0 < m ->
  denotes (pareto_logprob (Fin a) (Fin m) (Fin x)) (pareto_pdf a m x).
Proof. exact pareto_ok. Qed.
Print Assumptions C01_pareto.
Example C01_pareto_ex : denotes (pareto_logprob (Fin 3) (Fin 2) (Fin 5)) (pareto_pdf 3 2 5).
Proof. apply C01_pareto; lra. Qed.

Theorem C01_cauchy : forall a b x : R, 0 < b ->
  denotes (cauchy_logprob (Fin a) (Fin b) (Fin x)) (cauchy_pdf a b x).
Proof. exact cauchy_ok. Qed.
Print Assumptions C01_cauchy.
Example C01_cauchy_ex : denotes (cauchy_logprob (Fin 3) (Fin 2) (Fin 5)) (cauchy_pdf 3 2 5).
Proof. apply C01_cauchy; lra. Qed.

Theorem C01_halfcauchy : forall a b x : R, 0 < b ->
  denotes (halfcauchy_logprob (Fin a) (Fin b) (Fin x)) (halfcauchy_pdf a b x).
Proof. exact halfcauchy_ok. Qed.
Print Assumptions C01_halfcauchy.
Example C01_halfcauchy_ex : denotes (halfcauchy_logprob (Fin 3) (Fin 2) (Fin 5)) (halfcauchy_pdf 3 2 5).
Proof. apply C01_halfcauchy; lra. Qed.

Theorem C01_gamma : forall a s x : R, 0 < a -> 0 < s -> (x = 0 -> 1 <= a) ->
  denotes (gamma_logprob (Fin a) (Fin s) (Fin x)) (gamma_pdf a s x).
Proof. exact gamma_ok. Qed.
Print Assumptions C01_gamma.
Example C01_gamma_ex : denotes (gamma_logprob (Fin (1/2)) (Fin 2) (Fin 5)) (gamma_pdf (1/2) 2 5).
Proof. apply C01_gamma; lra. Qed.

Theorem C01_invgamma : forall a b x : R, 0 < a -> 0 < b ->
  denotes (invgamma_logprob (Fin a) (Fin b) (Fin x)) (invgamma_pdf a b x).
Proof. exact invgamma_ok. Qed.
Print Assumptions C01_invgamma.
Example C01_invgamma_ex : denotes (invgamma_logprob (Fin 3) (Fin 2) (Fin 5)) (invgamma_pdf 3 2 5).
Proof. apply C01_invgamma; lra. Qed.

Theorem C01_chisquare : forall k x : R, 0 < k -> (x = 0 -> 2 <= k) ->
  denotes (chisquare_logprob (Fin k) (Fin x)) (chisquare_pdf k x).
Proof. exact chisquare_ok. Qed.
Print Assumptions C01_chisquare.
Example C01_chisquare_ex : denotes (chisquare_logprob (Fin 3) (Fin 5)) (chisquare_pdf 3 5).
Proof. apply C01_chisquare; lra. Qed.

Theorem C01_wald : forall mu l x : R, 0 < mu -> 0 < l ->
  denotes (wald_logprob (Fin mu) (Fin l) (Fin x)) (wald_pdf mu l x).
Proof. exact wald_ok. Qed.
Print Assumptions C01_wald.
Example C01_wald_ex : denotes (wald_logprob (Fin 3) (Fin 2) (Fin 5)) (wald_pdf 3 2 5).
Proof. apply C01_wald; lra. Qed.

Theorem C01_weibull : forall c x : R, 0 < c -> (x = 0 -> 1 < c) ->
  denotes (weibull_logprob (Fin c) (Fin x)) (weibull_pdf c x).
Proof. exact weibull_ok. Qed.
Print Assumptions C01_weibull.
Example C01_weibull_ex : denotes (weibull_logprob (Fin (1/2)) (Fin 5)) (weibull_pdf (1/2) 5).
Proof. apply C01_weibull; lra. Qed.

Theorem C01_vonmises : forall mu k x : R, 0 < k ->
  denotes (vonmises_logprob (Fin mu) (Fin k) (Fin x)) (vonmises_pdf mu k x).
Proof. exact vonmises_ok. Qed.
Print Assumptions C01_vonmises.
Example C01_vonmises_ex : denotes (vonmises_logprob (Fin 1) (Fin 2) (Fin 3)) (vonmises_pdf 1 2 3).
Proof. apply C01_vonmises; lra. Qed.

Theorem C01_triangular : forall a c b x : R, a <= c <= b -> a < b -> ~ (x = c /\ c = b) ->
  denotes (triangular_logprob (Fin a) (Fin c) (Fin b) (Fin x)) (triangular_pdf a c b x).
Proof. exact triangular_ok. Qed.
Print Assumptions C01_triangular.
Example C01_triangular_ex : denotes (triangular_logprob (Fin 0) (Fin 2) (Fin 3) (Fin 1)) (triangular_pdf 0 2 3 1).
Proof. apply C01_triangular; lra. Qed.

Theorem C01_gumbel : forall mu s x : R, 0 < s ->
  denotes (gumbel_logprob (Fin mu) (Fin s) (Fin x)) (gumbel_pdf mu s x).
Proof. exact gumbel_ok. Qed.
Print Assumptions C01_gumbel.
Example C01_gumbel_ex : denotes (gumbel_logprob (Fin 1) (Fin 2) (Fin 3)) (gumbel_pdf 1 2 3).
Proof. apply C01_gumbel; lra. Qed.

Theorem C01_logistic : forall mu s x : R, 0 < s ->
  denotes (logistic_logprob (Fin mu) (Fin s) (Fin x)) (logistic_pdf mu s x).
Proof. exact logistic_ok. Qed.
Print Assumptions C01_logistic.
Example C01_logistic_ex : denotes (logistic_logprob (Fin 1) (Fin 2) (Fin 3)) (logistic_pdf 1 2 3).
Proof. apply C01_logistic; lra. Qed.

Theorem C01_studentt : forall nu m s x : R, 0 < nu -> 0 < s ->
  denotes (studentt_logprob (Fin nu) (Fin m) (Fin s) (Fin x)) (studentt_pdf nu m s x).
Proof. exact studentt_ok. Qed.
Print Assumptions C01_studentt.
Example C01_studentt_ex : denotes (studentt_logprob (Fin 4) (Fin 1) (Fin 2) (Fin 3)) (studentt_pdf 4 1 2 3).
Proof. apply C01_studentt; lra. Qed.

(** Boundary points excluded above: the code's value there is not the logarithm of the density. *)
Theorem C01_weibull_boundary_refuted : exists c x, 0 < c /\ 0 <= x /\
  ~ denotes (weibull_logprob (Fin c) (Fin x)) (weibull_pdf c x).
Proof. exact weibull_boundary_bad. Qed.
Print Assumptions C01_weibull_boundary_refuted.
(** at the mode when it equals an end point the code does not give the density *)
Theorem C01_triangular_mode_refuted : exists a c b x, a <= c <= b /\ a < b /\ a <= x <= b /\
  ~ denotes (triangular_logprob (Fin a) (Fin c) (Fin b) (Fin x)) (triangular_pdf a c b x).
Proof. exact triangular_mode_bad. Qed.
Print Assumptions C01_triangular_mode_refuted.
(** density unbounded at 0, yet the log-density there is -inf *)
Theorem C01_gamma_boundary_refuted : exists a s, 0 < a /\ 0 < s /\
  gamma_logprob (Fin a) (Fin s) (Fin 0) = Val NInf /\
  forall M, exists d, 0 < d /\ forall x, 0 < x < d -> M < gamma_pdf a s x.
Proof. exact gamma_boundary_bad. Qed.
Print Assumptions C01_gamma_boundary_refuted.

Theorem C02_uniform : forall a b x : R, a < b -> (x < a \/ b < x) ->
  uniform_logprob (Fin a) (Fin b) (Fin x) = Val NInf.
Proof. exact uniform_out. Qed.
Print Assumptions C02_uniform.
Example C02_uniform_ex : uniform_logprob (Fin 2) (Fin 5) (Fin 7) = Val NInf.
Proof. apply C02_uniform; lra. Qed.

Theorem C02_halfnormal : forall l s x : R, 0 < s -> x < l ->
  halfnormal_logprob (Fin l) (Fin s) (Fin x) = Val NInf.
Proof. exact halfnormal_out. Qed.
Print Assumptions C02_halfnormal.
Example C02_halfnormal_ex : halfnormal_logprob (Fin 1) (Fin 3) (Fin 0) = Val NInf.
Proof. apply C02_halfnormal; lra. Qed.

Theorem C02_beta : forall a b x : R, 0 < a -> 0 < b -> (x < 0 \/ 1 < x) ->
  beta_logprob (Fin a) (Fin b) (Fin x) = Val NInf.
Proof. exact beta_out. Qed.
Print Assumptions C02_beta.
Example C02_beta_ex : beta_logprob (Fin (1/2)) (Fin 3) (Fin 2) = Val NInf.
Proof. apply C02_beta; lra. Qed.

Theorem C02_exponential : forall mu x : R, 0 < mu -> x < 0 ->
  exponential_logprob (Fin mu) (Fin x) = Val NInf.
Proof. exact exponential_out. Qed.
Print Assumptions C02_exponential.
Example C02_exponential_ex : exponential_logprob (Fin 3) (Fin (-1)) = Val NInf.
Proof. apply C02_exponential; lra. Qed.

Theorem C02_lognormal : forall mu s x : R, 0 < s -> x <= 0 ->
  lognormal_logprob (Fin mu) (Fin s) (Fin x) = Val NInf.
Proof. exact lognormal_out. Qed.
Print Assumptions C02_lognormal.
Example C02_lognormal_ex : lognormal_logprob (Fin 3) (Fin 2) (Fin 0) = Val NInf.
Proof. apply C02_lognormal; lra. Qed.

Theorem C02_pareto : forall a m x : R, 0 < a -> 0 < m -> x < m ->
  pareto_logprob (Fin a) (Fin m) (Fin x) = Val NInf.
Proof. exact pareto_out. Qed.
Print Assumptions C02_pareto.
Example C02_pareto_ex : pareto_logprob (Fin 3) (Fin 2) (Fin 1) = Val NInf.
Proof. apply C02_pareto; lra. Qed.

Theorem C02_halfcauchy : forall a b x : R, 0 < b -> x < a ->
  halfcauchy_logprob (Fin a) (Fin b) (Fin x) = Val NInf.
Proof. exact halfcauchy_out. Qed.
Print Assumptions C02_halfcauchy.
Example C02_halfcauchy_ex : halfcauchy_logprob (Fin 3) (Fin 2) (Fin 1) = Val NInf.
Proof. apply C02_halfcauchy; lra. Qed.

Theorem C02_gamma : forall a s x : R, 0 < a -> 0 < s -> x < 0 ->
  gamma_logprob (Fin a) (Fin s) (Fin x) = Val NInf.
Proof. exact gamma_out. Qed.
Print Assumptions C02_gamma.
Example C02_gamma_ex : gamma_logprob (Fin (1/2)) (Fin 2) (Fin (-1)) = Val NInf.
Proof. apply C02_gamma; lra. Qed.

Theorem C02_invgamma : forall a b x : R, 0 < a -> 0 < b -> x <= 0 ->
  invgamma_logprob (Fin a) (Fin b) (Fin x) = Val NInf.
Proof. exact invgamma_out. Qed.
Print Assumptions C02_invgamma.
Example C02_invgamma_ex : invgamma_logprob (Fin 3) (Fin 2) (Fin 0) = Val NInf.
Proof. apply C02_invgamma; lra. Qed.

Theorem C02_chisquare : forall k x : R, 0 < k -> x < 0 ->
  chisquare_logprob (Fin k) (Fin x) = Val NInf.
Proof. exact chisquare_out. Qed.
Print Assumptions C02_chisquare.
Example C02_chisquare_ex : chisquare_logprob (Fin 3) (Fin (-1)) = Val NInf.
Proof. apply C02_chisquare; lra. Qed.

Theorem C02_wald : forall mu l x : R, 0 < mu -> 0 < l -> x <= 0 ->
  wald_logprob (Fin mu) (Fin l) (Fin x) = Val NInf.
Proof. exact wald_out. Qed.
Print Assumptions C02_wald.
Example C02_wald_ex : wald_logprob (Fin 3) (Fin 2) (Fin (-1)) = Val NInf.
Proof. apply C02_wald; lra. Qed.

Theorem C02_weibull : forall c x : R, 0 < c -> x < 0 ->
  weibull_logprob (Fin c) (Fin x) = Val NInf.
Proof. exact weibull_out. Qed.
Print Assumptions C02_weibull.
Example C02_weibull_ex : weibull_logprob (Fin (1/2)) (Fin (-1)) = Val NInf.
Proof. apply C02_weibull; lra. Qed.

Theorem C02_vonmises : forall mu k x : R, 0 < k -> (x < - PI \/ PI < x) ->
  vonmises_logprob (Fin mu) (Fin k) (Fin x) = Val NInf.
Proof. exact vonmises_out. Qed.
Print Assumptions C02_vonmises.
Example C02_vonmises_ex : vonmises_logprob (Fin 1) (Fin 2) (Fin (2 * PI)) = Val NInf.
Proof. apply C02_vonmises; try lra; generalize PI_RGT_0; lra. Qed.

Theorem C02_triangular : forall a c b x : R, a <= c <= b -> a < b -> (x < a \/ b < x) ->
  triangular_logprob (Fin a) (Fin c) (Fin b) (Fin x) = Val NInf.
Proof. exact triangular_out. Qed.
Print Assumptions C02_triangular.
Example C02_triangular_ex : triangular_logprob (Fin 0) (Fin 2) (Fin 3) (Fin 4) = Val NInf.
Proof. apply C02_triangular; lra. Qed.

(** Discrete families: every real value below or above the range of the variable.  Missing: non-integers inside the range, see the refutation below. *)

Theorem C02_binomial_partial : forall (n : nat) (p x : R), 0 <= p <= 1 -> (x < 0 \/ INR n < x) ->
  binomial_logprob (Fin (INR n)) (Fin p) (Fin x) = Val NInf.
Proof. exact binomial_out. Qed.
Print Assumptions C02_binomial_partial.
Example C02_binomial_partial_ex : binomial_logprob (Fin (INR 3)) (Fin (1/3)) (Fin 4) = Val NInf.
Proof. apply C02_binomial_partial; simpl; lra. Qed.

Theorem C02_betabinomial_partial : forall (n : nat) (a b x : R), 0 < a -> 0 < b -> (x < 0 \/ INR n < x) ->
  betabinomial_logprob (Fin (INR n)) (Fin a) (Fin b) (Fin x) = Val NInf.
Proof. exact betabinomial_out. Qed.
Print Assumptions C02_betabinomial_partial.
Example C02_betabinomial_partial_ex : betabinomial_logprob (Fin (INR 3)) (Fin 1) (Fin 2) (Fin 4) = Val NInf.
Proof. apply C02_betabinomial_partial; simpl; lra. Qed.

Theorem C02_bernoulli_partial : forall p x : R, 0 <= p <= 1 -> (x < 0 \/ 1 < x) ->
  bernoulli_logprob (Fin p) (Fin x) = Val NInf.
Proof. exact bernoulli_out. Qed.
Print Assumptions C02_bernoulli_partial.
Example C02_bernoulli_partial_ex : bernoulli_logprob (Fin (1/3)) (Fin 2) = Val NInf.
Proof. apply C02_bernoulli_partial; lra. Qed.

Theorem C02_poisson_partial : forall mu x : R, 0 <= mu -> x < 0 ->
  poisson_logprob (Fin mu) (Fin x) = Val NInf.
Proof. exact poisson_out. Qed.
Print Assumptions C02_poisson_partial.
Example C02_poisson_partial_ex : poisson_logprob (Fin 3) (Fin (-1)) = Val NInf.
Proof. apply C02_poisson_partial; lra. Qed.

Theorem C02_geometric_partial : forall p x : R, 0 < p <= 1 -> x < 1 ->
  geometric_logprob (Fin p) (Fin x) = Val NInf.
Proof. exact geometric_out. Qed.
Print Assumptions C02_geometric_partial.
Example C02_geometric_partial_ex : geometric_logprob (Fin (1/3)) (Fin 0) = Val NInf.
Proof. apply C02_geometric_partial; lra. Qed.

Theorem C02_nbinom_partial : forall n p x : R, 0 < n -> 0 < p < 1 -> x < 0 ->
  nbinom_logprob (Fin n) (Fin p) (Fin x) = Val NInf.
Proof. exact nbinom_out. Qed.
Print Assumptions C02_nbinom_partial.
Example C02_nbinom_partial_ex : nbinom_logprob (Fin 3) (Fin (1/3)) (Fin (-1)) = Val NInf.
Proof. apply C02_nbinom_partial; lra. Qed.

Theorem C02_hypergeometric_partial : forall (good bad n : nat) (x : R), (x < 0 \/ x < INR n - INR bad \/ INR good < x \/ INR n < x) ->
  hypergeometric_logprob (Fin (INR good)) (Fin (INR bad)) (Fin (INR n)) (Fin x) = Val NInf.
Proof. exact hypergeometric_out. Qed.
Print Assumptions C02_hypergeometric_partial.
Example C02_hypergeometric_partial_ex : hypergeometric_logprob (Fin (INR 3)) (Fin (INR 2)) (Fin (INR 4)) (Fin 1) = Val NInf.
Proof. apply C02_hypergeometric_partial; simpl; lra. Qed.

(** No family checks integrality: a non-integer inside the range gets a finite log-mass. *)
Theorem C02_discrete_noninteger_refuted : exists mu x, 0 < mu /\ (forall z, x <> IZR z) /\
  poisson_logprob (Fin mu) (Fin x) <> Val NInf.
Proof. exact poisson_nonint. Qed.
Print Assumptions C02_discrete_noninteger_refuted.
(** Indeed all of them do: every real of the range, integer or not, gets a
    finite log-mass, so the log-mass is minus infinity exactly below and above
    the range. *)
Theorem C02_discrete_exactly_partial : forall x : R,
  (forall mu, 0 < mu -> poisson_logprob (Fin mu) (Fin x) = Val NInf <-> x < 0) /\
  (forall p, 0 < p < 1 -> geometric_logprob (Fin p) (Fin x) = Val NInf <-> x < 1) /\
  (forall p, 0 < p < 1 -> bernoulli_logprob (Fin p) (Fin x) = Val NInf <-> x < 0 \/ 1 < x) /\
  (forall (n : nat) p, 0 < p < 1 -> binomial_logprob (Fin (INR n)) (Fin p) (Fin x) = Val NInf <-> x < 0 \/ INR n < x) /\
  (forall (n : nat) a b, 0 < a -> 0 < b -> betabinomial_logprob (Fin (INR n)) (Fin a) (Fin b) (Fin x) = Val NInf <-> x < 0 \/ INR n < x) /\
  (forall n p, 0 < n -> 0 < p < 1 -> nbinom_logprob (Fin n) (Fin p) (Fin x) = Val NInf <-> x < 0) /\
  (forall good bad n : nat, (n <= good + bad)%nat ->
    hypergeometric_logprob (Fin (INR good)) (Fin (INR bad)) (Fin (INR n)) (Fin x) = Val NInf <-> x < 0 \/ x < INR n - INR bad \/ INR good < x \/ INR n < x).
Proof. exact discrete_exact. Qed.
Print Assumptions C02_discrete_exactly_partial.
Example C02_discrete_exactly_ex : binomial_logprob (Fin (INR 3)) (Fin (1/3)) (Fin (3/2)) <> Val NInf.
Proof. intros E. apply (proj1 (proj2 (proj2 (proj2 (C02_discrete_exactly_partial (3/2))))) 3%nat (1/3)) in E; simpl in *; lra. Qed.
