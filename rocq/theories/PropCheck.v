(** C03: invalid parameters raise, on arrays of any length: the evaluation raises
    exactly when some element violates the documented constraint. *)
From Coq Require Import Reals Lra Lia ZArith List Bool.
From Verif Require Import XR Special SpecCheck SpecDist ModelDist ModelVec ModelArr LemCheck LemCheckArr LemRef.
Import ListNotations.
Open Scope R_scope.

Theorem C03_normal : forall es : list (xr * xr * xr), raises (arr_eval (fun '(mu, s, v) => normal_logprob mu s v) es) <->
  exists mu s v, In (mu, s, v) es /\ ~ xpos s.
Proof. exact normal_arr. Qed.
Print Assumptions C03_normal.
Example C03_normal_ex : raises (arr_eval (fun '(mu, s, v) => normal_logprob mu s v) [(Fin 1, Fin 1, Fin 1); (Fin 0, Fin (-1), PInf)]).
Proof. apply C03_normal. do 3 eexists. split; [right; left; reflexivity|]. simpl. intuition lra. Qed.

Theorem C03_normal_logcdf : forall es : list (xr * xr * xr), raises (arr_eval (fun '(mu, s, v) => normal_logcdf mu s v) es) <->
  exists mu s v, In (mu, s, v) es /\ ~ xpos s.
Proof. exact normal_logcdf_arr. Qed.
Print Assumptions C03_normal_logcdf.
Example C03_normal_logcdf_ex : raises (arr_eval (fun '(mu, s, v) => normal_logcdf mu s v) [(Fin 1, Fin 1, Fin 1); (Fin 0, Fin (-1), PInf)]).
Proof. apply C03_normal_logcdf. do 3 eexists. split; [right; left; reflexivity|]. simpl. intuition lra. Qed.

Theorem C03_halfnormal : forall es : list (xr * xr * xr), raises (arr_eval (fun '(mu, s, v) => halfnormal_logprob mu s v) es) <->
  exists mu s v, In (mu, s, v) es /\ ~ xpos s.
Proof. exact halfnormal_arr. Qed.
Print Assumptions C03_halfnormal.
Example C03_halfnormal_ex : raises (arr_eval (fun '(mu, s, v) => halfnormal_logprob mu s v) [(Fin 1, Fin 1, Fin 1); (Fin 0, Fin 0, PInf)]).
Proof. apply C03_halfnormal. do 3 eexists. split; [right; left; reflexivity|]. simpl. intuition lra. Qed.

Theorem C03_beta : forall es : list (xr * xr * xr), raises (arr_eval (fun '(a, b, v) => beta_logprob a b v) es) <->
  exists a b v, In (a, b, v) es /\ ~ (xpos a /\ xpos b).
Proof. exact beta_arr. Qed.
Print Assumptions C03_beta.
Example C03_beta_ex : raises (arr_eval (fun '(a, b, v) => beta_logprob a b v) [(Fin 1, Fin 1, Fin 1); (Fin 1, Fin (-1), PInf)]).
Proof. apply C03_beta. do 3 eexists. split; [right; left; reflexivity|]. simpl. intuition lra. Qed.

Theorem C03_exponential : forall es : list (xr * xr), raises (arr_eval (fun '(mu, v) => exponential_logprob mu v) es) <->
  exists mu v, In (mu, v) es /\ ~ xpos mu.
Proof. exact exponential_arr. Qed.
Print Assumptions C03_exponential.
Example C03_exponential_ex : raises (arr_eval (fun '(mu, v) => exponential_logprob mu v) [(Fin 1, Fin 1); (Fin 0, PInf)]).
Proof. apply C03_exponential. do 2 eexists. split; [right; left; reflexivity|]. simpl. intuition lra. Qed.

Theorem C03_laplace : forall es : list (xr * xr * xr), raises (arr_eval (fun '(mu, b, v) => laplace_logprob mu b v) es) <->
  exists mu b v, In (mu, b, v) es /\ ~ xpos b.
Proof. exact laplace_arr. Qed.
Print Assumptions C03_laplace.
Example C03_laplace_ex : raises (arr_eval (fun '(mu, b, v) => laplace_logprob mu b v) [(Fin 1, Fin 1, Fin 1); (Fin 0, NaN, PInf)]).
Proof. apply C03_laplace. do 3 eexists. split; [right; left; reflexivity|]. simpl. intuition lra. Qed.

Theorem C03_lognormal : forall es : list (xr * xr * xr), raises (arr_eval (fun '(mu, s, v) => lognormal_logprob mu s v) es) <->
  exists mu s v, In (mu, s, v) es /\ ~ xpos s.
Proof. exact lognormal_arr. Qed.
Print Assumptions C03_lognormal.
Example C03_lognormal_ex : raises (arr_eval (fun '(mu, s, v) => lognormal_logprob mu s v) [(Fin 1, Fin 1, Fin 1); (Fin 0, NInf, PInf)]).
Proof. apply C03_lognormal. do 3 eexists. split; [right; left; reflexivity|]. simpl. intuition lra. Qed.

Theorem C03_pareto : forall es : list (xr * xr * xr), raises (arr_eval (fun '(a, m, v) => pareto_logprob a m v) es) <->
  exists a m v, In (a, m, v) es /\ ~ (xpos a /\ xpos m).
Proof. exact pareto_arr. Qed.
Print Assumptions C03_pareto.
Example C03_pareto_ex : raises (arr_eval (fun '(a, m, v) => pareto_logprob a m v) [(Fin 1, Fin 1, Fin 1); (Fin (-1), Fin 1, PInf)]).
Proof. apply C03_pareto. do 3 eexists. split; [right; left; reflexivity|]. simpl. intuition lra. Qed.

Theorem C03_cauchy : forall es : list (xr * xr * xr), raises (arr_eval (fun '(a, b, v) => cauchy_logprob a b v) es) <->
  exists a b v, In (a, b, v) es /\ ~ xpos b.
Proof. exact cauchy_arr. Qed.
Print Assumptions C03_cauchy.
Example C03_cauchy_ex : raises (arr_eval (fun '(a, b, v) => cauchy_logprob a b v) [(Fin 1, Fin 1, Fin 1); (Fin 0, Fin (-1), PInf)]).
Proof. apply C03_cauchy. do 3 eexists. split; [right; left; reflexivity|]. simpl. intuition lra. Qed.

Theorem C03_halfcauchy : forall es : list (xr * xr * xr), raises (arr_eval (fun '(a, b, v) => halfcauchy_logprob a b v) es) <->
  exists a b v, In (a, b, v) es /\ ~ xpos b.
Proof. exact halfcauchy_arr. Qed.
Print Assumptions C03_halfcauchy.
Example C03_halfcauchy_ex : raises (arr_eval (fun '(a, b, v) => halfcauchy_logprob a b v) [(Fin 1, Fin 1, Fin 1); (Fin 0, Fin (-1), PInf)]).
Proof. apply C03_halfcauchy. do 3 eexists. split; [right; left; reflexivity|]. simpl. intuition lra. Qed.

Theorem C03_invgamma : forall es : list (xr * xr * xr), raises (arr_eval (fun '(a, b, v) => invgamma_logprob a b v) es) <->
  exists a b v, In (a, b, v) es /\ ~ (xpos a /\ xpos b).
Proof. exact invgamma_arr. Qed.
Print Assumptions C03_invgamma.
Example C03_invgamma_ex : raises (arr_eval (fun '(a, b, v) => invgamma_logprob a b v) [(Fin 1, Fin 1, Fin 1); (Fin 1, Fin 0, PInf)]).
Proof. apply C03_invgamma. do 3 eexists. split; [right; left; reflexivity|]. simpl. intuition lra. Qed.

Theorem C03_wald : forall es : list (xr * xr * xr), raises (arr_eval (fun '(mu, l, v) => wald_logprob mu l v) es) <->
  exists mu l v, In (mu, l, v) es /\ ~ (xpos mu /\ xpos l).
Proof. exact wald_arr. Qed.
Print Assumptions C03_wald.
Example C03_wald_ex : raises (arr_eval (fun '(mu, l, v) => wald_logprob mu l v) [(Fin 1, Fin 1, Fin 1); (Fin 1, Fin 0, PInf)]).
Proof. apply C03_wald. do 3 eexists. split; [right; left; reflexivity|]. simpl. intuition lra. Qed.

Theorem C03_weibull : forall es : list (xr * xr), raises (arr_eval (fun '(c, v) => weibull_logprob c v) es) <->
  exists c v, In (c, v) es /\ ~ xpos c.
Proof. exact weibull_arr. Qed.
Print Assumptions C03_weibull.
Example C03_weibull_ex : raises (arr_eval (fun '(c, v) => weibull_logprob c v) [(Fin 1, Fin 1); (Fin 0, PInf)]).
Proof. apply C03_weibull. do 2 eexists. split; [right; left; reflexivity|]. simpl. intuition lra. Qed.

Theorem C03_vonmises : forall es : list (xr * xr * xr), raises (arr_eval (fun '(mu, k, v) => vonmises_logprob mu k v) es) <->
  exists mu k v, In (mu, k, v) es /\ ~ xpos k.
Proof. exact vonmises_arr. Qed.
Print Assumptions C03_vonmises.
Example C03_vonmises_ex : raises (arr_eval (fun '(mu, k, v) => vonmises_logprob mu k v) [(Fin 1, Fin 1, Fin 1); (Fin 0, Fin 0, PInf)]).
Proof. apply C03_vonmises. do 3 eexists. split; [right; left; reflexivity|]. simpl. intuition lra. Qed.

Theorem C03_triangular : forall es : list (xr * xr * xr * xr), raises (arr_eval (fun '(a, c, b, v) => triangular_logprob a c b v) es) <->
  exists a c b v, In (a, c, b, v) es /\ ~ (xordered a c /\ xordered c b).
Proof. exact triangular_arr. Qed.
Print Assumptions C03_triangular.
Example C03_triangular_ex : raises (arr_eval (fun '(a, c, b, v) => triangular_logprob a c b v) [(Fin 0, Fin 1, Fin 2, Fin 1); (Fin 0, Fin 3, Fin 2, PInf)]).
Proof. apply C03_triangular. do 4 eexists. split; [right; left; reflexivity|]. simpl. intuition lra. Qed.

Theorem C03_gumbel : forall es : list (xr * xr * xr), raises (arr_eval (fun '(mu, b, v) => gumbel_logprob mu b v) es) <->
  exists mu b v, In (mu, b, v) es /\ ~ xpos b.
Proof. exact gumbel_arr. Qed.
Print Assumptions C03_gumbel.
Example C03_gumbel_ex : raises (arr_eval (fun '(mu, b, v) => gumbel_logprob mu b v) [(Fin 1, Fin 1, Fin 1); (Fin 0, Fin 0, PInf)]).
Proof. apply C03_gumbel. do 3 eexists. split; [right; left; reflexivity|]. simpl. intuition lra. Qed.

Theorem C03_logistic : forall es : list (xr * xr * xr), raises (arr_eval (fun '(mu, s, v) => logistic_logprob mu s v) es) <->
  exists mu s v, In (mu, s, v) es /\ ~ xpos s.
Proof. exact logistic_arr. Qed.
Print Assumptions C03_logistic.
Example C03_logistic_ex : raises (arr_eval (fun '(mu, s, v) => logistic_logprob mu s v) [(Fin 1, Fin 1, Fin 1); (Fin 0, Fin 0, PInf)]).
Proof. apply C03_logistic. do 3 eexists. split; [right; left; reflexivity|]. simpl. intuition lra. Qed.

Theorem C03_uniform_logcdf : forall es : list (xr * xr * xr), raises (arr_eval (fun '(a, b, v) => uniform_logcdf a b v) es) <->
  exists a b v, In (a, b, v) es /\ ~ xordered a b.
Proof. exact uniform_logcdf_arr. Qed.
Print Assumptions C03_uniform_logcdf.
Example C03_uniform_logcdf_ex : raises (arr_eval (fun '(a, b, v) => uniform_logcdf a b v) [(Fin 0, Fin 1, Fin 1); (Fin 1, Fin 0, PInf)]).
Proof. apply C03_uniform_logcdf. do 3 eexists. split; [right; left; reflexivity|]. simpl. intuition lra. Qed.

Theorem C03_betabinomial : forall es : list (xr * xr * xr * xr), raises (arr_eval (fun '(n, a, b, v) => betabinomial_logprob n a b v) es) <->
  exists n a b v, In (n, a, b, v) es /\ ~ (xpos a /\ xpos b).
Proof. exact betabinomial_arr. Qed.
Print Assumptions C03_betabinomial.
Example C03_betabinomial_ex : raises (arr_eval (fun '(n, a, b, v) => betabinomial_logprob n a b v) [(Fin 1, Fin 1, Fin 1, Fin 1); (Fin 3, Fin 0, Fin 1, PInf)]).
Proof. apply C03_betabinomial. do 4 eexists. split; [right; left; reflexivity|]. simpl. intuition lra. Qed.

Theorem C03_bernoulli : forall es : list (xr * xr), raises (arr_eval (fun '(p, v) => bernoulli_logprob p v) es) <->
  exists p v, In (p, v) es /\ ~ xprob p.
Proof. exact bernoulli_arr. Qed.
Print Assumptions C03_bernoulli.
Example C03_bernoulli_ex : raises (arr_eval (fun '(p, v) => bernoulli_logprob p v) [(Fin 1, Fin 1); (Fin 2, PInf)]).
Proof. apply C03_bernoulli. do 2 eexists. split; [right; left; reflexivity|]. simpl. intuition lra. Qed.

Theorem C03_poisson : forall es : list (xr * xr), raises (arr_eval (fun '(mu, v) => poisson_logprob mu v) es) <->
  exists mu v, In (mu, v) es /\ ~ xnonneg mu.
Proof. exact poisson_arr. Qed.
Print Assumptions C03_poisson.
Example C03_poisson_ex : raises (arr_eval (fun '(mu, v) => poisson_logprob mu v) [(Fin 1, Fin 1); (Fin (-1), PInf)]).
Proof. apply C03_poisson. do 2 eexists. split; [right; left; reflexivity|]. simpl. intuition lra. Qed.

Theorem C03_poisson_logcdf : forall es : list (xr * xr), raises (arr_eval (fun '(mu, v) => poisson_logcdf mu v) es) <->
  exists mu v, In (mu, v) es /\ ~ xnonneg mu.
Proof. exact poisson_logcdf_arr. Qed.
Print Assumptions C03_poisson_logcdf.
Example C03_poisson_logcdf_ex : raises (arr_eval (fun '(mu, v) => poisson_logcdf mu v) [(Fin 1, Fin 1); (Fin (-1), PInf)]).
Proof. apply C03_poisson_logcdf. do 2 eexists. split; [right; left; reflexivity|]. simpl. intuition lra. Qed.

Theorem C03_geometric : forall es : list (xr * xr), raises (arr_eval (fun '(p, v) => geometric_logprob p v) es) <->
  exists p v, In (p, v) es /\ ~ xprob p.
Proof. exact geometric_arr. Qed.
Print Assumptions C03_geometric.
Example C03_geometric_ex : raises (arr_eval (fun '(p, v) => geometric_logprob p v) [(Fin 1, Fin 1); (Fin 2, PInf)]).
Proof. apply C03_geometric. do 2 eexists. split; [right; left; reflexivity|]. simpl. intuition lra. Qed.

Theorem C03_geometric_logcdf : forall es : list (xr * xr), raises (arr_eval (fun '(p, v) => geometric_logcdf p v) es) <->
  exists p v, In (p, v) es /\ ~ xprob p.
Proof. exact geometric_logcdf_arr. Qed.
Print Assumptions C03_geometric_logcdf.
Example C03_geometric_logcdf_ex : raises (arr_eval (fun '(p, v) => geometric_logcdf p v) [(Fin 1, Fin 1); (Fin 2, PInf)]).
Proof. apply C03_geometric_logcdf. do 2 eexists. split; [right; left; reflexivity|]. simpl. intuition lra. Qed.

(** Missing: a negative [n] is not rejected (refuted below). *)
Theorem C03_binomial_partial : forall es : list (xr * xr * xr), raises (arr_eval (fun '(n, p, v) => binomial_logprob n p v) es) <->
  exists n p v, In (n, p, v) es /\ ~ xprob p.
Proof. exact binomial_partial_arr. Qed.
Print Assumptions C03_binomial_partial.
Example C03_binomial_partial_ex : raises (arr_eval (fun '(n, p, v) => binomial_logprob n p v) [(Fin 1, Fin 1, Fin 1); (Fin 2, Fin 2, PInf)]).
Proof. apply C03_binomial_partial. do 3 eexists. split; [right; left; reflexivity|]. simpl. intuition lra. Qed.

(** Missing: [df <= 0] and [scale = 0] are not rejected (refuted below). *)
Theorem C03_studentt_partial : forall es : list (xr * xr * xr * xr), raises (arr_eval (fun '(df, m, s, v) => studentt_logprob df m s v) es) <->
  exists df m s v, In (df, m, s, v) es /\ ~ xnonneg s.
Proof. exact studentt_partial_arr. Qed.
Print Assumptions C03_studentt_partial.
Example C03_studentt_partial_ex : raises (arr_eval (fun '(df, m, s, v) => studentt_logprob df m s v) [(Fin 1, Fin 1, Fin 1, Fin 1); (Fin 2, Fin 2, Fin (-1), PInf)]).
Proof. apply C03_studentt_partial. do 4 eexists. split; [right; left; reflexivity|]. simpl. intuition lra. Qed.

Theorem C03_gamma_partial : forall (a v : xr) (s : R),
  raises (gamma_logprob a (Fin s) v) <-> ~ (xpos a /\ 0 <= s).
Proof. exact (fun a v s => gamma_chk a s v). Qed.
Print Assumptions C03_gamma_partial.
Example C03_gamma_ex : raises (gamma_logprob (Fin 1) (Fin (-1)) (Fin 3)).
Proof. apply C03_gamma_partial. lra. Qed.
(** a zero scale gives NaN instead of an error *)
Theorem C03_gamma_scale_zero_refuted : exists a x, 0 < a /\ 0 < x /\ gamma_logprob (Fin a) (Fin 0) (Fin x) = Val NaN.
Proof. exact gamma_scale0. Qed.
Print Assumptions C03_gamma_scale_zero_refuted.
Theorem C03_chisquare : forall (k : R) (v : xr), raises (chisquare_logprob (Fin k) v) <-> ~ 0 < k.
Proof. exact chisquare_chk. Qed.
Print Assumptions C03_chisquare.
Example C03_chisquare_ex : raises (chisquare_logprob (Fin 0) NaN).
Proof. apply C03_chisquare. lra. Qed.
(** Missing: [p = 0] (refuted below). *)
Theorem C03_nbinom_partial : forall (n p : R) (v : xr), n <= 0 \/ p < 0 \/ 1 < p -> raises (nbinom_logprob (Fin n) (Fin p) v).
Proof. exact nbinom_chk. Qed.
Print Assumptions C03_nbinom_partial.
Example C03_nbinom_ex : raises (nbinom_logprob (Fin 3) (Fin 2) (Fin 1)).
Proof. apply C03_nbinom_partial. lra. Qed.
(** success probability zero is accepted *)
Theorem C03_nbinom_p_zero_refuted : exists n v r, 0 < n /\ nbinom_logprob (Fin n) (Fin 0) (Fin v) = Val r.
Proof. exact nbinom_p0_ok. Qed.
Print Assumptions C03_nbinom_p_zero_refuted.
(** an upper bound below the lower bound is accepted *)
Theorem C03_uniform_refuted : exists a b x, b < a /\ exists r, uniform_logprob (Fin a) (Fin b) (Fin x) = Val r.
Proof. exact uniform_no_check. Qed.
Print Assumptions C03_uniform_refuted.
(** negative degrees of freedom are accepted *)
Theorem C03_studentt_df_refuted : exists df x, df < 0 /\ exists r, studentt_logprob (Fin df) (Fin 0) (Fin 1) (Fin x) = Val r.
Proof. exact studentt_no_check. Qed.
Print Assumptions C03_studentt_df_refuted.
(** a negative count of good items is accepted *)
Theorem C03_hypergeometric_refuted : exists good bad n x, good < 0 /\ exists r,
  hypergeometric_logprob (Fin good) (Fin bad) (Fin n) (Fin x) = Val r.
Proof. exact hypergeometric_no_check. Qed.
Print Assumptions C03_hypergeometric_refuted.
(** a negative number of trials is accepted *)
Theorem C03_binomial_n_refuted : exists n p x, n < 0 /\ 0 <= p <= 1 /\ exists r, binomial_logprob (Fin n) (Fin p) (Fin x) = Val r.
Proof. exact binomial_no_check. Qed.
Print Assumptions C03_binomial_n_refuted.
(** all weights negative, yet normalised to valid probabilities *)
Theorem C03_categorical_refuted : exists w : list R, List.Forall (fun x => x < 0) w /\
  exists r, categorical_logprob (map Fin w) 0%Z = Val r.
Proof. exact categorical_neg_check. Qed.
Print Assumptions C03_categorical_refuted.
(** a negative probability is accepted *)
Theorem C03_multinomial_refuted : exists p k : list R, (exists q, In q p /\ q < 0) /\
  exists r, multinomial_logprob (Fin 1) (map Fin p) (map Fin k) = Val r.
Proof. exact multinomial_neg_check. Qed.
Print Assumptions C03_multinomial_refuted.
