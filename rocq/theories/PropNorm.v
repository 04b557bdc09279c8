(** C04: the densities denoted by the log-densities integrate to one. *)
From Coq Require Import Reals Lra Lia ZArith List Bool.
From Coquelicot Require Import Coquelicot.
From Verif Require Import XR Special LemInt SpecDist ModelDist LemSupp.
Import ListNotations.
Open Scope R_scope.

Theorem C04_uniform : forall a b : R, a < b ->
  integrates_to_one (uniform_logprob (Fin a) (Fin b)) a b.
Proof. exact uniform_int. Qed.
Print Assumptions C04_uniform.
Example C04_uniform_ex : integrates_to_one (uniform_logprob (Fin 2) (Fin 5)) 2 5.
Proof. apply C04_uniform; lra. Qed.

Theorem C04_normal : forall mu s : R, 0 < s ->
  integrates_to_one (normal_logprob (Fin mu) (Fin s)) m_infty p_infty.
Proof. exact normal_int. Qed.
Print Assumptions C04_normal.
Example C04_normal_ex : integrates_to_one (normal_logprob (Fin 2) (Fin 3)) m_infty p_infty.
Proof. apply C04_normal; lra. Qed.

Theorem C04_halfnormal : forall l s : R, 0 < s ->
  integrates_to_one (halfnormal_logprob (Fin l) (Fin s)) l p_infty.
Proof. exact halfnormal_int. Qed.
Print Assumptions C04_halfnormal.
Example C04_halfnormal_ex : integrates_to_one (halfnormal_logprob (Fin 1) (Fin 3)) 1 p_infty.
Proof. apply C04_halfnormal; lra. Qed.

Theorem C04_beta : forall a b : R, 0 < a -> 0 < b ->
  integrates_to_one (beta_logprob (Fin a) (Fin b)) 0 1.
Proof. exact beta_int. Qed.
Print Assumptions C04_beta.
Example C04_beta_ex : integrates_to_one (beta_logprob (Fin (1/2)) (Fin 3)) 0 1.
Proof. apply C04_beta; lra. Qed.

Theorem C04_exponential : forall mu : R, 0 < mu ->
  integrates_to_one (exponential_logprob (Fin mu)) 0 p_infty.
Proof. exact exponential_int. Qed.
Print Assumptions C04_exponential.
Example C04_exponential_ex : integrates_to_one (exponential_logprob (Fin 3)) 0 p_infty.
Proof. apply C04_exponential; lra. Qed.

Theorem C04_laplace : forall mu s : R, 0 < s ->
  integrates_to_one (laplace_logprob (Fin mu) (Fin s)) m_infty p_infty.
Proof. exact laplace_int. Qed.
Print Assumptions C04_laplace.
Example C04_laplace_ex : integrates_to_one (laplace_logprob (Fin 3) (Fin 2)) m_infty p_infty.
Proof. apply C04_laplace; lra. Qed.

Theorem C04_lognormal : forall mu s : R, 0 < s ->
  integrates_to_one (lognormal_logprob (Fin mu) (Fin s)) 0 p_infty.
Proof. exact lognormal_int. Qed.
Print Assumptions C04_lognormal.
Example C04_lognormal_ex : integrates_to_one (lognormal_logprob (Fin 3) (Fin 2)) 0 p_infty.
Proof. apply C04_lognormal; lra. Qed.

Theorem C04_pareto : forall a m : R, 0 < a -> 0 < m ->
  integrates_to_one (pareto_logprob (Fin a) (Fin m)) m p_infty.
Proof. exact pareto_int. Qed.
Print Assumptions C04_pareto.
Example C04_pareto_ex : integrates_to_one (pareto_logprob (Fin 3) (Fin 2)) 2 p_infty.
Proof. apply C04_pareto; lra. Qed.

Theorem C04_cauchy : forall a b : R, 0 < b ->
  integrates_to_one (cauchy_logprob (Fin a) (Fin b)) m_infty p_infty.
Proof. exact cauchy_int. Qed.
Print Assumptions C04_cauchy.
Example C04_cauchy_ex : integrates_to_one (cauchy_logprob (Fin 3) (Fin 2)) m_infty p_infty.
Proof. apply C04_cauchy; lra. Qed.

Theorem C04_halfcauchy : forall a b : R, 0 < b ->
  integrates_to_one (halfcauchy_logprob (Fin a) (Fin b)) a p_infty.
Proof. exact halfcauchy_int. Qed.
Print Assumptions C04_halfcauchy.
Example C04_halfcauchy_ex : integrates_to_one (halfcauchy_logprob (Fin 3) (Fin 2)) 3 p_infty.
Proof. apply C04_halfcauchy; lra. Qed.

Theorem C04_gamma : forall a s : R, 0 < a -> 0 < s ->
  integrates_to_one (gamma_logprob (Fin a) (Fin s)) 0 p_infty.
Proof. exact gamma_int. Qed.
Print Assumptions C04_gamma.
Example C04_gamma_ex : integrates_to_one (gamma_logprob (Fin (1/2)) (Fin 2)) 0 p_infty.
Proof. apply C04_gamma; lra. Qed.

Theorem C04_invgamma : forall a b : R, 0 < a -> 0 < b ->
  integrates_to_one (invgamma_logprob (Fin a) (Fin b)) 0 p_infty.
Proof. exact invgamma_int. Qed.
Print Assumptions C04_invgamma.
Example C04_invgamma_ex : integrates_to_one (invgamma_logprob (Fin 3) (Fin 2)) 0 p_infty.
Proof. apply C04_invgamma; lra. Qed.

Theorem C04_chisquare : forall k : R, 0 < k ->
  integrates_to_one (chisquare_logprob (Fin k)) 0 p_infty.
Proof. exact chisquare_int. Qed.
Print Assumptions C04_chisquare.
Example C04_chisquare_ex : integrates_to_one (chisquare_logprob (Fin 3)) 0 p_infty.
Proof. apply C04_chisquare; lra. Qed.

Theorem C04_wald : forall mu l : R, 0 < mu -> 0 < l ->
  integrates_to_one (wald_logprob (Fin mu) (Fin l)) 0 p_infty.
Proof. exact wald_int. Qed.
Print Assumptions C04_wald.
Example C04_wald_ex : integrates_to_one (wald_logprob (Fin 3) (Fin 2)) 0 p_infty.
Proof. apply C04_wald; lra. Qed.

Theorem C04_weibull : forall c : R, 0 < c ->
  integrates_to_one (weibull_logprob (Fin c)) 0 p_infty.
Proof. exact weibull_int. Qed.
Print Assumptions C04_weibull.
Example C04_weibull_ex : integrates_to_one (weibull_logprob (Fin (1/2))) 0 p_infty.
Proof. apply C04_weibull; lra. Qed.

Theorem C04_vonmises : forall mu k : R, 0 < k ->
  integrates_to_one (vonmises_logprob (Fin mu) (Fin k)) (- PI) PI.
Proof. exact vonmises_int. Qed.
Print Assumptions C04_vonmises.
Example C04_vonmises_ex : integrates_to_one (vonmises_logprob (Fin 1) (Fin 2)) (- PI) PI.
Proof. apply C04_vonmises; lra. Qed.

Theorem C04_triangular : forall a c b : R, a <= c <= b -> a < b ->
  integrates_to_one (triangular_logprob (Fin a) (Fin c) (Fin b)) a b.
Proof. exact triangular_int. Qed.
Print Assumptions C04_triangular.
Example C04_triangular_ex : integrates_to_one (triangular_logprob (Fin 0) (Fin 2) (Fin 3)) 0 3.
Proof. apply C04_triangular; lra. Qed.

Theorem C04_gumbel : forall mu s : R, 0 < s ->
  integrates_to_one (gumbel_logprob (Fin mu) (Fin s)) m_infty p_infty.
Proof. exact gumbel_int. Qed.
Print Assumptions C04_gumbel.
Example C04_gumbel_ex : integrates_to_one (gumbel_logprob (Fin 1) (Fin 2)) m_infty p_infty.
Proof. apply C04_gumbel; lra. Qed.

Theorem C04_logistic : forall mu s : R, 0 < s ->
  integrates_to_one (logistic_logprob (Fin mu) (Fin s)) m_infty p_infty.
Proof. exact logistic_int. Qed.
Print Assumptions C04_logistic.
Example C04_logistic_ex : integrates_to_one (logistic_logprob (Fin 1) (Fin 2)) m_infty p_infty.
Proof. apply C04_logistic; lra. Qed.

Theorem C04_studentt : forall nu m s : R, 0 < nu -> 0 < s ->
  integrates_to_one (studentt_logprob (Fin nu) (Fin m) (Fin s)) m_infty p_infty.
Proof. exact studentt_int. Qed.
Print Assumptions C04_studentt.
Example C04_studentt_ex : integrates_to_one (studentt_logprob (Fin 4) (Fin 1) (Fin 2)) m_infty p_infty.
Proof. apply C04_studentt; lra. Qed.
