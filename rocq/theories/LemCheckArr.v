(** Array-level parameter checks (C03). *)
From Coq Require Import Reals Lra Lia ZArith List Bool.
From Verif Require Import XR Special SpecCheck ModelDist ModelArr LemCheck.
Import ListNotations.
Open Scope R_scope.

Ltac arr chk :=
  intros es; rewrite arr_raise; split;
  [ intros [e [Hi Hr]]; repeat match goal with e : _ * _ |- _ => destruct e end; simpl in Hr; apply chk in Hr; repeat eexists; eauto
  | intros H; repeat match goal with H : exists _, _ |- _ => destruct H as [? H] end; destruct H as [Hi Hr]; eexists; split; [exact Hi|]; simpl; apply chk; exact Hr ].
Lemma normal_arr : forall es : list (xr * xr * xr), raises (arr_eval (fun '(mu, s, v) => normal_logprob mu s v) es) <->
  exists mu s v, In (mu, s, v) es /\ ~ xpos s.
Proof. arr normal_chk. Qed.
Lemma normal_logcdf_arr : forall es : list (xr * xr * xr), raises (arr_eval (fun '(mu, s, v) => normal_logcdf mu s v) es) <->
  exists mu s v, In (mu, s, v) es /\ ~ xpos s.
Proof. arr normal_cdf_chk. Qed.
Lemma halfnormal_arr : forall es : list (xr * xr * xr), raises (arr_eval (fun '(mu, s, v) => halfnormal_logprob mu s v) es) <->
  exists mu s v, In (mu, s, v) es /\ ~ xpos s.
Proof. arr halfnormal_chk. Qed.
Lemma beta_arr : forall es : list (xr * xr * xr), raises (arr_eval (fun '(a, b, v) => beta_logprob a b v) es) <->
  exists a b v, In (a, b, v) es /\ ~ (xpos a /\ xpos b).
Proof. arr beta_chk. Qed.
Lemma exponential_arr : forall es : list (xr * xr), raises (arr_eval (fun '(mu, v) => exponential_logprob mu v) es) <->
  exists mu v, In (mu, v) es /\ ~ xpos mu.
Proof. arr exponential_chk. Qed.
Lemma laplace_arr : forall es : list (xr * xr * xr), raises (arr_eval (fun '(mu, b, v) => laplace_logprob mu b v) es) <->
  exists mu b v, In (mu, b, v) es /\ ~ xpos b.
Proof. arr laplace_chk. Qed.
Lemma lognormal_arr : forall es : list (xr * xr * xr), raises (arr_eval (fun '(mu, s, v) => lognormal_logprob mu s v) es) <->
  exists mu s v, In (mu, s, v) es /\ ~ xpos s.
Proof. arr lognormal_chk. Qed.
Lemma pareto_arr : forall es : list (xr * xr * xr), raises (arr_eval (fun '(a, m, v) => pareto_logprob a m v) es) <->
  exists a m v, In (a, m, v) es /\ ~ (xpos a /\ xpos m).
Proof. arr pareto_chk. Qed.
Lemma cauchy_arr : forall es : list (xr * xr * xr), raises (arr_eval (fun '(a, b, v) => cauchy_logprob a b v) es) <->
  exists a b v, In (a, b, v) es /\ ~ xpos b.
Proof. arr cauchy_chk. Qed.
Lemma halfcauchy_arr : forall es : list (xr * xr * xr), raises (arr_eval (fun '(a, b, v) => halfcauchy_logprob a b v) es) <->
  exists a b v, In (a, b, v) es /\ ~ xpos b.
Proof. arr halfcauchy_chk. Qed.
Lemma invgamma_arr : forall es : list (xr * xr * xr), raises (arr_eval (fun '(a, b, v) => invgamma_logprob a b v) es) <->
  exists a b v, In (a, b, v) es /\ ~ (xpos a /\ xpos b).
Proof. arr invgamma_chk. Qed.
Lemma wald_arr : forall es : list (xr * xr * xr), raises (arr_eval (fun '(mu, l, v) => wald_logprob mu l v) es) <->
  exists mu l v, In (mu, l, v) es /\ ~ (xpos mu /\ xpos l).
Proof. arr wald_chk. Qed.
Lemma weibull_arr : forall es : list (xr * xr), raises (arr_eval (fun '(c, v) => weibull_logprob c v) es) <->
  exists c v, In (c, v) es /\ ~ xpos c.
Proof. arr weibull_chk. Qed.
Lemma vonmises_arr : forall es : list (xr * xr * xr), raises (arr_eval (fun '(mu, k, v) => vonmises_logprob mu k v) es) <->
  exists mu k v, In (mu, k, v) es /\ ~ xpos k.
Proof. arr vonmises_chk. Qed.
Lemma triangular_arr : forall es : list (xr * xr * xr * xr), raises (arr_eval (fun '(a, c, b, v) => triangular_logprob a c b v) es) <->
  exists a c b v, In (a, c, b, v) es /\ ~ (xordered a c /\ xordered c b).
Proof. arr triangular_chk. Qed.
Lemma gumbel_arr : forall es : list (xr * xr * xr), raises (arr_eval (fun '(mu, b, v) => gumbel_logprob mu b v) es) <->
  exists mu b v, In (mu, b, v) es /\ ~ xpos b.
Proof. arr gumbel_chk. Qed.
Lemma logistic_arr : forall es : list (xr * xr * xr), raises (arr_eval (fun '(mu, s, v) => logistic_logprob mu s v) es) <->
  exists mu s v, In (mu, s, v) es /\ ~ xpos s.
Proof. arr logistic_chk. Qed.
Lemma uniform_logcdf_arr : forall es : list (xr * xr * xr), raises (arr_eval (fun '(a, b, v) => uniform_logcdf a b v) es) <->
  exists a b v, In (a, b, v) es /\ ~ xordered a b.
Proof. arr uniform_cdf_chk. Qed.
Lemma betabinomial_arr : forall es : list (xr * xr * xr * xr), raises (arr_eval (fun '(n, a, b, v) => betabinomial_logprob n a b v) es) <->
  exists n a b v, In (n, a, b, v) es /\ ~ (xpos a /\ xpos b).
Proof. arr betabinomial_chk. Qed.
Lemma bernoulli_arr : forall es : list (xr * xr), raises (arr_eval (fun '(p, v) => bernoulli_logprob p v) es) <->
  exists p v, In (p, v) es /\ ~ xprob p.
Proof. arr bernoulli_chk. Qed.
Lemma poisson_arr : forall es : list (xr * xr), raises (arr_eval (fun '(mu, v) => poisson_logprob mu v) es) <->
  exists mu v, In (mu, v) es /\ ~ xnonneg mu.
Proof. arr poisson_chk. Qed.
Lemma poisson_logcdf_arr : forall es : list (xr * xr), raises (arr_eval (fun '(mu, v) => poisson_logcdf mu v) es) <->
  exists mu v, In (mu, v) es /\ ~ xnonneg mu.
Proof. arr poisson_cdf_chk. Qed.
Lemma geometric_arr : forall es : list (xr * xr), raises (arr_eval (fun '(p, v) => geometric_logprob p v) es) <->
  exists p v, In (p, v) es /\ ~ xprob p.
Proof. arr geometric_chk. Qed.
Lemma geometric_logcdf_arr : forall es : list (xr * xr), raises (arr_eval (fun '(p, v) => geometric_logcdf p v) es) <->
  exists p v, In (p, v) es /\ ~ xprob p.
Proof. arr geometric_cdf_chk. Qed.
Lemma binomial_partial_arr : forall es : list (xr * xr * xr), raises (arr_eval (fun '(n, p, v) => binomial_logprob n p v) es) <->
  exists n p v, In (n, p, v) es /\ ~ xprob p.
Proof. arr binomial_chk. Qed.
Lemma studentt_partial_arr : forall es : list (xr * xr * xr * xr), raises (arr_eval (fun '(df, m, s, v) => studentt_logprob df m s v) es) <->
  exists df m s v, In (df, m, s, v) es /\ ~ xnonneg s.
Proof. arr studentt_chk. Qed.
