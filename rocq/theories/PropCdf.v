(** C07 and C08: distribution functions and quantiles. *)
From Coq Require Import Reals Lra Lia ZArith List Bool.
From Coquelicot Require Import Coquelicot.
From Verif Require Import XR Special SpecDist SpecCdf ModelDist LemCdf LemRef LemCdf3.
Open Scope R_scope.

Theorem C07_normal : forall mu s x : R, 0 < s -> exists v,
  is_cdf_at (normal_pdf mu s) m_infty x v /\ denotes (normal_logcdf (Fin mu) (Fin s) (Fin x)) v.
Proof. exact normal_logcdf_ok. Qed.
Print Assumptions C07_normal.
Example C07_normal_ex : exists v,
  is_cdf_at (normal_pdf 1 2) m_infty (-5) v /\ denotes (normal_logcdf (Fin 1) (Fin 2) (Fin (-5))) v.
Proof. apply C07_normal; lra. Qed.

Theorem C07_uniform : forall a b x : R, a < b -> exists v,
  denotes (uniform_logcdf (Fin a) (Fin b) (Fin x)) v /\
  (x <= a -> v = 0) /\ (a < x <= b -> is_cdf_at (uniform_pdf a b) a x v) /\ (b <= x -> v = 1).
Proof. exact uniform_cdf_all. Qed.
Print Assumptions C07_uniform.
Example C07_uniform_ex : exists v, denotes (uniform_logcdf (Fin 0) (Fin 4) (Fin 3)) v /\ is_cdf_at (uniform_pdf 0 4) 0 3 v.
Proof. destruct (C07_uniform 0 4 3) as (v & H & _ & K & _); [lra|]. exists v. split; auto. apply K; lra. Qed.

Theorem C07_poisson : forall mu x : R, 0 <= mu ->
  denotes (poisson_logcdf (Fin mu) (Fin x)) (mass_upto (poisson_pmf mu) x).
Proof. exact poisson_logcdf_ok. Qed.
Print Assumptions C07_poisson.
Example C07_poisson_ex : denotes (poisson_logcdf (Fin 2) (Fin (5/2))) (mass_upto (poisson_pmf 2) (5/2)).
Proof. apply C07_poisson; lra. Qed.

(** Missing from C07: non-integer values, refuted below (the value is not floored). *)
Theorem C07_geometric_partial : forall (p : R) (k : nat), 0 < p <= 1 ->
  denotes (geometric_logcdf (Fin p) (Fin (INR k))) (mass_upto (geometric_pmf p) (INR k)).
Proof. exact geometric_logcdf_ok. Qed.
Print Assumptions C07_geometric_partial.
Example C07_geometric_ex : denotes (geometric_logcdf (Fin 1) (Fin (INR 2))) (mass_upto (geometric_pmf 1) (INR 2)).
Proof. apply C07_geometric_partial; lra. Qed.
Theorem C07_geometric_neg : forall p x : R, 0 < p <= 1 -> x < 0 -> denotes (geometric_logcdf (Fin p) (Fin x)) 0.
Proof. exact geometric_logcdf_neg. Qed.
Print Assumptions C07_geometric_neg.
Example C07_geometric_neg_ex : denotes (geometric_logcdf (Fin (1/3)) (Fin (-1/2))) 0.
Proof. apply C07_geometric_neg; lra. Qed.
(** between integers the value is not the mass up to the argument *)
Theorem C07_geometric_noninteger_refuted : exists p x, 0 < p <= 1 /\
  ~ denotes (geometric_logcdf (Fin p) (Fin x)) (mass_upto (geometric_pmf p) x).
Proof. exact geometric_cdf_nonint. Qed.
Print Assumptions C07_geometric_noninteger_refuted.
(** Exactly where the geometric log-CDF is right: below 0 and at the integers;
    for a success probability of one, everywhere but between 0 and 1.  Missing:
    the other reals, where it is false. *)
Theorem C07_geometric_exactly_partial : forall p x : R,
  (0 < p < 1 -> (denotes (geometric_logcdf (Fin p) (Fin x)) (mass_upto (geometric_pmf p) x) <-> x < 0 \/ exists k : nat, x = INR k)) /\
  (p = 1 -> (denotes (geometric_logcdf (Fin p) (Fin x)) (mass_upto (geometric_pmf p) x) <-> x <= 0 \/ 1 <= x)).
Proof. intros p x. split; [exact (geometric_exact p x)|intros ->; exact (geometric_exact_one x)]. Qed.
Print Assumptions C07_geometric_exactly_partial.
Example C07_geometric_exactly_ex : ~ denotes (geometric_logcdf (Fin (1/3)) (Fin (5/2))) (mass_upto (geometric_pmf (1/3)) (5/2)).
Proof.
  intros D. apply (proj1 (C07_geometric_exactly_partial (1/3) (5/2))) in D; [|lra]. destruct D as [D|[k D]]; [lra|]. rewrite INR_IZR_INZ in D.
  assert (A : IZR 2 < IZR (Z.of_nat k)) by lra. assert (B : IZR (Z.of_nat k) < IZR 3) by lra. apply lt_IZR in A. apply lt_IZR in B. lia.
Qed.
(** between the integers it continues the distribution function smoothly *)
Theorem C07_geometric_between : forall p x : R, 0 < p < 1 -> 0 < x -> denotes (geometric_logcdf (Fin p) (Fin x)) (1 - Rpower (1 - p) x).
Proof. exact geometric_logcdf_real. Qed.
Print Assumptions C07_geometric_between.
Example C07_geometric_between_ex : denotes (geometric_logcdf (Fin (1/3)) (Fin (5/2))) (1 - Rpower (1 - 1/3) (5/2)).
Proof. apply C07_geometric_between; lra. Qed.

Theorem C08_normal : forall mu s q : R, 0 < s -> 0 < q < 1 -> exists x,
  normal_icdf (Fin mu) (Fin s) (Fin q) = Val (Fin x) /\ is_cdf_at (normal_pdf mu s) m_infty x q.
Proof. exact normal_icdf_ok. Qed.
Print Assumptions C08_normal.
Example C08_normal_ex : exists x,
  normal_icdf (Fin 1) (Fin 2) (Fin (1/3)) = Val (Fin x) /\ is_cdf_at (normal_pdf 1 2) m_infty x (1/3).
Proof. apply C08_normal; lra. Qed.
(** the distribution function is strictly increasing, so the quantile is unique *)
Theorem C08_normal_unique : forall mu s x y v w : R, 0 < s -> x < y ->
  is_cdf_at (normal_pdf mu s) m_infty x v -> is_cdf_at (normal_pdf mu s) m_infty y w -> v < w.
Proof. exact normal_cdf_strict. Qed.
Print Assumptions C08_normal_unique.
Example C08_normal_unique_ex : exists v w, is_cdf_at (normal_pdf 0 1) m_infty 1 v /\ is_cdf_at (normal_pdf 0 1) m_infty 2 w /\ v < w.
Proof.
  destruct (C07_normal 0 1 1) as (v & Hv & _); [lra|]. destruct (C07_normal 0 1 2) as (w & Hw & _); [lra|].
  exists v, w. repeat split; auto. apply (C08_normal_unique 0 1 1 2); auto; lra.
Qed.
(** Missing from C08: p = 1, refuted below. *)
Theorem C08_geometric_partial : forall p q : R, 0 < p < 1 -> 0 < q < 1 -> exists k,
  geometric_icdf (Fin p) (Fin q) = Val (Fin (INR k)) /\ least_quantile (geometric_pmf p) q k.
Proof. exact geometric_icdf_ok. Qed.
Print Assumptions C08_geometric_partial.
Example C08_geometric_ex : exists k,
  geometric_icdf (Fin (1/3)) (Fin (1/2)) = Val (Fin (INR k)) /\ least_quantile (geometric_pmf (1/3)) (1/2) k.
Proof. apply C08_geometric_partial; lra. Qed.
(** with p = 1 the quantile is 0, where no mass has accumulated *)
Theorem C08_geometric_p_one_refuted : exists q, 0 < q < 1 /\ geometric_icdf (Fin 1) (Fin q) = Val (Fin 0) /\
  mass_upto (geometric_pmf 1) 0 < q.
Proof. exact geometric_icdf_p1. Qed.
Print Assumptions C08_geometric_p_one_refuted.
(** and so it is for every probability, where the quantile would be 1 *)
Theorem C08_geometric_p_one : forall q : R, 0 < q < 1 -> geometric_icdf (Fin 1) (Fin q) = Val (Fin 0) /\ least_quantile (geometric_pmf 1) q 1.
Proof. exact geometric_icdf_one. Qed.
Print Assumptions C08_geometric_p_one.
Example C08_geometric_p_one_ex : least_quantile (geometric_pmf 1) (1/3) 1.
Proof. apply C08_geometric_p_one. lra. Qed.
