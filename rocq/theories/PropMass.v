(** C05 and C06: masses of the discrete families. *)
From Coq Require Import Reals Lra Lia ZArith List Bool.
From Coquelicot Require Import Coquelicot.
From Verif Require Import XR Special SpecDist ModelDist LemDisc LemDisc2 LemSupp LemRef.
Import ListNotations.
Open Scope R_scope.

Theorem C06_binomial : forall (n : nat) (p : R) (k : nat), 0 <= p <= 1 ->
  denotes (binomial_logprob (Fin (INR n)) (Fin p) (Fin (INR k))) (binomial_pmf n p k).
Proof. exact (fun n p k => binomial_mass n p k). Qed.
Print Assumptions C06_binomial.
Example C06_binomial_ex : denotes (binomial_logprob (Fin (INR 3)) (Fin (1/3)) (Fin (INR 2))) (binomial_pmf 3 (1/3) 2).
Proof. apply C06_binomial; lra. Qed.

Theorem C06_binomial_neg : forall (n : nat) (p : R) (z : Z), 0 <= p <= 1 -> (z < 0)%Z ->
  binomial_logprob (Fin (INR n)) (Fin p) (Fin (IZR z)) = Val NInf.
Proof. exact (fun n p z H0 Hz => denotes_zero _ (binomial_neg n p z H0 Hz)). Qed.
Print Assumptions C06_binomial_neg.
Example C06_binomial_neg_ex : binomial_logprob (Fin (INR 3)) (Fin (1/3)) (Fin (IZR (-2))) = Val NInf.
Proof. apply C06_binomial_neg; lra || lia. Qed.

Theorem C05_binomial : forall (n : nat) (p : R), 0 <= p <= 1 ->
  masses_sum_to_one (binomial_logprob (Fin (INR n)) (Fin p)).
Proof. exact binomial_one. Qed.
Print Assumptions C05_binomial.
Example C05_binomial_ex : masses_sum_to_one (binomial_logprob (Fin (INR 3)) (Fin (1/3))).
Proof. apply C05_binomial; lra. Qed.

Theorem C06_betabinomial : forall (n : nat) (a b : R) (k : nat), 0 < a -> 0 < b ->
  denotes (betabinomial_logprob (Fin (INR n)) (Fin a) (Fin b) (Fin (INR k))) (betabinomial_pmf n a b k).
Proof. exact (fun n a b k => betabinomial_mass n a b k). Qed.
Print Assumptions C06_betabinomial.
Example C06_betabinomial_ex : denotes (betabinomial_logprob (Fin (INR 3)) (Fin 1) (Fin 2) (Fin (INR 2))) (betabinomial_pmf 3 1 2 2).
Proof. apply C06_betabinomial; lra. Qed.

Theorem C06_betabinomial_neg : forall (n : nat) (a b : R) (z : Z), 0 < a -> 0 < b -> (z < 0)%Z ->
  betabinomial_logprob (Fin (INR n)) (Fin a) (Fin b) (Fin (IZR z)) = Val NInf.
Proof. exact (fun n a b z H0 H1 Hz => denotes_zero _ (betabinomial_neg n a b z H0 H1 Hz)). Qed.
Print Assumptions C06_betabinomial_neg.
Example C06_betabinomial_neg_ex : betabinomial_logprob (Fin (INR 3)) (Fin 1) (Fin 2) (Fin (IZR (-2))) = Val NInf.
Proof. apply C06_betabinomial_neg; lra || lia. Qed.

Theorem C05_betabinomial : forall (n : nat) (a b : R), 0 < a -> 0 < b ->
  masses_sum_to_one (betabinomial_logprob (Fin (INR n)) (Fin a) (Fin b)).
Proof. exact betabinomial_one. Qed.
Print Assumptions C05_betabinomial.
Example C05_betabinomial_ex : masses_sum_to_one (betabinomial_logprob (Fin (INR 3)) (Fin 1) (Fin 2)).
Proof. apply C05_betabinomial; lra. Qed.

Theorem C06_bernoulli : forall (p : R) (k : nat), 0 <= p <= 1 ->
  denotes (bernoulli_logprob (Fin p) (Fin (INR k))) (bernoulli_pmf p k).
Proof. exact (fun p k => bernoulli_mass p k). Qed.
Print Assumptions C06_bernoulli.
Example C06_bernoulli_ex : denotes (bernoulli_logprob (Fin 1) (Fin (INR 1))) (bernoulli_pmf 1 1).
Proof. apply C06_bernoulli; lra. Qed.

Theorem C06_bernoulli_neg : forall (p : R) (z : Z), 0 <= p <= 1 -> (z < 0)%Z ->
  bernoulli_logprob (Fin p) (Fin (IZR z)) = Val NInf.
Proof. exact (fun p z H0 Hz => denotes_zero _ (bernoulli_neg p z H0 Hz)). Qed.
Print Assumptions C06_bernoulli_neg.
Example C06_bernoulli_neg_ex : bernoulli_logprob (Fin 1) (Fin (IZR (-2))) = Val NInf.
Proof. apply C06_bernoulli_neg; lra || lia. Qed.

Theorem C05_bernoulli : forall p : R, 0 <= p <= 1 ->
  masses_sum_to_one (bernoulli_logprob (Fin p)).
Proof. exact bernoulli_one. Qed.
Print Assumptions C05_bernoulli.
Example C05_bernoulli_ex : masses_sum_to_one (bernoulli_logprob (Fin 1)).
Proof. apply C05_bernoulli; lra. Qed.

Theorem C06_poisson : forall (mu : R) (k : nat), 0 <= mu ->
  denotes (poisson_logprob (Fin mu) (Fin (INR k))) (poisson_pmf mu k).
Proof. exact (fun mu k => poisson_mass mu k). Qed.
Print Assumptions C06_poisson.
Example C06_poisson_ex : denotes (poisson_logprob (Fin 0) (Fin (INR 0))) (poisson_pmf 0 0).
Proof. apply C06_poisson; lra. Qed.

Theorem C06_poisson_neg : forall (mu : R) (z : Z), 0 <= mu -> (z < 0)%Z ->
  poisson_logprob (Fin mu) (Fin (IZR z)) = Val NInf.
Proof. exact (fun mu z H0 Hz => denotes_zero _ (poisson_neg mu z H0 Hz)). Qed.
Print Assumptions C06_poisson_neg.
Example C06_poisson_neg_ex : poisson_logprob (Fin 0) (Fin (IZR (-2))) = Val NInf.
Proof. apply C06_poisson_neg; lra || lia. Qed.

Theorem C05_poisson : forall mu : R, 0 <= mu ->
  masses_sum_to_one (poisson_logprob (Fin mu)).
Proof. exact poisson_one. Qed.
Print Assumptions C05_poisson.
Example C05_poisson_ex : masses_sum_to_one (poisson_logprob (Fin 0)).
Proof. apply C05_poisson; lra. Qed.

Theorem C06_geometric : forall (p : R) (k : nat), 0 < p <= 1 ->
  denotes (geometric_logprob (Fin p) (Fin (INR k))) (geometric_pmf p k).
Proof. exact (fun p k => geometric_mass p k). Qed.
Print Assumptions C06_geometric.
Example C06_geometric_ex : denotes (geometric_logprob (Fin 1) (Fin (INR 1))) (geometric_pmf 1 1).
Proof. apply C06_geometric; lra. Qed.

Theorem C06_geometric_neg : forall (p : R) (z : Z), 0 < p <= 1 -> (z < 0)%Z ->
  geometric_logprob (Fin p) (Fin (IZR z)) = Val NInf.
Proof. exact (fun p z H0 Hz => denotes_zero _ (geometric_neg p z H0 Hz)). Qed.
Print Assumptions C06_geometric_neg.
Example C06_geometric_neg_ex : geometric_logprob (Fin 1) (Fin (IZR (-2))) = Val NInf.
Proof. apply C06_geometric_neg; lra || lia. Qed.

Theorem C05_geometric : forall p : R, 0 < p <= 1 ->
  masses_sum_to_one (geometric_logprob (Fin p)).
Proof. exact geometric_one. Qed.
Print Assumptions C05_geometric.
Example C05_geometric_ex : masses_sum_to_one (geometric_logprob (Fin 1)).
Proof. apply C05_geometric; lra. Qed.

Theorem C06_hypergeometric : forall (good bad n : nat) (k : nat), (n <= good + bad)%nat ->
  denotes (hypergeometric_logprob (Fin (INR good)) (Fin (INR bad)) (Fin (INR n)) (Fin (INR k))) (hypergeometric_pmf good bad n k).
Proof. exact (fun good bad n k => hypergeometric_mass good bad n k). Qed.
Print Assumptions C06_hypergeometric.
Example C06_hypergeometric_ex : denotes (hypergeometric_logprob (Fin (INR 3)) (Fin (INR 2)) (Fin (INR 4)) (Fin (INR 2))) (hypergeometric_pmf 3 2 4 2).
Proof. apply C06_hypergeometric; lia. Qed.

Theorem C06_hypergeometric_neg : forall (good bad n : nat) (z : Z), (n <= good + bad)%nat -> (z < 0)%Z ->
  hypergeometric_logprob (Fin (INR good)) (Fin (INR bad)) (Fin (INR n)) (Fin (IZR z)) = Val NInf.
Proof. exact (fun good bad n z H0 Hz => denotes_zero _ (hypergeometric_neg good bad n z  Hz)). Qed.
Print Assumptions C06_hypergeometric_neg.
Example C06_hypergeometric_neg_ex : hypergeometric_logprob (Fin (INR 3)) (Fin (INR 2)) (Fin (INR 4)) (Fin (IZR (-2))) = Val NInf.
Proof. apply C06_hypergeometric_neg; lia || lia. Qed.

Theorem C05_hypergeometric : forall good bad n : nat, (n <= good + bad)%nat ->
  masses_sum_to_one (hypergeometric_logprob (Fin (INR good)) (Fin (INR bad)) (Fin (INR n))).
Proof. exact hypergeometric_one. Qed.
Print Assumptions C05_hypergeometric.
Example C05_hypergeometric_ex : masses_sum_to_one (hypergeometric_logprob (Fin (INR 3)) (Fin (INR 2)) (Fin (INR 4))).
Proof. apply C05_hypergeometric; lia. Qed.

(** Missing from C06 for the negative binomial: p = 1 and n > 10^10, both refuted below. *)
Theorem C06_nbinom_partial : forall (n p : R) (k : nat), 0 < n <= 10000000000 -> 0 < p < 1 ->
  denotes (nbinom_logprob (Fin n) (Fin p) (Fin (INR k))) (nbinom_pmf n p k).
Proof. exact nbinom_mass. Qed.
Print Assumptions C06_nbinom_partial.
Example C06_nbinom_partial_ex : denotes (nbinom_logprob (Fin (5/2)) (Fin (1/3)) (Fin (INR 2))) (nbinom_pmf (5/2) (1/3) 2).
Proof. apply C06_nbinom_partial; lra. Qed.

(** Missing: p = 1, where the code raises. *)
Theorem C05_nbinom_partial : forall n p : R, 0 < n -> 0 < p < 1 ->
  masses_sum_to_one (nbinom_logprob (Fin n) (Fin p)).
Proof. exact nbinom_one. Qed.
Print Assumptions C05_nbinom_partial.
Example C05_nbinom_partial_ex : masses_sum_to_one (nbinom_logprob (Fin (5/2)) (Fin (1/3))).
Proof. apply C05_nbinom_partial; lra. Qed.

(** success probability one, a valid parameter, is refused *)
Theorem C06_nbinom_p_one_refuted : exists n k, 0 < n /\ nbinom_logprob (Fin n) (Fin 1) (Fin (INR k)) = Raise.
Proof. exact nbinom_p1_raises. Qed.
Print Assumptions C06_nbinom_p_one_refuted.
(** above the threshold the code switches to the Poisson mass, which differs *)
Theorem C06_nbinom_large_n_refuted : exists n p k, 0 < n /\ 0 < p < 1 /\
  ~ denotes (nbinom_logprob (Fin n) (Fin p) (Fin (INR k))) (nbinom_pmf n p k).
Proof. exact nbinom_large_bad. Qed.
Print Assumptions C06_nbinom_large_n_refuted.
