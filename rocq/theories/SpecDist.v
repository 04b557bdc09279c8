(** Textbook densities, mass functions and distribution functions.
    Written independently of the model ([ModelDist.v] is not imported): only
    real arithmetic, powers, factorials and the defining integrals of the
    Beta and Gamma functions are used. *)
From Coq Require Import Reals Lra Lia ZArith List Bool.
From Coquelicot Require Import Coquelicot.
From Verif Require Import XR Special LemInt.
Import ListNotations.
Open Scope R_scope.

(** The non-negative number denoted by a log-probability result: [exp l] for a
    finite [l], 0 for -inf; +inf, NaN and raised errors denote nothing. *)
Definition denotes (r : res xr) (d : R) : Prop :=
  match r with
  | Val (Fin l) => exp l = d
  | Val NInf => d = 0
  | _ => False
  end.

(** x^y for x >= 0, y >= 0 with 0^0 = 1 and 0^y = 0. *)
Definition pw (x y : R) : R :=
  if Req_EM_T x 0 then (if Req_EM_T y 0 then 1 else 0) else Rpower x y.

(** Euler's Beta integral, the normalising constant of the Beta law. *)
Definition Beta_int (a b : R) : R :=
  RInt_gen (fun t => Rpower t (a - 1) * Rpower (1 - t) (b - 1)) (at_right 0) (at_left 1).

Definition supp (lo hi : Rbar) (x : R) : Prop := Rbar_le lo x /\ Rbar_le x hi.

Definition uniform_pdf (a b x : R) : R :=
  if Rle_dec a x then if Rle_dec x b then / (b - a) else 0 else 0.
Definition normal_pdf (mu s x : R) : R :=
  / (s * sqrt (2 * PI)) * exp (- (x - mu) ^ 2 / (2 * s ^ 2)).
Definition halfnormal_pdf (loc s x : R) : R :=
  if Rle_dec loc x then 2 * (/ (s * sqrt (2 * PI)) * exp (- (x - loc) ^ 2 / (2 * s ^ 2))) else 0.
Definition beta_pdf (a b x : R) : R :=
  if Rle_dec 0 x then if Rle_dec x 1 then pw x (a - 1) * pw (1 - x) (b - 1) / Beta_int a b else 0 else 0.
(** [mu] is the scale (mean) of the exponential law. *)
Definition exponential_pdf (mu x : R) : R :=
  if Rle_dec 0 x then / mu * exp (- x / mu) else 0.
Definition laplace_pdf (mu b x : R) : R := / (2 * b) * exp (- Rabs (x - mu) / b).
Definition lognormal_pdf (mu s x : R) : R :=
  if Rlt_dec 0 x then / (x * s * sqrt (2 * PI)) * exp (- (ln x - mu) ^ 2 / (2 * s ^ 2)) else 0.
Definition pareto_pdf (a m x : R) : R :=
  if Rle_dec m x then a * Rpower m a / Rpower x (a + 1) else 0.
Definition cauchy_pdf (x0 g x : R) : R := / (PI * g * (1 + ((x - x0) / g) ^ 2)).
Definition halfcauchy_pdf (x0 g x : R) : R :=
  if Rle_dec x0 x then 2 / (PI * g * (1 + ((x - x0) / g) ^ 2)) else 0.
(** shape [a], scale [s] *)
Definition gamma_pdf (a s x : R) : R :=
  if Rle_dec 0 x then / (Gam a * Rpower s a) * pw x (a - 1) * exp (- x / s) else 0.
Definition invgamma_pdf (a b x : R) : R :=
  if Rlt_dec 0 x then Rpower b a / Gam a * Rpower x (- a - 1) * exp (- b / x) else 0.
Definition chisquare_pdf (k x : R) : R :=
  if Rle_dec 0 x then / (Rpower 2 (k / 2) * Gam (k / 2)) * pw x (k / 2 - 1) * exp (- x / 2) else 0.
Definition wald_pdf (mu l x : R) : R :=
  if Rlt_dec 0 x then sqrt (l / (2 * PI * x ^ 3)) * exp (- l * (x - mu) ^ 2 / (2 * mu ^ 2 * x)) else 0.
Definition weibull_pdf (c x : R) : R :=
  if Rle_dec 0 x then c * pw x (c - 1) * exp (- pw x c) else 0.
(** Modified Bessel function of order 0 through its integral representation. *)
Definition bessel_i0 (k : R) : R := RInt (fun t => exp (k * cos t)) 0 PI / PI.
Definition vonmises_pdf (mu k x : R) : R :=
  if Rle_dec (- PI) x then if Rle_dec x PI then exp (k * cos (x - mu)) / (2 * PI * bessel_i0 k) else 0 else 0.
Definition triangular_pdf (a c b x : R) : R :=
  if Rlt_dec x a then 0 else
  if Rlt_dec x c then 2 * (x - a) / ((b - a) * (c - a)) else
  if Req_EM_T x c then 2 / (b - a) else
  if Rle_dec x b then 2 * (b - x) / ((b - a) * (b - c)) else 0.
Definition gumbel_pdf (mu b x : R) : R :=
  / b * exp (- ((x - mu) / b + exp (- ((x - mu) / b)))).
Definition logistic_pdf (mu s x : R) : R :=
  exp (- ((x - mu) / s)) / (s * (1 + exp (- ((x - mu) / s))) ^ 2).
Definition studentt_pdf (nu m s x : R) : R :=
  Gam ((nu + 1) / 2) / (Gam (nu / 2) * sqrt (PI * nu) * s)
  * Rpower (1 + ((x - m) / s) ^ 2 / nu) (- ((nu + 1) / 2)).

(** ** Mass functions at natural numbers (0 is implicit elsewhere) *)
Definition binomial_pmf (n : nat) (p : R) (k : nat) : R :=
  if (k <=? n)%nat then Binomial.C n k * p ^ k * (1 - p) ^ (n - k) else 0.
Definition betabinomial_pmf (n : nat) (a b : R) (k : nat) : R :=
  if (k <=? n)%nat
  then Binomial.C n k * Beta_int (INR k + a) (INR (n - k) + b) / Beta_int a b else 0.
Definition bernoulli_pmf (p : R) (k : nat) : R :=
  match k with 0%nat => 1 - p | 1%nat => p | _ => 0 end.
Definition poisson_pmf (mu : R) (k : nat) : R := mu ^ k / INR (fact k) * exp (- mu).
(** rising factorial n (n+1) ... (n+k-1) *)
Fixpoint rising (n : R) (k : nat) : R :=
  match k with O => 1 | S k' => rising n k' * (n + INR k') end.
Definition nbinom_pmf (n p : R) (k : nat) : R :=
  rising n k / INR (fact k) * Rpower p n * (1 - p) ^ k.
Definition geometric_pmf (p : R) (k : nat) : R :=
  match k with O => 0 | S j => p * (1 - p) ^ j end.
(** binomial coefficient, 0 when k > n *)
Definition choose (n k : nat) : R := if (k <=? n)%nat then Binomial.C n k else 0.
Definition hypergeometric_pmf (good bad n k : nat) : R :=
  if (k <=? n)%nat then choose good k * choose bad (n - k) / Binomial.C (good + bad) n else 0.
Definition categorical_pmf (p : list R) (k : nat) : R :=
  nth k p 0 / fold_right Rplus 0 p.

(** ** Integration and summation to one *)
(** [f] is the density denoted by the log-probability function [lp] on the
    open support (lo,hi), [lp] is -inf off the closed support, and [f]
    integrates to one over the support (improper Riemann integral). *)
Definition integrates_to_one (lp : xr -> res xr) (lo hi : Rbar) : Prop :=
  exists f : R -> R,
    (forall x, inside lo hi x -> denotes (lp (Fin x)) (f x)) /\
    (forall x, ~ supp lo hi x -> denotes (lp (Fin x)) 0) /\
    is_RInt_gen f (Fr lo) (Fl hi) 1.
(** masses over the naturals; no mass at negative integers *)
Definition masses_sum_to_one (lp : xr -> res xr) : Prop :=
  exists f : nat -> R,
    (forall k, denotes (lp (Fin (INR k))) (f k)) /\
    (forall z, (z < 0)%Z -> denotes (lp (Fin (IZR z))) 0) /\
    is_series f 1.
