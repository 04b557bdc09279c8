(** Scalar log-probability, log-CDF and inverse-CDF functions of
    /repo/aeppl/logprob.py, function by function.  Each Gallina function is
    the function denoted by the graph that the Python function builds, on one
    (broadcast) element; the element-wise lifting to arrays is in
    [ModelArr.v].  Parameters come in the order of [inputs[3:]]. *)
From Coq Require Import Reals Lra Lia ZArith List Bool.
From Verif Require Import XR Special.
Import ListNotations.
Open Scope R_scope.

(** logprob.py:38-39 *)
Definition betaln (x y : xr) : xr :=
  xsub (xadd (xgammaln x) (xgammaln y)) (xgammaln (xadd x y)).
(** logprob.py:42-43 *)
Definition binomln (n k : xr) : xr :=
  xsub (xsub (xgammaln (xadd n (Fin 1))) (xgammaln (xadd k (Fin 1))))
       (xgammaln (xadd (xsub n k) (Fin 1))).
(** logprob.py:46-48 *)
Definition logdiffexp (a b : xr) : xr := xadd a (xlog1mexp (xsub b a)).
(** logprob.py:51-53 *)
Definition xlogy0 (m x : xr) : xr :=
  if xeq x (Fin 0) then (if xeq m (Fin 0) then Fin 0 else NInf) else xmul m (xlog x).

(** logprob.py:127-135 *)
Definition uniform_logprob (lower upper value : xr) : res xr :=
  Val (if xge value lower && xle value upper
       then xneg (xlog (xsub upper lower)) else NInf).
(** logprob.py:138-153 *)
Definition uniform_logcdf (lower upper value : xr) : res xr :=
  check (Val (if xlt value lower then NInf
              else if xlt value upper
                   then xsub (xlog (xsub value lower)) (xlog (xsub upper lower))
                   else Fin 0))
        [xle lower upper].
(** logprob.py:156-166 *)
Definition normal_logprob (mu sigma value : xr) : res xr :=
  check (Val (xsub (xsub (xmul (Fin (-(1/2))) (xsq (xdiv (xsub value mu) sigma)))
                         (xlog (xsqrt (Fin (2 * PI)))))
                   (xlog sigma)))
        [xgt sigma (Fin 0)].
(** logprob.py:169-181 *)
Definition normal_logcdf (mu sigma value : xr) : res xr :=
  let z := xdiv (xsub value mu) sigma in
  check (Val (if xlt z (Fin (-1))
              then xsub (xlog (xdiv (xerfcx (xdiv (xneg z) (Fin (sqrt 2)))) (Fin 2)))
                        (xdiv (xsq z) (Fin 2))
              else xlog1p (xdiv (xneg (xerfc (xdiv z (Fin (sqrt 2))))) (Fin 2))))
        [xgt sigma (Fin 0)].
(** logprob.py:184-187 *)
Definition normal_icdf (loc scale value : xr) : res xr :=
  Val (xadd loc (xmul (xmul scale (Fin (- sqrt 2))) (xerfcinv (xmul (Fin 2) value)))).
(** logprob.py:190-201 *)
Definition halfnormal_logprob (loc sigma value : xr) : res xr :=
  check (Val (if xge value loc
              then xsub (xadd (xmul (Fin (-(1/2))) (xsq (xdiv (xsub value loc) sigma)))
                              (xlog (xsqrt (Fin (2 / PI)))))
                        (xlog sigma)
              else NInf))
        [xgt sigma (Fin 0)].
(** logprob.py:204-217 *)
Definition beta_logprob (alpha beta value : xr) : res xr :=
  check (Val (if xge value (Fin 0) && xle value (Fin 1)
              then xsub
                     (xadd (if xeq alpha (Fin 1) then Fin 0
                            else xmul (xsub alpha (Fin 1)) (xlog value))
                           (if xeq beta (Fin 1) then Fin 0
                            else xmul (xsub beta (Fin 1)) (xlog1p (xneg value))))
                     (xsub (xadd (xgammaln alpha) (xgammaln beta)) (xgammaln (xadd alpha beta)))
              else NInf))
        [xgt alpha (Fin 0); xgt beta (Fin 0)].
(** logprob.py:220-227 *)
Definition exponential_logprob (mu value : xr) : res xr :=
  check (Val (if xge value (Fin 0)
              then xsub (xneg (xlog mu)) (xdiv value mu) else NInf))
        [xgt mu (Fin 0)].
(** logprob.py:230-236 *)
Definition laplace_logprob (mu b value : xr) : res xr :=
  check (Val (xsub (xneg (xlog (xmul (Fin 2) b))) (xdiv (xabs (xsub value mu)) b)))
        [xgt b (Fin 0)].
(** logprob.py:239-251 *)
Definition lognormal_logprob (mu sigma value : xr) : res xr :=
  check (Val (if xgt value (Fin 0)
              then xsub (xsub (xsub (xmul (Fin (-(1/2)))
                                          (xsq (xdiv (xsub (xlog value) mu) sigma)))
                                    (xmul (Fin (1/2)) (xlog (Fin (2 * PI)))))
                              (xlog sigma))
                        (xlog value)
              else NInf))
        [xgt sigma (Fin 0)].
(** logprob.py:254-263 *)
Definition pareto_logprob (alpha m value : xr) : res xr :=
  check (Val (if xge value m
              then xsub (xadd (xlog alpha) (xlogy0 alpha m)) (xlogy0 (xadd alpha (Fin 1)) value)
              else NInf))
        [xgt alpha (Fin 0); xgt m (Fin 0)].
(** logprob.py:266-272 *)
Definition cauchy_logprob (alpha beta value : xr) : res xr :=
  check (Val (xsub (xsub (xneg (xlog (Fin PI))) (xlog beta))
                   (xlog1p (xsq (xdiv (xsub value alpha) beta)))))
        [xgt beta (Fin 0)].
(** logprob.py:275-281 *)
Definition halfcauchy_logprob (loc scale value : xr) : res xr :=
  rswitch (xge value loc)
          (rmap (xadd (xlog (Fin 2))) (cauchy_logprob loc scale value))
          (Val NInf).
(** logprob.py:284-299 *)
Definition gamma_logprob (alpha inv_beta value : xr) : res xr :=
  let beta := xdiv (Fin 1) inv_beta in
  check (Val (if xge value (Fin 0)
              then xadd (xsub (xadd (xneg (xgammaln alpha)) (xlogy0 alpha beta))
                              (xmul beta value))
                        (xlogy0 (xsub alpha (Fin 1)) value)
              else NInf))
        [xgt alpha (Fin 0); xgt beta (Fin 0)].
(** logprob.py:302-316 *)
Definition invgamma_logprob (alpha beta value : xr) : res xr :=
  check (Val (if xge value (Fin 0)
              then xadd (xsub (xadd (xneg (xgammaln alpha)) (xlogy0 alpha beta))
                              (xdiv beta value))
                        (xlogy0 (xsub (xneg alpha) (Fin 1)) value)
              else NInf))
        [xgt alpha (Fin 0); xgt beta (Fin 0)].
(** logprob.py:319-324 *)
Definition chisquare_logprob (nu value : xr) : res xr :=
  gamma_logprob (xdiv nu (Fin 2)) (Fin 2) value.
(** logprob.py:327-341; [0.5 * scale / value * ((value - mu) / mu) ** 2] *)
Definition wald_logprob (mu scale value : xr) : res xr :=
  check (Val (if xgt value (Fin 0)
              then xsub (xsub (xmul (Fin (1/2)) (xlog (xdiv scale (Fin (2 * PI)))))
                              (xmul (Fin (3/2)) (xlog value)))
                        (xmul (xdiv (xmul (Fin (1/2)) scale) value)
                              (xsq (xdiv (xsub value mu) mu)))
              else NInf))
        [xgt mu (Fin 0); xgt scale (Fin 0)].
(** logprob.py:344-351 *)
Definition weibull_logprob (c value : xr) : res xr :=
  check (Val (if xge value (Fin 0)
              then xsub (xadd (xlog c) (xmul (xsub c (Fin 1)) (xlog value))) (xpow value c)
              else NInf))
        [xgt c (Fin 0)].
(** logprob.py:354-363 *)
Definition vonmises_logprob (mu kappa value : xr) : res xr :=
  check (Val (if xge value (Fin (- PI)) && xle value (Fin PI)
              then xsub (xsub (xmul kappa (xcos (xsub mu value))) (xlog (Fin (2 * PI))))
                        (xlog (xi0 kappa))
              else NInf))
        [xgt kappa (Fin 0)].
(** logprob.py:366-381 *)
Definition triangular_logprob (lower c upper value : xr) : res xr :=
  check (Val (if xle lower value && xle value upper
              then if xlt value c
                   then xlog (xdiv (xmul (Fin 2) (xsub value lower))
                                   (xmul (xsub upper lower) (xsub c lower)))
                   else xlog (xdiv (xmul (Fin 2) (xsub upper value))
                                   (xmul (xsub upper lower) (xsub upper c)))
              else NInf))
        [xle lower c; xle c upper].
(** logprob.py:384-391 *)
Definition gumbel_logprob (mu beta value : xr) : res xr :=
  let z := xdiv (xsub value mu) beta in
  check (Val (xsub (xsub (xneg z) (xexp (xneg z))) (xlog beta)))
        [xlt (Fin 0) beta].
(** logprob.py:394-401 *)
Definition logistic_logprob (mu s value : xr) : res xr :=
  let z := xdiv (xsub value mu) s in
  check (Val (xsub (xsub (xneg z) (xlog s)) (xmul (Fin 2) (xlog1p (xexp (xneg z))))))
        [xlt (Fin 0) s].
(** logprob.py:404-413 *)
Definition binomial_logprob (n p value : xr) : res xr :=
  check (Val (if xle (Fin 0) value && xle value n
              then xadd (xadd (binomln n value) (xlogy0 value p))
                        (xlogy0 (xsub n value) (xsub (Fin 1) p))
              else NInf))
        [xle (Fin 0) p; xle p (Fin 1)].
(** logprob.py:416-429 *)
Definition betabinomial_logprob (n alpha beta value : xr) : res xr :=
  check (Val (if xle (Fin 0) value && xle value n
              then xsub (xadd (binomln n value)
                              (betaln (xadd value alpha) (xadd (xsub n value) beta)))
                        (betaln alpha beta)
              else NInf))
        [xlt (Fin 0) alpha; xlt (Fin 0) beta].
(** truthiness of a number in [at.switch] *)
Definition xtrue (v : xr) : bool := negb (xeq v (Fin 0)).
(** logprob.py:432-441 *)
Definition bernoulli_logprob (p value : xr) : res xr :=
  check (Val (if xle (Fin 0) value && xle value (Fin 1)
              then if xtrue value then xlog p else xlog (xsub (Fin 1) p)
              else NInf))
        [xle (Fin 0) p; xle p (Fin 1)].
(** logprob.py:444-452 *)
Definition poisson_logprob (mu value : xr) : res xr :=
  rswitch (xeq mu (Fin 0) && xeq value (Fin 0)) (Val (Fin 0))
    (check (Val (if xle (Fin 0) value
                 then xsub (xsub (xlogy0 value mu) (xgammaln (xadd value (Fin 1)))) mu
                 else NInf))
           [xle (Fin 0) mu]).
(** logprob.py:455-462 *)
Definition poisson_logcdf (mu value : xr) : res xr :=
  let value := xfloor value in
  check (Val (if xle (Fin 0) value
              then xlog (xgammaincc (xadd value (Fin 1)) mu) else NInf))
        [xle (Fin 0) mu].
(** logprob.py:465-480 *)
Definition nbinom_logprob (n p value : xr) : res xr :=
  let mu := xdiv (xmul n (xsub (Fin 1) p)) p in
  rswitch (xgt n (Fin 10000000000))
    (poisson_logprob mu value)
    (check (Val (if xle (Fin 0) value
                 then xadd (xadd (binomln (xsub (xadd value n) (Fin 1)) value)
                                 (xlogy0 value (xdiv mu (xadd mu n))))
                           (xlogy0 n (xdiv n (xadd mu n)))
                 else NInf))
           [xlt (Fin 0) mu; xlt (Fin 0) n]).
(** logprob.py:483-492 *)
Definition geometric_logprob (p value : xr) : res xr :=
  check (Val (if xle (Fin 1) value
              then xadd (xlog p) (xlogy0 (xsub value (Fin 1)) (xsub (Fin 1) p))
              else NInf))
        [xle (Fin 0) p; xge (Fin 1) p].
(** logprob.py:495-502 *)
Definition geometric_logcdf (p value : xr) : res xr :=
  check (Val (if xle value (Fin 0) then NInf
              else xlog1mexp (xmul (xlog1p (xneg p)) value)))
        [xle (Fin 0) p; xge (Fin 1) p].
(** logprob.py:505-508; the cast to the integer dtype is the identity on integers *)
Definition geometric_icdf (p value : xr) : res xr :=
  Val (xceil (xdiv (xlog1p (xneg value)) (xlog1p (xneg p)))).
(** logprob.py:511-529 *)
Definition hypergeometric_logprob (good bad n value : xr) : res xr :=
  let total := xadd good bad in
  let one := Fin 1 in
  let ntg := xadd (xsub n total) good in
  let lower := if xgt ntg (Fin 0) then ntg else Fin 0 in
  let upper := if xlt good n then good else n in
  Val (if xle lower value && xle value upper
       then xsub (xsub (xsub (xadd (xadd (betaln (xadd good one) one)
                                         (betaln (xadd bad one) one))
                                   (betaln (xadd (xsub total n) one) (xadd n one)))
                             (betaln (xadd value one) (xadd (xsub good value) one)))
                       (betaln (xadd (xsub n value) one) (xadd (xadd (xsub bad n) value) one)))
                 (betaln (xadd total one) one)
       else NInf).
(** logprob.py:532-543 *)
Definition studentt_logprob (df loc scale value : xr) : res xr :=
  check (Val (xsub (xsub (xsub (xgammaln (xdiv (xadd df (Fin 1)) (Fin 2)))
                               (xgammaln (xdiv df (Fin 2))))
                         (xmul (Fin (1/2)) (xlog (xmul (xmul (Fin PI) df) (xsq scale)))))
                   (xmul (xdiv (xadd df (Fin 1)) (Fin 2))
                         (xlog1p (xdiv (xsq (xdiv (xsub value loc) scale)) df)))))
        [xge scale (Fin 0)].
(** logprob.py:652-659: [at.isclose(a, b)] is |a - b| <= atol + rtol * |b|
    on finite values and equality on infinities. *)
Definition xisclose (rtol atol : R) (a b : xr) : bool :=
  match a, b with
  | Fin x, Fin y => Rleb (Rabs (x - y)) (atol + rtol * Rabs y)
  | _, _ => xeq a b
  end.
Definition diracdelta_logprob (rtol atol : R) (const value : xr) : res xr :=
  Val (if xisclose rtol atol value const then Fin 0 else NInf).
