(** Arrays of univariate variables: the log-probability, log-CDF and
    inverse-CDF graphs of /repo/aeppl/logprob.py 127-543 as the graphs of
    element-wise operations that the Python functions build, evaluated on
    arrays of any shapes with NumPy's broadcasting, operation by operation. *)
From Coq Require Import Reals List Arith Bool.
From Verif Require Import XR Special ModelDist ModelVec ModelIdx ModelTen ModelSub ModelBatch.
Import ListNotations.

(** The graphs: the inputs (the parameters, then the value), constants,
    element-wise operations (Aesara's Elemwise; logprob.py:127-543 builds
    nothing else for these families), [at.switch], and
    [CheckParameterValue] with a condition under [at.all]. *)
Inductive gx : Type -> Type :=
| GVar (i : nat) : gx xr
| GCon (c : xr) : gx xr
| G1 {A B} (f : A -> B) (a : gx A) : gx B
| G2 {A B C} (f : A -> B -> C) (a : gx A) (b : gx B) : gx C
| GSw (c : gx bool) (a b : gx xr) : gx xr
| GChk (e : gx xr) (c : gx bool) : gx xr.

(** [at.switch(c, a, b)], an Elemwise of three arrays (e.g. logprob.py:131-135) *)
Definition switch3 (c : nd bool) (a b : nd xr) : res (nd xr) :=
  bind (bcast_all [nshp c; nshp a; nshp b]) (fun s =>
  Val {| nshp := s; nelt := fun i => if nelt c (align (nshp c) i) then nelt a (align (nshp a) i) else nelt b (align (nshp b) i) |}).
(** Evaluation on arrays.  A constant is a 0-dimensional array.  A check
    raises unless its condition holds on the whole of the condition's own
    array (logprob.py passes [at.all(cond)], cond computed from parameters). *)
Fixpoint eval_nd (env : nat -> nd xr) {A} (e : gx A) : res (nd A) :=
  match e with
  | GVar i => Val (env i)
  | GCon c => Val {| nshp := []; nelt := fun _ => c |}
  | @G1 _ _ f a => rmap (elem1 f) (eval_nd env a)
  | @G2 _ _ _ f a b => bind (eval_nd env a) (fun x => bind (eval_nd env b) (fun y => elem2 f x y))
  | GSw c a b => bind (eval_nd env c) (fun z => bind (eval_nd env a) (fun x => bind (eval_nd env b) (fun y => switch3 z x y)))
  | GChk e c => bind (eval_nd env e) (fun x => bind (eval_nd env c) (fun z => check_nd (Val x) [all_of z]))
  end.

Local Notation "'K' x" := (GCon (Fin x)) (at level 9, x at level 8).
(** logprob.py:38-39 *)
Definition g_betaln x y := G2 xsub (G2 xadd (G1 xgammaln x) (G1 xgammaln y)) (G1 xgammaln (G2 xadd x y)).
(** logprob.py:42-43 *)
Definition g_binomln n k := G2 xsub (G2 xsub (G1 xgammaln (G2 xadd n (K 1))) (G1 xgammaln (G2 xadd k (K 1))))
  (G1 xgammaln (G2 xadd (G2 xsub n k) (K 1))).
(** logprob.py:51-53 *)
Definition g_xlogy0 m x := GSw (G2 xeq x (K 0)) (GSw (G2 xeq m (K 0)) (K 0) (GCon NInf)) (G2 xmul m (G1 xlog x)).
(** logprob.py:127-135; [at.fill(value, x)] is an Elemwise of both *)
Definition g_uniform p0 p1 v : gx xr :=
  GSw (G2 andb (G2 xge v p0) (G2 xle v p1)) (G2 (fun _ x => x) v (G1 xneg (G1 xlog (G2 xsub p1 p0)))) (GCon NInf).
(** logprob.py:138-153 *)
Definition g_uniform_cdf p0 p1 v : gx xr :=
  GChk (GSw (G2 xlt v p0) (GCon NInf) (GSw (G2 xlt v p1) (G2 xsub (G1 xlog (G2 xsub v p0)) (G1 xlog (G2 xsub p1 p0))) (K 0))) (G2
  xle p0 p1).
(** logprob.py:156-166 *)
Definition g_normal p0 p1 v : gx xr :=
  GChk (G2 xsub (G2 xsub (G2 xmul (K (-(1/2))) (G1 xsq (G2 xdiv (G2 xsub v p0) p1))) (G1 xlog (G1 xsqrt (K (2*PI))))) (G1 xlog p1))
  (G2 xgt p1 (K 0)).
(** logprob.py:169-181 *)
Definition g_normal_cdf p0 p1 v : gx xr :=
  let z := G2 xdiv (G2 xsub v p0) p1 in GChk (GSw (G2 xlt z (K (-1))) (G2 xsub (G1 xlog (G2 xdiv (G1 xerfcx (G2 xdiv (G1 xneg z) (K
  (sqrt 2)))) (K 2))) (G2 xdiv (G1 xsq z) (K 2))) (G1 xlog1p (G2 xdiv (G1 xneg (G1 xerfc (G2 xdiv z (K (sqrt 2))))) (K 2)))) (G2 xgt
  p1 (K 0)).
(** logprob.py:184-187 *)
Definition g_normal_icdf p0 p1 v : gx xr :=
  G2 xadd p0 (G2 xmul (G2 xmul p1 (K (- sqrt 2))) (G1 xerfcinv (G2 xmul (K 2) v))).
(** logprob.py:190-201 *)
Definition g_halfnormal p0 p1 v : gx xr :=
  GChk (GSw (G2 xge v p0) (G2 xsub (G2 xadd (G2 xmul (K (-(1/2))) (G1 xsq (G2 xdiv (G2 xsub v p0) p1))) (G1 xlog (G1 xsqrt (K
  (2/PI))))) (G1 xlog p1)) (GCon NInf)) (G2 xgt p1 (K 0)).
(** logprob.py:204-217 *)
Definition g_beta p0 p1 v : gx xr :=
  GChk (GChk (GSw (G2 andb (G2 xge v (K 0)) (G2 xle v (K 1))) (G2 xsub (G2 xadd (GSw (G2 xeq p0 (K 1)) (K 0) (G2 xmul (G2 xsub p0 (K
  1)) (G1 xlog v))) (GSw (G2 xeq p1 (K 1)) (K 0) (G2 xmul (G2 xsub p1 (K 1)) (G1 xlog1p (G1 xneg v))))) (G2 xsub (G2 xadd (G1
  xgammaln p0) (G1 xgammaln p1)) (G1 xgammaln (G2 xadd p0 p1)))) (GCon NInf)) (G2 xgt p0 (K 0))) (G2 xgt p1 (K 0)).
(** logprob.py:220-227 *)
Definition g_exponential p0 v : gx xr :=
  GChk (GSw (G2 xge v (K 0)) (G2 xsub (G1 xneg (G1 xlog p0)) (G2 xdiv v p0)) (GCon NInf)) (G2 xgt p0 (K 0)).
(** logprob.py:230-236 *)
Definition g_laplace p0 p1 v : gx xr :=
  GChk (G2 xsub (G1 xneg (G1 xlog (G2 xmul (K 2) p1))) (G2 xdiv (G1 xabs (G2 xsub v p0)) p1)) (G2 xgt p1 (K 0)).
(** logprob.py:239-251 *)
Definition g_lognormal p0 p1 v : gx xr :=
  GChk (GSw (G2 xgt v (K 0)) (G2 xsub (G2 xsub (G2 xsub (G2 xmul (K (-(1/2))) (G1 xsq (G2 xdiv (G2 xsub (G1 xlog v) p0) p1))) (G2
  xmul (K (1/2)) (G1 xlog (K (2*PI))))) (G1 xlog p1)) (G1 xlog v)) (GCon NInf)) (G2 xgt p1 (K 0)).
(** logprob.py:254-263 *)
Definition g_pareto p0 p1 v : gx xr :=
  GChk (GChk (GSw (G2 xge v p1) (G2 xsub (G2 xadd (G1 xlog p0) (g_xlogy0 p0 p1)) (g_xlogy0 (G2 xadd p0 (K 1)) v)) (GCon NInf)) (G2
  xgt p0 (K 0))) (G2 xgt p1 (K 0)).
(** logprob.py:266-272 *)
Definition g_cauchy p0 p1 v : gx xr :=
  GChk (G2 xsub (G2 xsub (G1 xneg (G1 xlog (K PI))) (G1 xlog p1)) (G1 xlog1p (G1 xsq (G2 xdiv (G2 xsub v p0) p1)))) (G2 xgt p1 (K
  0)).
(** logprob.py:275-281 *)
Definition g_halfcauchy p0 p1 v : gx xr :=
  GSw (G2 xge v p0) (G2 xadd (G1 xlog (K 2)) (g_cauchy p0 p1 v)) (GCon NInf).
(** logprob.py:284-299 *)
Definition g_gamma p0 p1 v : gx xr :=
  let beta := G2 xdiv (K 1) p1 in GChk (GChk (GSw (G2 xge v (K 0)) (G2 xadd (G2 xsub (G2 xadd (G1 xneg (G1 xgammaln p0)) (g_xlogy0
  p0 beta)) (G2 xmul beta v)) (g_xlogy0 (G2 xsub p0 (K 1)) v)) (GCon NInf)) (G2 xgt p0 (K 0))) (G2 xgt beta (K 0)).
(** logprob.py:302-316 *)
Definition g_invgamma p0 p1 v : gx xr :=
  GChk (GChk (GSw (G2 xge v (K 0)) (G2 xadd (G2 xsub (G2 xadd (G1 xneg (G1 xgammaln p0)) (g_xlogy0 p0 p1)) (G2 xdiv p1 v)) (g_xlogy0
  (G2 xsub (G1 xneg p0) (K 1)) v)) (GCon NInf)) (G2 xgt p0 (K 0))) (G2 xgt p1 (K 0)).
(** logprob.py:319-324 *)
Definition g_chisquare p0 v : gx xr :=
  g_gamma (G2 xdiv p0 (K 2)) (K 2) v.
(** logprob.py:327-341 *)
Definition g_wald p0 p1 v : gx xr :=
  GChk (GChk (GSw (G2 xgt v (K 0)) (G2 xsub (G2 xsub (G2 xmul (K (1/2)) (G1 xlog (G2 xdiv p1 (K (2*PI))))) (G2 xmul (K (3/2)) (G1
  xlog v))) (G2 xmul (G2 xdiv (G2 xmul (K (1/2)) p1) v) (G1 xsq (G2 xdiv (G2 xsub v p0) p0)))) (GCon NInf)) (G2 xgt p0 (K 0))) (G2
  xgt p1 (K 0)).
(** logprob.py:344-351 *)
Definition g_weibull p0 v : gx xr :=
  GChk (GSw (G2 xge v (K 0)) (G2 xsub (G2 xadd (G1 xlog p0) (G2 xmul (G2 xsub p0 (K 1)) (G1 xlog v))) (G2 xpow v p0)) (GCon NInf))
  (G2 xgt p0 (K 0)).
(** logprob.py:354-363 *)
Definition g_vonmises p0 p1 v : gx xr :=
  GChk (GSw (G2 andb (G2 xge v (K (-PI))) (G2 xle v (K PI))) (G2 xsub (G2 xsub (G2 xmul p1 (G1 xcos (G2 xsub p0 v))) (G1 xlog (K
  (2*PI)))) (G1 xlog (G1 xi0 p1))) (GCon NInf)) (G2 xgt p1 (K 0)).
(** logprob.py:366-381 *)
Definition g_triangular p0 p1 p2 v : gx xr :=
  GChk (GChk (GSw (G2 andb (G2 xle p0 v) (G2 xle v p2)) (GSw (G2 xlt v p1) (G1 xlog (G2 xdiv (G2 xmul (K 2) (G2 xsub v p0)) (G2 xmul
  (G2 xsub p2 p0) (G2 xsub p1 p0)))) (G1 xlog (G2 xdiv (G2 xmul (K 2) (G2 xsub p2 v)) (G2 xmul (G2 xsub p2 p0) (G2 xsub p2 p1)))))
  (GCon NInf)) (G2 xle p0 p1)) (G2 xle p1 p2).
(** logprob.py:384-391 *)
Definition g_gumbel p0 p1 v : gx xr :=
  let z := G2 xdiv (G2 xsub v p0) p1 in GChk (G2 xsub (G2 xsub (G1 xneg z) (G1 xexp (G1 xneg z))) (G1 xlog p1)) (G2 xlt (K 0) p1).
(** logprob.py:394-401 *)
Definition g_logistic p0 p1 v : gx xr :=
  let z := G2 xdiv (G2 xsub v p0) p1 in GChk (G2 xsub (G2 xsub (G1 xneg z) (G1 xlog p1)) (G2 xmul (K 2) (G1 xlog1p (G1 xexp (G1 xneg
  z))))) (G2 xlt (K 0) p1).
(** logprob.py:404-413 *)
Definition g_binomial p0 p1 v : gx xr :=
  GChk (GChk (GSw (G2 andb (G2 xle (K 0) v) (G2 xle v p0)) (G2 xadd (G2 xadd (g_binomln p0 v) (g_xlogy0 v p1)) (g_xlogy0 (G2 xsub p0
  v) (G2 xsub (K 1) p1))) (GCon NInf)) (G2 xle (K 0) p1)) (G2 xle p1 (K 1)).
(** logprob.py:416-429 *)
Definition g_betabinomial p0 p1 p2 v : gx xr :=
  GChk (GChk (GSw (G2 andb (G2 xle (K 0) v) (G2 xle v p0)) (G2 xsub (G2 xadd (g_binomln p0 v) (g_betaln (G2 xadd v p1) (G2 xadd (G2
  xsub p0 v) p2))) (g_betaln p1 p2)) (GCon NInf)) (G2 xlt (K 0) p1)) (G2 xlt (K 0) p2).
(** logprob.py:432-441 *)
Definition g_bernoulli p0 v : gx xr :=
  GChk (GChk (GSw (G2 andb (G2 xle (K 0) v) (G2 xle v (K 1))) (GSw (G1 xtrue v) (G1 xlog p0) (G1 xlog (G2 xsub (K 1) p0))) (GCon
  NInf)) (G2 xle (K 0) p0)) (G2 xle p0 (K 1)).
(** logprob.py:444-452 *)
Definition g_poisson p0 v : gx xr :=
  GSw (G2 andb (G2 xeq p0 (K 0)) (G2 xeq v (K 0))) (K 0) (GChk (GSw (G2 xle (K 0) v) (G2 xsub (G2 xsub (g_xlogy0 v p0) (G1 xgammaln
  (G2 xadd v (K 1)))) p0) (GCon NInf)) (G2 xle (K 0) p0)).
(** logprob.py:455-462 *)
Definition g_poisson_cdf p0 v : gx xr :=
  let v := G1 xfloor v in GChk (GSw (G2 xle (K 0) v) (G1 xlog (G2 xgammaincc (G2 xadd v (K 1)) p0)) (GCon NInf)) (G2 xle (K 0) p0).
(** logprob.py:465-480 *)
Definition g_nbinom p0 p1 v : gx xr :=
  let mu := G2 xdiv (G2 xmul p0 (G2 xsub (K 1) p1)) p1 in GSw (G2 xgt p0 (K 10000000000)) (g_poisson mu v) (GChk (GChk (GSw (G2 xle
  (K 0) v) (G2 xadd (G2 xadd (g_binomln (G2 xsub (G2 xadd v p0) (K 1)) v) (g_xlogy0 v (G2 xdiv mu (G2 xadd mu p0)))) (g_xlogy0 p0
  (G2 xdiv p0 (G2 xadd mu p0)))) (GCon NInf)) (G2 xlt (K 0) mu)) (G2 xlt (K 0) p0)).
(** logprob.py:483-492 *)
Definition g_geometric p0 v : gx xr :=
  GChk (GChk (GSw (G2 xle (K 1) v) (G2 xadd (G1 xlog p0) (g_xlogy0 (G2 xsub v (K 1)) (G2 xsub (K 1) p0))) (GCon NInf)) (G2 xle (K 0)
  p0)) (G2 xge (K 1) p0).
(** logprob.py:495-502 *)
Definition g_geometric_cdf p0 v : gx xr :=
  GChk (GChk (GSw (G2 xle v (K 0)) (GCon NInf) (G1 xlog1mexp (G2 xmul (G1 xlog1p (G1 xneg p0)) v))) (G2 xle (K 0) p0)) (G2 xge (K 1)
  p0).
(** logprob.py:505-508; the cast to the integer dtype is the identity on integers *)
Definition g_geometric_icdf p0 v : gx xr :=
  G1 xceil (G2 xdiv (G1 xlog1p (G1 xneg v)) (G1 xlog1p (G1 xneg p0))).
(** logprob.py:511-529 *)
Definition g_hypergeometric p0 p1 p2 v : gx xr :=
  let total := G2 xadd p0 p1 in let ntg := G2 xadd (G2 xsub p2 total) p0 in let lower := GSw (G2 xgt ntg (K 0)) ntg (K 0) in let
  upper := GSw (G2 xlt p0 p2) p0 p2 in GSw (G2 andb (G2 xle lower v) (G2 xle v upper)) (G2 xsub (G2 xsub (G2 xsub (G2 xadd (G2 xadd
  (g_betaln (G2 xadd p0 (K 1)) (K 1)) (g_betaln (G2 xadd p1 (K 1)) (K 1))) (g_betaln (G2 xadd (G2 xsub total p2) (K 1)) (G2 xadd p2
  (K 1)))) (g_betaln (G2 xadd v (K 1)) (G2 xadd (G2 xsub p0 v) (K 1)))) (g_betaln (G2 xadd (G2 xsub p2 v) (K 1)) (G2 xadd (G2 xadd
  (G2 xsub p1 p2) v) (K 1)))) (g_betaln (G2 xadd total (K 1)) (K 1))) (GCon NInf).
(** logprob.py:532-543 *)
Definition g_studentt p0 p1 p2 v : gx xr :=
  GChk (G2 xsub (G2 xsub (G2 xsub (G1 xgammaln (G2 xdiv (G2 xadd p0 (K 1)) (K 2))) (G1 xgammaln (G2 xdiv p0 (K 2)))) (G2 xmul (K
  (1/2)) (G1 xlog (G2 xmul (G2 xmul (K PI) p0) (G1 xsq p2))))) (G2 xmul (G2 xdiv (G2 xadd p0 (K 1)) (K 2)) (G1 xlog1p (G2 xdiv (G1
  xsq (G2 xdiv (G2 xsub v p1) p2)) p0)))) (G2 xge p2 (K 0)).

(** The registrations of [_logprob], [_logcdf] and [_icdf] (the lines above
    each function). *)
Inductive univ : Type :=
| UUniform
| UUniformCdf
| UNormal
| UNormalCdf
| UNormalIcdf
| UHalfnormal
| UBeta
| UExponential
| ULaplace
| ULognormal
| UPareto
| UCauchy
| UHalfcauchy
| UGamma
| UInvgamma
| UChisquare
| UWald
| UWeibull
| UVonmises
| UTriangular
| UGumbel
| ULogistic
| UBinomial
| UBetabinomial
| UBernoulli
| UPoisson
| UPoissonCdf
| UNbinom
| UGeometric
| UGeometricCdf
| UGeometricIcdf
| UHypergeometric
| UStudentt.
(** the graph of a family: parameters first, then the value (same lines) *)
Definition graph (u : univ) : gx xr :=
  match u with
  | UUniform => g_uniform (GVar 0) (GVar 1) (GVar 2)
  | UUniformCdf => g_uniform_cdf (GVar 0) (GVar 1) (GVar 2)
  | UNormal => g_normal (GVar 0) (GVar 1) (GVar 2)
  | UNormalCdf => g_normal_cdf (GVar 0) (GVar 1) (GVar 2)
  | UNormalIcdf => g_normal_icdf (GVar 0) (GVar 1) (GVar 2)
  | UHalfnormal => g_halfnormal (GVar 0) (GVar 1) (GVar 2)
  | UBeta => g_beta (GVar 0) (GVar 1) (GVar 2)
  | UExponential => g_exponential (GVar 0) (GVar 1)
  | ULaplace => g_laplace (GVar 0) (GVar 1) (GVar 2)
  | ULognormal => g_lognormal (GVar 0) (GVar 1) (GVar 2)
  | UPareto => g_pareto (GVar 0) (GVar 1) (GVar 2)
  | UCauchy => g_cauchy (GVar 0) (GVar 1) (GVar 2)
  | UHalfcauchy => g_halfcauchy (GVar 0) (GVar 1) (GVar 2)
  | UGamma => g_gamma (GVar 0) (GVar 1) (GVar 2)
  | UInvgamma => g_invgamma (GVar 0) (GVar 1) (GVar 2)
  | UChisquare => g_chisquare (GVar 0) (GVar 1)
  | UWald => g_wald (GVar 0) (GVar 1) (GVar 2)
  | UWeibull => g_weibull (GVar 0) (GVar 1)
  | UVonmises => g_vonmises (GVar 0) (GVar 1) (GVar 2)
  | UTriangular => g_triangular (GVar 0) (GVar 1) (GVar 2) (GVar 3)
  | UGumbel => g_gumbel (GVar 0) (GVar 1) (GVar 2)
  | ULogistic => g_logistic (GVar 0) (GVar 1) (GVar 2)
  | UBinomial => g_binomial (GVar 0) (GVar 1) (GVar 2)
  | UBetabinomial => g_betabinomial (GVar 0) (GVar 1) (GVar 2) (GVar 3)
  | UBernoulli => g_bernoulli (GVar 0) (GVar 1)
  | UPoisson => g_poisson (GVar 0) (GVar 1)
  | UPoissonCdf => g_poisson_cdf (GVar 0) (GVar 1)
  | UNbinom => g_nbinom (GVar 0) (GVar 1) (GVar 2)
  | UGeometric => g_geometric (GVar 0) (GVar 1)
  | UGeometricCdf => g_geometric_cdf (GVar 0) (GVar 1)
  | UGeometricIcdf => g_geometric_icdf (GVar 0) (GVar 1)
  | UHypergeometric => g_hypergeometric (GVar 0) (GVar 1) (GVar 2) (GVar 3)
  | UStudentt => g_studentt (GVar 0) (GVar 1) (GVar 2) (GVar 3)
  end.
(** [_logprob(op, (value,), rng, size, dtype, *params)] and likewise for the
    other two: rng, size and dtype are not used (the lines above) *)
Definition univ_nd (u : univ) (env : nat -> nd xr) : res (nd xr) := eval_nd env (graph u).
(** [at.sum] of a factor (joint_logprob.py:312-319) *)
Definition nd_total (a : nd xr) : xr := xsum (map (nelt a) (positions (nshp a))).
