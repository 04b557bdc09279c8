(** The distributions of /repo/aeppl/logprob.py with scalar parameters, as the
    interpretation of the model graphs of ModelGraph. *)
From Coq Require Import Reals List Arith.
From Verif Require Import XR ModelDist ModelVec ModelTrans ModelJoint ModelGraph SpecGraph.
Import ListNotations.
Open Scope R_scope.

(** a distribution with the values of its parameters: one of the families with a
    default transform, or one of the others *)
Inductive law :=
| LFam (f : family)
| LNormal (mu s : R) | LLaplace (mu s : R) | LCauchy (a b : R) | LGumbel (mu s : R) | LLogistic (mu s : R) | LStudentT (nu m s : R)
| LBinomial (n : nat) (p : R) | LBetaBinomial (n : nat) (a b : R) | LBernoulli (p : R) | LPoisson (mu : R)
| LGeometric (p : R) | LHyperGeometric (good bad n : nat) | LNBinom (n p : R).
(** logprob.py:127-545, the [_logprob] implementations of ModelDist and ModelTrans *)
Definition law_logprob (L : law) : xr -> res xr :=
  match L with
  | LFam f => family_logprob f
  | LNormal mu s => normal_logprob (Fin mu) (Fin s)
  | LLaplace mu s => laplace_logprob (Fin mu) (Fin s)
  | LCauchy a b => cauchy_logprob (Fin a) (Fin b)
  | LGumbel mu s => gumbel_logprob (Fin mu) (Fin s)
  | LLogistic mu s => logistic_logprob (Fin mu) (Fin s)
  | LStudentT nu m s => studentt_logprob (Fin nu) (Fin m) (Fin s)
  | LBinomial n p => binomial_logprob (Fin (INR n)) (Fin p)
  | LBetaBinomial n a b => betabinomial_logprob (Fin (INR n)) (Fin a) (Fin b)
  | LBernoulli p => bernoulli_logprob (Fin p)
  | LPoisson mu => poisson_logprob (Fin mu)
  | LGeometric p => geometric_logprob (Fin p)
  | LHyperGeometric a b n => hypergeometric_logprob (Fin (INR a)) (Fin (INR b)) (Fin (INR n))
  | LNBinom n p => nbinom_logprob (Fin n) (Fin p)
  end.
(** The interpretation of a model graph whose random variables have these laws:
    [D dist params] is the law of an op, [tr] the default transform
    (transforms.py:901-960) of the op [tr].  One scalar per variable.  A
    log-probability that raises is represented by NaN, which is never a
    log-density; a back-transform without a real value by 0. *)
Definition one (r : res xr) : list xr := match r with Val y => [y] | Raise => [NaN] end.
Definition real (r : res xr) : R := match r with Val (Fin x) => x | _ => 0 end.
Definition law_sem (D : nat -> list R -> law) (inp : nat -> R) (draw : nat -> nat -> list R -> R) (det : nat -> list R -> R) : sem R (list xr) :=
  {| s_in := inp; s_draw := draw; s_det := det;
     s_back := fun tr z ps => match D tr ps with LFam f => real (backward (default_transform f) (Fin z)) | _ => 0 end;
     s_ld := fun dist ps x => one (law_logprob (D dist ps) (Fin x));
     s_lj := fun tr z ps => match D tr ps with LFam f => one (log_jac_det (default_transform f) (Fin z)) | _ => [NaN] end;
     s_add := fun a b => match a, b with [x], [y] => [xadd x y] | _, _ => [NaN] end |}.
