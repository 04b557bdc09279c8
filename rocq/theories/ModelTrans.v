(** Value transforms of /repo/aeppl/transforms.py on scalars. *)
From Coq Require Import Reals Lra Lia ZArith List Bool.
From Verif Require Import XR Special ModelDist ModelVec.
Import ListNotations.
Open Scope R_scope.

(** [at.sigmoid] / [at.expit], [at.softplus], [at.reciprocal] (Aesara scalar ops) *)
Definition xsigmoid (x : xr) : xr :=
  match x with Fin a => Fin (/ (1 + exp (- a))) | PInf => Fin 1 | NInf => Fin 0 | NaN => NaN end.
Definition xsoftplus (x : xr) : xr :=
  match x with Fin a => Fin (ln (1 + exp a)) | PInf => PInf | NInf => Fin 0 | NaN => NaN end.
Definition xrecip (x : xr) : xr := xdiv (Fin 1) x.
(** [at.arctan2 y x] on reals *)
Definition Ratan2 (y x : R) : R :=
  if Rlt_dec 0 x then atan (y / x)
  else if Rlt_dec x 0 then (if Rle_dec 0 y then atan (y / x) + PI else atan (y / x) - PI)
  else if Rlt_dec 0 y then PI / 2 else if Rlt_dec y 0 then - (PI / 2) else 0.

(** The scalar [RVTransform] classes (transforms.py:600-815).  The results of
    [transform_args_fn]/[args_fn] (functions of the variable's parameters) are
    stored in the transform. *)
Inductive tr : Type :=
| TLoc (loc : xr)                      (* 600-615 *)
| TScale (scale : xr)                  (* 618-634 *)
| TLog                                 (* 637-647 *)
| TExp                                 (* 650-660 *)
| TRecip                               (* 663-673 *)
| TInterval (a b : option xr)          (* 676-727 *)
| TLogOdds                             (* 730-741 *)
| TCircular                            (* 769-779 *)
| TChain (l : list tr).                (* 782-815 *)

(** The three methods; [Raise] is the ValueError of IntervalTransform
    without bounds. *)
Fixpoint forward (t : tr) (value : xr) : res xr :=
  match t with
  | TLoc loc => Val (xadd value loc)                                   (* 606-608 *)
  | TScale s => Val (xmul value s)                                     (* 624-626 *)
  | TLog => Val (xlog value)                                           (* 640-641 *)
  | TExp => Val (xexp value)                                           (* 653-654 *)
  | TRecip => Val (xrecip value)                                       (* 666-667 *)
  | TInterval (Some a) (Some b) => Val (xsub (xlog (xsub value a)) (xlog (xsub b value))) (* 693-703 *)
  | TInterval (Some a) None => Val (xlog (xsub value a))
  | TInterval None (Some b) => Val (xlog (xsub b value))
  | TInterval None None => Raise
  | TLogOdds => Val (xlog (xdiv value (xsub (Fin 1) value)))           (* 736-737 *)
  | TCircular => Val value                                             (* 775-776 *)
  | TChain l =>                                                        (* 789-792 *)
      (fix go l v := match l with [] => Val v | t :: l => bind (forward t v) (go l) end) l value
  end.

Fixpoint backward (t : tr) (value : xr) : res xr :=
  match t with
  | TLoc loc => Val (xsub value loc)                                   (* 610-612 *)
  | TScale s => Val (xdiv value s)                                     (* 628-630 *)
  | TLog => Val (xexp value)                                           (* 643-644 *)
  | TExp => Val (xlog value)                                           (* 656-657 *)
  | TRecip => Val (xrecip value)                                       (* 669-670 *)
  | TInterval (Some a) (Some b) =>                                     (* 705-716 *)
      let s := xsigmoid value in
      Val (xadd (xmul s b) (xmul (xsub (Fin 1) s) a))
  | TInterval (Some a) None => Val (xadd (xexp value) a)
  | TInterval None (Some b) => Val (xsub b (xexp value))
  | TInterval None None => Raise
  | TLogOdds => Val (xsigmoid value)                                   (* 733-734 *)
  | TCircular => Val (match value with                                 (* 772-773 *)
                      | Fin v => Fin (Ratan2 (sin v) (cos v)) | _ => NaN end)
  | TChain l =>                                                        (* 794-797: reversed order *)
      (fix go l v := match l with [] => Val v | t :: l => bind (go l v) (backward t) end) l value
  end.

(** transforms.py:799-815: the loop runs over the reversed list, carrying the
    back-transformed value; determinants are then added starting from 0.0.
    Simplification: scalar transforms only, so no [det_.sum(axis=-1)]. *)
Fixpoint log_jac_det (t : tr) (value : xr) : res xr :=
  match t with
  | TLoc _ => Val (Fin 0)                                              (* 614-615 *)
  | TScale s => Val (xneg (xlog (xabs s)))                             (* 632-634 *)
  | TLog => Val value                                                  (* 646-647 *)
  | TExp => Val (xneg (xlog value))                                    (* 659-660 *)
  | TRecip => Val (xmul (Fin (-2)) (xlog value))                       (* 672-673 *)
  | TInterval (Some a) (Some b) =>                                     (* 718-727 *)
      Val (xsub (xsub (xlog (xsub b a)) (xmul (Fin 2) (xsoftplus (xneg value)))) value)
  | TInterval None None => Raise
  | TInterval _ _ => Val value
  | TLogOdds =>                                                        (* 739-741 *)
      let s := xsigmoid value in Val (xadd (xlog s) (xlog1p (xneg s)))
  | TCircular => Val (Fin 0)                                           (* 778-779 *)
  | TChain l =>
      (* [go l v] = (back-transformed value, sum of determinants, last transform first) *)
      rmap snd
        ((fix go l v : res (xr * xr) :=
            match l with
            | [] => Val (v, Fin 0)
            | t :: l => bind (go l v) (fun '(w, det) =>
                        bind (log_jac_det t w) (fun d =>
                        bind (backward t w) (fun w' => Val (w', xadd det d))))
            end) l value)
  end.

(** ** Default transforms, transforms.py:901-960 (Dirichlet is in ModelSimplex.v) *)
Inductive family : Type :=
| FUniform (a b : R) | FPareto (alpha m : R) | FTriangular (a c b : R) | FHalfNormal (loc s : R)
| FWald (mu l : R) | FExponential (mu : R) | FLognormal (mu s : R) | FHalfCauchy (loc s : R)
| FGamma (a s : R) | FInvGamma (a b : R) | FChiSquare (k : R) | FWeibull (c : R)
| FBeta (a b : R) | FVonMises (mu k : R).

Definition default_transform (f : family) : tr :=
  match f with
  | FUniform a b => TInterval (Some (Fin a)) (Some (Fin b))       (* 901-905 *)
  | FPareto alpha _ => TInterval (Some (Fin alpha)) None          (* 906-910 *)
  | FTriangular a _ b => TInterval (Some (Fin a)) (Some (Fin b))  (* 911-915 *)
  | FHalfNormal loc _ => TInterval (Some (Fin loc)) None          (* 916-920 *)
  | FWald _ _ | FExponential _ | FLognormal _ _ | FHalfCauchy _ _
  | FGamma _ _ | FInvGamma _ _ | FChiSquare _ | FWeibull _ => TLog (* 921-952 *)
  | FBeta _ _ => TLogOdds                                         (* 953-956 *)
  | FVonMises _ _ => TCircular                                    (* 957-960 *)
  end.
(** the [_logprob] implementation of the untransformed family *)
Definition family_logprob (f : family) : xr -> res xr :=
  match f with
  | FUniform a b => uniform_logprob (Fin a) (Fin b)
  | FPareto a m => pareto_logprob (Fin a) (Fin m)
  | FTriangular a c b => triangular_logprob (Fin a) (Fin c) (Fin b)
  | FHalfNormal l s => halfnormal_logprob (Fin l) (Fin s)
  | FWald m l => wald_logprob (Fin m) (Fin l)
  | FExponential m => exponential_logprob (Fin m)
  | FLognormal m s => lognormal_logprob (Fin m) (Fin s)
  | FHalfCauchy l s => halfcauchy_logprob (Fin l) (Fin s)
  | FGamma a s => gamma_logprob (Fin a) (Fin s)
  | FInvGamma a b => invgamma_logprob (Fin a) (Fin b)
  | FChiSquare k => chisquare_logprob (Fin k)
  | FWeibull c => weibull_logprob (Fin c)
  | FBeta a b => beta_logprob (Fin a) (Fin b)
  | FVonMises m k => vonmises_logprob (Fin m) (Fin k)
  end.

(** transforms.py:862-881 [transformed_logprob]: value in the transformed space *)
Definition transformed_logprob (use_jacobian : bool) (lp : xr -> res xr) (t : tr) (trans_val : xr) : res xr :=
  bind (backward t trans_val) (fun backward_val =>
  bind (lp backward_val) (fun l =>
  if use_jacobian then bind (log_jac_det t trans_val) (fun j => Val (xadd l j)) else Val l)).

(** transforms.py:366-383 [measurable_elemwise_logprob] *)
Definition elemwise_logprob (t : tr) (lp : xr -> res xr) (value : xr) : res xr :=
  bind (backward t value) (fun b =>
  bind (lp b) (fun l =>
  bind (log_jac_det t value) (fun j => Val (xadd l j)))).
(** The rewrites that choose the transform (transforms.py:386-504), with [c]
    the non-measurable operand:  [x + c], [x * c], [exp], [log], [1/x],
    [x / c] (mul by the reciprocal), [c / x] (reciprocal, then mul),
    [x - c] (add of -1*c), [c - x] (mul by -1, then add). *)
Inductive elem : Type :=
| EAdd (c : xr) | EMul (c : xr) | EExp | ELog | ERecip
| EDivBy (c : xr) | EDivInto (c : xr) | ESubC (c : xr) | ESubFrom (c : xr).
Definition measurable_elem (e : elem) (lp : xr -> res xr) : xr -> res xr :=
  match e with
  | EAdd c => elemwise_logprob (TLoc c) lp                                      (* 458-473 *)
  | EMul c => elemwise_logprob (TScale c) lp                                    (* 476-493 *)
  | EExp => elemwise_logprob TExp lp                                            (* 436-444 *)
  | ELog => elemwise_logprob TLog lp                                            (* 447-455 *)
  | ERecip => elemwise_logprob TRecip lp                                        (* 496-504 *)
  | EDivBy c => elemwise_logprob (TScale (xrecip c)) lp                         (* 386-406 *)
  | EDivInto c => elemwise_logprob (TScale c) (elemwise_logprob TRecip lp)      (* 386-406 *)
  | ESubC c => elemwise_logprob (TLoc (xmul (Fin (-1)) c)) lp                   (* 409-433 *)
  | ESubFrom c => elemwise_logprob (TLoc c) (elemwise_logprob (TScale (Fin (-1))) lp) (* 409-433 *)
  end.
