(** Element-wise expressions of array variables:
    /repo/aeppl/transforms.py 366-383 and 600-673 on arrays. *)
From Coq Require Import Reals List Arith Bool.
From Verif Require Import XR ModelDist ModelVec ModelIdx ModelTen ModelConv ModelTrans ModelSub.
Import ListNotations.
Open Scope nat_scope.

(** A random variable: batch shape of its parameters, number of support axes
    (the last ones), log-probability of the batch element [k] at the support
    value [z] (parameters fixed).  The [size] input plays no part in
    [_logprob] (logprob.py), so the variable's own shape does not occur. *)
Record bvar := { v_par : list nat; v_supp : nat; v_lp : list nat -> (list nat -> xr) -> res xr }.
(** [logprob(rv, value)]: parameters and value broadcast over the batch axes *)
Definition logprob_nd (b : bvar) (value : nd xr) : res (nd (res xr)) :=
  let vb := firstn (length (nshp value) - v_supp b) (nshp value) in
  bind (bcast_all [v_par b; vb]) (fun s =>
  Val {| nshp := s; nelt := fun i => v_lp b (align (v_par b) i) (fun q => nelt value (align vb i ++ q)) |}).

Definition nd_map {A B} (f : A -> B) (a : nd A) : nd B := {| nshp := nshp a; nelt := fun i => f (nelt a i) |}.
Definition x_div (l : list xr) : xr := match l with [x; y] => xdiv x y | _ => NaN end.

(** The transforms that the measurable rewrites create, with the array of the
    other operand *)
Inductive arrtr := ALoc (c : nd xr) | AScale (c : nd xr) | AExp | ALog | ARecip.
Definition arr_backward (a : arrtr) (value : nd xr) : res (nd xr) :=
  match a with
  | ALoc c => elemwise x_sub [value; c]                           (* 610-612 *)
  | AScale c => elemwise x_div [value; c]                         (* 628-630 *)
  | AExp => Val (nd_map xlog value)                               (* 656-657 *)
  | ALog => Val (nd_map xexp value)                               (* 643-644 *)
  | ARecip => Val (nd_map xrecip value)                           (* 669-670 *)
  end.
Definition arr_log_jac_det (a : arrtr) (value : nd xr) : nd xr :=
  match a with
  | ALoc _ => nd_map (fun _ => Fin 0) value                       (* 614-615 zeros_like(value) *)
  | AScale c => nd_map (fun s => xneg (xlog (xabs s))) c          (* 632-634: the shape of the operand *)
  | AExp => nd_map (fun y => xneg (xlog y)) value                 (* 659-660 *)
  | ALog => value                                                 (* 646-647 *)
  | ARecip => nd_map (fun y => xmul (Fin (-2)) (xlog y)) value    (* 672-673 *)
  end.
(** 366-383: [input_logprob + jacobian], broadcast against each other *)
Definition arr_elemwise_logprob (a : arrtr) (b : bvar) (value : nd xr) : res (nd (res xr)) :=
  bind (arr_backward a value) (fun bv =>
  bind (logprob_nd b bv) (fun l =>
  let j := arr_log_jac_det a value in
  bind (bcast_all [nshp l; nshp j]) (fun s =>
  Val {| nshp := s; nelt := fun i => bind (nelt l (align (nshp l) i)) (fun x => Val (xadd x (nelt j (align (nshp j) i)))) |}))).
(** joint_logprob.py:317 [at.sum(factor)] for one factor *)
Definition factor_sum (r : nd (res xr)) : res xr := rmap xsum (rseq (map (nelt r) (positions (nshp r)))).
