(** SimplexTransform of /repo/aeppl/transforms.py, lines 743-766, the default
    transform of the Dirichlet family (transforms.py:961-964).
    Vectors; arrays with leading (batch) axes are in ModelSimplexB. *)
From Coq Require Import Reals List Bool ZArith.
From Verif Require Import XR ModelVec.
Import ListNotations.
Open Scope R_scope.

(** [at.maximum]; NaN propagates *)
Definition xmaximum (a b : xr) : xr :=
  match a, b with NaN, _ | _, NaN => NaN | _, _ => if xlt a b then b else a end.
(** [at.max] of a vector, which must not be empty (transforms.py:753) *)
Fixpoint xmaxl (a : xr) (l : list xr) : xr := match l with [] => a | b :: l => xmaximum a (xmaxl b l) end.
Definition at_max (l : list xr) : xr := match l with [] => NaN | a :: l => xmaxl a l end.

(** transforms.py:746-749: [log_value[..., :-1]] drops the last entry *)
Definition simplex_forward (value : list xr) : list xr :=
  let log_value := map xlog value in
  let shift := xdiv (xsum log_value) (Fin (INR (length value))) in
  map (fun l => xsub l shift) (removelast log_value).
(** transforms.py:751-754 *)
Definition simplex_backward (value : list xr) : list xr :=
  let value := value ++ [xneg (xsum value)] in
  let exp_value_max := map (fun v => xexp (xsub v (at_max value))) value in
  map (fun e => xdiv e (xsum exp_value_max)) exp_value_max.
(** transforms.py:756-766; [at.logsumexp] is log(sum(exp(.))) *)
Definition simplex_log_jac_det (value : list xr) : xr :=
  let N := Fin (INR (length value + 1)) in
  let sum_value := xsum value in
  let value_sum_expanded := map (fun v => xadd v sum_value) value ++ [Fin 0] in
  let logsumexp_value_expanded := xlog (xsum (map xexp value_sum_expanded)) in
  xsub (xadd (xlog N) (xmul N sum_value)) (xmul N logsumexp_value_expanded).
