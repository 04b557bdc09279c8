(** SimplexTransform of /repo/aeppl/transforms.py 743-766 on arrays of any
    rank, the vectors along the last axis, and the log-probability of a
    transformed batch of Dirichlet variables (transforms.py:862-881, 961-964;
    logprob.py:613-628). *)
From Coq Require Import Reals List Arith ZArith Bool.
From Verif Require Import XR ModelDist ModelVec ModelIdx ModelTen ModelSub ModelBatch ModelSimplex.
Import ListNotations.
Open Scope nat_scope.

(** [at.sum(..., -1, keepdims=True)] and the like: an array without axes raises *)
Definition keepdims {A B} (f : list A -> B) (a : nd A) : res (nd B) :=
  match nshp a with
  | [] => Raise
  | s => Val {| nshp := removelast s ++ [1]; nelt := fun i => f (row a (removelast i)) |}
  end.
(** [a[..., :-1]] *)
Definition all_but_last {A} (a : nd A) : nd A := {| nshp := removelast (nshp a) ++ [last (nshp a) 0 - 1]; nelt := nelt a |}.

(** transforms.py:746-749 *)
Definition simplex_forward_nd (value : nd xr) : res (nd xr) :=
  let log_value := elem1 xlog value in
  bind (keepdims xsum log_value) (fun s =>
  let shift := elem1 (fun x => xdiv x (Fin (INR (last (nshp value) 0)))) s in
  elem2 xsub (all_but_last log_value) shift).
(** transforms.py:751-754 *)
Definition simplex_backward_nd (value : nd xr) : res (nd xr) :=
  bind (keepdims xsum value) (fun s =>
  bind (concatenate (-1) [value; elem1 xneg s] NaN) (fun value =>
  bind (keepdims at_max value) (fun m =>
  bind (elem2 (fun v m => xexp (xsub v m)) value m) (fun exp_value_max =>
  bind (keepdims xsum exp_value_max) (fun t =>
  elem2 xdiv exp_value_max t))))).
(** transforms.py:756-766; [at.logsumexp] is log(sum(exp(.))) *)
Definition simplex_log_jac_det_nd (value : nd xr) : res (nd xr) :=
  let N := Fin (INR (last (nshp value) 0 + 1)) in
  bind (keepdims xsum value) (fun sum_value =>
  bind (elem2 xadd value sum_value) (fun value_sum_expanded =>
  bind (concatenate (-1) [value_sum_expanded; {| nshp := nshp sum_value; nelt := fun _ => Fin 0 |}] NaN) (fun value_sum_expanded =>
  bind (keepdims (fun l => xlog (xsum (map xexp l))) value_sum_expanded) (fun logsumexp_value_expanded =>
  bind (elem2 xadd (elem1 (fun s => xadd (xlog N) (xmul N s)) sum_value) (elem1 (fun l => xneg (xmul N l)) logsumexp_value_expanded)) (fun res =>
  Val (reduce xsum res)))))).
(** transforms.py:862-881 for a Dirichlet variable with its default transform
    (961-964); [use_jacobian] is the argument of that name *)
Definition dirichlet_transformed_nd (use_jacobian : bool) (alpha value : nd xr) : res (nd xr) :=
  bind (simplex_backward_nd value) (fun x =>
  bind (dirichlet_nd alpha x) (fun logprob =>
  if use_jacobian then bind (simplex_log_jac_det_nd value) (fun j => elem2 xadd logprob j) else Val logprob)).
