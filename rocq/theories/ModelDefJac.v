(** Value transforms of vectors: the default Jacobian term of user-defined
    transforms, /repo/aeppl/transforms.py 122-131 (RVTransform.log_jac_det), and
    its addition to the log-probability, 862-881 (transformed_logprob). *)
From Coq Require Import Reals List Bool Arith.
From Verif Require Import XR ModelVec ModelTen RMx ModelVTrans.
Import ListNotations.
Open Scope nat_scope.

(** [at.atleast_2d] *)
Definition atleast_2d {A} (a : nd A) : nd A :=
  match nshp a with
  | [] => {| nshp := [1; 1]; nelt := fun _ => nelt a [] |}
  | [n] => {| nshp := [1; n]; nelt := fun i => nelt a (tl i) |}
  | _ => a
  end.
Definition is_fin (x : xr) : bool := match x with Fin _ => true | _ => false end.
Definition fin_part (x : xr) : R := match x with Fin r => r | _ => 0%R end.
(** [at.nlinalg.det]: one square matrix.  NumPy's determinant by its contract
    on finite entries; simplification: NaN as soon as an entry is not finite. *)
Definition det_nd (a : nd xr) : res xr :=
  match nshp a with
  | [m; n] =>
      if m =? n then
        Val (if forallb (fun i => forallb (fun j => is_fin (nelt a [i; j])) (seq 0 n)) (seq 0 n)
             then Fin (rdet n (fun i j => fin_part (nelt a [i; j]))) else NaN)
      else Raise
  | _ => Raise
  end.
(** transforms.py:122-131.  [out]: the shape of [self.backward(value)];
    [inp]: the shape of [value]; [d o i]: the value of the gradient of element
    [o] of the former with respect to element [i] of the latter, as Aesara
    computes it.  [jacobian] refuses expressions with more than one axis; for a
    scalar it is the gradient, for a vector the stack of the gradients. *)
Definition default_log_jac_det (out inp : list nat) (d : list nat -> list nat -> xr) : res xr :=
  bind (match out with
        | [] => Val {| nshp := inp; nelt := d [] |}
        | [m] => Val {| nshp := m :: inp; nelt := fun i => d [hd 0 i] (tl i) |}
        | _ => Raise
        end) (fun J =>
  rmap (fun x => xlog (xabs x)) (det_nd (atleast_2d J))).
(** transforms.py:862-881, for a value that is a vector.  [lp]: the base
    log-probability, a number for vector-valued variables ([DSca]) and a vector
    for independent draws ([DVec]). *)
Definition transformed_vector (use_jacobian : bool) (lp : list xr -> res vdet) (back : list xr -> res (list xr)) (ljd : list xr -> res vdet) (y : list xr) : res vdet :=
  bind (back y) (fun x =>
  bind (lp x) (fun l =>
  if use_jacobian then bind (ljd y) (fun j => Val (vadd l j)) else Val l)).
(** joint_logprob.py:315-327: the sum of the elements *)
Definition factor (d : vdet) : xr := match d with DSca x => x | DVec l => xsum l end.
(** [log_jac_det] of a transform of vectors without its own *)
Definition default_vector (back : list xr -> res (list xr)) (grad : list xr -> nat -> nat -> xr) (y : list xr) : res vdet :=
  bind (back y) (fun x =>
  rmap DSca (default_log_jac_det [length x] [length y] (fun o i => grad y (hd 0 o) (hd 0 i)))).
