(** Batches of multivariate normal variables: /repo/aeppl/logprob.py 580-610 on
    arrays, with NumPy's broadcasting. *)
From Coq Require Import Reals List Arith Bool.
From Verif Require Import XR ModelDist ModelVec ModelIdx ModelTen ModelBatch ModelMvn.
Import ListNotations.
Open Scope R_scope.

(** [a.T]: all axes reversed *)
Definition transpose {A} (a : nd A) : nd A := {| nshp := rev (nshp a); nelt := fun i => nelt a (rev i) |}.
(** [solve_triangular(L, b, lower=True)] (logprob.py:604) for a [d] by [d]
    matrix: Aesara's SolveTriangular accepts vectors and matrices only, and
    SciPy solves for every column of [b]. *)
Definition solve_nd (d : nat) (L : nat -> nat -> xr) (b : nd xr) : res (nd xr) :=
  match nshp b with
  | [k] | [k; _] =>
      if (k =? d)%nat then
        Val {| nshp := nshp b;
               nelt := fun i => match i with
                                | x :: col => nth x (solve_lower L (map (fun y => nelt b (y :: col)) (seq 0 d)) d) NaN
                                | [] => NaN
                                end |}
      else Raise
  | _ => Raise
  end.
(** logprob.py:580-610; [cov] is one [d] by [d] matrix (Aesara's Cholesky
    accepts nothing else) *)
Definition mvnormal_nd (d : nat) (mu : nd xr) (cov : nat -> nat -> R) (value : nd xr) : res (nd xr) :=
  bind (elem2 xsub value mu) (fun r =>
  let cov_chol := cholesky cov d in
  let cov_chol_diag := map (fun i => cov_chol i i) (seq 0 d) in
  let all_pos_definite := forallb (fun x => xgt x (Fin 0)) cov_chol_diag in
  let cov_chol := fun i j => if all_pos_definite then cov_chol i j else Fin 1 in
  bind (solve_nd d cov_chol (transpose r)) (fun z =>
  let quaddist := reduce xsum (elem1 xsq (transpose z)) in
  let logdet := xsum (map xlog cov_chol_diag) in
  match rev (nshp value) with
  | [] => Raise
  | n :: _ =>
      check_nd (Val (elem1 (fun q => xsub (xsub (xmul (xmul (Fin (-1/2)) (Fin (INR n))) (xlog (Fin (2 * PI)))) (xmul (Fin (1/2)) q)) logdet) quaddist))
        [all_pos_definite]
  end)).
