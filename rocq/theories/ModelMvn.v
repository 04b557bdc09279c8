(** The multivariate normal log-density of /repo/aeppl/logprob.py, with the
    Cholesky factorisation and the triangular solver it calls. *)
From Coq Require Import Reals List Bool ZArith.
From Verif Require Import XR ModelDist ModelVec.
Import ListNotations.
Open Scope R_scope.

(** One column of the Cholesky factor; [cols] are the columns before it.
    [aesara.tensor.slinalg.Cholesky(lower=True)] (logprob.py:35) calls
    [scipy.linalg.cholesky(x, lower=True)], which reads the diagonal and the part
    below it only and fails at a pivot that is not positive.
    Simplification: exact real arithmetic. *)
Definition chol_col (A : nat -> nat -> R) (cols : list (nat -> R)) (j : nat) : option (nat -> R) :=
  let acc i := fold_right Rplus 0 (map (fun c => c i * c j) cols) in
  let piv := A j j - acc j in
  if Rle_dec piv 0 then None
  else Some (fun i => if (i <? j)%nat then 0 else if (i =? j)%nat then sqrt piv else (A i j - acc i) / sqrt piv).
(** the first [n] columns, or failure (logprob.py:35, 586) *)
Fixpoint chol_cols (A : nat -> nat -> R) (n : nat) : option (list (nat -> R)) :=
  match n with
  | O => Some []
  | S j => match chol_cols A j with
           | None => None
           | Some cs => match chol_col A cs j with None => None | Some c => Some (cs ++ [c]) end
           end
  end.
(** logprob.py:35: [Cholesky(lower=True, on_error="nan")] returns a matrix of
    NaN when the factorisation fails. *)
Definition cholesky (A : nat -> nat -> R) (n : nat) : nat -> nat -> xr :=
  match chol_cols A n with
  | Some cs => fun i j => Fin (nth j cs (fun _ => 0) i)
  | None => fun _ _ => NaN
  end.
(** [solve_triangular(L, r, lower=True)] (logprob.py:604): forward substitution,
    the first [n] components of the solution. *)
Fixpoint solve_lower (L : nat -> nat -> xr) (r : list xr) (n : nat) : list xr :=
  match n with
  | O => []
  | S i => let z := solve_lower L r i in
           z ++ [xdiv (xsub (nth i r NaN) (xsum (map2 (fun k zk => xmul (L i k) zk) (seq 0 i) z))) (L i i)]
  end.
(** logprob.py:580-610, for vectors [value] and [mu] of length [n] and an
    [n] by [n] matrix [cov].
    Simplification: no leading (batch) dimensions of [value]. *)
Definition mvnormal_logprob (n : nat) (mu : list xr) (cov : nat -> nat -> R) (value : list xr) : res xr :=
  let r := map2 xsub value mu in
  let cov_chol := cholesky cov n in
  let cov_chol_diag := map (fun i => cov_chol i i) (seq 0 n) in
  let all_pos_definite := forallb (fun d => xgt d (Fin 0)) cov_chol_diag in
  let cov_chol := fun i j => if all_pos_definite then cov_chol i j else Fin 1 in
  let z_T := solve_lower cov_chol r n in
  let quaddist := xsum (map xsq z_T) in
  let logdet := xsum (map xlog cov_chol_diag) in
  check (Val (xsub (xsub (xmul (xmul (Fin (-1/2)) (Fin (INR (length value)))) (xlog (Fin (2 * PI))))
                         (xmul (Fin (1/2)) quaddist)) logdet))
        [all_pos_definite].
