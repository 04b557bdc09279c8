(** Vector-valued families of /repo/aeppl/logprob.py: categorical,
    multinomial, Dirichlet and the discrete Markov chain. *)
From Coq Require Import Reals Lra Lia ZArith List Bool.
From Verif Require Import XR Special ModelDist.
Import ListNotations.
Open Scope R_scope.

(** [at.sum] of a vector *)
Definition xsum (l : list xr) : xr := fold_right xadd (Fin 0) l.

(** NumPy integer indexing of a vector: negative indices count from the end,
    out-of-range indices raise IndexError. *)
Definition np_index {A} (l : list A) (i : Z) : res A :=
  let n := Z.of_nat (length l) in
  let j := if (i <? 0)%Z then (i + n)%Z else i in
  if ((0 <=? j) && (j <? n))%Z
  then match nth_error l (Z.to_nat j) with Some a => Val a | None => Raise end
  else Raise.

(** logprob.py:546-577, for a vector [p] (the [p.ndim == 1] branch) and an
    integer value; [p[value]] is evaluated in both branches of the switch, so
    an out-of-range index raises. *)
Definition categorical_logprob (p : list xr) (value : Z) : res xr :=
  let s := xsum p in
  let p := map (fun x => xdiv x s) p in
  match np_index p value with
  | Raise => Raise
  | Val q =>
      check (Val (if ((0 <=? value) && (value <? Z.of_nat (length p)))%Z
                  then xlog q else NInf))
            [forallb (fun x => xge x (Fin 0)) p; forallb (fun x => xle x (Fin 1)) p]
  end.

Fixpoint map2 {A B C} (f : A -> B -> C) (l : list A) (m : list B) : list C :=
  match l, m with a :: l, b :: m => f a b :: map2 f l m | _, _ => [] end.

(** logprob.py:613-628, for vectors of equal length *)
Definition dirichlet_logprob (alpha value : list xr) : res xr :=
  check (Val (if forallb (fun v => xle (Fin 0) v) value && forallb (fun v => xle v (Fin 1)) value
              then xadd (xsum (map2 (fun a v => xsub (xlogy0 (xsub a (Fin 1)) v) (xgammaln a)) alpha value))
                        (xgammaln (xsum alpha))
              else NInf))
        [forallb (fun a => xlt (Fin 0) a) alpha].

(** logprob.py:631-649, for vectors of equal length *)
Definition multinomial_logprob (n : xr) (p value : list xr) : res xr :=
  check (Val (if forallb (fun v => xle (Fin 0) v) value && xeq (xsum value) n
              then xadd (xgammaln (xadd n (Fin 1)))
                        (xsum (map2 (fun v q => xadd (xneg (xgammaln (xadd v (Fin 1)))) (xlogy0 v q)) value p))
              else NInf))
        [forallb (fun q => xle q (Fin 1)) p; xeq (xsum p) (Fin 1); xge n (Fin 0)].

(** ** Discrete Markov chains *)
(** matrix product [at.dot(v, M)], column [j]; rows of [M] are indexed by the source state *)
Definition vdot (v : list R) (col : list R) : R := fold_right Rplus 0 (map2 Rmult v col).
Definition bind {A B} (r : res A) (f : A -> res B) : res B :=
  match r with Val a => f a | Raise => Raise end.
Definition idx {A} (l : list A) (i : nat) : res A :=
  match nth_error l i with Some a => Val a | None => Raise end.
Fixpoint rseq {A} (l : list (res A)) : res (list A) :=
  match l with [] => Val [] | r :: l => bind r (fun a => bind (rseq l) (fun m => Val (a :: m))) end.
(** column [j] of a matrix given as a list of rows *)
Definition column (M : list (list R)) (j : nat) : res (list R) := rseq (map (fun row => idx row j) M).

(** [at.broadcast_to(Gammas, (T, ...))]: a single matrix (2-d, or leading
    dimension one) is repeated, otherwise the leading dimension must be T. *)
Definition broadcast_to {A} (T : nat) (Gs : list A) : res (list A) :=
  match Gs with
  | [G] => Val (repeat G T)
  | _ => if (length Gs =? T)%nat then Val Gs else Raise
  end.

(** logprob.py:662-715; probabilities are real matrices and states are
    non-negative integers; an index out of range raises.
    Simplification: 1-d states only (the code raises NotImplementedError otherwise). *)
Definition discrete_mc_logp (Gammas : list (list (list R))) (gamma_0 : list R) (states : list nat)
  : res (list xr) :=
  bind (broadcast_to (length states) Gammas) (fun Gs =>
  bind (idx Gs 0) (fun G1 =>
  bind (idx states 0) (fun s0 =>
  bind (column G1 s0) (fun c =>
  let P_S_1 := vdot gamma_0 c in
  bind (rseq (map (fun t => bind (idx Gs t) (fun G =>
                            bind (idx states t) (fun a =>
                            bind (idx states (S t)) (fun b =>
                            bind (idx G a) (fun row => idx row b)))))
                  (seq 0 (length states - 1)))) (fun P_S_2T =>
  Val (xlog (Fin P_S_1) :: map (fun q => xlog (Fin q)) P_S_2T)))))).
