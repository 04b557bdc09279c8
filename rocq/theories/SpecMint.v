(** Specification for C53 and C54: iterated improper integrals over R^n and
    over the open simplex, any dimension. *)
From Coq Require Import Reals List.
From Coquelicot Require Import Coquelicot.
Import ListNotations.
Open Scope R_scope.

(** [l] is the integral of [f] over R^n, the last variable innermost *)
Fixpoint integral_Rn (n : nat) (f : list R -> R) (l : R) : Prop :=
  match n with
  | O => f [] = l
  | S n => exists F : R -> R, (forall x, integral_Rn n (fun v => f (x :: v)) (F x)) /\
             is_RInt_gen F (Rbar_locally m_infty) (Rbar_locally p_infty) l
  end.
(** [l] is the integral of [f] over the positive vectors of length [n] with
    total below [s] *)
Fixpoint integral_simplex (n : nat) (s : R) (f : list R -> R) (l : R) : Prop :=
  match n with
  | O => f [] = l
  | S n => exists F : R -> R, (forall x, 0 < x < s -> integral_simplex n (s - x) (fun v => f (x :: v)) (F x)) /\
             is_RInt_gen F (at_right 0) (at_left s) l
  end.
