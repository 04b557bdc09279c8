(** Parameter constraints as documented by the messages of the checks in
    logprob.py and by the distributions' definitions. *)
From Coq Require Import Reals.
From Verif Require Import XR.
Open Scope R_scope.

(** a strictly positive number (+inf included); NaN is not *)
Definition xpos (x : xr) : Prop :=
  match x with Fin r => 0 < r | PInf => True | NInf => False | NaN => False end.
Definition xnonneg (x : xr) : Prop :=
  match x with Fin r => 0 <= r | PInf => True | NInf => False | NaN => False end.
(** a probability *)
Definition xprob (x : xr) : Prop :=
  match x with Fin r => 0 <= r <= 1 | _ => False end.
(** ordered extended reals, neither NaN *)
Definition xordered (x y : xr) : Prop :=
  match x, y with
  | Fin a, Fin b => a <= b
  | NInf, NaN => False | NInf, _ => True
  | Fin _, PInf => True | PInf, PInf => True
  | _, _ => False
  end.
Definition raises {A} (r : res A) : Prop := r = Raise.
