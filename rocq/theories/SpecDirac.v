(** Specification for C47. *)
From Coq Require Import Reals List Bool.
From Verif Require Import XR ModelVec ModelIdx ModelTen ModelDirac.
Import ListNotations.
Open Scope R_scope.

(** numbers [v] within the tolerance of [c] *)
Definition within (rtol atol : R) (v c : xr) : Prop :=
  match v, c with
  | Fin x, Fin y => y - (atol + rtol * Rabs y) <= x <= y + (atol + rtol * Rabs y)
  | PInf, PInf | NInf, NInf => True
  | _, _ => False
  end.
(** a chain of operations, first operation first, each with further inputs *)
Definition chain (ops : list (dop * list (nd xr))) (t : dterm) : dterm :=
  fold_left (fun t o => TOp (fst o) (t :: map TVar (snd o))) ops t.
(** one-output operations that are elementwise of one input, or one of the
    listed others *)
Definition basic_op (o : dop * list (nd xr)) : Prop :=
  o_listed (fst o) = true /\ o_single (fst o) = true /\ (o_elemwise (fst o) = true -> snd o = []).
Inductive lifts_star : dterm -> dterm -> Prop :=
| ls_refl : forall t, lifts_star t t
| ls_step : forall t u v, lifts t u -> lifts_star u v -> lifts_star t v.
Fixpoint delta_free (t : dterm) : Prop :=
  match t with TVar _ => True | TDelta _ _ _ => False | TOp _ args => fold_right and True (map delta_free args) end.
(** operations of several outputs, unlisted operations, and elementwise
    operations of several inputs *)
Definition kept_op (o : dop) (n : nat) : Prop :=
  o_listed o = false \/ o_single o = false \/ (o_elemwise o = true /\ n <> 1%nat).
