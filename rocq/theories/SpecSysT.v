(** Values in the transformed space as functions of the draws. *)
From Coq Require Import Reals List.
From Coquelicot Require Import Coquelicot.
From Verif Require Import XR ModelTrans SpecTrans ModelNest SpecNest ModelSys SpecSys.
Import ListNotations.
Open Scope R_scope.

Section Values.
Variable fs : nat -> list xr -> xr.
Variable h : list snode.
Variable tf : nat -> option (list xr -> tr).
(** [tvalue rho v x r]: for the draws [rho], [v] has the value [x] and the
    transformed value [r]; the transform may depend on the inputs of [v] *)
Definition tvalue (rho : nat -> R) (v : nat) (x r : R) : Prop :=
  svalue fs h rho v x /\
  match tf v with
  | None => r = x
  | Some f => exists nd rs, nth_error h v = Some nd /\ Forall2 (svalue fs h rho) (node_inputs nd) rs /\ tmaps (f (map Fin rs)) x r
  end.
(** [D] is the derivative of the transformed value of [v] with respect to the draw of [b] *)
Definition tpartial (rho : nat -> R) (v b : nat) (D : R) : Prop :=
  exists g k : R -> R, locally (rho b) (fun t => tvalue (upd rho b t) v (g t) (k t)) /\ is_derive k (rho b) D.
(** no reciprocal of a negative number is taken by the transform of [v] *)
Definition tsigned (rho : nat -> R) (v : nat) : Prop :=
  forall f nd rs x, tf v = Some f -> nth_error h v = Some nd -> Forall2 (svalue fs h rho) (node_inputs nd) rs -> svalue fs h rho v x -> tpos (f (map Fin rs)) x.
(** transforms of expressions do not depend on the operands *)
Definition steady : Prop := forall v f, tf v = Some f ->
  (exists d l, nth_error h v = Some (SRv d l)) \/ (exists t, forall l, f l = t).
(** [w] is computed, possibly by way of other random variables, from [v] *)
Inductive computed_from : nat -> nat -> Prop :=
| c_here w v nd : nth_error h w = Some nd -> In v (node_inputs nd) -> computed_from w v
| c_there w a v nd : nth_error h w = Some nd -> In a (node_inputs nd) -> computed_from a v -> computed_from w v.
(** no variable that is transformed is requested after one computed from it *)
Definition in_order (req : list nat) : Prop :=
  forall l v r w, req = l ++ v :: r -> tf v <> None -> In w l -> ~ computed_from w v.
End Values.
