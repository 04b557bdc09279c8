(** What transforms should do at infinite values: continue their limits. *)
From Coq Require Import Reals List.
From Coquelicot Require Import Coquelicot.
From Verif Require Import XR ModelVec ModelTrans.
Open Scope R_scope.

Definition xval (r : Rbar) : xr := match r with Finite a => Fin a | p_infty => PInf | m_infty => NInf end.
(** near [s] the method [f] computes a real function, and at [s] its limit *)
Definition continues (f : xr -> res xr) (s : Rbar) : Prop :=
  exists b l, Rbar_locally s (fun y => f (Fin y) = Val (Fin (b y))) /\ is_lim b s l /\ f (xval s) = Val (xval l).
(** the unconstrained space reaches the infinite point [s] *)
Definition reaches (t : tr) (s : Rbar) : Prop :=
  match t with
  | TLoc (Fin _) => True
  | TScale (Fin c) => c <> 0
  | TLog | TRecip | TLogOdds => True
  | TExp => s = p_infty
  | TInterval (Some (Fin a)) (Some (Fin b)) => a < b
  | TInterval (Some (Fin _)) None | TInterval None (Some (Fin _)) => True
  | _ => False
  end.
(** the determinant must be defined near [s]: the logarithm of a negative
    number is not, so the reciprocal is followed to plus infinity only *)
Definition followed (t : tr) (s : Rbar) : Prop :=
  reaches t s /\ match t with TRecip => s = p_infty | _ => True end.
Definition infinite (s : Rbar) : Prop := s = p_infty \/ s = m_infty.
