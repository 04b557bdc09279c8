(** Infinite and undefined values. *)
From Coq Require Import Reals List.
From Coquelicot Require Import Coquelicot.
From Verif Require Import XR SpecDist LemInt ModelVec ModelTrans ModelJoint ModelLaw SpecLaw.
Import ListNotations.
Open Scope R_scope.

(** no number is returned: an error, NaN, or the logarithm of zero *)
Definition rejected (r : res xr) : Prop := r = Raise \/ r = Val NaN \/ r = Val NInf.
(** every real number is a possible value *)
Definition whole_line (L : law) : Prop := forall x, contains (law_support L) x.
(** laws for which two terms of the log-density tend to opposite infinities,
    or to zero and infinity, when the value tends to plus infinity *)
Definition indefinite (L : law) : Prop :=
  match L with
  | LFam (FGamma a _) => 1 <= a          (* (a - 1) log x - x / s *)
  | LFam (FChiSquare k) => 2 <= k        (* (k / 2 - 1) log x - x / 2 *)
  | LFam (FWeibull c) => 1 <= c          (* (c - 1) log x - x ^ c *)
  | LFam (FWald _ _) => True             (* l / (2 x) * ((x - mu) / mu) ^ 2 *)
  | LPoisson mu => 1 <= mu               (* x log mu - log x! *)
  | LNBinom _ _ => True                  (* log (x + n - 1)! - log x! *)
  | _ => False
  end.
(** the same towards minus infinity *)
Definition indefinite_below (L : law) : Prop :=
  match L with LGumbel _ _ | LLogistic _ _ => True | _ => False end.
