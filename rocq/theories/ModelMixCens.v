(** Mixtures in whole models with clipped, rounded and computed variables:
    /repo/aeppl/mixture.py 204-303, 350-409 (through [ModelGuard]) on top of
    [ModelCensSys]. *)
From Coq Require Import Reals List Arith Bool.
From Verif Require Import XR ModelDist ModelVec ModelCens ModelJoint ModelNest ModelGuard ModelCensSys.
Import ListNotations.
Open Scope nat_scope.

Section Joint.
(** [sel k]: the operation of a node [COther k (idx :: comps)] is
    [at.stack(comps)[idx]] with a scalar index *)
Variable sel : nat -> bool.
(** as in [ModelCensSys] *)
Variable ddt : nat -> dtype.
Variable fs : nat -> list xr -> xr.
Variable dlp dlc : nat -> list xr -> xr -> res xr.
Variable h : list cnode.
Variable req : list nat.
Variable y : nat -> xr.
Variable rho : nat -> xr.

(** joint_logprob.py:150-206, one requested variable; the node of a mixture is
    replaced by a MixtureRV (mixture.py:231-237, 262-303) scored by
    mixture.py:399-407.  Simplification: a mixture that is not requested has no
    log-probability inside other expressions. *)
Definition mc_conditional (v : nat) : option (res xr) :=
  match nth_error h v with
  | Some (COther k (idx :: comps)) =>
      if sel k
      then derived_mix (c_dtype ddt h) fs rho (c_rvs h req y) dlp dlc (c_unfold h req y (length h) idx) (map (c_unfold h req y (length h)) comps) (y v)
      else c_conditional ddt fs dlp dlc h req y rho v
  | _ => c_conditional ddt fs dlp dlc h req y rho v
  end.
Fixpoint mc_conditionals (l : list nat) : option (list (res xr)) :=
  match l with
  | [] => Some []
  | v :: l => match mc_conditional v, mc_conditionals l with Some r, Some rs => Some (r :: rs) | _, _ => None end
  end.
(** joint_logprob.py:300-319 *)
Definition mc_joint : option (res xr) := match mc_conditionals req with None => None | Some rs => Some (rmap xsum (rseq rs)) end.
End Joint.
