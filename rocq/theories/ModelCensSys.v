(** Clipped and rounded variables in whole models: /repo/aeppl/censoring.py
    37-70, 189-212 (through [ModelGuard]) with the values of
    /repo/aeppl/rewriting.py 240-271 and the joint of
    /repo/aeppl/joint_logprob.py 140-219, 300-319; see [ModelSys] for models
    without them. *)
From Coq Require Import Reals List Arith Bool.
From Verif Require Import XR ModelDist ModelVec ModelCens ModelJoint ModelNest ModelGuard.
Import ListNotations.
Open Scope nat_scope.

(** Nodes as in [ModelSys.snode]; [CClip d a lo hi] is [at.clip(a, lo, hi)] of
    dtype [d], [CRound op a] one of [at.round], [at.floor], [at.ceil].  Scalars
    only. *)
Inductive cnode :=
| CCon (c : xr)
| CRv (d : nat) (ps : list nat)
| COne (u : unary) (a : nat)
| CMany (n : nary) (l : list nat)
| CSub (a b : nat)
| CDiv (a b : nat)
| CClip (d : dtype) (a lo hi : nat)
| CRound (op : rounding) (a : nat)
| COther (k : nat) (l : list nat).

Section Joint.
(** dtypes of the distributions; meaning of the other operations; [_logprob]
    and [_logcdf] of the distributions (parameters, value) *)
Variable ddt : nat -> dtype.
Variable fs : nat -> list xr -> xr.
Variable dlp dlc : nat -> list xr -> xr -> res xr.
Variable h : list cnode.
(** the requested variables and their values; the draws of the others *)
Variable req : list nat.
Variable y : nat -> xr.
Variable rho : nat -> xr.

(** the node of [v] with inputs [go]; censoring.py:57-58 compares the bounds
    with the clipped variable *)
Definition c_expand (go : nat -> gexpr) (v : nat) : gexpr :=
  match nth_error h v with
  | None => GCon NaN
  | Some (CCon c) => GCon c
  | Some (CRv _ _) => GRv v
  | Some (COne u a) => GOne u (go a)
  | Some (CMany n l) => GMany n (map go l)
  | Some (CSub a b) => GSub (go a) (go b)
  | Some (CDiv a b) => GDiv (go a) (go b)
  | Some (CClip d a lo hi) => GClip d (go a) (if lo =? a then GSelf else go lo) (if hi =? a then GSelf else go hi)
  | Some (CRound op a) => GRound op (go a)
  | Some (COther k l) => GOther k (map go l)
  end.
(** rewriting.py:266-271: requested variables become ValuedVariables where they
    are inputs; unfolded into a tree as in [ModelSys.unfold] *)
Fixpoint c_unfold (fuel v : nat) : gexpr :=
  match fuel with
  | 0 => GCon NaN
  | S fuel => if mem v req then GIn (y v) else c_expand (c_unfold fuel) v
  end.
(** rewriting.py:242-251: the requested node itself is cloned and stays *)
Definition c_top (v : nat) : gexpr := c_expand (c_unfold (length h)) v.

Definition c_dtype (i : nat) : dtype := match nth_error h i with Some (CRv d _) => ddt d | _ => DFloat end.
Definition c_rvs (i : nat) : nat * list gexpr := match nth_error h i with Some (CRv d ps) => (d, map (c_unfold (length h)) ps) | _ => (0, []) end.
(** joint_logprob.py:150-206, one requested variable; [None]: DensityNotFound *)
Definition c_conditional (v : nat) : option (res xr) := derived c_dtype fs rho c_rvs dlp dlc (c_top v) (y v).
Fixpoint c_conditionals (l : list nat) : option (list (res xr)) :=
  match l with
  | [] => Some []
  | v :: l => match c_conditional v, c_conditionals l with Some r, Some rs => Some (r :: rs) | _, _ => None end
  end.
(** joint_logprob.py:300-319 *)
Definition c_joint : option (res xr) := match c_conditionals req with None => None | Some rs => Some (rmap xsum (rseq rs)) end.
End Joint.
