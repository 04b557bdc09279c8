(** Joint log-probabilities of whole models whose requested variables may be
    measurable expressions: /repo/aeppl/rewriting.py 240-271 (values replace
    the requested variables), the rewrites of transforms.py 386-597 (through
    [ModelNest]) and /repo/aeppl/joint_logprob.py 140-219, 300-319. *)
From Coq Require Import Reals List Arith Bool.
From Verif Require Import XR ModelDist ModelVec ModelJoint ModelNest.
Import ListNotations.
Open Scope nat_scope.

(** A graph is a list of nodes with one output each; inputs are positions in
    the list.  [SCon] is a variable without owner, with its value; [SRv d ps] a
    RandomVariable of distribution [d] with parameters [ps].  Scalars only. *)
Inductive snode :=
| SCon (c : xr)
| SRv (d : nat) (ps : list nat)
| SOne (u : unary) (a : nat)
| SMany (n : nary) (l : list nat)
| SSub (a b : nat)
| SDiv (a b : nat)
| SOther (k : nat) (l : list nat).

Section Joint.
(** dtypes of the distributions; meaning of the other operations;
    [_logprob] of the distributions (parameters, value) *)
Variable ddt : nat -> dtype.
Variable fs : nat -> list xr -> xr.
Variable dlp : nat -> list xr -> xr -> res xr.
Variable h : list snode.
(** the requested variables and their values *)
Variable req : list nat.
Variable y : nat -> xr.

(** the node of [v] with inputs [go] *)
Definition expand (go : nat -> nexpr) (v : nat) : nexpr :=
  match nth_error h v with
  | None => NCon NaN
  | Some (SCon c) => NCon c
  | Some (SRv _ _) => NRv v
  | Some (SOne u a) => NOne u (go a)
  | Some (SMany n l) => NMany n (map go l)
  | Some (SSub a b) => NSub (go a) (go b)
  | Some (SDiv a b) => NDiv (go a) (go b)
  | Some (SOther k l) => NOther k (map go l)
  end.
(** rewriting.py:266-271: requested variables become ValuedVariables where they
    are inputs.  The graph is unfolded into a tree: the rewrites look at one
    node and the variables reachable from its inputs only.  [fuel] bounds the
    depth; the number of nodes suffices for acyclic graphs. *)
Fixpoint unfold (fuel v : nat) : nexpr :=
  match fuel with
  | 0 => NCon NaN
  | S fuel => if mem v req then NCon (y v) else expand (unfold fuel) v
  end.
(** rewriting.py:242-251: the requested node itself is cloned and stays *)
Definition top (v : nat) : nexpr := expand (unfold (length h)) v.

Definition rv_dtype (i : nat) : dtype := match nth_error h i with Some (SRv d _) => ddt d | _ => DFloat end.
(** the log-probability of the random variable [i]: its parameters after the
    replacement; conversions of un-valued variables have been undone
    (rewriting.py:283-291) *)
Definition rv_logprob (i : nat) (x : xr) : res xr :=
  match nth_error h i with
  | Some (SRv d ps) => dlp d (map (fun p => a_val (annotate rv_dtype fs (unfold (length h) p))) ps) x
  | _ => Raise
  end.
(** joint_logprob.py:150-206, one requested variable; [None]: DensityNotFound *)
Definition conditional (v : nat) : option (res xr) :=
  match a_m (annotate rv_dtype fs (top v)) with
  | None => None
  | Some m => Some (nested_logprob rv_logprob m (y v))
  end.
Fixpoint conditionals (l : list nat) : option (list (res xr)) :=
  match l with
  | [] => Some []
  | v :: l => match conditional v, conditionals l with Some r, Some rs => Some (r :: rs) | _, _ => None end
  end.
(** joint_logprob.py:300-319 *)
Definition joint : option (res xr) := match conditionals req with None => None | Some rs => Some (rmap xsum (rseq rs)) end.
End Joint.
