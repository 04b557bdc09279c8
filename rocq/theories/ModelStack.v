(** Stacks of scalar variables among the requested variables:
    /repo/aeppl/tensor.py 26-33, 78-116, on top of [ModelSys]. *)
From Coq Require Import Reals List Arith Bool.
From Verif Require Import XR ModelDist ModelVec ModelJoint ModelNest ModelSys.
Import ListNotations.
Open Scope nat_scope.

(** One requested variable: a node of the graph, or [at.stack] of scalar nodes
    (a MakeVector node; the elements have one dtype, else aesara casts them)
    with its vector value.  Nothing is computed from the stacks. *)
Inductive request := QVar (v : nat) | QStack (l : list nat) (xs : list xr).
Definition q_req (qs : list request) : list nat := flat_map (fun q => match q with QVar v => [v] | QStack _ _ => [] end) qs.

Section Stacks.
Variable ddt : nat -> dtype.
Variable fs : nat -> list xr -> xr.
Variable dlp : nat -> list xr -> xr -> res xr.
Variable h : list snode.
(** the values of the requested nodes, and the draws of the random variables
    without value, which stay in the log-probability graph *)
Variable y : nat -> xr.
Variable rho : nat -> xr.
Variable qs : list request.

Fixpoint draw (e : nexpr) : nexpr :=
  match e with
  | NRv i => NCon (rho i)
  | NCon c => NCon c
  | NOne u e => NOne u (draw e)
  | NMany n l => NMany n (map draw l)
  | NSub a b => NSub (draw a) (draw b)
  | NDiv a b => NDiv (draw a) (draw b)
  | NOther k l => NOther k (map draw l)
  end.
(** rewriting.py:266-271: only the requested variables themselves are replaced
    by their values; the elements of a requested stack are not *)
Definition u_node (v : nat) : nexpr := unfold h (q_req qs) y (length h) v.
(** [_logprob] of the random variable [i]; see [ModelSys.rv_logprob] *)
Definition u_rv_logprob (i : nat) (x : xr) : res xr :=
  match nth_error h i with
  | Some (SRv d ps) => dlp d (map (fun p => a_val (annotate (rv_dtype ddt h) fs (draw (u_node p)))) ps) x
  | _ => Raise
  end.
(** joint_logprob.py:150-206, a requested node *)
Definition u_conditional (v : nat) : option (res xr) :=
  match a_m (annotate (rv_dtype ddt h) fs (top h (q_req qs) y v)) with
  | None => None
  | Some m => Some (nested_logprob u_rv_logprob m (y v))
  end.
(** tensor.py:96-107: every input has a measurable owner; values have not.
    tensor.py:31-33: [logprob(base_var, value[i])] *)
Fixpoint stack_logprob (l : list nat) (xs : list xr) : option (list (res xr)) :=
  match l with
  | [] => Some []
  | a :: l =>
      match a_m (annotate (rv_dtype ddt h) fs (u_node a)), stack_logprob l (tl xs) with
      | Some m, Some rs => Some (match xs with x :: _ => nested_logprob u_rv_logprob m x | [] => Raise end :: rs)
      | _, _ => None
      end
  end.
(** [at.sum] of the factor of one requested variable *)
Definition q_sum (q : request) : option (res xr) :=
  match q with
  | QVar v => u_conditional v
  | QStack l xs => match stack_logprob l xs with Some rs => Some (rmap xsum (rseq rs)) | None => None end
  end.
Fixpoint q_sums (l : list request) : option (list (res xr)) :=
  match l with
  | [] => Some []
  | q :: l => match q_sum q, q_sums l with Some r, Some rs => Some (r :: rs) | _, _ => None end
  end.
(** joint_logprob.py:300-319 *)
Definition stack_joint : option (res xr) := match q_sums qs with None => None | Some rs => Some (rmap xsum (rseq rs)) end.
End Stacks.
