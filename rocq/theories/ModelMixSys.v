(** Mixtures and entries of stacks in whole models: /repo/aeppl/mixture.py
    204-303, 350-409 and /repo/aeppl/tensor.py 26-33, 78-116 on top of
    [ModelSys] and [ModelStack]. *)
From Coq Require Import Reals List Arith Bool ZArith.
From Verif Require Import XR ModelDist ModelVec ModelJoint ModelNest ModelMix ModelGuard ModelSys ModelStack.
Import ListNotations.
Open Scope nat_scope.

(** What the operation of an [SOther] node is.  [Select]: the node
    [SOther k (idx :: comps)] is [at.stack(comps)[idx]] with a scalar index;
    [Entry i]: the node [SOther k l] is [at.stack(l)[i]] with a constant [i].
    Simplified: stacks of the same variables are one variable, and entries of
    stacks are not requested themselves. *)
Inductive role := Plain | Select | Entry (i : nat).

Section Mixed.
Variable kind : nat -> role.
Variable ddt : nat -> dtype.
Variable fs : nat -> list xr -> xr.
Variable dlp : nat -> list xr -> xr -> res xr.
Variable h : list snode.
(** values of the requested nodes, draws of the variables without value, requests: as in [ModelStack] *)
Variable y : nat -> xr.
Variable rho : nat -> xr.
Variable qs : list request.

(** rewriting.py:266-271: a requested stack is replaced by its value wherever
    it is an input, so its entries become entries of the value *)
Fixpoint stack_entry (l : list nat) (i : nat) (ql : list request) : option xr :=
  match ql with
  | [] => None
  | QStack m xs :: ql => if list_eq_dec Nat.eq_dec l m then nth_error xs i else stack_entry l i ql
  | _ :: ql => stack_entry l i ql
  end.
Definition entry_value (v : nat) : option xr :=
  match nth_error h v with
  | Some (SOther k l) => match kind k with Entry i => stack_entry l i qs | _ => None end
  | _ => None
  end.
Definition is_entry (v : nat) : bool := match entry_value v with Some _ => true | None => false end.
(** the nodes that are replaced, and by what *)
Definition valued : list nat := q_req qs ++ filter is_entry (seq 0 (length h)).
Definition valued_as (v : nat) : xr :=
  if mem v (q_req qs) then y v else match entry_value v with Some x => x | None => NaN end.
Definition m_node (v : nat) : nexpr := u_node h valued_as (map QVar valued) v.
Definition m_rv_logprob : nat -> xr -> res xr := u_rv_logprob ddt fs dlp h valued_as rho (map QVar valued).

(** mixture.py:231-237, 262-265: every component is measurable and has no value *)
Fixpoint components (l : list nat) : option (list mexpr) :=
  match l with
  | [] => Some []
  | c :: l => match a_m (annotate (rv_dtype ddt h) fs (m_node c)), components l with Some m, Some ms => Some (m :: ms) | _, _ => None end
  end.
(** mixture.py:399-407; the index is an input of the mixture like any other,
    so requested variables in it have their values and others their draws *)
Definition select_logprob (idx : nat) (comps : list nat) (v : xr) : option (res xr) :=
  match components comps with
  | Some ms => Some (mixture_scalar (map (nested_logprob m_rv_logprob) ms) (index_of (a_val (annotate (rv_dtype ddt h) fs (draw rho (m_node idx))))) v)
  | None => None
  end.
(** joint_logprob.py:150-206, and [at.sum] of the factor of one requested variable *)
Definition m_sum (q : request) : option (res xr) :=
  match q with
  | QVar v =>
      match nth_error h v with
      | Some (SOther k (idx :: comps)) =>
          match kind k with
          | Select => select_logprob idx comps (y v)
          | _ => u_conditional ddt fs dlp h valued_as rho (map QVar valued) v
          end
      | _ => u_conditional ddt fs dlp h valued_as rho (map QVar valued) v
      end
  | QStack l xs => match stack_logprob ddt fs dlp h valued_as rho (map QVar valued) l xs with Some rs => Some (rmap xsum (rseq rs)) | None => None end
  end.
Fixpoint m_sums (l : list request) : option (list (res xr)) :=
  match l with
  | [] => Some []
  | q :: l => match m_sum q, m_sums l with Some r, Some rs => Some (r :: rs) | _, _ => None end
  end.
(** joint_logprob.py:300-319 *)
Definition mixed_joint : option (res xr) := match m_sums qs with None => None | Some rs => Some (rmap xsum (rseq rs)) end.
End Mixed.
