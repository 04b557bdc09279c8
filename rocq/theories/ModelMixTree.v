(** Mixtures of mixtures in whole models: /repo/aeppl/mixture.py 246-303,
    350-356, 399-407 and 411-419 (the rewrites are applied until nothing
    changes, so that the components of a mixture can be mixtures), on top of
    [ModelMixSys]. *)
From Coq Require Import Reals List Arith Bool ZArith.
From Verif Require Import XR ModelDist ModelVec ModelJoint ModelNest ModelMix ModelGuard ModelSys ModelStack ModelMixSys.
Import ListNotations.
Open Scope nat_scope.

(** A measurable component: an expression of one random variable, or a
    MixtureRV with the value of its index. *)
Inductive mform := FOne (m : mexpr) | FSelect (i : Z) (l : list mform).

Section Trees.
Variable kind : nat -> role.
Variable ddt : nat -> dtype.
Variable fs : nat -> list xr -> xr.
Variable dlp : nat -> list xr -> xr -> res xr.
Variable h : list snode.
(** as in [ModelMixSys] *)
Variable y : nat -> xr.
Variable rho : nat -> xr.
Variable qs : list request.

Fixpoint all_forms (l : list (option mform)) : option (list mform) :=
  match l with
  | [] => Some []
  | f :: l => match f, all_forms l with Some f, Some fs => Some (f :: fs) | _, _ => None end
  end.
(** the value of an index *)
Definition index_value (idx : nat) : Z := index_of (a_val (annotate (rv_dtype ddt h) fs (draw rho (m_node kind h y qs idx)))).
(** mixture.py:231-237, 262-265, 411-419: what the component [c] has become
    when the rewrites are over; [None]: it is not measurable or has a value.
    The rewrites of the other families have been applied before
    (rewriting.py:158-183), so an expression of a mixture that is not itself a
    mixture is not measurable.  [fuel] bounds the depth. *)
Fixpoint m_form (fuel c : nat) : option mform :=
  match fuel with
  | 0 => None
  | S fuel =>
      if mem c (valued kind h qs) then None
      else match nth_error h c with
           | Some (SOther k (idx :: comps)) =>
               match kind k with
               | Select => match all_forms (map (m_form fuel) comps) with Some l => Some (FSelect (index_value idx) l) | None => None end
               | _ => None
               end
           | _ => match a_m (annotate (rv_dtype ddt h) fs (m_node kind h y qs c)) with Some m => Some (FOne m) | None => None end
           end
  end.
(** mixture.py:399-407: [logprob(comp_rv, value)] of a component that is a mixture is again 350-407 *)
Fixpoint form_logprob (f : mform) : xr -> res xr :=
  match f with
  | FOne m => nested_logprob (m_rv_logprob kind ddt fs dlp h y rho qs) m
  | FSelect i l => mixture_scalar (map form_logprob l) i
  end.
(** joint_logprob.py:150-206, and [at.sum] of the factor of one requested variable *)
Definition t_sum (q : request) : option (res xr) :=
  match q with
  | QVar v =>
      match nth_error h v with
      | Some (SOther k (idx :: comps)) =>
          match kind k with
          | Select => match all_forms (map (m_form (length h)) comps) with
                      | Some l => Some (form_logprob (FSelect (index_value idx) l) (y v))
                      | None => None
                      end
          | _ => m_sum kind ddt fs dlp h y rho qs q
          end
      | _ => m_sum kind ddt fs dlp h y rho qs q
      end
  | _ => m_sum kind ddt fs dlp h y rho qs q
  end.
Fixpoint t_sums (l : list request) : option (list (res xr)) :=
  match l with
  | [] => Some []
  | q :: l => match t_sum q, t_sums l with Some r, Some rs => Some (r :: rs) | _, _ => None end
  end.
(** joint_logprob.py:300-319 *)
Definition tree_joint : option (res xr) := match t_sums qs with None => None | Some rs => Some (rmap xsum (rseq rs)) end.
End Trees.
