(** Joint log-probabilities of whole models in the transformed space: the rewrite
    of /repo/aeppl/transforms.py 141-239 applied to the models of [ModelSys],
    whose requested variables may be measurable expressions. *)
From Coq Require Import Reals List Arith Bool.
From Verif Require Import XR ModelDist ModelVec ModelTrans ModelJoint ModelNest ModelSys.
Import ListNotations.
Open Scope nat_scope.

Section Joint.
Variable ddt : nat -> dtype.
Variable fs : nat -> list xr -> xr.
Variable dlp : nat -> list xr -> xr -> res xr.
Variable h : list snode.
Variable req : list nat.
(** the argument of TransformValuesRewrite (transforms.py:306-324): the
    transform of a requested variable, as a function of the inputs of its node
    ([*trans_node.inputs], transforms.py:214-224).  Simplifications: scalars;
    DEFAULT_TRANSFORM has been resolved (197-201: [None] for measurable
    expressions, which have no default transform). *)
Variable tf : nat -> option (list xr -> tr).
(** the [use_jacobian] argument of transformed_logprob (transforms.py:862) *)
Variable use_jacobian : bool.
(** the values in the transformed space *)
Variable z : nat -> xr.

(** the inputs of a node: the parameters of a RandomVariable, the operands of
    an expression *)
Definition operands (v : nat) : list nat :=
  match nth_error h v with
  | Some (SRv _ l) | Some (SMany _ l) | Some (SOther _ l) => l
  | Some (SOne _ a) => [a]
  | Some (SSub a b) | Some (SDiv a b) => [a; b]
  | Some (SCon _) | None => []
  end.
(** their values when the requested variables have the values [y] *)
Definition operand_values (y : nat -> xr) (v : nat) : list xr :=
  map (fun p => a_val (annotate (rv_dtype ddt h) fs (unfold h req y (length h) p))) (operands v).
(** transforms.py:223-225, 239: the value of [v] becomes the backward transform
    of the value in the transformed space.  A transform that raises does so in
    [conditional_trans] below. *)
Definition untransformed (y : nat -> xr) (v : nat) : xr :=
  match tf v with
  | None => z v
  | Some f => match backward (f (operand_values y v)) (z v) with Val x => x | Raise => NaN end
  end.
(** the values of the first [n] nodes; values of nodes that are not requested
    are not used.  The inputs of a node come before it. *)
Fixpoint values (n : nat) : list xr :=
  match n with 0 => [] | S n => let l := values n in l ++ [untransformed (fun i => nth i l NaN) n] end.
Definition value_of (v : nat) : xr := nth v (values (length h)) NaN.

(** whether [v] is below [w] in the graph *)
Fixpoint below (fuel w v : nat) : bool :=
  match fuel with
  | 0 => false
  | S fuel => existsb (fun a => (a =? v) || below fuel a v) (operands w)
  end.
(** transforms.py:141-239 runs over the nodes of the graph, inputs first.  It
    transforms the first ValuedVariable of [v] it meets; the value has then been
    replaced and the second one is left alone.  If a variable requested earlier
    is computed from [v], the first one is an input, not the output that is
    scored (see [ModelGraph] for the walk itself). *)
Definition output_transformed (before : list nat) (v : nat) : bool := forallb (fun w => negb (below (length h) w v)) before.
(** transforms.py:861-881; joint_logprob.py:150-206 *)
Definition conditional_trans (before : list nat) (v : nat) : option (res xr) :=
  match conditional ddt fs dlp h req value_of v with
  | None => None
  | Some r =>
      Some match tf v with
           | None => r
           | Some f =>
               let t := f (operand_values value_of v) in
               bind (backward t (z v)) (fun _ => bind r (fun l =>
               if use_jacobian && output_transformed before v then bind (log_jac_det t (z v)) (fun j => Val (xadd l j)) else Val l))
           end
  end.
Fixpoint conditionals_trans (before l : list nat) : option (list (res xr)) :=
  match l with
  | [] => Some []
  | v :: l => match conditional_trans before v, conditionals_trans (before ++ [v]) l with Some r, Some rs => Some (r :: rs) | _, _ => None end
  end.
(** joint_logprob.py:300-319 *)
Definition joint_trans : option (res xr) := match conditionals_trans [] req with None => None | Some rs => Some (rmap xsum (rseq rs)) end.
End Joint.
