(** Element-wise lifting of the scalar functions of [ModelDist.v] to arrays. *)
From Coq Require Import Reals List Bool.
From Verif Require Import XR ModelDist.
Import ListNotations.

(** Evaluation of an element-wise logprob graph on arrays.  An array is the
    list of its elements in C order; broadcasting has already been applied, so
    an element is the tuple of parameters and value it is computed from.
    [CheckParameterValue] (utils.py via aesara.raise_op.CheckAndRaise;
    logprob.py uses it on every family) asserts [at.all(cond)], i.e. the whole
    evaluation raises as soon as one element fails its condition.
    Simplification: broadcast against an empty array is not considered. *)
Fixpoint arr_eval {A} (f : A -> res xr) (elems : list A) : res (list xr) :=
  match elems with
  | [] => Val []
  | e :: es =>
      match f e, arr_eval f es with
      | Val v, Val vs => Val (v :: vs)
      | _, _ => Raise
      end
  end.
