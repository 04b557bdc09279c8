(** Dirac deltas: /repo/aeppl/dists.py 21-51, /repo/aeppl/logprob.py 652-659 and
    the rewrites of /repo/aeppl/rewriting.py 84-113. *)
From Coq Require Import Reals List Arith Bool.
From Verif Require Import XR ModelVec ModelIdx ModelTen.
Import ListNotations.

(** [at.isclose] (an Aesara function) with [equal_nan=False]: finite numbers by
    the tolerance, infinities by sign, NaN is close to nothing.  Tolerances are
    real numbers. *)
Definition isclose (rtol atol : R) (a b : xr) : bool :=
  match a, b with
  | Fin x, Fin y => if Rle_dec (Rabs (x - y)) (atol + rtol * Rabs y) then true else false
  | PInf, PInf => true
  | NInf, NInf => true
  | _, _ => false
  end.
(** logprob.py:652-659 *)
Definition diracdelta_logprob (rtol atol : R) (values const_value : nd xr) : res (nd xr) :=
  bind (bcast_all [nshp values; nshp const_value]) (fun s =>
  Val {| nshp := s;
         nelt := fun i => if isclose rtol atol (nelt values (align (nshp values) i)) (nelt const_value (align (nshp const_value) i))
                          then Fin 0 else NInf |}).

(** Terms: leaves hold arrays, [TDelta] is DiracDelta (dists.py:21-49), which
    evaluates to its argument (dists.py:39-45).  Other ops are an arbitrary
    function with the facts the rewrite looks at: whether the op is among those
    of the decorator (rewriting.py:85), is an Elemwise, and has one output. *)
Record dop := { o_listed : bool; o_elemwise : bool; o_single : bool; o_sem : list (nd xr) -> res (nd xr) }.
Inductive dterm := TVar (a : nd xr) | TDelta (rtol atol : R) (t : dterm) | TOp (o : dop) (args : list dterm).
Fixpoint eval (t : dterm) : res (nd xr) :=
  match t with
  | TVar a => Val a
  | TDelta _ _ t => eval t
  | TOp o args => bind (rseq (map eval args)) (o_sem o)
  end.
(** rewriting.py:84-105: the node [TOp o args] is replaced *)
Definition local_lift_DiracDelta (t : dterm) : option dterm :=
  match t with
  | TOp o (TDelta rtol atol c :: rest) =>
      if o_listed o && o_single o && negb (o_elemwise o && negb (match rest with [] => true | _ => false end))
      then Some (TDelta rtol atol (TOp o (c :: rest)))
      else None
  | _ => None
  end.
(** one application of the rewrite anywhere in a graph (the canonicalization
    and [in2out] apply it at nodes of their choice) *)
Inductive lifts : dterm -> dterm -> Prop :=
| l_here : forall t t', local_lift_DiracDelta t = Some t' -> lifts t t'
| l_delta : forall r a t t', lifts t t' -> lifts (TDelta r a t) (TDelta r a t')
| l_arg : forall o l t t' m, lifts t t' -> lifts (TOp o (l ++ t :: m)) (TOp o (l ++ t' :: m)).
(** rewriting.py:108-113, at every node *)
Fixpoint remove_DiracDelta (t : dterm) : dterm :=
  match t with
  | TVar a => TVar a
  | TDelta _ _ t => remove_DiracDelta t
  | TOp o args => TOp o (map remove_DiracDelta args)
  end.
