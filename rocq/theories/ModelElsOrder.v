(** The measurable rewrites of whole models of arrays applied one node at a
    time, in any order: the equilibrium run of rewriting.py:158-183 and 279-283
    over the rewrites of transforms.py:386-597, tensor.py:77-116, 159-192,
    cumsum.py:47-76 and the subtensor lift (rewriting.py:179), on the graphs of
    ModelElsV.  Simplifications: the two rewrites of a difference (to a sum
    with a negation, transforms.py:409-433) or a quotient (386-406) are one
    step; the values of operands are those of the graph before the run (every
    measurable operation computes what it replaces: C75_value); the limit on
    the number of rewrites (aesara.config.optdb__max_use_ratio) is not modelled. *)
From Coq Require Import Reals List Arith Bool.
From Verif Require Import XR ModelVec ModelJoint ModelTen ModelElem ModelNest ModelEls ModelElsV SpecElsV.
Import ListNotations.
Open Scope nat_scope.

(** the measurable variables that nodes were replaced by so far *)
Definition progress : Type := nat -> option vexpr.
Definition put (st : progress) (v : nat) (m : vexpr) : progress := fun w => if w =? v then Some m else st w.

Section Run.
Variable ddt : nat -> dtype.
Variable afs : nat -> list (nd xr) -> nd xr.
Variable dlp : nat -> list xr -> xr -> res xr.
Variable h : list vnode.
Variable req : list nat.
Variable y : nat -> nd xr.

(** before the run only RandomVariables are measurable *)
Definition start : progress := fun v => match nth_error h v with Some (VRv _ _ _) => Some (WBase v) | _ => None end.
(** the walk at transforms.py:557-578: is [a] or something that it is computed
    from measurable now?  It stops at values (560-565). *)
Fixpoint reaches (fuel : nat) (st : progress) (a : nat) : bool :=
  match fuel with
  | 0 => false
  | S fuel =>
      if mem a req then false
      else match st a with
           | Some _ => true
           | None => match nth_error h a with Some nd => existsb (reaches fuel st) (vinputs nd) | None => false end
           end
  end.
(** what the rewrites see of node [a] now *)
Definition seen (st : progress) (a : nat) : vann :=
  if mem a req then v_con (y a)
  else {| v_m := st a; v_rand := reaches (S (length h)) st a; v_val := v_val (v_unfold ddt afs h req y (length h) a) |}.
(** the rewrite of node [v]; [None]: it returns None *)
Definition rule (st : progress) (v : nat) : option vexpr := v_m (v_node ddt afs h (seen st) v).
(** one rewrite of one node that is not measurable yet *)
Inductive step : progress -> progress -> Prop :=
| st_node st v m : v < length h -> st v = None -> rule st v = Some m -> step st (put st v m).
Inductive run : nat -> progress -> progress -> Prop :=
| r_nil st : run 0 st st
| r_cons n a b c : step a b -> run n b c -> run (S n) a c.
(** the run ends when no rewrite applies (an equilibrium) *)
Definition complete (st : progress) : Prop := forall st', ~ step st st'.
(** joint_logprob.py:150-206, 300-319, with what the run has found *)
Definition found_conditional (st : progress) (v : nat) : option (res (nd (res xr))) :=
  match st v with None => None | Some m => Some (v_logprob ddt afs dlp h req y m (y v)) end.
Fixpoint found_conditionals (st : progress) (l : list nat) : option (list (res (nd (res xr)))) :=
  match l with
  | [] => Some []
  | v :: l => match found_conditional st v, found_conditionals st l with Some r, Some rs => Some (r :: rs) | _, _ => None end
  end.
Definition found_joint (st : progress) : option (res xr) :=
  match found_conditionals st req with
  | None => None
  | Some rs => Some (rmap xsum (rseq (map (fun r => bind r factor_sum) rs)))
  end.
End Run.
(** no stack or join of nothing *)
Definition no_empty (h : list vnode) : Prop := forall v nd, nth_error h v = Some nd -> match nd with VVec l | VJoin _ l => l <> [] | _ => True end.
