(** Bookkeeping of conditional_logprob and the reduction of joint_logprob
    (/repo/aeppl/joint_logprob.py).  Variables and nodes are natural numbers. *)
From Coq Require Import Reals List Bool Arith.
From Verif Require Import XR ModelVec.
Import ListNotations.
Open Scope nat_scope.

(** the exceptions the code can raise, by class *)
Inductive exn := DensityNotFound | ValueError | AssertionError | KeyError | AttributeError | NotImplementedError.
Inductive outcome (A : Type) := Ok (a : A) | Err (e : exn).
Arguments Ok {A}. Arguments Err {A}.

(** ** Python dictionaries with natural-number keys, in insertion order *)
(** [d.get(k)] *)
Fixpoint dget {A} (d : list (nat * A)) (k : nat) : option A :=
  match d with [] => None | (k', a) :: d => if k =? k' then Some a else dget d k end.
(** [d[k] = a]: an existing key keeps its place *)
Fixpoint dset {A} (d : list (nat * A)) (k : nat) (a : A) : list (nat * A) :=
  match d with
  | [] => [(k, a)]
  | (k', a') :: d => if k =? k' then (k, a) :: d else (k', a') :: dset d k a
  end.
(** [{**d, **e}] and, with [d = {}], the dictionary built by assigning the items of [e] in turn *)
Definition dupdate {A} (d e : list (nat * A)) : list (nat * A) :=
  fold_left (fun d p => dset d (fst p) (snd p)) e d.
(** [d.setdefault(k, []).append(a)] *)
Definition dpush {A} (d : list (nat * list A)) (k : nat) (a : A) : list (nat * list A) :=
  match dget d k with Some l => dset d k (l ++ [a]) | None => dset d k [a] end.
(** [x in s] *)
Definition mem (x : nat) (s : list nat) : bool := existsb (Nat.eqb x) s.

(** joint_logprob.py:131-141: [original_rv_values] and [rv_values]; [vvs] are
    the fresh clones, one per entry of [random_variables] *)
Definition rv_values (random_variables vvs : list nat) (realized : list (nat * nat)) : list (nat * nat) :=
  dupdate (dupdate [] (combine random_variables vvs)) realized.

(** One iteration of the loop at joint_logprob.py:152-167 sees an output
    [ValuedVariable(rv_var, val_var)] together with an item
    [(old_mvar, val)] of [new_rv_values]; [b_node] is [rv_var.owner]. *)
Record binding := { b_old : nat; b_node : option nat; b_var : nat; b_valvar : nat; b_val : nat }.

(** joint_logprob.py:147-167: [realized_vars], [new_to_old_rvs] and [nodes_to_vals].
    The assertion that the output is a [ValuedVariable] is part of the type. *)
Fixpoint collect (realized : list nat) (bs : list binding)
    (rvars : list nat) (n2o : list (nat * nat)) (n2v : list (nat * list (nat * nat)))
  : outcome (list nat * list (nat * nat) * list (nat * list (nat * nat))) :=
  match bs with
  | [] => Ok (rvars, n2o, n2v)
  | b :: bs =>
      match b_node b with
      | None => Err DensityNotFound
      | Some n =>
          collect realized bs
            (if mem (b_old b) realized then b_var b :: rvars else rvars)
            (dset n2o (b_var b) (b_old b))
            (dpush n2v n (b_valvar b, b_val b))
      end
  end.

Section Assign.
Context {L : Type}.
(** [get_measurable_outputs] of a node, and [_logprob] of a node at a tuple of values *)
Variable mout : nat -> list nat.
Variable lp : nat -> list nat -> list L.

(** joint_logprob.py:197-206: the inner loop over [zip(rv_logprobs, outputs, rv_base_vals)] *)
Fixpoint inner (rvars : list nat) (n2o : list (nat * nat)) (lps : list L) (outs bases : list nat)
    (lv : list (nat * L)) (vv : list nat) : outcome (list (nat * L) * list nat) :=
  match lps, outs, bases with
  | l :: lps, o :: outs, v :: bases =>
      match dget n2o o with
      | None => Err KeyError
      | Some old => inner rvars n2o lps outs bases (dset lv old l)
                      (if mem o rvars then vv else vv ++ [v])
      end
  | _, _, _ => Ok (lv, vv)
  end.

(** joint_logprob.py:169-206: the loop over [nodes_to_vals.items()] *)
Fixpoint outer (rvars : list nat) (n2o : list (nat * nat)) (n2v : list (nat * list (nat * nat)))
    (lv : list (nat * L)) (vv : list nat) : outcome (list (nat * L) * list nat) :=
  match n2v with
  | [] => Ok (lv, vv)
  | (n, pairs) :: n2v =>
      let outs := mout n in
      match outs with
      | [] => Err DensityNotFound
      | _ =>
          if length outs <? length pairs then Err ValueError
          else if negb (length outs =? length pairs) then Err AssertionError
          else match inner rvars n2o (lp n (map fst pairs)) outs (map snd pairs) lv vv with
               | Err e => Err e
               | Ok (lv, vv) => outer rvars n2o n2v lv vv
               end
      end
  end.

(** joint_logprob.py:147-206, both loops.  Not modelled here: names, warnings
    and the final clean-up (see ModelGraph). *)
Definition assign (realized : list nat) (bs : list binding) : outcome (list (nat * L) * list nat) :=
  match collect realized bs [] [] [] with
  | Err e => Err e
  | Ok (rvars, n2o, n2v) => outer rvars n2o n2v [] []
  end.
End Assign.

(** joint_logprob.py:303-319: the reduction; a factor is the list of the
    entries of its array.  [None] is returned for an empty dictionary. *)
Definition joint_reduce (factors : list (list xr)) : option xr :=
  match factors with
  | [] => None
  | [f] => Some (xsum f)
  | _ => Some (xsum (map xsum factors))
  end.
