(** The names of value variables and log-probabilities:
    /repo/aeppl/joint_logprob.py 131-141 and 199-204, /repo/aeppl/rewriting.py
    245-254, /repo/aeppl/transforms.py 191-222 and 885-890, /repo/aeppl/logprob.py 56-85. *)
From Coq Require Import List String Bool.
Import ListNotations.
Open Scope string_scope.

(** Variables have a name or None; Python's truth value of a name *)
Definition name := option string.
Definition truthy (n : name) : bool := match n with Some s => negb (String.eqb s "") | None => false end.
(** an f-string with a name in it; None is printed *)
Definition show (n : name) : string := match n with Some s => s | None => "None" end.

(** joint_logprob.py:131-137: [rv.clone()] keeps the name *)
Definition value_name (rv : name) : name := if truthy rv then Some (show rv ++ "_vv") else rv.
(** rewriting.py:249-250: the clone of the value variable used in the graph *)
Definition clone_name (val : name) : name := Some "val_clone".
(** transforms.py:218-222: [value] is the value variable of the ValuedVariable node *)
Definition trans_name (value : name) : name := if truthy value then Some (show value ++ "-trans") else None.
(** The value variable returned for a requested variable: the clone is replaced
    by the original (rewriting.py:281-288) unless a transform put a new one in its
    place (transforms.py:235). *)
Definition returned_name (rv : name) (transformed : bool) : name :=
  if transformed then trans_name (clone_name (value_name rv)) else value_name rv.
(** joint_logprob.py:201-202, [out] being the output of the node in the rewritten
    graph.  A RandomVariable's node is cloned with its names (rewriting.py:247-248), the
    node of a transformed one is given the name of the variable (transforms.py:205, 889).
    Simplification: an unnamed variable's log-probability keeps no name. *)
Definition factor_name (old out : name) : name := if truthy old then Some (show out ++ "_logprob") else None.

(** A requested variable: its name and whether it has a transform.
    conditional_logprob returns a dictionary of log-probabilities and a tuple of
    value variables (joint_logprob.py:182-206); variables are numbered. *)
Record rvar := { r_name : name; r_trans : bool }.
Definition result_names (requested : list rvar) (realized : list name) : list name * list name :=
  ((map (fun r => factor_name (r_name r) (r_name r)) requested ++ map (fun n => factor_name n n) realized)%list,
   map (fun r => returned_name (r_name r) (r_trans r)) requested).

(** logprob.py:56-65: the loop over the values *)
Fixpoint logprob_name (values : list name) (acc : name) : name :=
  match values with
  | [] => acc
  | v :: values => logprob_name values (if truthy v then Some (show v ++ "_logprob") else acc)
  end.
(** logprob.py:59-65 for a [_logprob] that returns one variable, or a list of
    variables as that of a scan does (scan.py:263, 307-313); None: the
    AttributeError of naming a list *)
Definition logprob_call (sequence : bool) (values : list name) (acc : name) : option name :=
  if sequence then (if existsb truthy values then None else Some None) else Some (logprob_name values acc).
(** logprob.py:68-77 and 80-85: named after the variable, not the value *)
Definition logcdf_name (rv acc : name) : name := if truthy rv then Some (show rv ++ "_logcdf") else acc.
Definition icdf_name (rv acc : name) : name := if truthy rv then Some (show rv ++ "_icdf") else acc.
(** The names a variable gives to its value variable and to the results of
    conditional_logprob, [logcdf] and [icdf]; [acc] is the name the graph had. *)
Inductive kind := KValue | KLogprob | KLogcdf | KIcdf.
Definition kind_name (k : kind) (rv acc : name) : name :=
  match k with KValue => value_name rv | KLogprob => factor_name rv rv | KLogcdf => logcdf_name rv acc | KIcdf => icdf_name rv acc end.
