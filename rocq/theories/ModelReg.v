(** Marking nodes as (un)measurable: /repo/aeppl/abstract.py 16-122. *)
From Coq Require Import List Arith Bool.
From Verif Require Import XR.
Import ListNotations.
Open Scope nat_scope.

(** Types of ops: ordinary classes, and the classes made by
    assign_custom_measurable_outputs from a class, the other properties of the
    op and the dispatch function; the last two arguments with the class are
    [id_obj = (op, fn)] (abstract.py:110-114). *)
Inductive ty := Plain (k : nat) | Unm (base : ty) (props fn : nat).
(** op objects live in a heap, [clone] of a node shares its op *)
Record opobj := { o_ty : ty; o_props : nat }.
Record anode := { a_op : nat; a_outs : list nat }.
Record state := { ops : list opobj; reg : list (ty * nat); fresh : nat }.

Section Reg.
(** hashes of ordinary classes, and of the pair of an op and a function; an
    op's hash depends on its class and its properties only *)
Variables (hp : nat -> nat) (H : nat -> nat -> nat -> nat).
(** the ordinary superclasses of an ordinary class, itself first, whether it is
    registered as MeasurableVariable, and what dispatch functions return;
    [None]: Python's None (noop_measurable_outputs_fn, abstract.py:64-65) *)
Variables (mro : nat -> list nat) (meas : nat -> bool) (F : nat -> list nat -> option (list nat)).

(** abstract.py:36-37 *)
Fixpoint hash (t : ty) : nat := match t with Plain k => hp k | Unm b p f => H (hash b) p f end.
(** abstract.py:31-34: the classes made here are equal when their hashes are *)
Definition ty_eq (t t' : ty) : bool :=
  match t, t' with
  | Plain k, Plain k' => k =? k'
  | Unm _ _ _, Unm _ _ _ => hash t =? hash t'
  | _, _ => false
  end.
(** the dictionary of functools.singledispatch *)
Fixpoint lookup (r : list (ty * nat)) (t : ty) : option nat :=
  match r with [] => None | (t', f) :: r => if ty_eq t t' then Some f else lookup r t end.
Fixpoint register (r : list (ty * nat)) (t : ty) (f : nat) : list (ty * nat) :=
  match r with [] => [(t, f)] | (t', g) :: r => if ty_eq t t' then (t', f) :: r else (t', g) :: register r t f end.
(** the method resolution order and singledispatch's search along it; the
    default (abstract.py:53-55) is function 0 *)
Fixpoint supers (t : ty) : list ty := match t with Plain k => map Plain (mro k) | Unm b _ _ => t :: supers b end.
Fixpoint dispatch (r : list (ty * nat)) (ts : list ty) : nat :=
  match ts with [] => 0 | t :: ts => match lookup r t with Some f => f | None => dispatch r ts end end.
Fixpoint is_measurable (t : ty) : bool := match t with Plain k => meas k | Unm b _ _ => is_measurable b end.

Definition ty_of (s : state) (n : anode) : option ty := option_map o_ty (nth_error (ops s) (a_op n)).
(** abstract.py:45-50; the outer None: the node's op does not exist *)
Definition get_measurable_outputs (s : state) (n : anode) : option (option (list nat)) :=
  match ty_of s n with
  | Some t => Some (if is_measurable t then F (dispatch (reg s) (supers t)) (a_outs n) else Some [])
  | None => None
  end.
Definition is_unm (t : ty) : bool := match t with Unm _ _ _ => true | _ => false end.
(** abstract.py:68-122.  The class attributes copied into the new class are
    part of [props]; the class name (type_prefix) is left out. *)
Definition assign (s : state) (n : anode) (fn : nat) : res (state * anode) :=
  match nth_error (ops s) (a_op n) with
  | None => Raise
  | Some o =>
    match (if is_unm (o_ty o) then lookup (reg s) (o_ty o) else None) with
    | Some g => if g =? fn then Val (s, n) else Raise
    | None =>
      let t := Unm (o_ty o) (o_props o) fn in
      Val ({| ops := ops s ++ [{| o_ty := t; o_props := o_props o |}]; reg := register (reg s) t fn; fresh := fresh s + length (a_outs n) |},
           {| a_op := length (ops s); a_outs := seq (fresh s) (length (a_outs n)) |})
    end
  end.
End Reg.
