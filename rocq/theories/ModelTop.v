(** Operations of transformed random variables and their registries:
    /repo/aeppl/transforms.py 50-64, 140-230 and 818-895. *)
From Coq Require Import Reals List Arith Bool String.
From Verif Require Import XR ModelVec.
Import ListNotations.
Open Scope nat_scope.

(** Classes are numbered in the order of their creation; each has one base
    class or none.  [c_name] and [c_transform] are the entries "name" and
    "transform" of the class's own dictionary. *)
Record cls := { c_base : option nat; c_type : string; c_name : option string; c_transform : option nat }.
(** An op: its class and the attributes of the instance (rtol, dtype, …) *)
Record opi := { o_cls : nat; o_attrs : nat }.
(** A function registered for [_logprob]: one of aeppl's own, or the closure
    [transformed_logprob] over [rv_op] (862-881) *)
Inductive impl := IBase (k : nat) | ITrans (rv_op : opi).
(** The state of the process: classes, the registries of [_logprob] and of
    [_default_transformed_rv] (class to the class that is instantiated, 883-890);
    later registrations for a class come first and override. *)
Record tstate := { classes : list cls; lp_reg : list (nat * impl); dt_reg : list (nat * nat) }.

Fixpoint look {A} (k : nat) (l : list (nat * A)) : option A :=
  match l with [] => None | (k', a) :: l => if k =? k' then Some a else look k l end.
(** the class and its base classes; the fuel bounds the depth *)
Fixpoint chain (cs : list cls) (fuel c : nat) : list nat :=
  match fuel with
  | 0 => []
  | S fuel => match nth_error cs c with
              | None => []
              | Some k => c :: match c_base k with Some b => chain cs fuel b | None => [] end
              end
  end.
Definition mro (s : tstate) (c : nat) : list nat := chain (classes s) (S c) c.
(** functools.singledispatch: the first class in the order that is registered *)
Fixpoint first_of {A} (f : nat -> option A) (l : list nat) : option A :=
  match l with [] => None | c :: l => match f c with Some a => Some a | None => first_of f l end end.
Definition logprob_impl (s : tstate) (c : nat) : option impl := first_of (fun c => look c (lp_reg s)) (mro s c).
(** 50-61, 188: the op of [_default_transformed_rv(op, node)], an instance of
    the class made without arguments (887); [None]: no default *)
Definition default_transformed (s : tstate) (o : opi) : option opi :=
  option_map (fun n => {| o_cls := n; o_attrs := 0 |}) (first_of (fun c => look c (dt_reg s)) (mro s (o_cls o))).
(** [op.transform], an attribute of the class or of a base class *)
Definition transform_attr (s : tstate) (c : nat) : option nat :=
  first_of (fun c => match nth_error (classes s) c with Some k => c_transform k | None => None end) (mro s c).
Definition name_attr (s : tstate) (c : nat) : option string :=
  first_of (fun c => match nth_error (classes s) c with Some k => c_name k | None => None end) (mro s c).

(** 818-895.  [tname]: the transform's name, if it has one (846).
    Simplification: no [cls_dict_extra]. *)
Definition create (s : tstate) (rv_op : opi) (transform : nat) (tname : option string) (default : bool) : option (tstate * opi) :=
  match nth_error (classes s) (o_cls rv_op) with
  | None => None
  | Some k =>
      let trans_name := match tname with Some n => n | None => "transformed"%string end in
      let name := match c_name k with
                  | Some ""%string => Some ""%string
                  | Some n => Some (n ++ "_" ++ trans_name)%string
                  | None => None
                  end in
      let new := List.length (classes s) in
      Some ({| classes := classes s ++ [{| c_base := Some (o_cls rv_op); c_type := ("Transformed" ++ c_type k)%string; c_name := name; c_transform := Some transform |}];
               lp_reg := (new, ITrans rv_op) :: lp_reg s;
               dt_reg := (if default then o_cls rv_op else new, new) :: dt_reg s |},
            {| o_cls := new; o_attrs := o_attrs rv_op |})
  end.

(** A value as [transformed_logprob] sees it: a plain variable, or a
    TransformedVariable of the back-transformed value and the transformed one *)
Inductive tval := TPlain (x : xr) | TPair (back : tval) (trans : xr).
Fixpoint num (v : tval) : xr := match v with TPlain x => x | TPair b _ => num b end.
Section Logprob.
(** aeppl's own log-probability functions (function, attributes, value) and the
    transforms' Jacobian terms; the inputs of the node are the same for all
    calls and left out *)
Variable dlp : nat -> nat -> xr -> res xr.
Variable jac : nat -> xr -> res xr.
(** [_logprob(op, (value,), *inputs, use_jacobian=uj)]: 862-881 for a
    transformed op, whose assertion fails for a plain value; [use_jacobian] is
    not passed on (875); unregistered ops raise *)
Fixpoint logprob_op (s : tstate) (fuel : nat) (uj : bool) (o : opi) (v : tval) : res xr :=
  match fuel with
  | 0 => Raise
  | S fuel =>
      match logprob_impl s (o_cls o) with
      | None => Raise
      | Some (IBase k) => dlp k (o_attrs o) (num v)
      | Some (ITrans rv_op) =>
          match v with
          | TPlain _ => Raise
          | TPair b t =>
              bind (logprob_op s fuel true rv_op b) (fun l =>
              if uj then match transform_attr s (o_cls o) with
                         | Some tr => bind (jac tr t) (fun j => Val (xadd l j))
                         | None => Raise
                         end
              else Val l)
          end
      end
  end.
Definition op_logprob (s : tstate) (uj : bool) (o : opi) (v : tval) : res xr := logprob_op s (S (List.length (classes s))) uj o v.
End Logprob.
