(** Nested measurable expressions: the rewrites of /repo/aeppl/transforms.py
    386-597 applied bottom-up to a whole expression.  Scalars (no broadcasting). *)
From Coq Require Import Reals ZArith List Bool.
From Verif Require Import XR ModelDist ModelVec ModelTrans.
Import ListNotations.
Open Scope R_scope.

Inductive dtype := DFloat | DInt | DUint.   (* float, int, uint or bool *)
Inductive unary := UExp | ULog | URecip.
Inductive nary := NAdd | NMul.
(** Expression graphs, as trees.  [NRv] is the output of a [RandomVariable]
    that has no value; [NCon] a constant, an input or a variable that has a
    value ([ValuedVariable] nodes count as neither measurable nor expandable,
    538, 563); [NOther k] any operation without a measurable rewrite. *)
Inductive nexpr : Type :=
| NRv (i : nat)
| NCon (c : xr)
| NOne (u : unary) (e : nexpr)
| NMany (n : nary) (es : list nexpr)
| NSub (a b : nexpr)
| NDiv (a b : nexpr)
| NOther (k : nat) (es : list nexpr).

(** The intermediate representation: a [MeasurableElemwiseTransform] (345-358)
    over another measurable variable. *)
Inductive mexpr : Type := MBase (i : nat) | MElem (t : tr) (m : mexpr).

Section Rewrites.
(** dtypes of the random variables; meaning of the other operations *)
Variable dt : nat -> dtype.
Variable fs : nat -> list xr -> xr.

(** What the rewrites see of a variable: its measurable form, if it has one;
    whether [walk(…, expand)] (557-578) reaches a measurable variable from it;
    its value, when it does not. *)
Record ann := { a_m : option mexpr; a_rand : bool; a_val : xr }.
Definition con (c : xr) : ann := {| a_m := None; a_rand := false; a_val := c |}.

(** 548 [measurable_input.type.dtype.startswith("int")]; the outputs of the
    transforms are float *)
Definition starts_int (m : mexpr) : bool :=
  match m with MBase i => match dt i with DInt => true | _ => false end | MElem _ _ => false end.
Definition measurable_of (l : list ann) : list mexpr :=
  flat_map (fun a => match a_m a with Some m => [m] | None => [] end) l.
Definition others_of (l : list ann) : list ann :=
  filter (fun a => match a_m a with Some _ => false | None => true end) l.
(** 507-597 [construct_elemwise_transform]: one measurable input (533-542), not
    an integer (548), the others free of measurable variables (569-578).
    [mk] is [transform_fn]; it raises IndexError when [add]/[mul] has no other
    input (466, 484), modelled as no rewrite. *)
Definition construct (l : list ann) (mk : list xr -> option tr) : option mexpr :=
  match measurable_of l with
  | [m] => if starts_int m then None
           else if existsb a_rand (others_of l) then None
           else match mk (map a_val (others_of l)) with Some t => Some (MElem t m) | None => None end
  | _ => None
  end.
Definition nary_val (n : nary) (vs : list xr) : xr :=
  match n with NAdd => xsum vs | NMul => fold_left xmul vs (Fin 1) end.
(** the sum (product) of the other inputs if there are several, else the only one *)
Definition fold_others (n : nary) (vs : list xr) : option xr :=
  match vs with [] => None | [v] => Some v | _ => Some (nary_val n vs) end.
Definition tr_nary (n : nary) (vs : list xr) : option tr :=
  match fold_others n vs with
  | None => None
  | Some c => Some (match n with NAdd => TLoc c | NMul => TScale c end)       (* 468-470, 487-489 *)
  end.
Definition tr_unary (u : unary) : tr := match u with UExp => TExp | ULog => TLog | URecip => TRecip end. (* 442, 453, 502 *)
Definition un_val (u : unary) (v : xr) : xr := match u with UExp => xexp v | ULog => xlog v | URecip => xrecip v end.

Definition rw_unary (u : unary) (a : ann) : ann :=                              (* 436-455, 496-504 *)
  {| a_m := construct [a] (fun _ => Some (tr_unary u)); a_rand := a_rand a; a_val := un_val u (a_val a) |}.
Definition rw_nary (n : nary) (l : list ann) : ann :=                           (* 458-493 *)
  {| a_m := construct l (tr_nary n); a_rand := existsb a_rand l; a_val := nary_val n (map a_val l) |}.
(** 409-433: [minuend + (-1 * subtrahend)] *)
Definition rw_sub (a b : ann) : ann := rw_nary NAdd [a; rw_nary NMul [con (Fin (-1)); b]].
(** 386-406: [numerator * reciprocal(denominator)] *)
Definition rw_div (a b : ann) : ann := rw_nary NMul [a; rw_unary URecip b].

(** The equilibrium of the rewrites on an expression. *)
Fixpoint annotate (e : nexpr) : ann :=
  match e with
  | NRv i => {| a_m := Some (MBase i); a_rand := true; a_val := NaN |}
  | NCon c => con c
  | NOne u e => rw_unary u (annotate e)
  | NMany n es => rw_nary n (map annotate es)
  | NSub a b => rw_sub (annotate a) (annotate b)
  | NDiv a b => rw_div (annotate a) (annotate b)
  | NOther k es => let l := map annotate es in {| a_m := None; a_rand := existsb a_rand l; a_val := fs k (map a_val l) |}
  end.
End Rewrites.

(** 366-383 at every level; [lps i] is the log-probability of variable [i] *)
Fixpoint nested_logprob (lps : nat -> xr -> res xr) (m : mexpr) : xr -> res xr :=
  match m with MBase i => lps i | MElem t m => elemwise_logprob t (nested_logprob lps m) end.
(** the random variable at the bottom *)
Fixpoint mbase (m : mexpr) : nat := match m with MBase i => i | MElem _ m => mbase m end.
