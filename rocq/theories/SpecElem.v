(** Element-wise expressions of array variables: element by element, with
    NumPy's broadcasting, and the density of a vector of transformed
    coordinates. *)
From Coq Require Import Reals List Arith.
From Coquelicot Require Import Coquelicot.
From Verif Require Import XR ModelIdx SpecIdx ModelTen ModelTrans SpecTrans SpecVec ModelElem.
Import ListNotations.
Open Scope R_scope.

(** arrays of shape [sh] broadcast to shape [o] *)
Definition broadcasts (sh o : list nat) : Prop := is_broadcast [sh; o] o.
(** the operation that an expression performs at position [i] *)
Definition op_at (a : arrtr) (i : list nat) (e : elem) : Prop :=
  match a with
  | ALoc c => exists k, aligned (nshp c) i k /\ e = EAdd (nelt c k)
  | AScale c => exists k, aligned (nshp c) i k /\ e = EMul (nelt c k)
  | AExp => e = EExp | ALog => e = ELog | ARecip => e = ERecip
  end.
Definition operand_broadcasts (a : arrtr) (o : list nat) : Prop :=
  match a with ALoc c | AScale c => broadcasts (nshp c) o | _ => True end.
(** the expression [e i] is defined and smooth at [x i], with value [value i] *)
Definition evaluates (a : arrtr) (o : list nat) (e : list nat -> elem) (x : list nat -> R) (value : nd xr) : Prop :=
  forall i, inside o i -> op_at a i (e i) /\ eadm (e i) /\ edom (e i) (x i) /\ epos (e i) (x i) /\
    nelt value i = Fin (efun (e i) (x i)).
(** [d] is the density of the vector of [g k (X_k)], [k] in [ps], at the image
    of [x] when [X] has density [p] at [x] *)
Definition vector_pushforward (ps : list (list nat)) (g : list nat -> R -> R) (x : list nat -> R) (p d : R) : Prop :=
  exists g' : list nat -> R, (forall k, In k ps -> is_derive (g k) (x k) (g' k) /\ g' k <> 0) /\
    d = p / rprod (map (fun k => Rabs (g' k)) ps).
