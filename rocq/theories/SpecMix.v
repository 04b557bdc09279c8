(** Mixtures by their meaning: the element of [stack(components)[indices]] is
    an element of one component; its log-probability is that element's. *)
From Coq Require Import Reals List Arith ZArith Bool Lia.
From Verif Require Import XR ModelIdx SpecIdx.
Import ListNotations.
Open Scope nat_scope.

(** [n] components of a common shape [csh]; [lp m i] is the log-probability
    of element [i] of component [m]. *)
(** [src], an element of the stack along axis [j], is element [c] of component [m] *)
Definition stack_element (j m : nat) (c src : list nat) : Prop :=
  nth_error src j = Some m /\ length c = pred (length src) /\
  forall k, nth_error c k = nth_error src (if k <? j then k else S k).
Definition stack_shape (j n : nat) (csh sh : list nat) : Prop :=
  nth_error sh j = Some n /\ length csh = pred (length sh) /\
  forall k, nth_error csh k = nth_error sh (if k <? j then k else S k).
(** log-probability of element [o] of [stack(components, axis=j)[ix]] at [v] *)
Definition mixture_spec (lp : nat -> list nat -> xr -> res xr) (n j : nat) (csh : list nat)
    (ix : list index) (o : list nat) (v : xr) (r : res xr) : Prop :=
  exists sh src m c, stack_shape j n csh sh /\ np_element ix sh o src /\ stack_element j m c src /\ r = lp m c v.
(** the entry that indexes the first axis *)
Fixpoint first_axis (ix : list index) : option index :=
  match ix with INew :: ix => first_axis ix | i :: _ => Some i | [] => None end.
(** it is an integer or an integer array *)
Definition first_axis_advanced (ix : list index) : Prop :=
  match first_axis ix with Some (IInt _) | Some (IArr _) => True | _ => False end.
(** its values are not counted from the end *)
Definition first_axis_nonneg (ix : list index) : Prop :=
  match first_axis ix with
  | Some (IInt z) => (0 <= z)%Z
  | Some (IArr a) => forall c, inside (shp a) c -> (0 <= get a c)%Z
  | _ => True
  end.
