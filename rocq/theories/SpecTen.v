(** Dimension shuffles, joins and cumulative sums by their meaning. *)
From Coq Require Import Reals List Arith ZArith Bool Lia.
From Verif Require Import XR SpecIdx ModelMix ModelTen.
Import ListNotations.
Open Scope nat_scope.

(** a dimshuffle order on arrays of rank [n]: no axis twice *)
Definition valid_order (n : nat) (o : list (option nat)) : Prop :=
  (forall j j' d, nth_error o j = Some (Some d) -> nth_error o j' = Some (Some d) -> j = j') /\
  (forall j d, nth_error o j = Some (Some d) -> d < n).
Definition dropped (o : list (option nat)) (d : nat) : Prop := forall j, nth_error o j <> Some (Some d).
(** [osh] is the shape of the shuffle of an array of shape [sh]; dropped axes have length one *)
Definition shuffled_shape (o : list (option nat)) (sh osh : list nat) : Prop :=
  length osh = length o /\
  (forall j d, nth_error o j = Some (Some d) -> nth_error osh j = nth_error sh d) /\
  (forall j, nth_error o j = Some None -> nth_error osh j = Some 1) /\
  (forall d, d < length sh -> dropped o d -> nth_error sh d = Some 1).
(** position [q] of the shuffle is position [p] of the array *)
Definition source (o : list (option nat)) (n : nat) (q p : list nat) : Prop :=
  length p = n /\
  (forall j d, nth_error o j = Some (Some d) -> nth_error p d = nth_error q j) /\
  (forall d, d < n -> dropped o d -> nth_error p d = Some 0).
(** [y] is the shuffle of [x] *)
Definition is_shuffle {A} (o : list (option nat)) (x y : nd A) : Prop :=
  shuffled_shape o (nshp x) (nshp y) /\
  forall q p, inside (nshp y) q -> source o (length (nshp x)) q p -> nelt y q = nelt x p.

(** sizes of arrays along an axis *)
Definition size_along (ax : nat) (sh : list nat) (n : nat) : Prop := nth_error sh ax = Some n.
(** [a] and [b] agree except at [ax] *)
Definition same_but (ax : nat) (a b : list nat) : Prop :=
  length a = length b /\ forall k, k <> ax -> nth_error a k = nth_error b k.
(** position [q] of the concatenation of arrays with sizes [sizes] along [ax]
    is position [p] of part [k] *)
Definition part_at (ax : nat) (sizes : list nat) (q : list nat) (k : nat) (p : list nat) : Prop :=
  same_but ax q p /\ exists n x, nth_error sizes k = Some n /\ nth_error p ax = Some x /\ x < n /\
    nth_error q ax = Some (list_sum (firstn k sizes) + x).
(** arrays that can be joined along [ax], with result shape [sh] *)
Definition joinable (ax : nat) (shapes : list (list nat)) (sizes : list nat) (sh : list nat) : Prop :=
  shapes <> [] /\ ax < length sh /\ Forall2 (size_along ax) shapes sizes /\ List.Forall (same_but ax sh) shapes /\
  nth_error sh ax = Some (list_sum sizes).
(** a part with scalar support *)
Definition univariate (b : jpart) (lp : list nat -> xr -> res xr) : Prop :=
  psupp b = 0 /\ forall value p, plp b value p = lp p (value p).
(** axis [ax] written as a Python integer *)
Definition axis_is (r : nat) (z : Z) (ax : nat) : Prop := wraps r z ax.

(** [s] is the cumulative sum of [x] along [ax] *)
Fixpoint partial_sum (f : nat -> R) (k : nat) : R := match k with O => f O | S k => (partial_sum f k + f (S k))%R end.
Definition cumsum (ax : nat) (x : list nat -> R) (p : list nat) : R :=
  partial_sum (fun i => x (firstn ax p ++ i :: skipn (S ax) p)) (nth ax p 0).
(** [w] holds the elements of the joined value that belong to part [k] *)
Definition part_value (ax : nat) (sizes : list nat) (k : nat) (value w : list nat -> xr) : Prop :=
  forall z z', part_at ax sizes z' k z -> w z = value z'.
