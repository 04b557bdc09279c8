(** Which index tuples read no element twice. *)
From Coq Require Import List.
From Verif Require Import ModelIdx SpecIdx ModelTen.
Import ListNotations.
(** integers, slices and newaxes only *)
Definition no_arrays (ix : list index) : Prop := List.Forall (fun i => match i with IArr _ => False | _ => True end) ix.
(** no two elements of [A[ix]] are the same element of the array [A] of shape [sh] *)
Definition reads_once (ix : list index) (sh : list nat) : Prop := forall o i j src, np_shape ix sh o -> inside o i -> inside o j -> np_element ix sh i src -> np_element ix sh j src -> i = j.
From Coq Require Import Reals.
From Verif Require Import XR ModelTen SpecTen ModelElsV SpecElsV.
(** element [i] of [v] is element [p] of the random variable [a]: [v] is [a], or
    an index into such an array, which has no value of its own *)
Inductive drawn (h : list vnode) (sh : nat -> list nat) (req : list nat) : nat -> list nat -> nat -> list nat -> Prop :=
| d_rv v d s ps i : nth_error h v = Some (VRv d s ps) -> drawn h sh req v i v i
| d_take v ix t b i q a p : nth_error h v = Some (VTake ix t b) -> ~ In b req -> np_element ix (sh b) i q -> drawn h sh req b q a p -> drawn h sh req v i a p.
(** the same, possibly transposed *)
Definition read (h : list vnode) (sh : nat -> list nat) (req : list nat) (v : nat) (i : list nat) (a : nat) (p : list nat) : Prop :=
  drawn h sh req v i a p \/
  exists o b q, nth_error h v = Some (VShuf o b) /\ ~ In b req /\ source o (length (sh b)) i q /\ drawn h sh req b q a p.
(** every requested array reads random variables, and no element of a random
    variable is read twice *)
Definition read_apart (h : list vnode) (sh : nat -> list nat) (req : list nat) : Prop :=
  (forall v i, In v req -> inside (sh v) i -> exists a p, read h sh req v i a p) /\
  forall v w i j a p, In v req -> In w req -> inside (sh v) i -> inside (sh w) j -> read h sh req v i a p -> read h sh req w j a p -> v = w /\ i = j.
