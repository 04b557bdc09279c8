(** Batches: arrays of vectors along the last axis. *)
From Coq Require Import Reals List Arith.
From Verif Require Import XR ModelTen SpecIdx.
Import ListNotations.
Open Scope nat_scope.

(** [a] is a batch of shape [b] whose entry at position [c] is the vector [v c] of [K] entries *)
Definition batch {A B} (inj : B -> A) (a : nd A) (b : list nat) (K : nat) (v : list nat -> list B) : Prop :=
  nshp a = b ++ [K] /\
  forall c, inside b c -> length (v c) = K /\ forall k, k < K -> nth_error (map inj (v c)) k = Some (nelt a (c ++ [k])).
(** [a] is an array of shape [b] whose entry at position [c] is [v c] *)
Definition array_of {A B} (inj : B -> A) (a : nd A) (b : list nat) (v : list nat -> B) : Prop :=
  nshp a = b /\ forall c, inside b c -> nelt a c = inj (v c).
