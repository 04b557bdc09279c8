(** Specification for C77. *)
From Coq Require Import Reals List Arith.
From Verif Require Import ModelTen SpecIdx SpecChain.
Import ListNotations.
Open Scope R_scope.

(** probability that a random array has the elements [w] at the positions [l] *)
Definition array_prob (l : list (list nat)) (d : list (R * nd nat)) (w : list nat -> nat) : R :=
  rsum (map (fun p => if forallb (fun i => (nelt (snd p) i =? w i)%nat) l then fst p else 0) d).
(** [l] lists the positions of an array of shape [s] *)
Definition enumerates (l : list (list nat)) (s : list nat) : Prop := NoDup l /\ forall i, In i l <-> inside s i.
(** the series of states at position [p] *)
Definition series (w : list nat -> nat) (N : nat) (p : list nat) : list nat := map (fun t => w (p ++ [t])) (seq 0 N).
