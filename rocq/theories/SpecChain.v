(** Specification for C46. *)
From Coq Require Import Reals List Arith.
Import ListNotations.
Open Scope R_scope.

Definition rsum (l : list R) : R := fold_right Rplus 0 l.
(** probability of an outcome *)
Definition mass (d : list (R * list nat)) (w : list nat) : R :=
  rsum (map (fun p => if list_eq_dec Nat.eq_dec (snd p) w then fst p else 0) d).
Definition square (M : nat) (G : list (list R)) : Prop := length G = M /\ forall row, In row G -> length row = M.
Definition nonneg (l : list R) : Prop := forall x, In x l -> 0 <= x.
Definition probs (M : nat) (p : list R) : Prop := length p = M /\ nonneg p /\ rsum p = 1.
Definition stochastic (M : nat) (G : list (list R)) : Prop := length G = M /\ forall row, In row G -> probs M row.
(** all the state sequences of length [T] *)
Definition sequence (M T : nat) (w : list nat) : Prop := length w = T /\ forall s, In s w -> (s < M)%nat.
(** the chain's probability of [w], the initial state being hidden:
    sum over [h] of gamma_0[h] * Gammas[0][h, w0] * Gammas[1][w0, w1] * ... *)
Fixpoint path (Gs : nat -> nat -> nat -> R) (t s : nat) (w : list nat) : R :=
  match w with [] => 1 | s' :: w => Gs t s s' * path Gs (S t) s' w end.
Definition chain_prob (M : nat) (g0 : nat -> R) (Gs : nat -> nat -> nat -> R) (w : list nat) : R :=
  rsum (map (fun h => g0 h * path Gs 0 h w) (seq 0 M)).
(** entries *)
Definition ent (G : list (list R)) (a b : nat) : R := nth b (nth a G []) 0.
Definition ents (Gs : list (list (list R))) (t a b : nat) : R := ent (nth t Gs []) a b.
