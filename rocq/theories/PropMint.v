(** C53, C54: the multivariate normal and the Dirichlet density integrate to one. *)
From Coq Require Import Reals Lra Lia ZArith List Bool.
From Coquelicot Require Import Coquelicot.
From Verif Require Import XR SpecDist ModelDist ModelVec SpecVec RMx ModelMvn SpecMvn SpecMint LemMint.
Import ListNotations.
Open Scope R_scope.

(** The function denoted by the log-density integrates to one over R^n. *)
Theorem C53_mvnormal : forall (n : nat) (mu : list R) (A : nat -> nat -> R),
  symmetric n A -> positive_definite n A -> length mu = n -> exists f : list R -> R,
    (forall x, length x = n -> denotes (mvnormal_logprob n (map Fin mu) A (map Fin x)) (f x)) /\ integral_Rn n f 1.
Proof. exact mvn_total. Qed.
Print Assumptions C53_mvnormal.
Definition tri3 (i j : nat) : R := if Nat.eq_dec i j then 2 else if Nat.eq_dec (i + 1) j then 1 else if Nat.eq_dec i (j + 1) then 1 else 0.
Lemma tri3_pd : symmetric 3 tri3 /\ positive_definite 3 tri3.
Proof.
  split.
  - intros i j I J. destruct i as [|[|[|i]]]; try lia; destruct j as [|[|[|j]]]; try lia; reflexivity.
  - intros x (i & I & X). unfold quad. cbn. unfold tri3. cbn.
    assert (Q : 0 < x 0%nat * x 0%nat + (x 0%nat + x 1%nat) * (x 0%nat + x 1%nat) + (x 1%nat + x 2%nat) * (x 1%nat + x 2%nat) + x 2%nat * x 2%nat).
    { assert (N : forall a, 0 <= a * a) by (intros; apply Rle_0_sqr).
      pose proof (N (x 0%nat)). pose proof (N (x 0%nat + x 1%nat)). pose proof (N (x 1%nat + x 2%nat)). pose proof (N (x 2%nat)).
      destruct (Rlt_le_dec 0 (x 0%nat * x 0%nat + x 2%nat * x 2%nat)) as [P|P]; [lra|].
      assert (Z : forall a, a * a <= 0 -> a = 0) by (intros a Ha; apply Rsqr_0_uniq; unfold Rsqr; pose proof (N a); lra).
      assert (E0 : x 0%nat = 0) by (apply Z; lra). assert (E2 : x 2%nat = 0) by (apply Z; lra). rewrite E0, E2 in *.
      destruct i as [|[|[|i]]]; try lia; try congruence.
      assert (0 < x 1%nat * x 1%nat) by (now apply Rsqr_pos_lt). replace (0 + x 1%nat) with (x 1%nat) by ring. lra. }
    lra.
Qed.
Example C53_mvnormal_ex : exists f : list R -> R,
  (forall x, length x = 3%nat -> denotes (mvnormal_logprob 3 (map Fin [1; 2; -1]) tri3 (map Fin x)) (f x)) /\ integral_Rn 3 f 1.
Proof. destruct tri3_pd as [S P]. now apply C53_mvnormal. Qed.

(** The function denoted by the log-density at the vectors of the simplex,
    as a function of all coordinates but the last, integrates to one. *)
Theorem C54_dirichlet : forall (alpha : list R) (b : R), List.Forall (fun a => 0 < a) (alpha ++ [b]) -> exists f : list R -> R,
  (forall v, length v = length alpha -> List.Forall (fun x => 0 < x) v -> rtotal v < 1 ->
     denotes (dirichlet_logprob (map Fin (alpha ++ [b])) (map Fin (v ++ [1 - rtotal v]))) (f v)) /\
  integral_simplex (length alpha) 1 f 1.
Proof. exact dirichlet_total. Qed.
Print Assumptions C54_dirichlet.
Example C54_dirichlet_ex : exists f : list R -> R,
  (forall v, length v = 2%nat -> List.Forall (fun x => 0 < x) v -> rtotal v < 1 ->
     denotes (dirichlet_logprob (map Fin [1/2; 3; 2]) (map Fin (v ++ [1 - rtotal v]))) (f v)) /\ integral_simplex 2 1 f 1.
Proof. apply (C54_dirichlet [1/2; 3] 2). repeat constructor; lra. Qed.

(** the integrals of the specification are unique *)
Example integral_Rn_unique : forall n f l m, integral_Rn n f l -> integral_Rn n f m -> l = m.
Proof. exact Rn_unique. Qed.
Example integral_simplex_unique : forall n s f l m, 0 < s -> integral_simplex n s f l -> integral_simplex n s f m -> l = m.
Proof. exact simplex_unique. Qed.
