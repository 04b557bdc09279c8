(** C51: the multivariate normal log-density. *)
From Coq Require Import Reals Lra Lia ZArith List Bool.
From Verif Require Import XR XTac ModelDist ModelVec RMx ModelMvn SpecMvn LemMvn LemMvn2 LemMvn3.
Import ListNotations.
Open Scope R_scope.

(** Any dimension, any mean, any positive definite covariance [A] with inverse [P]. *)
Theorem C51_density : forall (n : nat) (mu x : list R) (A P : nat -> nat -> R),
  symmetric n A -> positive_definite n A -> inverse n A P -> length x = n -> length mu = n ->
  mvnormal_logprob n (map Fin mu) A (map Fin x) = Val (Fin (mvn_logpdf n A P (fun i => nth i x 0 - nth i mu 0))).
Proof. exact mvn_value. Qed.
Print Assumptions C51_density.
(** every positive definite matrix has an inverse and a positive determinant *)
Example C51_density_inverse : forall n A, symmetric n A -> positive_definite n A -> 0 < rdet n A /\ exists P, inverse n A P.
Proof. intros n A S D. split; [now apply det_pd|now apply inverse_pd]. Qed.
Definition ex_cov (i j : nat) : R := if Nat.eq_dec i j then 2 else 1.
Definition ex_prec (i j : nat) : R := if Nat.eq_dec i j then 2/3 else -1/3.
Lemma ex_pd : symmetric 2 ex_cov /\ positive_definite 2 ex_cov /\ inverse 2 ex_cov ex_prec.
Proof.
  split; [|split].
  - intros i j _ _. unfold ex_cov. destruct (Nat.eq_dec i j), (Nat.eq_dec j i); congruence.
  - intros x (i & I & X). unfold quad. cbn. unfold ex_cov. cbn.
    assert (0 < (x 0%nat + x 1%nat) * (x 0%nat + x 1%nat) + x 0%nat * x 0%nat + x 1%nat * x 1%nat).
    { assert (forall a, 0 <= a * a) by (intros; apply Rle_0_sqr). assert (0 < x i * x i) by (now apply Rsqr_pos_lt).
      pose proof (H (x 0%nat + x 1%nat)). pose proof (H (x 0%nat)). pose proof (H (x 1%nat)).
      destruct i as [|[|i]]; [lra|lra|lia]. }
    lra.
  - intros i j I J. destruct i as [|[|i]]; [| |lia]; (destruct j as [|[|j]]; [| |lia]); cbn; unfold ex_cov, ex_prec; cbn; field.
Qed.
Example C51_density_ex : mvnormal_logprob 2 (map Fin [0; 1]) ex_cov (map Fin [1; 3]) =
  Val (Fin (mvn_logpdf 2 ex_cov ex_prec (fun i => nth i [1; 3] 0 - nth i [0; 1] 0))).
Proof. destruct ex_pd as (S & D & I). now apply C51_density. Qed.

(** Symmetric matrices that are not positive definite are refused.  Missing: matrices
    that are not symmetric, see [C51_asymmetric_refuted]. *)
Theorem C51_raises_partial : forall (n : nat) (mu x : list xr) (A : nat -> nat -> R), symmetric n A -> ~ positive_definite n A ->
  mvnormal_logprob n mu A x = Raise.
Proof. intros n mu x A. apply mvn_raises. Qed.
Print Assumptions C51_raises_partial.
Example C51_raises_partial_ex : mvnormal_logprob 2 (map Fin [0; 0]) (fun i j => if Nat.eq_dec i j then 1 else 2) (map Fin [0; 0]) = Raise.
Proof.
  apply C51_raises_partial.
  - intros i j _ _. destruct (Nat.eq_dec i j), (Nat.eq_dec j i); congruence.
  - intros D. specialize (D (fun i => if Nat.eq_dec i 0 then 1 else -1)). unfold quad in D. cbn in D.
    assert (H : exists i, (i < 2)%nat /\ (if Nat.eq_dec i 0 then 1 else -1) <> 0) by (exists 0%nat; split; [lia|cbn; lra]).
    specialize (D H). lra.
Qed.

(** Only the part of the matrix on and below the diagonal is read. *)
Theorem C51_lower : forall (n : nat) (mu x : list xr) (A B : nat -> nat -> R),
  (forall i j, (i < n)%nat -> (j <= i)%nat -> A i j = B i j) -> mvnormal_logprob n mu A x = mvnormal_logprob n mu B x.
Proof. intros n mu x A B. apply mvn_lower. Qed.
Print Assumptions C51_lower.
Definition ex_bad (i j : nat) : R := if Nat.eq_dec i 0 then if Nat.eq_dec j 1 then 5 else ex_cov i j else ex_cov i j.
Example C51_lower_ex : (forall i j, (i < 2)%nat -> (j <= i)%nat -> ex_bad i j = ex_cov i j) /\ ex_bad 0 1 <> ex_cov 0 1.
Proof.
  split; [|unfold ex_bad, ex_cov; cbn; lra]. intros i j I J. unfold ex_bad. destruct (Nat.eq_dec i 0) as [->|]; [|reflexivity].
  destruct (Nat.eq_dec j 1); [lia|reflexivity].
Qed.

(** A matrix that is neither symmetric nor positive definite is scored. *)
Theorem C51_asymmetric_refuted : exists (A : nat -> nat -> R) (mu x : list R), ~ symmetric 2 A /\
  (exists v : nat -> R, quad 2 A v < 0) /\ exists l, mvnormal_logprob 2 (map Fin mu) A (map Fin x) = Val (Fin l).
Proof.
  exists ex_bad, [0; 1], [1; 3].
  split; [intros S; specialize (S 0%nat 1%nat ltac:(lia) ltac:(lia)); unfold ex_bad, ex_cov in S; cbn in S; lra|]. split.
  { exists (fun i => if Nat.eq_dec i 0 then 1 else -1). unfold quad. cbn. unfold ex_bad, ex_cov. cbn. lra. }
  rewrite (C51_lower 2 _ _ ex_bad ex_cov (proj1 C51_lower_ex)). rewrite C51_density_ex. eauto.
Qed.
Print Assumptions C51_asymmetric_refuted.
