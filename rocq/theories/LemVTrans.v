(** Determinants of scaled columns. *)
From Coq Require Import Reals Lra Lia.
From mathcomp Require Import ssreflect ssrfun ssrbool eqtype ssrnat seq choice fintype bigop ssralg matrix.
From Verif Require Import RMx SpecMvn LemMvn LemMvn2.
Import GRing.Theory.
Local Open Scope R_scope.

Lemma rdet_cols n (A : nat -> nat -> R) (d : nat -> R) : rdet n (fun i j => A i j * d j) = rdet n A * prodn n d.
Proof.
  pose f (i j : nat) := A i j * d j. rewrite -/f /rdet. have -> : (\matrix_(i < n, j < n) f i j)%R = ((\matrix_(i < n, j < n) A i j) *m diag_mx (\row_(j < n) d j))%R.
  { apply/matrixP => i j. by rewrite mul_mx_diag !mxE. }
  rewrite det_mulmx det_diag prodn_big. congr (_ * _)%R. apply: eq_bigr => i _. by rewrite mxE.
Qed.
Lemma rdet_diag n (J : nat -> nat -> R) : (forall i j, (i < n)%coq_nat -> (j < n)%coq_nat -> i <> j -> J i j = 0) -> rdet n J = prodn n (fun k => J k k).
Proof.
  move=> H. rewrite /rdet prodn_big. have -> : (\matrix_(i < n, j < n) J i j)%R = diag_mx (\row_(j < n) J j j).
  { apply/matrixP => i j. rewrite !mxE. case: eqP => [->|N]; first by rewrite mulr1n. rewrite H; [by rewrite mulr0n| | |]; try by apply/ltP. by move/val_inj. }
  rewrite det_diag. apply: eq_bigr => i _. by rewrite mxE.
Qed.
Lemma rdet_ext n (A B : nat -> nat -> R) : (forall i j, (i < n)%coq_nat -> (j < n)%coq_nat -> A i j = B i j) -> rdet n A = rdet n B.
Proof. move=> H. rewrite /rdet. congr (\det _)%R. apply/matrixP => i j. rewrite !mxE. by apply: H; apply/ltP. Qed.
Lemma rdet_rows n (A : nat -> nat -> R) (d : nat -> R) : rdet n (fun i j => d i * A i j) = prodn n d * rdet n A.
Proof.
  pose f (i j : nat) := d i * A i j. rewrite -/f /rdet. have -> : (\matrix_(i < n, j < n) f i j)%R = (diag_mx (\row_(j < n) d j) *m (\matrix_(i < n, j < n) A i j))%R.
  { apply/matrixP => i j. by rewrite mul_diag_mx !mxE. }
  rewrite det_mulmx det_diag prodn_big. congr (_ * _)%R. apply: eq_bigr => i _. by rewrite mxE.
Qed.
