(** The determinant of a diagonal matrix times a rank-one change of the identity. *)
From Coq Require Import Reals Lra Lia.
From mathcomp Require Import ssreflect ssrfun ssrbool eqtype ssrnat seq choice fintype bigop ssralg matrix.
From Verif Require Import RMx SpecMvn LemMvn LemMvn2.
Import GRing.Theory.
Local Open Scope R_scope.

Lemma det_rank1 n (u : 'cV[R]_n) (c : 'rV[R]_n) : (\det (1%:M - u *m c) = 1 - (c *m u) ord0 ord0)%R.
Proof.
  pose M : 'M[R]_(1 + n) := (block_mx 1%:M c u 1%:M)%R.
  have E1 : (M = block_mx 1%:M 0 u 1%:M *m block_mx 1%:M c 0 (1%:M - u *m c))%R.
  { by rewrite mulmx_block ?mul1mx ?mulmx1 ?mul0mx ?mulmx0 ?addr0 ?add0r addrC subrK. }
  have E2 : (M = block_mx (1%:M - c *m u) c 0 1%:M *m block_mx 1%:M 0 u 1%:M)%R.
  { by rewrite mulmx_block ?mul1mx ?mulmx1 ?mul0mx ?mulmx0 ?addr0 ?add0r subrK. }
  have := E1. rewrite E2 => /(congr1 (fun A => (\det A)%R)).
  rewrite !det_mulmx !det_ublock !det_lblock !det1 !mulr1 !mul1r => <-.
  rewrite [(1%:M - c *m u)%R]mx11_scalar det_scalar1 !mxE eqxx. by rewrite mulr1n.
Qed.
Lemma rdet_rank1 n (b c : nat -> R) (e : nat -> nat -> R) : (forall i, e i i = 1) -> (forall i j, i <> j -> e i j = 0) ->
  rdet n (fun i j => b i * (e i j - c j)) = prodn n b * (1 - sumn n c).
Proof.
  move=> e1 e0. pose f (i j : nat) := b i * (e i j - c j). rewrite -/f /rdet.
  have -> : (\matrix_(i < n, j < n) f i j)%R
          = (diag_mx (\row_(i < n) b i) *m (1%:M - (\col_(i < n) R1) *m (\row_(j < n) c j)))%R.
  { apply/matrixP => i j. rewrite mul_diag_mx !mxE big_ord_recl big_ord0 addr0 !mxE /f.
    case: eqP => [->|h].
    - rewrite e1. change (b j * (1 - c j) = b j * (1 + - (1 * c j))). ring.
    - rewrite e0; last by move/val_inj.
      change (b i * (0 - c j) = b i * (0 + - (1 * c j))). ring. }
  rewrite det_mulmx det_rank1 det_diag prodn_big sumn_big !mxE.
  congr (_ * _)%R; first by apply: eq_bigr => i _; rewrite mxE.
  congr (_ - _)%R. apply: eq_bigr => i _. rewrite !mxE. by rewrite mulr1.
Qed.
