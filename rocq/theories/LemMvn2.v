(** Determinants for C51. *)
From Coq Require Import Reals Lra Lia.
From mathcomp Require Import ssreflect ssrfun ssrbool eqtype ssrnat seq choice fintype bigop ssralg matrix.
From Verif Require Import RMx SpecMvn LemMvn.
Local Open Scope R_scope.

Fixpoint prodn (n : nat) (f : nat -> R) : R := match n with O => 1 | S m => prodn m f * f m end.
Lemma sumn_big n f : sumn n f = (\sum_(i < n) f i)%R.
Proof. elim: n => [|n IH] /=; first by rewrite big_ord0. by rewrite big_ord_recr /= IH. Qed.
Lemma prodn_big n f : prodn n f = (\prod_(i < n) f i)%R.
Proof. elim: n => [|n IH] /=; first by rewrite big_ord0. by rewrite big_ord_recr /= IH. Qed.
Lemma det_factor n (A c : nat -> nat -> R) :
  (forall i k, (i < n)%coq_nat -> (k < n)%coq_nat -> A i k = sumn n (fun m => c m i * c m k)) ->
  (forall m i, (m < n)%coq_nat -> (i < m)%coq_nat -> c m i = 0) ->
  rdet n A = prodn n (fun m => c m m) * prodn n (fun m => c m m).
Proof.
  move=> F T. rewrite /rdet.
  pose L : 'M[R]_n := (\matrix_(i < n, m < n) c m i)%R.
  have -> : (\matrix_(i < n, j < n) A i j)%R = (L *m L^T)%R.
  { apply/matrixP => i k. rewrite !mxE F; [|exact/ltP..]. rewrite sumn_big. apply: eq_bigr => m _. by rewrite !mxE. }
  rewrite det_mulmx det_tr.
  have -> : (\det L)%R = prodn n (fun m => c m m).
  { rewrite det_trig; first by rewrite prodn_big; apply: eq_bigr => i _; rewrite mxE.
    apply/is_trig_mxP => i j h. rewrite mxE. apply: T; exact/ltP. }
  by [].
Qed.
Lemma inverse_ex n (A : nat -> nat -> R) : rdet n A <> 0 -> exists P, inverse n A P.
Proof.
  case: n => [|n] D.
  - exists (fun _ _ => 0) => i j I. lia.
  - pose M : 'M[R]_n.+1 := (\matrix_(i < n.+1, j < n.+1) A i j)%R.
    have U : M \in unitmx by rewrite unitmxE; apply/eqP; exact: D.
    have E := mulmxV U.
    exists (fun i j => (invmx M)%R (inord i) (inord j)) => i j I J.
    move/matrixP/(_ (inord i) (inord j)): E. rewrite !mxE sumn_big => E.
    rewrite (eq_bigr (fun k => M (inord i) k * (invmx M)%R k (inord j))).
    + rewrite E. case: (Nat.eq_dec i j) => [->|N]; first by rewrite eqxx.
      case: eqP => // /(congr1 val) /=. rewrite !inordK; [|exact/ltP..]. by move/N.
    + move=> k _. rewrite mxE inordK; last exact/ltP. by rewrite inord_val.
Qed.
Lemma prodn_pos n f : (forall i, (i < n)%coq_nat -> 0 < f i) -> 0 < prodn n f.
Proof.
  elim: n => [|n IH] H /=; first by lra. apply: Rmult_lt_0_compat; last by apply: H; lia. apply: IH => i I. apply: H. lia.
Qed.
