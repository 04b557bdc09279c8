(** The determinant of a matrix that is triangular for some ranking of its indices. *)
From Coq Require Import Reals Lra Lia.
From mathcomp Require Import ssreflect ssrfun ssrbool eqtype ssrnat seq choice fintype finfun bigop fingroup perm ssralg matrix.
From Verif Require Import RMx LemMvn2.
Local Open Scope R_scope.

Lemma sum_strict n (k1 k2 : 'I_n -> nat) (i0 : 'I_n) : (forall i, k1 i <= k2 i)%N -> (k1 i0 < k2 i0)%N -> (\sum_i k1 i < \sum_i k2 i)%N.
Proof.
  move=> H H0. rewrite (bigD1 i0) //= [X in (_ < X)%N](bigD1 i0) //=. rewrite -addSn. apply: leq_add => //. by apply: leq_sum => i _.
Qed.
Lemma det_ranked n (J : nat -> nat -> R) (key : nat -> nat) :
  (forall i j, (i < n)%coq_nat -> (j < n)%coq_nat -> i <> j -> ~ (key j < key i)%coq_nat -> J i j = 0) ->
  rdet n J = prodn n (fun i => J i i).
Proof.
  move=> T. rewrite /rdet /determinant (bigD1 1%g) //= [X in (_ + X)%R]big1 ?GRing.addr0.
  - rewrite odd_perm1 /= GRing.expr0 GRing.mul1r prodn_big. apply: eq_bigr => i _. by rewrite mxE perm1.
  - move=> s Ns. have [i0 Hi0] : exists i, s i != i.
    { apply/existsP. rewrite -negb_forall. apply: contra Ns => /forallP H. apply/eqP/permP => i. rewrite perm1. exact/eqP/H. }
    suff [i Zi] : exists i : 'I_n, J i (s i) = 0.
    { rewrite (bigD1 i) //= mxE Zi. by rewrite GRing.mul0r GRing.mulr0. }
    case: (boolP [exists i : 'I_n, (s i != i) && ~~ (key (s i) < key i)%N]).
    + move=> /existsP [i /andP [A B]]. exists i. apply: T; [exact/ltP|exact/ltP| |].
      * move=> E. move/eqP: A. apply. by apply: val_inj.
      * move=> /ltP C. by rewrite C in B.
    + rewrite negb_exists => /forallP H. exfalso.
      have L : forall i : 'I_n, (key (s i) <= key i)%N.
      { move=> i. case: (altP (s i =P i)) => [-> //|N]. move: (H i). by rewrite N /= negbK => /ltnW. }
      have S0 : (key (s i0) < key i0)%N by move: (H i0); rewrite Hi0 /= negbK.
      have := sum_strict n (fun i : 'I_n => key (s i)) (fun i : 'I_n => key i) i0 L S0.
      rewrite [X in (_ < X)%N](reindex_inj (@perm_inj _ s)) /=. by rewrite ltnn.
Qed.
