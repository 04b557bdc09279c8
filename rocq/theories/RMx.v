(** The real numbers of the standard library as a field of the Mathematical
    Components library, to use its determinants. *)
From Coq Require Import Reals Lra ClassicalEpsilon FunctionalExtensionality.
From mathcomp Require Import ssreflect ssrfun ssrbool eqtype ssrnat seq choice fintype bigop ssralg matrix.
Set Implicit Arguments.

Definition eqr (x y : R) : bool := if Req_EM_T x y then true else false.
Lemma eqrP : Equality.axiom eqr.
Proof. move=> x y; rewrite /eqr; case: Req_EM_T => h; by constructor. Qed.
Definition R_eqMixin := EqMixin eqrP.
Canonical R_eqType := EqType R R_eqMixin.

Definition pickR (P : pred R) (n : nat) : option R :=
  let x := epsilon (inhabits R0) (fun x => P x = true) in if P x then Some x else None.
Lemma pickR_some P n x : pickR P n = Some x -> P x.
Proof. rewrite /pickR. case E: (P _) => // -[<-]. exact: E. Qed.
Lemma pickR_ex (P : pred R) : (exists x : R, P x) -> exists n, pickR P n.
Proof.
  move=> h. exists 0%N. rewrite /pickR.
  have -> : P (epsilon (inhabits R0) (fun x => P x = true)) = true by exact: (epsilon_spec (inhabits R0) (fun x => P x = true) h).
  by [].
Qed.
Lemma pickR_ext (P Q : pred R) : P =1 Q -> pickR P =1 pickR Q.
Proof.
  move=> h n. have -> : P = Q by apply: functional_extensionality. by [].
Qed.
Definition R_choiceMixin : choiceMixin R := Choice.Mixin pickR_some pickR_ex pickR_ext.
Canonical R_choiceType := ChoiceType R R_choiceMixin.

Lemma RplusA : associative Rplus. Proof. move=> x y z; ring. Qed.
Lemma RplusC : commutative Rplus. Proof. move=> x y; ring. Qed.
Lemma Rplus0 : left_id R0 Rplus. Proof. move=> x; ring. Qed.
Lemma RplusN : left_inverse R0 Ropp Rplus. Proof. move=> x; ring. Qed.
Definition R_zmodMixin := ZmodMixin RplusA RplusC Rplus0 RplusN.
Canonical R_zmodType := ZmodType R R_zmodMixin.

Lemma RmultA : associative Rmult. Proof. move=> x y z; ring. Qed.
Lemma RmultC : commutative Rmult. Proof. move=> x y; ring. Qed.
Lemma Rmult1 : left_id R1 Rmult. Proof. move=> x; ring. Qed.
Lemma RmultDl : left_distributive Rmult Rplus. Proof. move=> x y z; ring. Qed.
Lemma R1_neq : R1 != R0 :> R. Proof. apply/eqP; exact: R1_neq_R0. Qed.
Definition R_comRingMixin := ComRingMixin RmultA RmultC Rmult1 RmultDl R1_neq.
Canonical R_ringType := RingType R R_comRingMixin.
Canonical R_comRingType := ComRingType R RmultC.

Definition invR (x : R) : R := if Req_EM_T x 0 then R0 else Rinv x.
Lemma mulVR (x : R) : x != R0 -> Rmult (invR x) x = R1.
Proof. rewrite /invR => /eqP h. case: Req_EM_T => // h'. exact: Rinv_l. Qed.
Lemma invR0 : invR R0 = R0. Proof. by rewrite /invR; case: Req_EM_T. Qed.
Definition R_fieldUnitMixin := FieldUnitMixin mulVR invR0.
Canonical R_unitRingType := UnitRingType R R_fieldUnitMixin.
Canonical R_comUnitRingType := [comUnitRingType of R].
Lemma R_fieldMixin : GRing.Field.mixin_of R_unitRingType. Proof. by []. Qed.
Definition R_idomainMixin := FieldIdomainMixin R_fieldMixin.
Canonical R_idomainType := IdomainType R R_idomainMixin.
Canonical R_fieldType := FieldType R R_fieldMixin.

(** determinant of the n x n matrix with entries [f i j], i, j < n *)
Definition rdet (n : nat) (f : nat -> nat -> R) : R := (\det (\matrix_(i < n, j < n) f i j))%R.
