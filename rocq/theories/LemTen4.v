(** Unit Jacobian of the cumulative sum along an axis of an array of any rank. *)
From Coq Require Import Reals Lra List Arith ZArith Bool Lia Sorted.
From Coquelicot Require Import Coquelicot.
From Verif Require Import XR SpecIdx ModelVec ModelMix LemMix ModelSub LemSub ModelTen SpecTen LemTen LemTen2 RMx LemTen3.
Import ListNotations.
Open Scope nat_scope.

Inductive lex : list nat -> list nat -> Prop :=
| lex_here a b p q : a < b -> lex (a :: p) (b :: q)
| lex_next a p q : lex p q -> lex (a :: p) (a :: q).
Lemma lex_irrefl p : ~ lex p p.
Proof. induction p as [|a p IH]; intros H; inversion H; subst; [lia|auto]. Qed.
Lemma sorted_app {A} (R : A -> A -> Prop) l l' : StronglySorted R l -> StronglySorted R l' -> (forall a b, In a l -> In b l' -> R a b) -> StronglySorted R (l ++ l').
Proof.
  induction 1 as [|a l Hs IH Hf]; intros H' Hx; cbn; auto. constructor; [apply IH; auto; intros; apply Hx; auto; now right|].
  apply Forall_app. split; auto. apply Forall_forall. intros b Hb. apply Hx; auto. now left.
Qed.
Lemma positions_sorted sh : StronglySorted lex (positions sh).
Proof.
  induction sh as [|n sh IH]; cbn; [repeat constructor|].
  assert (G : forall m s, StronglySorted lex (flat_map (fun k => map (cons k) (positions sh)) (seq s m))).
  { induction m as [|m IHm]; intros s; cbn; [constructor|]. apply sorted_app; auto.
    - clear -IH. induction IH as [|a l Hs IH Hf]; cbn; constructor; auto. apply Forall_map. eapply Forall_impl; [|exact Hf]. intros b Hb. now constructor.
    - intros a b Ha Hb. apply in_map_iff in Ha as (p & <- & _). apply in_flat_map in Hb as (k & Hk & Hb). apply in_map_iff in Hb as (q & <- & _).
      apply in_seq in Hk. constructor. lia. }
  apply G.
Qed.
Lemma sorted_nth {A} (R : A -> A -> Prop) l d : StronglySorted R l -> forall i j, i < j -> j < length l -> R (nth i l d) (nth j l d).
Proof.
  induction 1 as [|a l Hs IH Hf]; intros i j Hij Hj; [cbn in Hj; lia|]. destruct j as [|j]; [lia|]. cbn in Hj. destruct i as [|i]; cbn.
  - rewrite Forall_forall in Hf. apply Hf. apply nth_In. lia.
  - apply IH; lia.
Qed.
Definition upd (x : list nat -> R) (q : list nat) (t : R) (p : list nat) : R := if list_eq_dec Nat.eq_dec p q then t else x p.
(** partial derivative of the sum at [p] with respect to the entry at [q] *)
Definition cum_jac (ax : nat) (p q : list nat) : R :=
  if list_eq_dec Nat.eq_dec (set_nth ax (nth ax q 0) p) q then (if nth ax q 0 <=? nth ax p 0 then 1%R else 0%R) else 0%R.
Lemma partial_sum_derive (f : R -> nat -> R) (g : nat -> R) t0 k : (forall i, is_derive (fun t => f t i) t0 (g i)) ->
  is_derive (fun t => partial_sum (f t) k) t0 (partial_sum g k).
Proof.
  intros H. induction k as [|k IH]; cbn [partial_sum]; [apply H|]. apply (is_derive_plus (fun t => partial_sum (f t) k) (fun t => f t (S k))); auto.
Qed.
Lemma partial_sum_delta k j : partial_sum (fun i => if i =? j then 1%R else 0%R) k = if j <=? k then 1%R else 0%R.
Proof.
  induction k as [|k IH]; cbn [partial_sum].
  - destruct j; reflexivity.
  - rewrite IH. destruct (Nat.eqb_spec (S k) j), (Nat.leb_spec j k), (Nat.leb_spec j (S k)); try lia; lra.
Qed.
Lemma partial_sum_zero k : partial_sum (fun _ => 0%R) k = 0%R.
Proof. induction k; cbn; rewrite ?IHk; lra. Qed.
Lemma cumsum_derive ax x p q : ax < length p -> is_derive (fun t => cumsum ax (upd x q t) p) (x q) (cum_jac ax p q).
Proof.
  intros Hp. unfold cumsum, cum_jac.
  pose (g := fun i => if list_eq_dec Nat.eq_dec (set_nth ax i p) q then 1%R else 0%R).
  assert (E : partial_sum g (nth ax p 0) = if list_eq_dec Nat.eq_dec (set_nth ax (nth ax q 0) p) q then (if nth ax q 0 <=? nth ax p 0 then 1%R else 0%R) else 0%R).
  { destruct list_eq_dec as [e|n].
    - rewrite <- partial_sum_delta. apply partial_sum_ext. intros i. unfold g. destruct list_eq_dec as [e'|n'], (Nat.eqb_spec i (nth ax q 0)); auto.
      + exfalso. apply n. rewrite <- e'. symmetry. apply nth_of. now apply set_nth_at.
      + exfalso. apply n'. now subst i.
    - rewrite <- (partial_sum_zero (nth ax p 0)). apply partial_sum_ext. intros i. unfold g. destruct list_eq_dec as [e'|n']; auto.
      exfalso. apply n. rewrite <- e' at 1. rewrite (nth_of _ ax i 0) by (now apply set_nth_at). exact e'. }
  rewrite <- E. apply (partial_sum_derive (fun t i => upd x q t (set_nth ax i p)) g).
  clear E. intros i. unfold upd, g. destruct (list_eq_dec Nat.eq_dec (set_nth ax i p) q) as [e|n].
  - apply (is_derive_id (K := R_AbsRing)).
  - apply (is_derive_const (K := R_AbsRing) (V := R_NormedModule)).
Qed.
Lemma lex_jac ax p q : ax < length p -> lex p q -> length p = length q -> cum_jac ax p q = 0%R.
Proof.
  intros Hp L E. unfold cum_jac. destruct list_eq_dec as [e|]; auto. destruct (Nat.leb_spec (nth ax q 0) (nth ax p 0)); auto. exfalso.
  revert ax Hp e H. induction L as [a b p q Hab|a p q L IH]; intros [|ax] Hp e H.
  - cbn in H. lia.
  - cbn in e. unfold set_nth in e. cbn in e. injection e. lia.
  - unfold set_nth in e. cbn in e. injection e as ->. exact (lex_irrefl _ L).
  - apply (IH ltac:(cbn in E; lia) ax); [cbn in Hp; lia| |exact H]. unfold set_nth in *. cbn in e. now injection e.
Qed.
Lemma cumsum_unit_jacobian ax sh x : ax < length sh ->
  exists J, (forall p q, inside sh p -> inside sh q -> is_derive (fun t => cumsum ax (upd x q t) p) (x q) (J p q)) /\
    rdet (length (positions sh)) (fun i j => J (nth i (positions sh) []) (nth j (positions sh) [])) = 1%R.
Proof.
  intros Hax. exists (cum_jac ax).
  assert (G : forall i, i < length (positions sh) -> length (nth i (positions sh) []) = length sh).
  { intros i Hi. apply inside_len, positions_in. now apply nth_In. }
  split.
  - intros p q Hp _. apply cumsum_derive. now rewrite (inside_len _ _ Hp).
  - apply rdet_lower.
    + intros i j Hi Hj Hij. apply lex_jac; [now rewrite G|apply sorted_nth; auto; apply positions_sorted|now rewrite !G].
    + intros i Hi. unfold cum_jac. set (p := nth i (positions sh) []).
      destruct list_eq_dec as [e|n]; [now rewrite Nat.leb_refl|]. exfalso. apply n. apply set_id. apply nth_error_nth'. unfold p. now rewrite G.
Qed.
