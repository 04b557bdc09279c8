(** Lemmas for C44, C45. *)
From Coq Require Import Reals Lra Lia List Arith ZArith Bool Sorting.Sorted FinFun.
From Verif Require Import XR SpecDist ModelVec LemJoint ModelScan SpecScan.
Import ListNotations.
Open Scope nat_scope.

(** ** sorting *)
Notation SS := (StronglySorted Z.lt).
Lemma in_insert {A} (p q : Z * A) l : In q (insert p l) <-> q = p \/ In q l.
Proof.
  induction l as [|x l IH]; cbn; [intuition|]. destruct (fst p <=? fst x)%Z; cbn; [intuition|]. rewrite IH. intuition.
Qed.
Lemma in_sorted {A} (q : Z * A) l : In q (sorted l) <-> In q l.
Proof. induction l as [|x l IH]; cbn; [easy|]. rewrite in_insert, IH. intuition. Qed.
Lemma length_insert {A} (p : Z * A) l : length (insert p l) = S (length l).
Proof. induction l as [|x l IH]; cbn; [easy|]. destruct (fst p <=? fst x)%Z; cbn; auto. Qed.
Lemma length_sorted {A} (l : list (Z * A)) : length (sorted l) = length l.
Proof. induction l as [|x l IH]; [easy|]. change (sorted (x :: l)) with (insert x (sorted l)). cbn [length]. rewrite length_insert, IH. easy. Qed.
Lemma insert_SS {A} (p : Z * A) l : SS (map fst l) -> ~ In (fst p) (map fst l) -> SS (map fst (insert p l)).
Proof.
  induction l as [|x l IH]; intros S N; cbn; [repeat constructor|]. inversion S as [|y m S' F]; subst. destruct (Z.leb_spec (fst p) (fst x)) as [L|L].
  - assert (fst p <> fst x) by (intros E; apply N; left; auto). cbn. constructor; [exact S|]. constructor; [lia|].
    apply List.Forall_forall. intros z I. assert (Q := proj1 (List.Forall_forall _ _) F z I). cbn in Q. lia.
  - cbn. constructor; [apply IH; [exact S'|intros I; apply N; right; exact I]|].
    apply List.Forall_forall. intros z I. apply in_map_iff in I as (q & <- & I). apply in_insert in I as [->|I]; [lia|].
    apply (proj1 (List.Forall_forall _ _) F). apply in_map, I.
Qed.
Lemma sorted_SS {A} (l : list (Z * A)) : NoDup (map fst l) -> SS (map fst (sorted l)).
Proof.
  induction l as [|x l IH]; intros N; cbn; [constructor|]. inversion N as [|y m N1 N2]; subst. apply insert_SS; [apply IH, N2|].
  intros I. apply N1. apply in_map_iff in I as (q & E & I). apply (in_sorted q l) in I. rewrite <- E. apply in_map, I.
Qed.
Lemma SS_unique : forall l m, SS l -> SS m -> (forall z, In z l <-> In z m) -> l = m.
Proof.
  induction l as [|x l IH]; intros m Sl Sm E.
  - destruct m as [|y m]; [easy|]. exfalso. apply (proj2 (E y)). left. easy.
  - destruct m as [|y m]; [exfalso; apply (proj1 (E x)); left; easy|].
    inversion Sl as [|? ? Sl' Fl]; subst. inversion Sm as [|? ? Sm' Fm]; subst.
    assert (Gl := proj1 (List.Forall_forall _ _) Fl). assert (Gm := proj1 (List.Forall_forall _ _) Fm).
    assert (Exy : x = y).
    { destruct (proj1 (E x) (or_introl eq_refl)) as [Q|Q]; [easy|]. destruct (proj2 (E y) (or_introl eq_refl)) as [P|P]; [easy|].
      apply Gm in Q. apply Gl in P. lia. }
    subst y. f_equal. apply IH; [assumption|assumption|]. intros z. specialize (E z). cbn in E. split; intros I.
    + destruct (proj1 E (or_intror I)) as [<-|P]; [|exact P]. apply Gl in I. lia.
    + destruct (proj2 E (or_intror I)) as [<-|P]; [|exact P]. apply Gm in I. lia.
Qed.
Lemma SS_snoc l x : SS l -> (forall z, In z l -> (z < x)%Z) -> SS (l ++ [x]).
Proof.
  induction l as [|y l IH]; intros S H; cbn; [repeat constructor|]. inversion S as [|? ? S' F]; subst. constructor.
  - apply IH; [exact S'|]. intros z I. apply H. right. exact I.
  - apply List.Forall_forall. intros z I. apply in_app_or in I as [I|[<-|[]]]; [apply (proj1 (List.Forall_forall _ _) F z I)|apply H; left; easy].
Qed.
Lemma SS_mirror c l : SS l -> SS (map (fun k => c - k)%Z (rev l)).
Proof.
  induction l as [|x l IH]; intros S; cbn; [constructor|]. inversion S as [|? ? S' F]; subst. rewrite map_app. apply SS_snoc; [apply IH, S'|].
  intros z I. apply in_map_iff in I as (q & <- & I). apply in_rev in I. assert (Q := proj1 (List.Forall_forall _ _) F q I). lia.
Qed.

(** ** the taps *)
Lemma combine_name {A} (f : Z -> A) l : combine l (map f l) = map (fun k => (k, f k)) l.
Proof. induction l; cbn; congruence. Qed.
Lemma named {A} (f : Z -> A) m : (forall q, In q m -> snd q = f (fst q)) -> m = map (fun k => (k, f k)) (map fst m).
Proof.
  induction m as [|[k x] m IH]; intros H; cbn; [easy|]. f_equal; [f_equal; exact (H _ (or_introl eq_refl))|]. apply IH. intros q I. apply H. right. exact I.
Qed.
(** the ascending taps *)
Definition asc (taps : list Z) : list Z := map fst (sorted (map (fun k => (k, k)) (taps ++ [0%Z]))).
Lemma in_asc taps k : In k (asc taps) <-> In k (0%Z :: taps).
Proof.
  unfold asc. rewrite in_map_iff. split.
  - intros (q & <- & I). apply in_sorted, in_map_iff in I as (x & <- & I). cbn. apply in_app_or in I as [I|[<-|[]]]; auto.
  - intros I. exists (k, k). split; [easy|]. apply in_sorted, in_map_iff. exists k. split; [easy|]. apply in_or_app. destruct I as [<-|I]; cbn; auto.
Qed.
Lemma length_asc taps : length (asc taps) = S (length taps).
Proof. unfold asc. rewrite map_length, length_sorted, map_length, app_length. cbn. lia. Qed.
Lemma taps_nodup taps : tap_list taps -> NoDup (taps ++ [0%Z]).
Proof.
  intros [N H]. apply NoDup_rev in N. rewrite <- (rev_involutive (taps ++ [0%Z])). apply NoDup_rev. rewrite rev_app_distr. cbn. constructor; [|exact N].
  intros I. apply in_rev in I. apply H in I. lia.
Qed.
Lemma asc_SS taps : tap_list taps -> SS (asc taps).
Proof. intros T. apply sorted_SS. rewrite map_map. cbn. rewrite map_id. apply taps_nodup, T. Qed.
Lemma sorted_asc taps {A} (f : Z -> A) : tap_list taps ->
  sorted (combine (taps ++ [0%Z]) (map f (taps ++ [0%Z]))) = map (fun k => (k, f k)) (asc taps).
Proof.
  intros T. rewrite combine_name. set (m := sorted _).
  assert (E : map fst m = asc taps).
  { apply SS_unique; [|apply asc_SS, T|].
    - apply sorted_SS. rewrite map_map. cbn. rewrite map_id. apply taps_nodup, T.
    - intros z. rewrite in_asc, in_map_iff. unfold m. split.
      + intros (q & <- & I). apply in_sorted, in_map_iff in I as (x & <- & I). cbn. apply in_app_or in I as [I|[<-|[]]]; auto.
      + intros I. exists (z, f z). split; [easy|]. apply in_sorted, in_map_iff. exists z. split; [easy|]. apply in_or_app. destruct I as [<-|I]; cbn; auto. }
  rewrite <- E. apply named. intros q I. apply in_sorted, in_map_iff in I as (x & <- & I). easy.
Qed.
Definition win {A} (value : list A) (b d : Z) : list A := py_slice b (if (d <? 0)%Z then Some d else None) value.
Lemma combine_map2 {A B C D} (f : A -> C) (g : B -> D) l m : combine (map f l) (map g m) = map (fun p => (f (fst p), g (snd p))) (combine l m).
Proof. revert m. induction l as [|x l IH]; intros [|y m]; cbn; try easy. rewrite IH. easy. Qed.
Lemma combine_same {A} (l : list A) : combine l l = map (fun x => (x, x)) l.
Proof. induction l; cbn; congruence. Qed.
(** the conversion of one variable *)
Lemma convert1_eq {A} v taps (value : list A) : tap_list taps ->
  let sl := map (fun be => win value (- fst be) (snd be)) (combine (asc taps) (rev (asc taps))) in
  let n := list_min (map (@length A) sl) in
  convert1 v taps value = (combine (map (fun k => (v, k)) (rev (asc taps))) (map (firstn n) sl), n).
Proof.
  intros T sl n. unfold convert1. cbv zeta. rewrite (sorted_asc taps (fun k => (v, k)) T).
  replace (map fst (map (fun k => (k, (v, k))) (asc taps))) with (asc taps) by (rewrite map_map; cbn; rewrite map_id; easy).
  replace (rev (map snd (map (fun k => (k, (v, k))) (asc taps)))) with (map (fun k => (v, k)) (rev (asc taps))) by (rewrite map_map, map_rev; easy).
  replace (map (fun be => py_slice (fst be) (snd be) value) (combine (map Z.opp (asc taps)) (map (fun n0 => if (n0 <? 0)%Z then Some n0 else None) (rev (asc taps))))) with sl.
  - easy.
  - rewrite combine_map2, map_map. easy.
Qed.
Lemma win_length {A} (value : list A) b d : (0 <= b)%Z -> (d <= 0)%Z -> 
  length (win value b d) = Z.to_nat (Z.of_nat (length value) + d - b).
Proof.
  intros B D. unfold win, py_slice. rewrite firstn_length, skipn_length.
  destruct (Z.ltb_spec d 0); unfold py_clip; repeat match goal with |- context [Z.ltb ?x ?y] => destruct (Z.ltb_spec x y) end; lia.
Qed.
Lemma nth_error_firstn {A} (l : list A) n t : t < n -> nth_error (firstn n l) t = nth_error l t.
Proof. revert n t. induction l as [|x l IH]; intros [|n] [|t] H; cbn; try lia; try easy. apply IH. lia. Qed.
Lemma nth_error_skipn {A} (l : list A) n t : nth_error (skipn n l) t = nth_error l (n + t).
Proof. revert l. induction n as [|n IH]; intros [|x l]; cbn; try easy. destruct t; easy. Qed.
Lemma win_nth {A} (value : list A) b d t : (0 <= b)%Z -> (d <= 0)%Z -> t < length (win value b d) ->
  nth_error (win value b d) t = nth_error value (Z.to_nat b + t).
Proof.
  intros B D H. assert (H' := H). rewrite win_length in H' by assumption. unfold win, py_slice in *. rewrite nth_error_firstn by (rewrite firstn_length in H; lia).
  rewrite nth_error_skipn. f_equal. unfold py_clip. destruct (Z.ltb_spec b 0); lia.
Qed.
Lemma list_min_le l x : In x l -> list_min l <= x.
Proof.
  induction l as [|y l IH]; [easy|]. destruct l as [|z l]; [intros [<-|[]]; cbn; lia|]. intros [<-|I]; [cbn; lia|]. specialize (IH I). cbn in *. lia.
Qed.
Lemma list_min_in l : l <> [] -> In (list_min l) l.
Proof.
  induction l as [|y l IH]; [easy|]. intros _. destruct l as [|z l]; [left; easy|]. assert (I := IH ltac:(easy)).
  change (list_min (y :: z :: l)) with (Nat.min y (list_min (z :: l))). destruct (Nat.min_dec y (list_min (z :: l))) as [->| ->]; [left; easy|right; exact I].
Qed.
Lemma list_min_const l c : l <> [] -> (forall x, In x l -> x = c) -> list_min l = c.
Proof. intros N H. apply H, list_min_in, N. Qed.
Lemma nth_combine {A B} (l : list A) (m : list B) i x y : nth_error (combine l m) i = Some (x, y) <-> nth_error l i = Some x /\ nth_error m i = Some y.
Proof.
  revert m i. induction l as [|a l IH]; intros [|b m] [|i]; cbn; try (split; [easy|intros [? ?]; easy]).
  - split; [intros [= <- <-]; easy|intros [[= <-] [= <-]]; easy].
  - apply IH.
Qed.
Lemma nth_rev {A} (l : list A) i : i < length l -> nth_error (rev l) i = nth_error l (length l - S i).
Proof.
  intros H. destruct l as [|d l0] eqn:E; [cbn in H; lia|]. rewrite <- E in *. rewrite (nth_error_nth' (rev l) d) by (rewrite rev_length; exact H).
  rewrite (nth_error_nth' l d) by lia. f_equal. rewrite rev_nth by exact H. easy.
Qed.
(** what the sequences are: the [i]th pairs the [i]th largest tap with the
    [i]th largest lag *)
Lemma seqs_in {A} v taps (value : list A) u k s : tap_list taps -> In ((u, k), s) (fst (convert1 v taps value)) ->
  u = v /\ exists a i, nth_error (asc taps) i = Some a /\ nth_error (rev (asc taps)) i = Some k /\ s = firstn (snd (convert1 v taps value)) (win value (- a) k).
Proof.
  intros T I. rewrite (convert1_eq v taps value T) in *. cbn [fst snd] in *. set (n := list_min _) in *. clearbody n.
  apply In_nth_error in I as (i & I). apply nth_combine in I as [I1 I2].
  rewrite nth_error_map in I1. destruct (nth_error (rev (asc taps)) i) as [k'|] eqn:K; [|easy]. injection I1 as E1 E2. subst.
  split; [easy|]. rewrite map_map, nth_error_map in I2. destruct (nth_error (combine (asc taps) (rev (asc taps))) i) as [[a k2]|] eqn:C; [|easy].
  injection I2 as <-. apply nth_combine in C as [C1 C2]. exists a, i. rewrite K in C2. injection C2 as <-. easy.
Qed.
Lemma seqs_names {A} v taps (value : list A) : tap_list taps -> map fst (fst (convert1 v taps value)) = map (fun k => (v, k)) (rev (asc taps)).
Proof.
  intros T. rewrite (convert1_eq v taps value T). cbn [fst]. set (n := list_min _). clearbody n.
  assert (E : forall {B C} (l : list B) (m : list C), length l = length m -> map fst (combine l m) = l).
  { intros B C l. induction l as [|x l IH]; intros [|y m] H; cbn in *; try easy. rewrite IH; [easy|lia]. }
  apply E. rewrite !map_length, combine_length, rev_length. lia.
Qed.
Lemma neg_taps taps k : tap_list taps -> In k (asc taps) -> (k <= 0)%Z.
Proof. intros [_ H] I. apply in_asc in I as [<-|I]; [lia|apply H in I; lia]. Qed.

(** ** C44 *)
Lemma asc_mirror taps L : tap_list taps -> max_lag taps L -> symmetric taps -> asc taps = map (fun k => - Z.of_nat L - k)%Z (rev (asc taps)).
Proof.
  intros T M S. apply SS_unique; [apply asc_SS, T|apply SS_mirror, asc_SS, T|]. intros z. rewrite in_map_iff. split.
  - intros I. exists (- Z.of_nat L - z)%Z. split; [lia|]. rewrite <- in_rev. apply in_asc, (S L M), in_asc, I.
  - intros (k & <- & I). rewrite <- in_rev in I. apply in_asc, (S L M), in_asc, I.
Qed.
Lemma map_mirror taps L a k i : tap_list taps -> max_lag taps L -> symmetric taps ->
  nth_error (asc taps) i = Some a -> nth_error (rev (asc taps)) i = Some k -> (- a = Z.of_nat L + k)%Z.
Proof.
  intros T M S A K. rewrite (asc_mirror taps L T M S), nth_error_map, K in A. injection A as <-. lia.
Qed.
Lemma lag_low taps L k : max_lag taps L -> In k (asc taps) -> (- Z.of_nat L <= k)%Z.
Proof. intros [_ H] I. apply in_asc in I as [<-|I]; [lia|apply H, I]. Qed.
Lemma in_combine_nth {A B} (l : list A) (m : list B) x y : In (x, y) (combine l m) -> exists i, nth_error l i = Some x /\ nth_error m i = Some y.
Proof. intros I. apply In_nth_error in I as (i & I). exists i. apply nth_combine, I. Qed.
Lemma steps_symmetric {A} v taps (value : list A) L : tap_list taps -> max_lag taps L -> symmetric taps ->
  snd (convert1 v taps value) = length value - L.
Proof.
  intros T M S. rewrite (convert1_eq v taps value T). cbn [snd]. apply list_min_const.
  - intros E. apply map_eq_nil, map_eq_nil in E. apply (f_equal (@length _)) in E. rewrite combine_length, rev_length, length_asc in E. cbn in E. lia.
  - intros x I. apply in_map_iff in I as (w & <- & I). apply in_map_iff in I as ([a k] & <- & I). cbn [fst snd].
    apply in_combine_nth in I as (i & Ia & Ik). rewrite (map_mirror taps L a k i T M S Ia Ik).
    apply nth_error_In, in_rev in Ik. assert (Q := neg_taps taps k T Ik). assert (P := lag_low taps L k M Ik).
    rewrite win_length by lia. lia.
Qed.
Lemma repeat_map {A B} (b : B) (l : list A) : map (fun _ => b) l = repeat b (length l).
Proof. induction l; cbn; congruence. Qed.
Lemma names_spec {A} v taps (value : list A) : tap_list taps ->
  map fst (map fst (fst (convert1 v taps value))) = repeat v (S (length taps)) /\
  (forall k, In k (map snd (map fst (fst (convert1 v taps value)))) <-> In k (0%Z :: taps)).
Proof.
  intros T. rewrite (seqs_names v taps value T). split.
  - rewrite map_map. cbn. rewrite repeat_map, rev_length, length_asc. easy.
  - intros k. rewrite map_map. cbn [snd]. rewrite map_id, <- in_rev. apply in_asc.
Qed.
Lemma scan_reads {A} v taps (value : list A) L : tap_list taps -> max_lag taps L -> symmetric taps ->
  reads_right taps value L (convert1 v taps value) v.
Proof.
  intros T M S. assert (N := steps_symmetric v taps value L T M S). destruct (names_spec v taps value T) as [N1 N2].
  split; [exact N|]. split; [exact N1|]. split; [exact N2|]. intros k s t I Ht.
  destruct (seqs_in v taps value v k s T I) as (_ & a & i & Ia & Ik & ->). rewrite N. rewrite nth_error_firstn by exact Ht.
  rewrite (map_mirror taps L a k i T M S Ia Ik). apply nth_error_In, in_rev in Ik.
  assert (Q := neg_taps taps k T Ik). assert (P := lag_low taps L k M Ik).
  rewrite win_nth; [|lia|lia|rewrite win_length by lia; lia]. unfold lagged. destruct (Z.leb_spec 0 (Z.of_nat t + Z.of_nat L + k)); [|lia].
  f_equal. lia.
Qed.
Lemma nth_combine_ex {A B} (l : list A) (m : list B) i x y : nth_error l i = Some x -> nth_error m i = Some y -> In (x, y) (combine l m).
Proof. intros H K. apply (nth_error_In _ i), nth_combine. easy. Qed.
(** the converse: reading right forces the tap set to be symmetric *)
Lemma scan_reads_conv {A} v taps (value : list A) L : tap_list taps -> max_lag taps L -> NoDup value -> L < length value ->
  reads_right taps value L (convert1 v taps value) v -> symmetric taps.
Proof.
  intros T M ND H (N & N1 & N2 & R) L' M' k Ik.
  assert (L' = L) as ->.
  { destruct M as [Ma Mb], M' as [Ma' Mb']. destruct T as [_ T].
    assert (forall l, In (- Z.of_nat l)%Z (0%Z :: taps) -> (forall k, In k taps -> (- Z.of_nat l <= k)%Z) -> forall l', In (- Z.of_nat l')%Z (0%Z :: taps) -> l' <= l) as Q.
    { intros l _ Hl l' [E|I]; [lia|]. apply Hl in I. lia. }
    assert (A1 := Q L Ma Mb L' Ma'). assert (A2 := Q L' Ma' Mb' L Ma). lia. }
  apply in_asc, in_rev, In_nth_error in Ik as (i & Ik).
  assert (Hi : i < length (asc taps)) by (rewrite <- rev_length; apply nth_error_Some; congruence).
  destruct (nth_error (asc taps) i) as [a|] eqn:Ia; [|apply nth_error_None in Ia; lia].
  assert (I : In ((v, k), firstn (snd (convert1 v taps value)) (win value (- a) k)) (fst (convert1 v taps value))).
  { rewrite (convert1_eq v taps value T). cbn [fst snd]. set (n := list_min _). clearbody n.
    apply (nth_combine_ex _ _ i).
    - rewrite nth_error_map, Ik. easy.
    - rewrite map_map, nth_error_map. assert (C : nth_error (combine (asc taps) (rev (asc taps))) i = Some (a, k)) by (apply nth_combine; easy).
      rewrite C. easy. }
  apply (R k _ 0) in I; [|lia]. rewrite N in I. rewrite nth_error_firstn in I by lia.
  assert (Ik' := Ik). apply nth_error_In, in_rev in Ik'. assert (Q := neg_taps taps k T Ik'). assert (P := lag_low taps L k M Ik').
  assert (Ia' := Ia). apply nth_error_In in Ia'. assert (Q' := neg_taps taps a T Ia').
  unfold lagged in I. destruct (Z.leb_spec 0 (Z.of_nat 0 + Z.of_nat L + k)); [|lia].
  destruct (nth_error value (Z.to_nat (Z.of_nat 0 + Z.of_nat L + k))) as [x|] eqn:X; [|apply nth_error_None in X; lia].
  assert (W : 0 < length (win value (- a) k)) by (apply nth_error_Some; rewrite I; discriminate).
  rewrite win_nth in I by (assumption || lia).
  assert (E : Z.to_nat (- a) + 0 = Z.to_nat (Z.of_nat 0 + Z.of_nat L + k)).
  { apply (proj1 (NoDup_nth_error value) ND); [apply nth_error_Some; rewrite I; discriminate|]. rewrite I, X. easy. }
  replace (- Z.of_nat L - k)%Z with a by lia. apply in_asc, Ia'.
Qed.
Lemma scan_iff {A} v taps (value : list A) L : tap_list taps -> max_lag taps L -> NoDup value -> L < length value ->
  reads_right taps value L (convert1 v taps value) v <-> symmetric taps.
Proof. intros T M N H. split; [apply scan_reads_conv; assumption|apply scan_reads; assumption]. Qed.
Lemma max_lag_unique taps L L' : max_lag taps L -> max_lag taps L' -> L = L'.
Proof.
  assert (Q : forall l l', max_lag taps l -> max_lag taps l' -> l' <= l).
  { intros l l' [_ H] [[E|I] _]; [lia|]. apply H in I. lia. }
  intros M M'. assert (A1 := Q _ _ M M'). assert (A2 := Q _ _ M' M). lia.
Qed.
Definition lags (L : nat) : list Z := map (fun i => - Z.of_nat i)%Z (seq 1 L).
Lemma in_lags L k : In k (lags L) <-> (- Z.of_nat L <= k < 0)%Z.
Proof.
  unfold lags. rewrite in_map_iff. split.
  - intros (i & <- & I). apply in_seq in I. lia.
  - intros H. exists (Z.to_nat (- k)). split; [lia|]. apply in_seq. lia.
Qed.
Lemma lags_ok L : tap_list (lags L) /\ max_lag (lags L) L /\ symmetric (lags L).
Proof.
  assert (M : max_lag (lags L) L).
  { split; [|intros k I; apply in_lags in I; lia]. destruct L; [left; easy|]. right. apply in_lags. lia. }
  split; [|split; [exact M|]].
  - split; [|intros k I; apply in_lags in I; lia]. unfold lags. apply FinFun.Injective_map_NoDup; [intros x y E; lia|apply seq_NoDup].
  - intros L' M' k I. rewrite (max_lag_unique _ _ _ M' M). destruct I as [<-|I].
    + destruct L; [left; easy|]. right. apply in_lags. lia.
    + apply in_lags in I. destruct (Z.eq_dec k (- Z.of_nat L)); [left; lia|right; apply in_lags; lia].
Qed.

(** ** C45 *)
Lemma rseq_map {A B} (f : A -> res B) g l : (forall x, In x l -> f x = Val (g x)) -> rseq (map f l) = Val (map g l).
Proof.
  induction l as [|x l IH]; intros H; cbn; [easy|]. rewrite (H x) by (left; easy). cbn. rewrite IH; [easy|]. intros y I. apply H. right. exact I.
Qed.
Definition env {A} (t : nat) (seqs : list ((nat * Z) * list A)) : list ((nat * Z) * A) :=
  flat_map (fun p => match nth_error (snd p) t with Some x => [(fst p, x)] | None => [] end) seqs.
Lemma read_env {A} t (seqs : list ((nat * Z) * list A)) : (forall p, In p seqs -> nth_error (snd p) t <> None) -> read t seqs = Val (env t seqs).
Proof.
  induction seqs as [|[nm s] seqs IH]; intros H; cbn; [easy|]. assert (Q := H _ (or_introl eq_refl)). cbn in Q. destruct (nth_error s t); [|easy].
  rewrite IH; [easy|]. intros p I. apply H. right. exact I.
Qed.
Lemma in_env {A} t (seqs : list ((nat * Z) * list A)) nm x : In (nm, x) (env t seqs) <-> exists s, In (nm, s) seqs /\ nth_error s t = Some x.
Proof.
  unfold env. rewrite in_flat_map. split.
  - intros ([nm' s] & I & J). cbn in J. destruct (nth_error s t) as [y|] eqn:E; [|easy]. destruct J as [J|[]]. injection J as <- <-. exists s. easy.
  - intros (s & I & E). exists (nm, s). split; [exact I|]. cbn. rewrite E. left. easy.
Qed.
Fixpoint all_seqs {A} v (vars : list (svar A)) : list ((nat * Z) * list A) :=
  match vars with [] => [] | x :: vars => fst (convert1 v (s_taps x) (s_value x)) ++ all_seqs (S v) vars end.
Lemma convert_all {A} N (vars : list (svar A)) : forall v acc, (forall u x, nth_error vars u = Some x -> snd (convert1 (v + u) (s_taps x) (s_value x)) = N) ->
  snd acc = N \/ vars <> [] -> convert v vars acc = (fst acc ++ all_seqs v vars, N).
Proof.
  induction vars as [|x vars IH]; intros v acc H K; cbn [convert all_seqs].
  - destruct K as [K|K]; [|easy]. rewrite app_nil_r. destruct acc; cbn in *. congruence.
  - assert (H0 := H 0 x eq_refl). rewrite Nat.add_0_r in H0. destruct (convert1 v (s_taps x) (s_value x)) as [s n]. cbn in H0. subst n.
    rewrite IH.
    + cbn [fst]. rewrite app_assoc. easy.
    + intros u y I. specialize (H (S u) y I). rewrite Nat.add_succ_r in H. exact H.
    + left. reflexivity.
Qed.
Lemma in_all {A} (vars : list (svar A)) : forall v p, In p (all_seqs v vars) <->
  exists u x, nth_error vars u = Some x /\ In p (fst (convert1 (v + u) (s_taps x) (s_value x))).
Proof.
  induction vars as [|x vars IH]; intros v p; cbn [all_seqs].
  - split; [easy|]. intros ([|u] & x & H & _); easy.
  - rewrite in_app_iff, IH. split.
    + intros [I|(u & y & E & I)]; [exists 0, x|exists (S u), y]; [rewrite Nat.add_0_r|rewrite Nat.add_succ_r]; easy.
    + intros ([|u] & y & E & I); [left; cbn in E; injection E as <-; rewrite Nat.add_0_r in I; exact I|right; exists u, y; rewrite Nat.add_succ_r in I; easy].
Qed.
Lemma xsum_denotes l ds : Forall2 (fun x d => denotes (Val x) d) l ds -> denotes (Val (xsum l)) (prod ds).
Proof.
  induction 1 as [|x d l ds H _ IH]; [cbn; apply exp_0|]. unfold xsum, prod in *. cbn [fold_right].
  generalize dependent (fold_right Rmult 1%R ds). intros q IH. generalize dependent (fold_right xadd (Fin 0) l). intros y IH.
  destruct x, y; cbn in *; try easy; subst; rewrite ?exp_plus; ring.
Qed.
Lemma Forall2_map {A B C} (P : B -> C -> Prop) (f : A -> B) (g : A -> C) l : (forall x, In x l -> P (f x) (g x)) -> Forall2 P (map f l) (map g l).
Proof. induction l as [|x l IH]; intros H; cbn; constructor; [apply H; left; easy|apply IH; intros y I; apply H; right; exact I]. Qed.

Lemma scan_joint {A} (step : nat -> nat -> list ((nat * Z) * A) -> res xr) D (vars : list (svar A)) (L : nat -> nat) N :
  vars <> [] -> step_computes step D vars L N ->
  (forall u x, nth_error vars u = Some x -> tap_list (s_taps x) /\ max_lag (s_taps x) (L u) /\ symmetric (s_taps x) /\ length (s_value x) = N + L u) ->
  exists out, logprob_scan step vars = Val (map (fun v => map (out v) (seq 0 N)) (seq 0 (length vars))) /\
    (forall v t, v < length vars -> t < N ->
      denotes (Val (out v t)) (D t v (history vars L t))) /\
    denotes (Val (xsum (concat (map (fun v => map (out v) (seq 0 N)) (seq 0 (length vars)))))) (scan_density D vars L N).
Proof.
  intros NE SC W. set (seqs := all_seqs 0 vars).
  assert (C : convert 0 vars ([], 0) = (seqs, N)).
  { rewrite (convert_all N vars 0 ([], 0)); [easy| |right; exact NE]. intros u x E. destruct (W u x E) as (T & M & S & Q).
    rewrite (steps_symmetric _ _ _ (L u) T M S). lia. }
  assert (G : forall u k s, In ((u, k), s) seqs -> exists x, nth_error vars u = Some x /\ forall t, t < N -> nth_error s t = lagged (s_value x) (L u) t k /\ nth_error s t <> None).
  { intros u k s I. apply (in_all vars 0) in I as (u' & x & E & I). destruct (W u' x E) as (T & M & S & Q). cbn in I.
    assert (J := seqs_in u' _ _ u k s T I). destruct J as (-> & a & i & Ia & Ik & Es). exists x. split; [exact E|]. intros t Ht.
    destruct (scan_reads u' (s_taps x) (s_value x) (L u') T M S) as (_ & _ & _ & R). assert (K := R k s t I ltac:(lia)). split; [exact K|].
    rewrite K. unfold lagged. apply nth_error_In, in_rev in Ik. assert (P1 := neg_taps _ k T Ik). assert (P2 := lag_low _ _ k M Ik).
    destruct (Z.leb_spec 0 (Z.of_nat t + Z.of_nat (L u') + k)); [|lia]. apply nth_error_Some. lia. }
  set (out := fun v t => match step t v (env t seqs) with Val x => x | Raise => NaN end).
  assert (O : forall v t, v < length vars -> t < N -> step t v (env t seqs) = Val (out v t) /\
    denotes (Val (out v t)) (D t v (history vars L t))).
  { intros v t Hv Ht. unfold out.
    assert (Q : denotes (step t v (env t seqs)) (D t v (history vars L t))).
    { apply (SC t v (env t seqs)); [exact Ht|exact Hv| |].
      - intros u k y I. apply in_env in I as (s & I & E). destruct (G u k s I) as (x & Ex & K). unfold history. rewrite Ex. destruct (K t Ht) as [<- _]. exact E.
      - intros u x k E I. destruct (W u x E) as (T & M & S & Q). destruct (names_spec u (s_taps x) (s_value x) T) as [_ N2].
        apply N2, in_map_iff in I as ([u' k'] & E1 & I). cbn in E1. subst k'. apply in_map_iff in I as ([[u2 k2] s] & E1 & I). cbn in E1. injection E1 as -> ->.
        assert (u' = u) as -> by (destruct (seqs_in u _ _ u' k s T I) as [-> _]; easy).
        assert (J : In ((u, k), s) seqs) by (apply (in_all vars 0); exists u, x; easy).
        destruct (G u k s J) as (x' & Ex & K). destruct (K t Ht) as [_ K2]. destruct (nth_error s t) as [y|] eqn:Y; [|easy].
        exists y. apply in_env. exists s. easy. }
    destruct (step t v (env t seqs)); [easy|destruct Q]. }
  assert (P : logprob_scan step vars = Val (map (fun v => map (out v) (seq 0 N)) (seq 0 (length vars)))).
  { unfold logprob_scan. rewrite C. rewrite (rseq_map (fun t => bind (read t seqs) (fun e => Val (t, e))) (fun t => (t, env t seqs))).
    - cbn [bind]. apply rseq_map. intros v I. apply in_seq in I. rewrite map_map.
      apply rseq_map. intros t It. apply in_seq in It. apply O; lia.
    - intros t It. apply in_seq in It. rewrite read_env; [easy|]. intros [[u k] s] I. destruct (G u k s I) as (x & _ & K). apply (K t). lia. }
  exists out. split; [exact P|]. split; [intros v t Hv Ht; apply O; assumption|].
  rewrite <- LemJoint.xsum_concat, map_map. unfold scan_density. apply xsum_denotes, Forall2_map. intros v I. apply in_seq in I.
  apply xsum_denotes, Forall2_map. intros t It. apply in_seq in It. apply O; lia.
Qed.
