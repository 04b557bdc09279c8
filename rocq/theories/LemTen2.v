(** Proofs for joins and cumulative sums. *)
From Coq Require Import Reals Lra List Arith ZArith Bool Lia.
From Verif Require Import XR SpecIdx ModelVec ModelMix LemMix ModelTen SpecTen LemTen.
Import ListNotations.
Open Scope nat_scope.

Lemma set_nth_at k x l : k < length l -> nth_error (set_nth k x l) k = Some x.
Proof.
  intros H. unfold set_nth. rewrite nth_error_app2; rewrite firstn_length_le by lia; [|lia]. now rewrite Nat.sub_diag.
Qed.
Lemma set_nth_other k x l j : k < length l -> j <> k -> nth_error (set_nth k x l) j = nth_error l j.
Proof.
  intros H N. unfold set_nth. destruct (lt_dec j k).
  - rewrite nth_error_app1 by (rewrite firstn_length_le; lia). rewrite <- (firstn_skipn k l) at 2. rewrite nth_error_app1; auto. rewrite firstn_length_le; lia.
  - rewrite nth_error_app2 by (rewrite firstn_length_le; lia). rewrite firstn_length_le by lia.
    replace (j - k) with (S (j - S k)) by lia. cbn.
    rewrite <- (firstn_skipn (S k) l) at 2. rewrite nth_error_app2; rewrite firstn_length_le by lia; [|lia]. reflexivity.
Qed.
Lemma set_nth_len k x l : k < length l -> length (set_nth k x l) = length l.
Proof. intros H. unfold set_nth. rewrite app_length. cbn [length]. rewrite skipn_length, firstn_length_le by lia. lia. Qed.
Lemma set_nth_same ax q p x : ax < length q -> same_but ax q p -> nth_error p ax = Some x -> set_nth ax x q = p.
Proof.
  intros H (L & S) Hx. apply nth_error_ext. intros j. destruct (Nat.eq_dec j ax) as [->|N]; [now rewrite set_nth_at|]. rewrite set_nth_other; auto.
Qed.
Lemma same_but_sym ax a b : same_but ax a b -> same_but ax b a.
Proof. intros (L & H). split; auto. intros. symmetry. auto. Qed.
Lemma same_but_trans ax a b c : same_but ax a b -> same_but ax b c -> same_but ax a c.
Proof. intros (L & H) (L' & H'). split; [lia|]. intros. rewrite H; auto. Qed.
Lemma same_but_set ax x l : ax < length l -> same_but ax l (set_nth ax x l).
Proof. intros H. split; [now rewrite set_nth_len|]. intros. symmetry. now apply set_nth_other. Qed.
Lemma nth_of {A} (l : list A) k x d : nth_error l k = Some x -> nth k l d = x.
Proof. apply nth_error_nth. Qed.
Lemma cat_elt_at {A} ax (l : list (nd A)) sizes (d : A) : Forall2 (fun a n => size_along ax (nshp a) n) l sizes ->
  forall k q p a, nth_error l k = Some a -> part_at ax sizes q k p -> cat_elt ax l q d = nelt a p.
Proof.
  induction 1 as [|b n l sizes Hb HF IH]; intros k q p a Hk (S & n' & x & Hn & Hp & Hx & Hq).
  - destruct k; discriminate.
  - cbn [cat_elt]. rewrite (nth_of _ _ _ 0 Hb), (nth_of _ _ _ 0 Hq). assert (Lq : ax < length q) by (apply nth_error_Some; congruence).
    destruct k as [|k]; cbn in Hk, Hn, Hq.
    + injection Hk as ->. injection Hn as ->. change (list_sum (firstn 0 (n' :: sizes)) + x) with x. destruct (Nat.ltb_spec x n'); [|lia].
      f_equal. destruct S as (L & S). apply nth_error_ext. intros j. destruct (Nat.eq_dec j ax) as [->|]; [congruence|auto].
    + cbn [firstn list_sum fold_right]. change (fold_right Nat.add 0 (firstn k sizes)) with (list_sum (firstn k sizes)) in *.
      destruct (Nat.ltb_spec (n + list_sum (firstn k sizes) + x) n); [lia|].
      apply (IH k); auto. split.
      * eapply same_but_trans; [apply same_but_sym, same_but_set; auto|exact S].
      * exists n', x. repeat split; auto. rewrite set_nth_at by auto. f_equal. lia.
Qed.
Lemma norm_axis_spec r z ax : norm_axis r z = Some ax <-> wraps r z ax.
Proof.
  unfold norm_axis, wraps. destruct (Z.ltb_spec z 0);
  [destruct (Z.leb_spec 0 (z + Z.of_nat r)); cbn; [destruct (Z.ltb_spec (z + Z.of_nat r) (Z.of_nat r))|]|destruct (Z.leb_spec 0 z); cbn; [destruct (Z.ltb_spec z (Z.of_nat r))|]];
  split; intros E; try discriminate; try lia; try (injection E as <-; lia); try (f_equal; lia).
Qed.
Lemma sum_sizes {A} (f : A -> list nat) ax l sizes : Forall2 (fun a n => size_along ax (f a) n) l sizes -> fold_right (fun b s => nth ax (f b) 0 + s) 0 l = list_sum sizes.
Proof. induction 1; cbn; auto. rewrite (nth_of _ _ _ 0 H). now rewrite IHForall2. Qed.
Lemma concat_ok {A} axis ax (l : list (nd A)) sizes sh d : joinable ax (map nshp l) sizes sh -> axis_is (length sh) axis ax ->
  exists r, concatenate axis l d = Val r /\ nshp r = sh /\
    forall k q p a, nth_error l k = Some a -> part_at ax sizes q k p -> nelt r q = nelt a p.
Proof.
  intros (N & Hax & F & S & T) HA. destruct l as [|a l]; [easy|].
  assert (F' : Forall2 (fun a n => size_along ax (nshp a) n) (a :: l) sizes).
  { clear -F. remember (a :: l) as l0. clear Heql0. revert sizes F. induction l0; intros sizes F; inversion F; subst; constructor; auto. }
  rewrite Forall_forall in S. assert (Sa : same_but ax sh (nshp a)) by (apply S; now left). pose proof (proj1 Sa) as La.
  assert (Hc : forallb (fun b => if list_eq_dec Nat.eq_dec (set_nth ax 0 (nshp b)) (set_nth ax 0 (nshp a)) then true else false) (a :: l) = true).
  { apply forallb_forall. intros b Hb. destruct list_eq_dec as [|K]; auto. exfalso. apply K.
    assert (Sb : same_but ax sh (nshp b)) by (apply S; now apply in_map). pose proof (proj1 Sb).
    apply (set_nth_same ax _ _ 0); [lia| |rewrite set_nth_at; auto; lia].
    eapply same_but_trans; [apply same_but_sym, Sb|]. eapply same_but_trans; [exact Sa|]. apply same_but_set. lia. }
  eexists. split; [|split].
  - unfold concatenate. rewrite <- La, (proj2 (norm_axis_spec _ _ _) HA), Hc. reflexivity.
  - cbn [nshp]. rewrite (sum_sizes nshp ax (a :: l) sizes F'). apply (set_nth_same ax); auto; [lia|]. now apply same_but_sym.
  - cbn [nelt]. intros. eapply cat_elt_at; eauto.
Qed.
Lemma split_logps_nth ax bases : forall off value sizes k b, Forall2 (size_along ax) (map pshp bases) sizes -> nth_error bases k = Some b ->
  nth_error (split_logps ax off bases value) k =
  Some {| nshp := logp_shape b; nelt := plp b (fun p => value (set_nth ax (nth ax p 0 + (off + list_sum (firstn k sizes))) p)) |}.
Proof.
  induction bases as [|b0 bases IH]; intros off value sizes k b F Hk; [destruct k; discriminate|].
  inversion F as [|? n ? sz Hn HF]; subst. destruct k as [|k]; cbn in Hk.
  - injection Hk as ->. cbn. now rewrite Nat.add_0_r.
  - cbn [split_logps nth_error]. rewrite (IH _ value sz k b HF Hk). rewrite (nth_of _ _ _ 0 Hn).
    cbn [firstn list_sum fold_right]. change (fold_right Nat.add 0 (firstn k sz)) with (list_sum (firstn k sz)).
    now rewrite Nat.add_assoc.
Qed.
Lemma split_logps_shapes ax bases : forall off value, map nshp (split_logps ax off bases value) = map logp_shape bases.
Proof. induction bases; intros; cbn; auto. now rewrite IHbases. Qed.
Lemma atleast_1d_id {A} (a : nd A) : nshp a <> [] -> atleast_1d a = a.
Proof. unfold atleast_1d. destruct (nshp a); easy. Qed.
Lemma logp_shape_uni b : psupp b = 0 -> logp_shape b = pshp b.
Proof. intros H. unfold logp_shape. rewrite H, Nat.sub_0_r. apply firstn_all. Qed.

Lemma join_ok axis ax bases lps sizes sh value : joinable ax (map pshp bases) sizes sh -> axis_is (length sh) axis ax ->
  Forall2 univariate bases lps ->
  exists r, logprob_join axis bases sh value = Val r /\ nshp r = sh /\
    forall k q p lp, nth_error lps k = Some lp -> part_at ax sizes q k p -> nelt r q = lp p (value q).
Proof.
  intros J HA U. pose proof J as (N & Hax & F & S & T).
  assert (F' : Forall2 (fun b n => size_along ax (pshp b) n) bases sizes).
  { clear -F. revert sizes F. induction bases; intros sizes F; inversion F; subst; constructor; auto. }
  assert (HS : forall b, In b bases -> logp_shape b = pshp b /\ same_but ax sh (pshp b)).
  { intros b Hb. split.
    - apply logp_shape_uni. clear -U Hb. induction U; [easy|]. destruct Hb as [<-|Hb]; auto. apply H.
    - rewrite Forall_forall in S. apply S. now apply in_map. }
  assert (Hsh : map nshp (split_logps ax 0 bases value) = map pshp bases).
  { rewrite split_logps_shapes. apply map_ext_in. intros b Hb. now apply HS. }
  assert (H1 : map atleast_1d (split_logps ax 0 bases value) = split_logps ax 0 bases value).
  { rewrite <- (map_id (split_logps ax 0 bases value)) at 2. apply map_ext_in. intros a Ha. apply atleast_1d_id.
    assert (In (nshp a) (map pshp bases)) by (rewrite <- Hsh; now apply in_map). apply in_map_iff in H as (b & E & Hb).
    rewrite <- E. destruct (HS b Hb) as (_ & L & _). destruct (pshp b); [cbn in L; lia|easy]. }
  destruct (concat_ok axis ax (split_logps ax 0 bases value) sizes sh (Val NaN)) as (r & Er & Hr & Hel); auto.
  { now rewrite Hsh. }
  exists r. split; [|split; auto].
  - unfold logprob_join. rewrite (proj2 (norm_axis_spec _ _ _) HA), (sum_sizes pshp ax bases sizes F'), (nth_of _ _ _ 0 T), Nat.eqb_refl.
    destruct (split_logps ax 0 bases value) as [|l0 l] eqn:El; [destruct bases; [easy|discriminate]|]. rewrite H1.
    assert (Hl : forall a, In a (l0 :: l) -> length (nshp a) = length sh).
    { intros a Ha. assert (In (nshp a) (map pshp bases)) by (rewrite <- Hsh; now apply in_map). apply in_map_iff in H as (b & E & Hb).
      rewrite <- E. symmetry. apply (proj1 (proj2 (HS b Hb))). }
    rewrite (proj2 (forallb_forall _ _)); [|intros a Ha; apply Nat.eqb_eq; rewrite !Hl; auto; now left].
    rewrite (Hl l0) by now left. replace (axis - _)%Z with axis by lia. exact Er.
  - intros k q p lp Hk Hp.
    assert (Hb : exists b, nth_error bases k = Some b /\ univariate b lp).
    { clear -U Hk. revert k Hk. induction U; intros [|k] Hk; cbn in *; try discriminate; [injection Hk as <-; eauto|auto]. }
    destruct Hb as (b & Eb & U0 & U1).
    rewrite (Hel k q p _ (split_logps_nth ax bases 0 value sizes k b F Eb) Hp). cbn [nelt]. rewrite U1. f_equal. f_equal.
    destruct Hp as (Sq & n' & x & Hn & Hx & Hlt & Hq). rewrite (nth_of _ _ _ 0 Hx).
    apply (set_nth_same ax); [apply nth_error_Some; congruence|now apply same_but_sym|]. rewrite Hq. f_equal. lia.
Qed.
(** different numbers of log-probability axes *)
Lemma join_ranks axis bases sh value b b' : In b bases -> In b' bases -> length (logp_shape b) <> length (logp_shape b') ->
  logprob_join axis bases sh value = Raise.
Proof.
  intros Hb Hb' N. unfold logprob_join. destruct norm_axis as [ax|]; auto. destruct Nat.eqb; auto.
  pose proof (split_logps_shapes ax bases 0 value) as E.
  destruct (split_logps ax 0 bases value) as [|l0 l] eqn:El; auto.
  destruct (forallb _ _) eqn:Ef; auto. exfalso. rewrite forallb_forall in Ef.
  assert (G : forall c, In c bases -> length (logp_shape c) = length (nshp l0)).
  { intros c Hc. assert (In (logp_shape c) (map nshp (l0 :: l))) by (rewrite E; now apply in_map). apply in_map_iff in H as (a & Ea & Ha).
    rewrite <- Ea. apply Nat.eqb_eq. now apply Ef. }
  apply N. now rewrite !G.
Qed.
Lemma np_index_at {A} (l : list A) k x : nth_error l k = Some x -> np_index l (Z.of_nat k) = Val x.
Proof.
  intros H. unfold np_index. assert (k < length l) by (apply nth_error_Some; congruence).
  destruct (Z.ltb_spec (Z.of_nat k) 0); [lia|]. rewrite (proj2 (Z.leb_le _ _)), (proj2 (Z.ltb_lt _ _)) by lia. cbn [andb]. rewrite Nat2Z.id. now rewrite H.
Qed.
Lemma make_vector_gen (bases : list (xr -> res xr)) : forall s (value pre vs : list xr) l, value = pre ++ vs -> length pre = s ->
  Forall2 (fun (bv : (xr -> res xr) * xr) x => fst bv (snd bv) = Val x) (combine bases vs) l -> length vs = length bases ->
  fold_right (fun x acc => bind x (fun x => bind acc (fun l => Val (x :: l)))) (Val [])
    (map (fun ib => bind (np_index value (Z.of_nat (fst ib))) (snd ib)) (combine (seq s (length bases)) bases)) = Val l.
Proof.
  induction bases as [|b bases IH]; intros s value pre [|v vs] l E Ls F L; try discriminate; cbn.
  - inversion F; subst. reflexivity.
  - inversion F as [|? x ? l' Hx Hl]; subst. cbn in Hx. rewrite (np_index_at _ _ v) by (rewrite nth_error_app2, Nat.sub_diag by lia; reflexivity).
    cbn. rewrite Hx. cbn. rewrite (IH _ _ (pre ++ [v]) vs l'); auto; [now rewrite <- app_assoc|rewrite app_length; cbn; lia].
Qed.
Lemma make_vector_ok bases value l : length value = length bases ->
  Forall2 (fun (bv : (xr -> res xr) * xr) x => fst bv (snd bv) = Val x) (combine bases value) l -> logprob_make_vector bases value = Val l.
Proof. intros L F. now apply (make_vector_gen bases 0 value [] value l). Qed.
Lemma stacks_iff measurable valued vs : (exists r, find_measurable_stacks measurable valued vs = Some r) <->
  List.Forall (fun v => measurable v = true /\ valued v = false) vs.
Proof.
  unfold find_measurable_stacks. rewrite Forall_forall. destruct (forallb _ vs) eqn:E.
  - rewrite forallb_forall in E. split; [|eauto]. intros _ v Hv. specialize (E v Hv). apply andb_true_iff in E as (E1 & E2). now rewrite negb_true_iff in E2.
  - split; [intros (r & H); discriminate|]. intros H. rewrite (proj2 (forallb_forall _ _)) in E; [discriminate|].
    intros v Hv. destruct (H v Hv) as (-> & ->). reflexivity.
Qed.

(** ** Cumulative sums *)
Lemma inside_nth sh p k x n : inside sh p -> nth_error p k = Some x -> nth_error sh k = Some n -> x < n.
Proof. intros H. revert k x n. induction H as [|a b l l' Hab Hl IH]; intros [|k] x n Hx Hn; cbn in *; try discriminate; [congruence|eauto]. Qed.
Lemma inside_set sh p ax i n : inside sh p -> nth_error sh ax = Some n -> i < n -> inside sh (set_nth ax i p).
Proof.
  intros H Hn Hi. pose proof (inside_len _ _ H) as L. assert (Hax : ax < length sh) by (apply nth_error_Some; congruence).
  assert (G : forall (a b : list nat), length a = length b -> (forall k x d, nth_error a k = Some x -> nth_error b k = Some d -> x < d) -> Forall2 (fun x d => x < d) a b).
  { induction a as [|a0 a IH]; intros [|b0 b] E K; try discriminate; constructor; [exact (K 0 a0 b0 eq_refl eq_refl)|]. apply IH; [cbn in E; lia|]. intros k. exact (K (S k)). }
  apply G; [rewrite set_nth_len; lia|]. intros k x d Hx Hd. destruct (Nat.eq_dec k ax) as [->|N].
  - rewrite set_nth_at in Hx by lia. congruence.
  - rewrite set_nth_other in Hx by lia. eapply inside_nth; eauto.
Qed.
Lemma set_set k x y l : k < length l -> set_nth k x (set_nth k y l) = set_nth k x l.
Proof.
  intros H. apply nth_error_ext. intros j. destruct (Nat.eq_dec j k) as [->|N].
  - rewrite !set_nth_at; auto. now rewrite set_nth_len.
  - rewrite !set_nth_other; auto. now rewrite set_nth_len.
Qed.
Lemma set_id k x l : nth_error l k = Some x -> set_nth k x l = l.
Proof.
  intros H. assert (k < length l) by (apply nth_error_Some; congruence). apply nth_error_ext. intros j.
  destruct (Nat.eq_dec j k) as [->|N]; [now rewrite set_nth_at|now rewrite set_nth_other].
Qed.
Lemma partial_sum_ext f g k : (forall i, f i = g i) -> partial_sum f k = partial_sum g k.
Proof. intros H. induction k; cbn; rewrite ?IHk, ?H; auto. Qed.
Lemma cumsum_step ax x p k : nth_error p ax = Some (S k) ->
  cumsum ax x p = (cumsum ax x (set_nth ax k p) + x p)%R.
Proof.
  intros H. assert (Hl : ax < length p) by (apply nth_error_Some; congruence).
  unfold cumsum. rewrite (nth_of _ _ _ 0 H). rewrite (nth_of _ _ k 0) by (now apply set_nth_at). cbn [partial_sum].
  f_equal; [|f_equal; apply (set_id ax (S k) p H)].
  apply partial_sum_ext. intros i. f_equal. symmetry. apply (set_set ax i k p Hl).
Qed.
Lemma cumsum_zero ax x p : nth_error p ax = Some 0 -> cumsum ax x p = x p.
Proof. intros H. unfold cumsum. rewrite (nth_of _ _ _ 0 H). cbn. f_equal. apply (set_id ax 0 p H). Qed.

Section Cum.
Variables (axis : Z) (ax n : nat) (v : nd xr) (y : list nat -> R).
Hypotheses (HA : axis_is (length (nshp v)) axis ax) (Hn : nth_error (nshp v) ax = Some n) (Hpos : 1 <= n)
           (Hy : forall p, inside (nshp v) p -> nelt v p = Fin (y p)).
Lemma value_diff_at : exists d, value_diff axis v = Val d /\ nshp d = nshp v /\
  forall p, inside (nshp v) p ->
    (nth_error p ax = Some 0 -> nelt d p = Fin (y p)) /\
    (forall k, nth_error p ax = Some (S k) -> nelt d p = Fin (y p - y (set_nth ax k p))).
Proof.
  assert (Hax : ax < length (nshp v)) by (apply nth_error_Some; congruence).
  assert (Hsz : nth ax (nshp v) 0 = n) by (now apply nth_of).
  destruct (concat_ok axis ax [take_first ax v; diff ax v] [1; n - 1] (nshp v) NaN) as (d & E & Sh & Hel); auto.
  { split; [easy|]. split; [auto|]. cbn [map nshp take_first diff]. rewrite Hsz. split.
    - constructor; [now apply set_nth_at|]. constructor; [now apply set_nth_at|constructor].
    - split; [|cbn; rewrite Hn; f_equal; lia].
      constructor; [now apply same_but_set|]. constructor; [now apply same_but_set|constructor]. }
  exists d. split.
  - unfold value_diff. rewrite (proj2 (norm_axis_spec _ _ _) HA), Hsz. destruct (Nat.eqb_spec n 0); [lia|]. exact E.
  - split; auto. intros p Hp. pose proof (inside_len _ _ Hp) as L. split.
    + intros H0. rewrite (Hel 0 p p _ eq_refl).
      * cbn [nelt take_first]. rewrite (set_id _ _ _ H0). now apply Hy.
      * split; [split; auto|]. exists 1, 0. repeat split; auto.
    + intros k Hk. rewrite (Hel 1 p (set_nth ax k p) _ eq_refl).
      * cbn [nelt diff]. rewrite (nth_of _ _ k 0) by (apply set_nth_at; lia). rewrite set_set by lia. rewrite (set_id _ _ _ Hk).
        pose proof (inside_nth _ _ _ _ _ Hp Hk Hn). rewrite !Hy; auto. eapply inside_set; eauto. lia.
      * pose proof (inside_nth _ _ _ _ _ Hp Hk Hn). split; [apply same_but_set; lia|]. exists (n - 1), k. repeat split; auto; [apply set_nth_at; lia|lia].
Qed.
(** the value handed to the base variable is the only array whose cumulative sum is the value *)
Lemma value_diff_inverse : exists d x, value_diff axis v = Val d /\ nshp d = nshp v /\
  (forall p, inside (nshp v) p -> nelt d p = Fin (x p)) /\
  (forall p, inside (nshp v) p -> cumsum ax x p = y p) /\
  (forall x', (forall p, inside (nshp v) p -> cumsum ax x' p = y p) -> forall p, inside (nshp v) p -> x' p = x p).
Proof.
  destruct value_diff_at as (d & E & Sh & Hd).
  assert (Hax : ax < length (nshp v)) by (apply nth_error_Some; congruence).
  pose (x := fun p => match nth_error p ax with Some (S k) => (y p - y (set_nth ax k p))%R | _ => y p end).
  assert (Hx : forall p, inside (nshp v) p -> nelt d p = Fin (x p)).
  { intros p Hp. destruct (Hd p Hp) as (H0 & H1). unfold x. destruct (nth_error p ax) as [[|k]|] eqn:Ek; auto.
    apply nth_error_None in Ek. rewrite (inside_len _ _ Hp) in Ek. lia. }
  assert (Hc : forall k p, inside (nshp v) p -> nth_error p ax = Some k -> cumsum ax x p = y p).
  { induction k as [|k IH]; intros p Hp Hk.
    - rewrite cumsum_zero by auto. unfold x. now rewrite Hk.
    - rewrite (cumsum_step _ _ _ k Hk). pose proof (inside_nth _ _ _ _ _ Hp Hk Hn). rewrite IH.
      + unfold x. rewrite Hk. lra.
      + eapply inside_set; eauto. lia.
      + apply set_nth_at. rewrite (inside_len _ _ Hp). lia. }
  exists d, x. split; auto. split; auto. split; auto. split.
  - intros p Hp. destruct (nth_error p ax) as [k|] eqn:Ek; [eauto|]. apply nth_error_None in Ek. rewrite (inside_len _ _ Hp) in Ek. lia.
  - intros x' Hx' p Hp. unfold x. destruct (nth_error p ax) as [[|k]|] eqn:Ek.
    + rewrite <- (Hx' p Hp). now rewrite cumsum_zero.
    + pose proof (inside_nth _ _ _ _ _ Hp Ek Hn). rewrite <- (Hx' p Hp), <- (Hx' (set_nth ax k p)) by (eapply inside_set; eauto; lia).
      rewrite (cumsum_step _ _ _ k Ek). lra.
    + apply nth_error_None in Ek. rewrite (inside_len _ _ Hp) in Ek. lia.
Qed.
Lemma cumsum_logprob base : exists r x, logprob_cumsum axis base v = Val r /\ nshp r = nshp v /\
  (forall p, inside (nshp v) p -> nelt r p = clp base p (Fin (x p))) /\
  (forall p, inside (nshp v) p -> cumsum ax x p = y p) /\
  (forall x', (forall p, inside (nshp v) p -> cumsum ax x' p = y p) -> forall p, inside (nshp v) p -> x' p = x p).
Proof.
  destruct value_diff_inverse as (d & x & E & Sh & Hd & H1 & H2). eexists. exists x. unfold logprob_cumsum. rewrite E. cbn [rmap].
  split; [reflexivity|]. cbn [nshp nelt]. split; auto. split; auto. intros p Hp. now rewrite Hd.
Qed.
End Cum.

(** ** Joins of parts with support axes *)
Lemma firstn_nth {A} m (l : list A) k : k < m -> nth_error (firstn m l) k = nth_error l k.
Proof.
  intros H. destruct (lt_dec k (length l)).
  - rewrite <- (firstn_skipn m l) at 2. rewrite nth_error_app1; auto. rewrite firstn_length. lia.
  - rewrite !(proj2 (nth_error_None _ _)); auto; [lia|rewrite firstn_length; lia].
Qed.
Lemma same_but_firstn ax m a b : same_but ax a b -> same_but ax (firstn m a) (firstn m b).
Proof.
  intros (L & H). split; [now rewrite !firstn_length, L|]. intros k N. destruct (lt_dec k m).
  - rewrite !firstn_nth by auto. auto.
  - rewrite !(proj2 (nth_error_None _ _)); auto; rewrite firstn_length; lia.
Qed.
Lemma join_gen axis ax s bases sizes sh value : joinable ax (map pshp bases) sizes sh -> axis_is (length sh) axis ax ->
  List.Forall (fun b => psupp b = s) bases -> ax < length sh - s ->
  axis_is (length sh - s) (axis - (Z.of_nat (length sh) - Z.of_nat (length sh - s)))%Z ax ->
  exists r, logprob_join axis bases sh value = Val r /\ nshp r = firstn (length sh - s) sh /\
    forall k q p b, nth_error bases k = Some b -> part_at ax sizes q k p ->
      exists w, nelt r q = plp b w p /\ part_value ax sizes k value w.
Proof.
  intros J HA U Hb HA'. pose proof J as (N & Hax & F & S & T). set (m := length sh - s) in *. rewrite Forall_forall in U.
  assert (F' : Forall2 (fun b n => size_along ax (pshp b) n) bases sizes).
  { clear -F. revert sizes F. induction bases; intros sizes F; inversion F; subst; constructor; auto. }
  assert (HS : forall b, In b bases -> logp_shape b = firstn m (pshp b) /\ same_but ax sh (pshp b)).
  { intros b Hb'. rewrite Forall_forall in S. assert (Sb : same_but ax sh (pshp b)) by (apply S; now apply in_map). split; auto.
    unfold logp_shape. rewrite (U b Hb'). rewrite <- (proj1 Sb). reflexivity. }
  assert (Hsh : map nshp (split_logps ax 0 bases value) = map (fun b => firstn m (pshp b)) bases).
  { rewrite split_logps_shapes. apply map_ext_in. intros b Hb'. now apply HS. }
  assert (Hl : forall a, In a (split_logps ax 0 bases value) -> length (nshp a) = m).
  { intros a Ha. assert (Hi : In (nshp a) (map (fun b => firstn m (pshp b)) bases)) by (rewrite <- Hsh; now apply in_map).
    apply in_map_iff in Hi as (b & E & Hb'). rewrite <- E, firstn_length. destruct (HS b Hb') as (_ & L & _). lia. }
  assert (H1 : map atleast_1d (split_logps ax 0 bases value) = split_logps ax 0 bases value).
  { rewrite <- (map_id (split_logps ax 0 bases value)) at 2. apply map_ext_in. intros a Ha. apply atleast_1d_id.
    pose proof (Hl a Ha). destruct (nshp a); [cbn in *; lia|easy]. }
  destruct (concat_ok (axis - (Z.of_nat (length sh) - Z.of_nat m)) ax (split_logps ax 0 bases value) sizes (firstn m sh) (Val NaN)) as (r & Er & Hr & Hel); auto.
  { rewrite Hsh. split; [destruct bases; easy|]. split; [rewrite firstn_length; lia|]. split; [|split].
    - clear -F' Hb. induction F'; cbn; constructor; auto. red. now rewrite firstn_nth.
    - apply Forall_forall. intros x Hx. apply in_map_iff in Hx as (b & <- & Hb'). apply same_but_firstn. now apply HS.
    - now rewrite firstn_nth. }
  { rewrite firstn_length_le by lia. exact HA'. }
  exists r. split; [|split; auto].
  - unfold logprob_join. rewrite (proj2 (norm_axis_spec _ _ _) HA), (sum_sizes pshp ax bases sizes F'), (nth_of _ _ _ 0 T), Nat.eqb_refl.
    destruct (split_logps ax 0 bases value) as [|l0 l] eqn:El; [destruct bases; [easy|discriminate]|]. rewrite H1.
    rewrite (proj2 (forallb_forall _ _)); [|intros a Ha; apply Nat.eqb_eq; rewrite !Hl; auto; now left].
    rewrite (Hl l0) by now left. exact Er.
  - intros k q p b Hk Hp. eexists. split.
    + rewrite (Hel k q p _ (split_logps_nth ax bases 0 value sizes k b F Hk) Hp). cbn [nelt]. reflexivity.
    + intros z z' (Sq & n' & x & Hn & Hx & Hlt & Hq). cbn. f_equal. rewrite (nth_of _ _ _ 0 Hx).
      apply (set_nth_same ax); [apply nth_error_Some; congruence|now apply same_but_sym|]. rewrite Hq. f_equal. lia.
Qed.
(** as many support axes as batch axes *)
Lemma join_square axis ax s bases sizes sh value : joinable ax (map pshp bases) sizes sh -> axis = Z.of_nat ax ->
  List.Forall (fun b => psupp b = s) bases -> length sh = s + s -> ax < s ->
  exists r, logprob_join axis bases sh value = Val r /\ nshp r = firstn s sh /\
    forall k q p b, nth_error bases k = Some b -> part_at ax sizes q k p ->
      exists w, nelt r q = plp b w p /\ part_value ax sizes k value w.
Proof.
  intros J -> U L Hax. assert (E : length sh - s = s) by lia.
  pose proof (join_gen (Z.of_nat ax) ax s bases sizes sh value J) as H. rewrite E in H. apply H; auto; rewrite ?L; unfold axis_is, wraps; lia.
Qed.
Lemma cumsum_axis m me va n a r : find_measurable_cumsum m me va n a = Some r ->
  m = true /\ me = true /\ va = false /\ (a = Some r \/ (a = None /\ n <= 1 /\ r = 0%Z)).
Proof.
  unfold find_measurable_cumsum. destruct m, me, va; cbn; try discriminate.
  destruct a as [a|]; [intros E; injection E as ->; auto|]. destruct (Nat.leb_spec n 1); destruct n as [|[|n]]; cbn; try discriminate; try lia; intros E; injection E as <-; auto 8.
Qed.
