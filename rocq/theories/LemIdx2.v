(** Index expansion: elements and shapes. *)
From Coq Require Import List Arith ZArith Bool Lia.
From Verif Require Import XR ModelVec ModelIdx SpecIdx LemIdx.
Import ListNotations.
Open Scope nat_scope.

Lemma align_app s1 s2 i1 i2 : length i2 = length s2 -> length s1 <= length i1 ->
  align (s1 ++ s2) (i1 ++ i2) = align s1 i1 ++ align s2 i2.
Proof.
  intros H1 H2. unfold align. rewrite !app_length.
  replace (length i1 + length i2 - (length s1 + length s2)) with (length i1 - length s1) by lia.
  rewrite skipn_app. replace (length i1 - length s1 - length i1) with 0 by lia. cbn [skipn].
  rewrite map2_app by (rewrite skipn_length; lia). f_equal.
  replace (length i2 - length s2) with 0 by lia. easy.
Qed.
Lemma align_length s i : length s <= length i -> length (align s i) = length s.
Proof. intros H. unfold align. rewrite map2_length, skipn_length. lia. Qed.
Lemma align_drop s i1 i2 : length s <= length i2 -> align s (i1 ++ i2) = align s i2.
Proof.
  intros H. unfold align. f_equal. rewrite app_length, skipn_app.
  rewrite (skipn_all2 i1) by lia. cbn. f_equal. lia.
Qed.
Lemma align_skip s1 s2 i : length s1 + length s2 <= length i -> skipn (length s1) (align (s1 ++ s2) i) = align s2 i.
Proof.
  intros H. set (m := length i - length s2).
  assert (E : i = firstn m i ++ skipn m i) by now rewrite firstn_skipn.
  rewrite E. rewrite align_app.
  - rewrite skipn_app. rewrite skipn_all2 by (rewrite align_length; [lia|rewrite firstn_length; lia]).
    rewrite align_length by (rewrite firstn_length; lia). rewrite Nat.sub_diag. cbn. now rewrite align_drop by (rewrite skipn_length; lia).
  - rewrite skipn_length; lia.
  - rewrite firstn_length; lia.
Qed.
Lemma align_nth s i k : length s <= length i -> k < length s ->
  nth k (align s i) 0 = if nth k s 1 =? 1 then 0 else nth (length i - length s + k) i 0.
Proof.
  intros H K. unfold align. rewrite (map2_nth _ s _ k 1 0 0) by (rewrite ?skipn_length; lia). now rewrite nth_skipn.
Qed.
Lemma aligned_iff s i c : length s <= length i -> aligned s i c <-> c = align s i.
Proof.
  intros H. split.
  - intros (L & A). apply (nth_ext _ _ 0 0); [now rewrite align_length|].
    intros k Hk. rewrite align_nth by lia. specialize (A (length s - 1 - k) ltac:(lia)). unfold rnth in A.
    rewrite !rev_nth in A by lia. rewrite L in A.
    replace (length s - S (length s - 1 - k)) with k in A by lia. rewrite A.
    destruct (nth k s 1 =? 1); auto. f_equal. lia.
  - intros ->. split; [now apply align_length|]. intros r Hr. unfold rnth.
    rewrite !rev_nth by (rewrite ?align_length; lia). rewrite align_length by lia. rewrite align_nth by lia.
    destruct (_ =? 1); auto. f_equal. lia.
Qed.

Lemma skipn_one P (al : list nat) : P < length al -> skipn P (firstn (S P) al) = [nth P al 0].
Proof.
  revert al; induction P as [|P IH]; intros [|x al] H; cbn [length] in *; try lia; auto.
  rewrite firstn_cons. cbn [skipn nth]. apply IH. lia.
Qed.
Section Place.
Variables (p0 B Sn : nat).
Hypothesis p0B : p0 <= B.
Definition place {A} (sub bs : list A) : list A := firstn p0 bs ++ sub ++ skipn p0 bs.
Lemma place_length {A} (sub bs : list A) : length (place sub bs) = length sub + length bs.
Proof. unfold place. rewrite !app_length, firstn_length, skipn_length. lia. Qed.
Lemma nth_place_slot {A} (sub bs : list A) q d : length sub = Sn -> length bs = B -> q < B -> nth (slot p0 Sn q) (place sub bs) d = nth q bs d.
Proof.
  intros H1 H2 Hq. unfold slot, place. destruct (Nat.leb_spec p0 q) as [L|L].
  - rewrite app_nth2; rewrite firstn_length; [|lia]. rewrite app_nth2 by lia. rewrite nth_skipn. f_equal. lia.
  - cbn. rewrite app_nth1 by (rewrite firstn_length; lia). now apply nth_firstn.
Qed.
Lemma nth_place_sub {A} (sub bs : list A) r d : length sub = Sn -> length bs = B -> r < Sn -> nth (p0 + r) (place sub bs) d = nth r sub d.
Proof.
  intros H1 H2 Hr. unfold place. rewrite app_nth2; rewrite firstn_length; [|lia]. rewrite app_nth1 by lia. f_equal. lia.
Qed.
Lemma slot_cases j : j < Sn + B -> (exists r, r < Sn /\ j = p0 + r) \/ (exists q, q < B /\ j = slot p0 Sn q).
Proof.
  intros H. unfold slot. destruct (Nat.lt_ge_cases j p0) as [L|L].
  - right. exists j. split; [lia|]. destruct (Nat.leb_spec p0 j); lia.
  - destruct (Nat.lt_ge_cases j (p0 + Sn)) as [L'|L'].
    + left. exists (j - p0). lia.
    + right. exists (j - Sn). split; [lia|]. destruct (Nat.leb_spec p0 (j - Sn)); lia.
Qed.
Lemma slot_inj q q' : slot p0 Sn q = slot p0 Sn q' -> q = q'.
Proof. unfold slot. destruct (Nat.leb_spec p0 q), (Nat.leb_spec p0 q'); lia. Qed.
Lemma slot_sub q r : r < Sn -> slot p0 Sn q <> p0 + r.
Proof. unfold slot. destruct (Nat.leb_spec p0 q); lia. Qed.
Lemma slot_bound q : q < B -> slot p0 Sn q < Sn + B.
Proof. unfold slot. destruct (_ <=? _); lia. Qed.

Lemma get_adv t sub bs : ndim t <= Sn -> length sub = Sn -> length bs = B ->
  get (e_adv p0 B t) (align (shp (e_adv p0 B t)) (place sub bs)) = get t (align (shp t) sub).
Proof.
  intros Ht Hs Hb. unfold e_adv, place, ndim in *. cbn [shp get pad_left pad_right].
  rewrite (app_assoc (firstn p0 bs)).
  rewrite align_app by (rewrite ?app_length, ?repeat_length, ?skipn_length, ?firstn_length; lia).
  rewrite firstn_app.
  assert (L : length (align (repeat 1 p0 ++ shp t) (firstn p0 bs ++ sub)) = length (repeat 1 p0 ++ shp t)).
  { apply align_length. rewrite !app_length, repeat_length, firstn_length. lia. }
  rewrite L, Nat.sub_diag, firstn_O, app_nil_r. rewrite <- L at 1. rewrite firstn_all.
  replace p0 with (length (repeat 1 p0)) at 1 by apply repeat_length.
  rewrite align_skip by (rewrite !app_length, repeat_length, firstn_length; lia).
  rewrite align_drop by lia. easy.
Qed.
Lemma get_slice t c q i : shp t = [c] -> (forall k l, get t (k :: l) = get t [k]) -> length i = Sn + B -> q < B ->
  (nth (slot p0 Sn q) i 0 < c) ->
  get (e_slice p0 B Sn q t) (align (shp (e_slice p0 B Sn q t)) i) = get t [nth (slot p0 Sn q) i 0].
Proof.
  intros Hc Hg Hi Hq Hlt. unfold e_slice. cbn [shp get pad_left pad_right]. rewrite Hc.
  pose proof (slot_bound q Hq) as Bd. set (P := slot p0 Sn q) in *.
  assert (L : length ((repeat 1 P ++ [c]) ++ repeat 1 (Sn + B - P - 1)) = length i).
  { rewrite !app_length, !repeat_length. cbn. lia. }
  set (al := align _ i).
  assert (Lal : length al = length i) by (unfold al; rewrite align_length; lia).
  assert (E : firstn (length (repeat 1 P ++ [c])) al = firstn (S P) al).
  { f_equal. rewrite app_length, repeat_length. cbn. lia. }
  rewrite E. clear E.
  assert (E : skipn P (firstn (S P) al) = [nth P al 0]).
  { apply skipn_one. lia. }
  rewrite E. f_equal. f_equal. unfold al. rewrite align_nth by lia. rewrite L, Nat.sub_diag. cbn [Nat.add].
  assert (En : nth P ((repeat 1 P ++ [c]) ++ repeat 1 (Sn + B - P - 1)) 1 = c).
  { rewrite app_nth1 by (rewrite app_length, repeat_length; cbn; lia). rewrite app_nth2 by (rewrite repeat_length; lia). rewrite repeat_length, Nat.sub_diag. easy. }
  rewrite En. destruct (Nat.eqb_spec c 1); auto. lia.
Qed.
End Place.

(** ** Slices *)
Lemma clamp_pos (n z : Z) : (0 <= n)%Z ->
  clampZ 0 n (if (z <? 0)%Z then (z + n)%Z else z) = if (z <? 0)%Z then Z.max (z + n) 0 else Z.min z n.
Proof. intros H. unfold clampZ. destruct (Z.ltb_spec z 0); lia. Qed.
Lemma py_range start stop s n : (0 < s)%Z -> (0 <= n)%Z -> (0 <= py_start start s n <= n /\ 0 <= py_stop stop s n <= n)%Z.
Proof.
  intros Hs Hn. unfold py_start, py_stop. destruct (Z.ltb_spec s 0); [lia|].
  destruct start as [x|], stop as [y|]; try destruct (Z.ltb_spec x 0); try destruct (Z.ltb_spec y 0); lia.
Qed.
Lemma slice_arr_eq a b s n : (0 < py_step s)%Z ->
  slice_arr a b s n = arange (Z.min (py_start a (py_step s) (Z.of_nat n)) (py_stop b (py_step s) (Z.of_nat n))) (py_stop b (py_step s) (Z.of_nat n)) (py_step s).
Proof.
  intros Hs. unfold slice_arr, canonical_slice. change (match s with Some x => x | None => 1%Z end) with (py_step s).
  rewrite (proj2 (Z.ltb_lt _ _) Hs). unfold py_start, py_stop. destruct (Z.ltb_spec (py_step s) 0); [lia|].
  destruct a as [x|], b as [y|]; rewrite ?clamp_pos by lia; easy.
Qed.
Lemma ceil_lt (d s k : Z) : (0 < s)%Z -> (k < (d + s - 1) / s <-> k * s < d)%Z.
Proof.
  intros Hs. split; intros H.
  - assert (k + 1 <= (d + s - 1) / s)%Z by lia.
    assert ((k + 1) * s <= d + s - 1)%Z; [|lia].
    pose proof (Z.mul_div_le (d + s - 1) s Hs). nia.
  - assert (k + 1 <= (d + s - 1) / s)%Z; [|lia]. apply Z.div_le_lower_bound; nia.
Qed.
Lemma slice_facts a b s n : (0 < py_step s)%Z -> exists c, shp (slice_arr a b s n) = [c] /\ slice_count a b s n c /\
  (forall k l, get (slice_arr a b s n) (k :: l) = get (slice_arr a b s n) [k]) /\
  (forall k x, k < c -> slice_nth a b s n k x <-> wraps n (get (slice_arr a b s n) [k]) x).
Proof.
  intros Hs. rewrite (slice_arr_eq a b s n Hs). unfold slice_nth, slice_count, slice_nth.
  pose proof (py_range a b (py_step s) (Z.of_nat n) Hs ltac:(lia)) as (R1 & R2).
  set (st := py_start a _ _) in *. set (en := py_stop b _ _) in *. set (sp := py_step s) in *.
  replace (sp <? 0)%Z with false by (symmetry; apply Z.ltb_ge; lia).
  exists (Z.to_nat ((en - Z.min st en + sp - 1) / sp)). split; [easy|].
  assert (HC : forall k, k < Z.to_nat ((en - Z.min st en + sp - 1) / sp) <-> (st + Z.of_nat k * sp < en)%Z).
  { intros k.
    assert (E : k < Z.to_nat ((en - Z.min st en + sp - 1) / sp) <-> (Z.of_nat k < (en - Z.min st en + sp - 1) / sp)%Z) by lia.
    rewrite E, (ceil_lt (en - Z.min st en) sp (Z.of_nat k) Hs). nia. }
  split; [|split].
  - intros k. rewrite HC. split.
    + intros H. exists (Z.to_nat (st + Z.of_nat k * sp)). split; auto. nia.
    + intros (p & H & H'). lia.
  - easy.
  - intros k x Hk. apply HC in Hk. assert (st <= en)%Z by nia.
    cbn [get arange hd]. replace (Z.min st en) with st by lia. unfold wraps. split.
    + intros (H1 & H2). split; [lia|left; lia].
    + intros (H1 & [H2|H2]); [split; lia|]. nia.
Qed.
Lemma slice_count_unique a b s n c c' : slice_count a b s n c -> slice_count a b s n c' -> c = c'.
Proof.
  intros H H'. destruct (Nat.lt_trichotomy c c') as [L|[L|L]]; auto; exfalso.
  - apply H' in L. apply H in L. lia.
  - apply H in L. apply H' in L. lia.
Qed.

(** ** Elements *)
Definition nondim_le (Sn : nat) (ix : list index) : Prop := List.Forall (fun i => idx_ndim i <= Sn) ix.
Lemma basic_dims_length ix sh bd : basic_dims ix sh bd -> length bd = cnt ix.
Proof. induction 1; rewrite ?cnt_cons; cbn; auto. Qed.
Definition elem_rel (i : list nat) (na : nat * arr) (x : nat) : Prop := wraps (fst na) (get (snd na) (align (shp (snd na)) i)) x.
Lemma nloop_elem p0 B Sn sub bs (p0B : p0 <= B) : length sub = Sn -> length bs = B ->
  forall ix sh q advs bd bsuf, nloop p0 B Sn ix sh q = Val advs -> basic_dims ix sh bd ->
  positive_steps ix -> nondim_le Sn ix -> bsuf = skipn q bs -> Forall2 (fun x d => x < d) bsuf bd ->
  forall src, picks sub ix sh bsuf src <-> Forall2 (elem_rel (place p0 sub bs)) (combine sh advs) src.
Proof.
  intros Hs Hb. induction ix as [|i ix IH]; intros sh q advs bd bsuf HN HD HP HL Eb HF src.
  { cbn in HN. injection HN as <-. inversion HD as [E1 E2 E3| | | | ]; subst sh bd. inversion HF as [E4|]. split.
    - inversion 1; subst. constructor.
    - cbn. intros H; inversion H; subst. constructor. }
  assert (HP' : positive_steps ix) by (eapply Forall_inv_tail; eauto).
  assert (HL' : nondim_le Sn ix) by (eapply Forall_inv_tail; eauto).
  pose proof (Forall_inv HL) as Hi. apply Forall_inv in HP. cbn beta in Hi.
  assert (Hsk : forall b r, b :: r = skipn q bs -> q < B /\ nth q bs 0 = b /\ r = skipn (S q) bs).
  { intros b r E. assert (q < length bs). { destruct (Nat.lt_ge_cases q (length bs)); auto. rewrite skipn_all2 in E by auto. discriminate. }
    split; [lia|]. split.
    - rewrite <- (Nat.add_0_r q). rewrite <- nth_skipn, <- E. easy.
    - clear -E. revert q E. induction bs as [|x bs IH]; intros [|q] E; cbn in *; try discriminate.
      + now injection E.
      + now apply IH. }
  destruct i as [|a b s|z|a]; cbn [nloop] in HN.
  - inversion HD; subst. match goal with X : basic_dims ix _ _ |- _ => rename X into HD' end. inversion HF as [|k c r cs Hkc HF' E1 E2]; subst.
    destruct (Hsk _ _ E1) as (Hq & Hn & ->).
    specialize (IH sh (S q) advs _ _ HN HD' HP' HL' eq_refl HF' src). rewrite <- IH.
    split; [inversion 1; subst; auto|]. intros H. replace k with 0 by lia. now constructor.
  - destruct sh as [|n sh]; [discriminate|]. destruct (nloop p0 B Sn ix sh (S q)) as [r|] eqn:Er; [|discriminate].
    cbn in HN. injection HN as <-. inversion HD; subst. match goal with X : basic_dims ix _ _ |- _ => rename X into HD' end. inversion HF as [|k c' r' cs Hkc HF' E1 E2]; subst.
    destruct (Hsk _ _ E1) as (Hq & Hn & ->).
    destruct (slice_facts a b s n HP) as (c' & F1 & F2 & F3 & F4).
    assert (c' = c) by (eapply slice_count_unique; eauto). subst c'.
    assert (Hpl : nth (slot p0 (length sub) q) (place p0 sub bs) 0 = k).
    { rewrite (nth_place_slot p0 (length bs) (length sub) p0B); auto. }
    specialize (IH sh (S q) r _ _ Er HD' HP' HL' eq_refl HF').
    assert (Eg : get (e_slice p0 (length bs) (length sub) q (slice_arr a b s n)) (align (shp (e_slice p0 (length bs) (length sub) q (slice_arr a b s n))) (place p0 sub bs)) = get (slice_arr a b s n) [k]).
    { rewrite (get_slice p0 (length bs) (length sub) p0B (slice_arr a b s n) c); auto.
      - now rewrite Hpl.
      - now rewrite (place_length p0 (length bs) p0B).
      - rewrite Hpl. auto. }
    cbn [combine]. split.
    + intros H; inversion H; subst. constructor; [|now apply IH]. unfold elem_rel. cbn [fst snd]. rewrite Eg. now apply F4.
    + intros H; inversion H as [|? x ? src' Hx Hr]; subst. unfold elem_rel in Hx. cbn [fst snd] in Hx. rewrite Eg in Hx. constructor; [now apply F4|now apply IH].
  - destruct sh as [|n sh]; [discriminate|]. destruct (nloop p0 B Sn ix sh q) as [r|] eqn:Er; [|discriminate].
    cbn in HN. injection HN as <-. inversion HD; subst. match goal with X : basic_dims ix _ _ |- _ => rename X into HD' end.
    specialize (IH sh q r _ _ Er HD' HP' HL' eq_refl HF).
    pose proof (get_adv p0 (length bs) (length sub) p0B (as_tensor (IInt z)) sub bs ltac:(cbn; lia) eq_refl eq_refl) as Eg.
    cbn [combine]. split.
    + intros H; inversion H; subst. constructor; [|now apply IH]. unfold elem_rel. cbn [fst snd]. match goal with |- wraps n ?g _ => replace g with z by (symmetry; exact Eg) end. assumption.
    + intros H; inversion H as [|? x ? src' Hx Hr]; subst. unfold elem_rel in Hx. cbn [fst snd] in Hx. match type of Hx with wraps n ?g _ => replace g with z in Hx by (symmetry; exact Eg) end. constructor; auto. now apply IH.
  - destruct sh as [|n sh]; [discriminate|]. destruct (nloop p0 B Sn ix sh q) as [r|] eqn:Er; [|discriminate].
    cbn in HN. injection HN as <-. inversion HD; subst. match goal with X : basic_dims ix _ _ |- _ => rename X into HD' end.
    specialize (IH sh q r _ _ Er HD' HP' HL' eq_refl HF).
    pose proof (get_adv p0 (length bs) (length sub) p0B a sub bs Hi eq_refl eq_refl) as Eg.
    cbn [combine]. split.
    + intros H; inversion H; subst. constructor; [|now apply IH]. unfold elem_rel. cbn [fst snd as_tensor]. rewrite Eg.
      match goal with X : aligned _ _ _ |- _ => apply aligned_iff in X; [subst; auto|exact Hi] end.
    + intros H; inversion H as [|? x ? src' Hx Hr]; subst. unfold elem_rel in Hx. cbn [fst snd as_tensor] in Hx. rewrite Eg in Hx.
      econstructor; [apply aligned_iff; [exact Hi|reflexivity]|exact Hx|now apply IH].
Qed.

(** ** Shapes *)
(** the [k]-th slice/newaxis is a slice *)
Fixpoint slice_at (ix : list index) (k : nat) : bool :=
  match ix with
  | [] => false
  | INew :: ix => match k with 0 => false | S k => slice_at ix k end
  | ISlice _ _ _ :: ix => match k with 0 => true | S k => slice_at ix k end
  | _ :: ix => slice_at ix k
  end.
Lemma slice_at_new ix sh bd k : basic_dims ix sh bd -> slice_at ix k = false -> nth k bd 1 = 1.
Proof. intros H; revert k; induction H; intros k E; cbn in *; auto; destruct k; auto; discriminate. Qed.
Lemma slice_at_lt ix sh bd k : basic_dims ix sh bd -> slice_at ix k = true -> k < length bd.
Proof. intros H; revert k; induction H; intros k E; cbn in *; auto; try discriminate; destruct k; try discriminate; try lia; apply -> Nat.succ_lt_mono; auto. Qed.
Definition s_adv p0 B (t : list nat) := repeat 1 p0 ++ t ++ repeat 1 (B - p0).
Definition s_slice p0 B Sn q c := repeat 1 (slot p0 Sn q) ++ c :: repeat 1 (Sn + B - slot p0 Sn q - 1).
Lemma nloop_in p0 B Sn ix sh q advs bd : nloop p0 B Sn ix sh q = Val advs -> basic_dims ix sh bd -> positive_steps ix ->
  forall s', In s' (map shp advs) <->
    (exists t, In t (flat_map adv_shape ix) /\ s' = s_adv p0 B t) \/
    (exists k, slice_at ix k = true /\ s' = s_slice p0 B Sn (q + k) (nth k bd 1)).
Proof.
  intros HN HD; revert q advs HN. induction HD; intros q advs HN HP s'.
  - cbn in HN. injection HN as <-. cbn. split; [easy|]. intros [(t & [] & _)|(k & E & _)]; discriminate.
  - cbn in HN. rewrite (IHHD (S q) advs HN (Forall_inv_tail HP)). cbn [flat_map adv_shape app slice_at]. split.
    + intros [H|(k & E & ->)]; auto. right; exists (S k). split; auto. now replace (q + S k) with (S q + k) by lia.
    + intros [H|([|k] & E & ->)]; auto; [discriminate|]. right; exists k. split; auto. now replace (q + S k) with (S q + k) by lia.
  - cbn [nloop] in HN. destruct (nloop p0 B Sn ix sh (S q)) as [r|] eqn:Er; [|discriminate]. cbn in HN. injection HN as <-.
    destruct (slice_facts a b s n (Forall_inv HP)) as (c' & F1 & F2 & _). assert (c' = c) by (eapply slice_count_unique; eauto). subst c'.
    cbn [map In flat_map adv_shape app slice_at]. rewrite (IHHD (S q) r Er (Forall_inv_tail HP)).
    assert (E0 : shp (e_slice p0 B Sn q (slice_arr a b s n)) = s_slice p0 B Sn q c).
    { unfold e_slice, s_slice. cbn [shp pad_left pad_right]. rewrite F1. now rewrite <- app_assoc. }
    rewrite E0. split.
    + intros [<-|[H1|(k & E & ->)]]; auto.
      * right; exists 0. split; auto. now rewrite Nat.add_0_r.
      * right; exists (S k). split; auto. now replace (q + S k) with (S q + k) by lia.
    + intros [H1|([|k] & E & ->)]; auto.
      * left. now rewrite Nat.add_0_r.
      * right; right; exists k. split; auto. now replace (q + S k) with (S q + k) by lia.
  - cbn [nloop] in HN. destruct (nloop p0 B Sn ix sh q) as [r|] eqn:Er; [|discriminate]. cbn in HN. injection HN as <-.
    cbn [map In flat_map adv_shape app slice_at]. rewrite (IHHD q r Er (Forall_inv_tail HP)).
    assert (E0 : shp (e_adv p0 B (as_tensor (IInt z))) = s_adv p0 B []).
    { unfold e_adv, s_adv. cbn [shp pad_left pad_right as_tensor]. now rewrite app_nil_r. }
    cbn [as_tensor] in E0. rewrite E0. split.
    + intros [<-|[(t & I & ->)|H]]; eauto.
    + intros [(t & [<-|I] & ->)|H]; eauto.
  - cbn [nloop] in HN. destruct (nloop p0 B Sn ix sh q) as [r|] eqn:Er; [|discriminate]. cbn in HN. injection HN as <-.
    cbn [map In flat_map adv_shape app slice_at]. rewrite (IHHD q r Er (Forall_inv_tail HP)).
    assert (E0 : shp (e_adv p0 B (as_tensor (IArr a))) = s_adv p0 B (shp a)).
    { unfold e_adv, s_adv. cbn [shp pad_left pad_right as_tensor]. now rewrite <- app_assoc. }
    cbn [as_tensor] in E0. rewrite E0. split.
    + intros [<-|[(t & I & ->)|H]]; eauto.
    + intros [(t & [<-|I] & ->)|H]; eauto.
Qed.
Section Cols.
Variables (p0 B Sn : nat).
Hypothesis p0B : p0 <= B.
Lemma s_adv_len t : length (s_adv p0 B t) = length t + B.
Proof. unfold s_adv. rewrite !app_length, !repeat_length. lia. Qed.
Lemma firstn_rep k m : k <= m -> firstn k (repeat 1 m) = repeat 1 k.
Proof. revert m; induction k; intros [|m] H; cbn; auto; try lia. f_equal. apply IHk; lia. Qed.
Lemma skipn_rep k m : skipn k (repeat 1 m) = repeat 1 (m - k).
Proof. revert m; induction k; intros [|m]; cbn; auto. Qed.
Lemma s_slice_len q c : q < B -> length (s_slice p0 B Sn q c) = Sn + B.
Proof. intros H. pose proof (slot_bound p0 B Sn p0B q H). unfold s_slice. rewrite app_length. cbn. rewrite !repeat_length. lia. Qed.
Lemma s_adv_pad t : length t <= Sn -> lpad (Sn + B) (s_adv p0 B t) = place p0 (lpad Sn t) (repeat 1 B).
Proof.
  intros H. unfold lpad at 1. rewrite s_adv_len. unfold place, s_adv, lpad.
  replace (Sn + B - (length t + B)) with (Sn - length t) by lia.
  rewrite app_assoc, <- repeat_app, Nat.add_comm, repeat_app, <- !app_assoc.
  rewrite firstn_rep by lia. now rewrite skipn_rep.
Qed.
Lemma s_slice_pad q c : q < B -> lpad (Sn + B) (s_slice p0 B Sn q c) = s_slice p0 B Sn q c.
Proof. intros H. rewrite <- (s_slice_len q c H). apply lpad_id. Qed.
Lemma s_slice_nth q c : nth (slot p0 Sn q) (s_slice p0 B Sn q c) 1 = c.
Proof. unfold s_slice. rewrite app_nth2; rewrite repeat_length; [|lia]. now rewrite Nat.sub_diag. Qed.
Lemma s_slice_other q c j : j <> slot p0 Sn q -> nth j (s_slice p0 B Sn q c) 1 = 1.
Proof.
  intros H. unfold s_slice. destruct (Nat.lt_ge_cases j (slot p0 Sn q)) as [L|L].
  - rewrite app_nth1 by (rewrite repeat_length; lia). apply nth_repeat1.
  - rewrite app_nth2; rewrite repeat_length; [|lia]. destruct (j - slot p0 Sn q) eqn:E; [lia|]. cbn. apply nth_repeat1.
Qed.
Lemma lpad_len t : length t <= Sn -> length (lpad Sn t) = Sn.
Proof. intros H. unfold lpad. rewrite app_length, repeat_length. lia. Qed.

Section Fix.
Variables (ix : list index) (sh bd : list nat) (advs : list arr).
Hypotheses (HN : nloop p0 B Sn ix sh 0 = Val advs) (HD : basic_dims ix sh bd) (HP : positive_steps ix)
  (HB : cnt ix = B) (HS : forall t, In t (flat_map adv_shape ix) -> length t <= Sn).
Lemma Hbd : length bd = B. Proof. rewrite <- HB. eapply basic_dims_length; eauto. Qed.
Lemma col_sub r : r < Sn -> forall x, (exists s', In s' (map shp advs) /\ nth (p0 + r) (lpad (Sn + B) s') 1 = x) ->
   x = 1 \/ exists t, In t (flat_map adv_shape ix) /\ nth r (lpad Sn t) 1 = x.
Proof.
  intros Hr x (s' & I & E). apply (nloop_in _ _ _ _ _ _ _ _ HN HD HP) in I as [(t & I & ->)|(k & E' & ->)].
  - right. exists t. split; auto. rewrite s_adv_pad in E by auto.
    rewrite (nth_place_sub p0 B Sn p0B) in E; auto; [now apply lpad_len; auto|apply repeat_length].
  - left. pose proof (slice_at_lt _ _ _ _ HD E') as Hk. rewrite Hbd in Hk. cbn [Nat.add] in E. rewrite s_slice_pad in E by auto.
    rewrite s_slice_other in E; auto. intros H. apply (slot_sub p0 B Sn p0B k r); auto.
Qed.
Lemma col_sub' r t : r < Sn -> In t (flat_map adv_shape ix) ->
  exists s', In s' (map shp advs) /\ nth (p0 + r) (lpad (Sn + B) s') 1 = nth r (lpad Sn t) 1.
Proof.
  intros Hr I. exists (s_adv p0 B t). split; [apply (nloop_in _ _ _ _ _ _ _ _ HN HD HP); eauto|].
  rewrite s_adv_pad by auto. apply (nth_place_sub p0 B Sn p0B); auto. now apply lpad_len; auto. apply repeat_length.
Qed.
Lemma col_basic q : q < B -> forall x, (exists s', In s' (map shp advs) /\ nth (slot p0 Sn q) (lpad (Sn + B) s') 1 = x) ->
  x = 1 \/ x = nth q bd 1.
Proof.
  intros Hq x (s' & I & E). apply (nloop_in _ _ _ _ _ _ _ _ HN HD HP) in I as [(t & I & ->)|(k & E' & ->)].
  - left. rewrite s_adv_pad in E by auto.
    rewrite (nth_place_slot p0 B Sn p0B) in E; auto; [now rewrite nth_repeat1 in E|now apply lpad_len; auto|apply repeat_length].
  - pose proof (slice_at_lt _ _ _ _ HD E') as Hk. rewrite Hbd in Hk. cbn [Nat.add] in E. rewrite s_slice_pad in E by auto.
    destruct (Nat.eq_dec k q) as [->|N]; [right|left].
    + rewrite s_slice_nth in E. auto.
    + rewrite s_slice_other in E; auto. intros H. apply N. symmetry. eapply (slot_inj p0 B Sn p0B); eauto.
Qed.
Lemma col_basic' q : q < B -> nth q bd 1 = 1 \/ exists s', In s' (map shp advs) /\ nth (slot p0 Sn q) (lpad (Sn + B) s') 1 = nth q bd 1.
Proof.
  intros Hq. destruct (slice_at ix q) eqn:E; [right|left; eapply slice_at_new; eauto].
  exists (s_slice p0 B Sn q (nth q bd 1)). split; [apply (nloop_in _ _ _ _ _ _ _ _ HN HD HP); right; exists q; auto|].
  rewrite s_slice_pad by auto. apply s_slice_nth.
Qed.
Lemma advs_len s' : In s' (map shp advs) -> length s' <= Sn + B.
Proof.
  intros I. apply (nloop_in _ _ _ _ _ _ _ _ HN HD HP) in I as [(t & I & ->)|(k & E' & ->)].
  - rewrite s_adv_len. specialize (HS t I). lia.
  - pose proof (slice_at_lt _ _ _ _ HD E') as Hk. rewrite Hbd in Hk. cbn [Nat.add]. rewrite s_slice_len by auto. lia.
Qed.
Lemma nonempty_kind : sh <> [] -> (exists k, slice_at ix k = true) \/ exists t, In t (flat_map adv_shape ix).
Proof.
  clear HN HB HS. induction HD; intros N; try easy.
  - destruct IHb as [(k & E)|H]; auto. { eapply Forall_inv_tail; eauto. } left; exists (S k); auto.
  - left; exists 0; easy.
  - right; exists []; cbn; auto.
  - right; exists (shp a); cbn; auto.
Qed.
(** full length is reached as soon as the advanced shapes reach [Sn] *)
Lemma advs_full : sh <> [] -> (Sn = 0 \/ exists t, In t (flat_map adv_shape ix) /\ length t = Sn) ->
  exists s', In s' (map shp advs) /\ length s' = Sn + B.
Proof.
  intros N H. destruct (nonempty_kind N) as [(k & E)|(t & I)].
  - pose proof (slice_at_lt _ _ _ _ HD E) as Hk. rewrite Hbd in Hk.
    exists (s_slice p0 B Sn k (nth k bd 1)). split; [apply (nloop_in _ _ _ _ _ _ _ _ HN HD HP); right; exists k; auto|now apply s_slice_len].
  - assert (exists t, In t (flat_map adv_shape ix) /\ length t = Sn) as (t' & I' & L).
    { destruct H as [->|H]; auto. exists t. split; auto. specialize (HS t I). lia. }
    exists (s_adv p0 B t'). split; [apply (nloop_in _ _ _ _ _ _ _ _ HN HD HP); eauto|]. rewrite s_adv_len. lia.
Qed.
Lemma shape_forward subsh : sh <> [] -> length subsh = Sn -> is_broadcast (flat_map adv_shape ix) subsh ->
  is_broadcast (map shp advs) (place p0 subsh bd).
Proof.
  intros N L Hb. apply is_broadcast_cols in Hb as (B1 & B2 & B3). apply is_broadcast_cols.
  rewrite (place_length p0 B p0B) by apply Hbd. rewrite L, Hbd. rewrite L in B3.
  split; [apply advs_len|]. split.
  - right. apply advs_full; auto. destruct B2 as [->|(t & I & E)]; [left; auto|right; exists t; split; auto; lia].
  - intros j Hj. destruct (slot_cases p0 B Sn p0B j Hj) as [(r & Hr & ->)|(q & Hq & ->)].
    + rewrite (nth_place_sub p0 B Sn p0B subsh bd r 1 L Hbd Hr). destruct (B3 r Hr) as (C1 & C2). split.
      * intros s' I. destruct (col_sub r Hr _ (ex_intro _ s' (conj I eq_refl))) as [E|(t & I' & E)]; auto. rewrite <- E. auto.
      * destruct C2 as [E|(t & I & E)]; auto. right. destruct (col_sub' r t Hr I) as (s' & I' & E'). exists s'. split; auto. congruence.
    + rewrite (nth_place_slot p0 B Sn p0B subsh bd q 1 L Hbd Hq). split.
      * intros s' I. destruct (col_basic q Hq _ (ex_intro _ s' (conj I eq_refl))); auto.
      * apply col_basic'; auto.
Qed.
Lemma shape_backward s : sh <> [] -> (Sn = 0 \/ exists t, In t (flat_map adv_shape ix) /\ length t = Sn) ->
  is_broadcast (map shp advs) s ->
  exists subsh, length subsh = Sn /\ s = place p0 subsh bd /\ is_broadcast (flat_map adv_shape ix) subsh.
Proof.
  intros N Hf Hb. apply is_broadcast_cols in Hb as (B1 & B2 & B3).
  assert (L : length s = Sn + B).
  { destruct (advs_full N Hf) as (s' & I & E). specialize (B1 s' I). destruct B2 as [->|(s2 & I2 & E2)]; [cbn in B1; cbn; lia|].
    pose proof (advs_len s2 I2). lia. }
  rewrite L in B3. exists (firstn Sn (skipn p0 s)).
  assert (Ls : length (firstn Sn (skipn p0 s)) = Sn) by (rewrite firstn_length, skipn_length; lia).
  assert (En : forall r, r < Sn -> nth r (firstn Sn (skipn p0 s)) 1 = nth (p0 + r) s 1) by (intros r Hr; rewrite nth_firstn by auto; apply nth_skipn).
  assert (Es : s = place p0 (firstn Sn (skipn p0 s)) bd).
  { apply (nth_ext _ _ 1 1); [rewrite (place_length p0 B p0B) by apply Hbd; rewrite Hbd; lia|].
    intros j Hj. rewrite L in Hj. destruct (slot_cases p0 B Sn p0B j Hj) as [(r & Hr & ->)|(q & Hq & ->)].
    - rewrite (nth_place_sub p0 B Sn p0B _ bd r 1 Ls Hbd Hr). symmetry. auto.
    - rewrite (nth_place_slot p0 B Sn p0B _ bd q 1 Ls Hbd Hq). destruct (B3 _ Hj) as (C1 & C2).
      destruct (col_basic' q Hq) as [E|(s' & I & E)].
      + rewrite E. destruct C2 as [?|(s' & I & E')]; auto.
        destruct (col_basic q Hq _ (ex_intro _ s' (conj I E'))); congruence.
      + destruct (C1 s' I) as [E'|E']; [|congruence]. rewrite E' in E. rewrite <- E.
        destruct C2 as [?|(s2 & I2 & E2)]; auto.
        destruct (col_basic q Hq _ (ex_intro _ s2 (conj I2 E2))); congruence. }
  split; auto. split; auto. apply is_broadcast_cols. rewrite Ls. split; [apply HS|]. split.
  - destruct Hf as [->|(t & I & E)]; [left; easy|right; eauto].
  - intros r Hr. rewrite En by auto. assert (Hj : p0 + r < Sn + B) by lia. destruct (B3 _ Hj) as (C1 & C2). split.
    + intros t I. destruct (col_sub' r t Hr I) as (s' & I' & E). rewrite <- E. auto.
    + destruct C2 as [?|(s' & I & E)]; auto. exact (col_sub r Hr _ (ex_intro _ s' (conj I E))).
Qed.
End Fix.
End Cols.

(** ** The whole function *)
Lemma Forall2_nth_iff (a b : list nat) : length a = length b -> (forall q, q < length a -> nth q a 0 < nth q b 1) -> Forall2 (fun x d => x < d) a b.
Proof.
  revert b; induction a as [|x a IH]; intros [|y b] L H; try discriminate; constructor.
  - apply (H 0). cbn; lia.
  - apply IH; [now injection L|]. intros q Hq. apply (H (S q)). cbn; lia.
Qed.
Lemma completes_full ix sh full : completes ix sh full -> full = full_indices ix sh.
Proof.
  unfold full_indices. induction 1; cbn [filter is_newaxis negb app length].
  - cbn. now rewrite Nat.sub_0_r.
  - now rewrite IHcompletes.
  - destruct i; [easy| | | ]; cbn; now rewrite IHcompletes.
Qed.
Lemma full_pos ix sh : positive_steps ix -> positive_steps (full_indices ix sh).
Proof.
  intros H. apply Forall_app. split; auto. apply Forall_forall. intros x Hx. apply repeat_spec in Hx. subst. cbn. lia.
Qed.
Lemma nloop_fits p0 B Sn ix sh q bd : basic_dims ix sh bd -> exists advs, nloop p0 B Sn ix sh q = Val advs /\ length advs = length sh.
Proof.
  intros H; revert q; induction H; intros q; cbn [nloop].
  - exists []. auto.
  - destruct (IHbasic_dims (S q)) as (r & -> & L). exists r; auto.
  - destruct (IHbasic_dims (S q)) as (r & -> & L). eexists; split; [reflexivity|]. cbn; auto.
  - destruct (IHbasic_dims q) as (r & -> & L). eexists; split; [reflexivity|]. cbn; auto.
  - destruct (IHbasic_dims q) as (r & -> & L). eexists; split; [reflexivity|]. cbn; auto.
Qed.
Lemma nloop_dims p0 B Sn ix sh q advs : nloop p0 B Sn ix sh q = Val advs -> positive_steps ix ->
  length (filter (fun i => negb (is_newaxis i)) ix) = length sh -> exists bd, basic_dims ix sh bd.
Proof.
  revert sh q advs; induction ix as [|i ix IH]; intros sh q advs HN HP HL.
  - destruct sh; [|discriminate]. exists []; constructor.
  - pose proof (Forall_inv HP) as Hi. apply Forall_inv_tail in HP.
    destruct i as [|a b s|z|a]; cbn in HN, HL.
    + destruct (IH _ _ _ HN HP HL) as (bd & H). eexists; constructor; eauto.
    + destruct sh as [|n sh]; [discriminate|]. destruct (nloop p0 B Sn ix sh (S q)) as [r|] eqn:Er; [|discriminate].
      destruct (IH _ _ _ Er HP ltac:(cbn in HL; lia)) as (bd & H). destruct (slice_facts a b s n Hi) as (c & _ & F2 & _).
      eexists; constructor; eauto. lia.
    + destruct sh as [|n sh]; [discriminate|]. destruct (nloop p0 B Sn ix sh q) as [r|] eqn:Er; [|discriminate].
      destruct (IH _ _ _ Er HP ltac:(cbn in HL; lia)) as (bd & H). eexists; constructor; eauto.
    + destruct sh as [|n sh]; [discriminate|]. destruct (nloop p0 B Sn ix sh q) as [r|] eqn:Er; [|discriminate].
      destruct (IH _ _ _ Er HP ltac:(cbn in HL; lia)) as (bd & H). eexists; constructor; eauto.
Qed.
Lemma nloop_room p0 B Sn ix sh q advs : nloop p0 B Sn ix sh q = Val advs ->
  length (filter (fun i => negb (is_newaxis i)) ix) <= length sh.
Proof.
  revert sh q advs; induction ix as [|i ix IH]; intros sh q advs HN; [cbn; lia|].
  destruct i as [|a b s|z|a]; cbn in *; eauto.
  all: destruct sh as [|n sh]; [discriminate|]; match type of HN with bind ?X _ = _ => destruct X as [r|] eqn:Er; [|discriminate] end;
    specialize (IH _ _ _ Er); cbn; lia.
Qed.
Lemma full_count ix sh : length (filter (fun i => negb (is_newaxis i)) ix) <= length sh ->
  length (filter (fun i => negb (is_newaxis i)) (full_indices ix sh)) = length sh.
Proof.
  intros H. unfold full_indices. rewrite filter_app, app_length.
  assert (E : forall k, filter (fun i => negb (is_newaxis i)) (repeat (ISlice None None None) k) = repeat (ISlice None None None) k).
  { induction k; cbn; auto. now rewrite IHk. }
  rewrite E, repeat_length. lia.
Qed.
Lemma full_completes ix sh : length (filter (fun i => negb (is_newaxis i)) ix) <= length sh -> completes ix sh (full_indices ix sh).
Proof.
  unfold full_indices. revert sh; induction ix as [|i ix IH]; intros sh H.
  - cbn. rewrite Nat.sub_0_r. constructor.
  - destruct i as [|a b s|z|a]; cbn in *.
    + constructor. auto.
    + destruct sh as [|n sh]; [cbn in H; lia|]. cbn. constructor; [easy|apply IH; cbn in H; lia].
    + destruct sh as [|n sh]; [cbn in H; lia|]. cbn. constructor; [easy|apply IH; cbn in H; lia].
    + destruct sh as [|n sh]; [cbn in H; lia|]. cbn. constructor; [easy|apply IH; cbn in H; lia].
Qed.
Definition nsub (full : list index) : nat := list_max (map idx_ndim (filter (fun i => negb (is_basic i)) full)).
Lemma in_adv_shape full t : In t (flat_map adv_shape full) <-> exists i, In i full /\ advanced i /\ t = shp (as_tensor i).
Proof.
  rewrite in_flat_map. split.
  - intros (i & I & H). exists i. destruct i; cbn in H; try tauto; destruct H as [<-|[]]; cbn; auto.
  - intros (i & I & A & ->). exists i. split; auto. destruct i; cbn in *; auto; tauto.
Qed.
Lemma idx_ndim_eq i : advanced i -> idx_ndim i = length (shp (as_tensor i)).
Proof. destruct i; cbn; auto; tauto. Qed.
Lemma nsub_le full t : In t (flat_map adv_shape full) -> length t <= nsub full.
Proof.
  intros H. apply in_adv_shape in H as (i & I & A & ->). rewrite <- idx_ndim_eq by auto.
  unfold nsub. assert (F : List.Forall (fun k => k <= list_max (map idx_ndim (filter (fun i => negb (is_basic i)) full))) (map idx_ndim (filter (fun i => negb (is_basic i)) full))) by (apply list_max_le; lia).
  rewrite Forall_forall in F. apply F. apply in_map. apply filter_In. split; auto. apply advanced_b in A. now rewrite A.
Qed.
Lemma nsub_reached full : nsub full = 0 \/ exists t, In t (flat_map adv_shape full) /\ length t = nsub full.
Proof.
  unfold nsub. assert (H : forall l, list_max l = 0 \/ In (list_max l) l).
  { induction l as [|x l IH]; [cbn; auto|]. change (list_max (x :: l)) with (Nat.max x (list_max l)). destruct (Nat.max_spec x (list_max l)) as [(L & ->)|(L & ->)]; [destruct IH as [E|I]; [lia|right; right; exact I]|right; left; easy]. }
  destruct (H (map idx_ndim (filter (fun i => negb (is_basic i)) full))) as [E|I]; auto. right.
  apply in_map_iff in I as (i & E & I). apply filter_In in I as (I & Hi).
  assert (A : advanced i) by (apply advanced_b; now destruct (is_basic i)).
  exists (shp (as_tensor i)). split; [apply in_adv_shape; eauto|]. now rewrite <- idx_ndim_eq.
Qed.
Lemma nsub_nondim full : nondim_le (nsub full) full.
Proof.
  apply Forall_forall. intros i I. destruct i as [|a b s|z|a]; try (cbn; lia).
  change (idx_ndim (IArr a)) with (length (shp a)). apply nsub_le. apply in_adv_shape. exists (IArr a). cbn; auto.
Qed.
Lemma nsub_zero full : (forall x, In x full -> basic x) -> nsub full = 0.
Proof.
  intros H. destruct (nsub_reached full) as [E|(t & I & E)]; auto. apply in_adv_shape in I as (i & I & A & _).
  specialize (H i I). now destruct i.
Qed.
Lemma insertion_le full : insertion full <= cnt full.
Proof.
  unfold insertion. destruct (moved_subspace _); [lia|].
  remember (match find_from false (map is_basic full) 0 with Some d => d | None => length full end) as d eqn:Ed.
  destruct (leading_split full d (eq_sym Ed)) as (l1 & l2 & E & F & L & _). rewrite E, cnt_app, (cnt_all _ F). lia.
Qed.
Lemma expand_eq ix sh : let full := full_indices ix sh in
  expand_indices ix sh = bind (nloop (insertion full) (cnt full) (nsub full) full sh 0) broadcast_arrays.
Proof.
  intros full. unfold expand_indices. fold full. fold (cnt full). fold (nsub full). f_equal.
  exact (expand_norm full (length sh) (nsub full) (nsub_zero full) full [] sh eq_refl).
Qed.
Lemma sub_len full s : is_broadcast (flat_map adv_shape full) s -> length s = nsub full.
Proof.
  intros (A & Bq & _). destruct (nsub_reached full) as [E|(t & I & E)].
  - rewrite E. destruct Bq as [->|(t & I & <-)]; auto. apply nsub_le in I. lia.
  - specialize (A t I). destruct Bq as [->|(t' & I' & E')]; [cbn in A |- *; lia|]. apply nsub_le in I'. lia.
Qed.
Lemma np_shape_iff ix sh o : sh <> [] -> positive_steps ix ->
  (np_shape ix sh o <-> exists advs, expand_indices ix sh = Val advs /\ length advs = length sh /\ List.Forall (fun a => shp a = o) advs).
Proof.
  intros N HP. set (full := full_indices ix sh). pose proof (full_pos ix sh HP) as HPf. fold full in HPf.
  rewrite (expand_eq ix sh). fold full. split.
  - intros (full' & sub & bs & Hc & Hb & Hd & Hp). apply completes_full in Hc. fold full in Hc. subst full'.
    destruct (nloop_fits (insertion full) (cnt full) (nsub full) full sh 0 bs Hd) as (advs & EN & L).
    rewrite EN. cbn [bind]. apply placed_insertion in Hp. fold (place (insertion full) sub bs) in Hp. subst o.
    pose proof (shape_forward _ _ _ (insertion_le full) _ _ _ _ EN Hd HPf eq_refl (nsub_le full) sub N (sub_len _ _ Hb) Hb) as F.
    apply bcast_all_spec in F. unfold broadcast_arrays. rewrite F. cbn [bind].
    eexists; split; [reflexivity|]. split; [now rewrite map_length|]. apply Forall_forall. intros a Ha. apply in_map_iff in Ha as (a' & <- & _). easy.
  - intros (advs & E & L & F). destruct (nloop (insertion full) (cnt full) (nsub full) full sh 0) as [r|] eqn:EN; [|discriminate].
    cbn [bind] in E. unfold broadcast_arrays in E. destruct (bcast_all (map shp r)) as [s|] eqn:Eb; [|discriminate]. cbn [bind] in E. injection E as <-.
    pose proof (nloop_room _ _ _ _ _ _ _ EN) as HR.
    assert (HR' : length (filter (fun i => negb (is_newaxis i)) ix) <= length sh).
    { unfold full, full_indices in HR. rewrite filter_app, app_length in HR. lia. }
    destruct (nloop_dims _ _ _ _ _ _ _ EN HPf (full_count ix sh HR')) as (bd & Hd).
    apply bcast_all_spec in Eb.
    destruct (shape_backward _ _ _ (insertion_le full) _ _ _ _ EN Hd HPf eq_refl (nsub_le full) s N (nsub_reached full) Eb) as (subsh & Ls & -> & Hb).
    exists full, subsh, bd. split; [apply full_completes; auto|]. split; auto. split; auto.
    apply placed_insertion. fold (place (insertion full) subsh bd).
    destruct r as [|a r]; [destruct sh; [easy|discriminate]|]. apply Forall_inv in F. cbn in F. auto.
Qed.
Lemma picks_len sub ix sh bs src : picks sub ix sh bs src -> length bs = cnt ix.
Proof. induction 1; rewrite ?cnt_cons; cbn; auto. Qed.
Lemma np_element_iff ix sh o advs : sh <> [] -> positive_steps ix -> np_shape ix sh o -> expand_indices ix sh = Val advs ->
  forall i src, inside o i -> (np_element ix sh i src <-> Forall2 (fun na x => wraps (fst na) (get (snd na) i) x) (combine sh advs) src).
Proof.
  intros N HP HS HE i src Hin. set (full := full_indices ix sh). pose proof (full_pos ix sh HP) as HPf. fold full in HPf.
  destruct HS as (full' & sub & bd & Hc & Hb & Hd & Hp). pose proof (completes_full _ _ _ Hc) as Ef. fold full in Ef. subst full'.
  rewrite (expand_eq ix sh) in HE. fold full in HE.
  destruct (nloop (insertion full) (cnt full) (nsub full) full sh 0) as [r|] eqn:EN; [|discriminate].
  cbn [bind] in HE. unfold broadcast_arrays in HE. destruct (bcast_all (map shp r)) as [s|] eqn:Eb; [|discriminate]. cbn [bind] in HE. injection HE as <-.
  assert (EC : forall src, Forall2 (fun na x => wraps (fst na) (get (snd na) i) x) (combine sh (map (broadcast_to s) r)) src <->
               Forall2 (elem_rel i) (combine sh r) src).
  { clear. revert r; induction sh as [|n sh IH]; intros [|a r] src; cbn [combine map]; try tauto.
    all: split; intros H; inversion H; subst; constructor; try assumption; apply IH; assumption. }
  rewrite EC. apply placed_insertion in Hp. fold (place (insertion full) sub bd) in Hp. subst o.
  pose proof (sub_len _ _ Hb) as Ls. pose proof (basic_dims_length _ _ _ Hd) as Lb.
  assert (Li : length i = nsub full + cnt full).
  { assert (Ll : length i = length (place (insertion full) sub bd)) by (clear -Hin; unfold inside in Hin; induction Hin; cbn; auto). rewrite Ll. rewrite (place_length _ _ (insertion_le full)) by auto. lia. }
  set (p0 := insertion full) in *. pose proof (insertion_le full : p0 <= cnt full) as p0B.
  (* coordinates *)
  set (bs := firstn p0 i ++ skipn (p0 + nsub full) i). set (su := firstn (nsub full) (skipn p0 i)).
  assert (Lsu : length su = nsub full) by (unfold su; rewrite firstn_length, skipn_length; lia).
  assert (Lbs : length bs = cnt full) by (unfold bs; rewrite app_length, firstn_length, skipn_length; lia).
  assert (Ei : i = place p0 su bs).
  { unfold place, bs, su. rewrite firstn_app, firstn_firstn, Nat.min_id, firstn_length.
    replace (p0 - min p0 (length i)) with 0 by lia. rewrite firstn_O, app_nil_r.
    rewrite skipn_app, (skipn_all2 (firstn p0 i)) by (rewrite firstn_length; lia).
    rewrite firstn_length. replace (p0 - min p0 (length i)) with 0 by lia. cbn [app skipn].
    assert (G : skipn (p0 + nsub full) i = skipn (nsub full) (skipn p0 i)).
    { clear. revert i; induction p0 as [|p IH]; intros [|x i]; cbn; auto. now rewrite skipn_nil. }
    rewrite G, (firstn_skipn (nsub full)). now rewrite firstn_skipn. }
  assert (HF : Forall2 (fun x d => x < d) bs bd).
  { apply Forall2_nth_iff; [congruence|]. intros q Hq. rewrite Lbs in Hq.
    assert (Hnth : forall j, j < length i -> nth j i 0 < nth j (place p0 sub bd) 1).
    { clear -Hin. unfold inside in Hin. induction Hin; cbn; [lia|]. intros [|j] H'; auto. apply IHHin; lia. }
    specialize (Hnth (slot p0 (nsub full) q)). rewrite (nth_place_slot p0 (cnt full) (nsub full) p0B) in Hnth by auto.
    rewrite Ei in Hnth. rewrite (nth_place_slot p0 (cnt full) (nsub full) p0B) in Hnth by auto.
    apply Hnth. rewrite <- Ei. rewrite Li. apply slot_bound; auto. }
  pose proof (nloop_elem p0 (cnt full) (nsub full) su bs p0B Lsu Lbs full sh 0 r bd bs EN Hd HPf (nsub_nondim full) eq_refl HF src) as HE.
  rewrite <- Ei in HE. rewrite <- HE. split.
  - intros (full2 & subsh & sub2 & bs2 & Hc2 & Hb2 & Ls2 & Hp2 & Hk). apply completes_full in Hc2. fold full in Hc2. subst full2.
    apply placed_insertion in Hp2. fold p0 (place p0 sub2 bs2) in Hp2. rewrite (sub_len _ _ Hb2) in Ls2.
    pose proof (picks_len _ _ _ _ _ Hk) as Lb2.
    assert (sub2 = su /\ bs2 = bs) as (-> & ->); [|auto].
    rewrite Ei in Hp2. split.
    + apply (nth_ext _ _ 0 0); [lia|]. intros k Hk'. rewrite Ls2 in Hk'.
      rewrite <- (nth_place_sub p0 (cnt full) (nsub full) p0B sub2 bs2 k 0) by auto. rewrite <- Hp2.
      rewrite (nth_place_sub p0 (cnt full) (nsub full) p0B) by auto. easy.
    + apply (nth_ext _ _ 0 0); [lia|]. intros k Hk'. rewrite Lb2 in Hk'.
      rewrite <- (nth_place_slot p0 (cnt full) (nsub full) p0B sub2 bs2 k 0) by auto. rewrite <- Hp2.
      rewrite (nth_place_slot p0 (cnt full) (nsub full) p0B) by auto. easy.
  - intros H. exists full, sub, su, bs. split; auto. split; auto. split; [lia|]. split; auto.
    apply placed_insertion. exact Ei.
Qed.
Lemma nloop_len p0 B Sn ix sh q advs : nloop p0 B Sn ix sh q = Val advs -> length advs = length (filter (fun i => negb (is_newaxis i)) ix).
Proof.
  revert sh q advs; induction ix as [|i ix IH]; intros sh q advs HN; [injection HN as <-; easy|].
  destruct i as [|a b s|z|a]; cbn in *; eauto.
  all: destruct sh as [|n sh]; [discriminate|]; match type of HN with bind ?X _ = _ => destruct X as [r|] eqn:Er; [|discriminate] end;
    cbn in HN; injection HN as <-; cbn; f_equal; eapply IH; eauto.
Qed.
Lemma expand_accepts ix sh advs : sh <> [] -> positive_steps ix -> expand_indices ix sh = Val advs -> exists o, np_shape ix sh o.
Proof.
  intros N HP E. pose proof E as E'. rewrite (expand_eq ix sh) in E. set (full := full_indices ix sh) in *.
  destruct (nloop (insertion full) (cnt full) (nsub full) full sh 0) as [r|] eqn:EN; [|discriminate].
  cbn [bind] in E. unfold broadcast_arrays in E. destruct (bcast_all (map shp r)) as [s|] eqn:Eb; [|discriminate]. cbn [bind] in E. injection E as <-.
  exists s. apply np_shape_iff; auto. eexists; split; [exact E'|]. split.
  - rewrite map_length. rewrite (nloop_len _ _ _ _ _ _ _ EN). apply full_count.
    pose proof (nloop_room _ _ _ _ _ _ _ EN) as HR. unfold full, full_indices in HR. rewrite filter_app, app_length in HR. lia.
  - apply Forall_forall. intros a Ha. apply in_map_iff in Ha as (a' & <- & _). easy.
Qed.
Lemma expand_indices_spec ix sh : sh <> [] -> positive_steps ix ->
  (forall o, np_shape ix sh o -> exists advs, expand_indices ix sh = Val advs /\ length advs = length sh /\
     List.Forall (fun a => shp a = o) advs /\
     forall i src, inside o i ->
       (np_element ix sh i src <-> Forall2 (fun na x => wraps (fst na) (get (snd na) i) x) (combine sh advs) src)) /\
  (forall advs, expand_indices ix sh = Val advs -> exists o, np_shape ix sh o).
Proof.
  intros N HP. split; [|intros advs; now apply expand_accepts].
  intros o Ho. destruct (proj1 (np_shape_iff ix sh o N HP) Ho) as (advs & E & L & F).
  exists advs. split; auto. split; auto. split; auto. eapply np_element_iff; eauto.
Qed.

(** ** Negative steps *)
Lemma neg_slice a b s n : (py_step s < 0)%Z -> exists c, shp (slice_arr a b s n) = [c] /\ slice_count a b s n c /\
  forall k, k < c -> exists x, slice_nth a b s n (c - 1 - k) x /\ get (slice_arr a b s n) [k] = Z.of_nat x.
Proof.
  intros Hs. unfold slice_arr, canonical_slice. change (match s with Some x => x | None => 1%Z end) with (py_step s).
  destruct (Z.ltb_spec 0 (py_step s)); [lia|].
  unfold slice_count, slice_nth. set (sp := py_step s) in *.
  assert (Ea : match a with None => (Z.of_nat n - 1)%Z | Some z => clampZ (-1) (Z.of_nat n - 1) (if (z <? 0)%Z then (z + Z.of_nat n)%Z else z) end = py_start a sp (Z.of_nat n)).
  { unfold py_start, clampZ. destruct (Z.ltb_spec sp 0); [|lia]. destruct a as [z|]; auto. destruct (Z.ltb_spec z 0); lia. }
  assert (Eb : match b with None => (-1)%Z | Some z => clampZ (-1) (Z.of_nat n - 1) (if (z <? 0)%Z then (z + Z.of_nat n)%Z else z) end = py_stop b sp (Z.of_nat n)).
  { unfold py_stop, clampZ. destruct (Z.ltb_spec sp 0); [|lia]. destruct b as [z|]; auto. destruct (Z.ltb_spec z 0); lia. }
  rewrite Ea, Eb.
  assert (Rb : (-1 <= py_stop b sp (Z.of_nat n))%Z).
  { unfold py_stop. destruct (Z.ltb_spec sp 0); [|lia]. destruct b as [z|]; [destruct (Z.ltb_spec z 0)|]; lia. }
  set (st := py_start a sp _) in *. set (en := py_stop b sp _) in *.
  destruct (Z.ltb_spec sp 0); [|lia].
  set (t := (- sp)%Z) in *. assert (Ht : (0 < t)%Z) by lia. assert (Est : sp = (- t)%Z) by lia. clearbody t. clear Ea Eb. clearbody sp. subst sp.
  set (len := Z.max 0 ((st - en - 1) / t + 1)).
  assert (HC : forall k : nat, (Z.of_nat k < len)%Z <-> (en < st + Z.of_nat k * - t)%Z).
  { intros k. unfold len. pose proof (ceil_lt (st - en) t (Z.of_nat k) Ht) as C.
    replace (st - en + t - 1)%Z with ((st - en - 1) + 1 * t)%Z in C by lia. rewrite Z.div_add in C by lia.
    assert (E : (Z.of_nat k < Z.max 0 ((st - en - 1) / t + 1) <-> Z.of_nat k < (st - en - 1) / t + 1)%Z) by lia.
    rewrite E, C. nia. }
  exists (Z.to_nat len).
  assert (Hlen : (0 <= len)%Z) by (unfold len; lia).
  assert (HC2 : forall k, k < Z.to_nat len <-> (en < st + Z.of_nat k * - t)%Z) by (intros k; rewrite <- HC; lia).
  clearbody len.
  split; [|split].
  - cbn. f_equal. f_equal. destruct (Z.eqb_spec len 0) as [->|Nz].
    + replace (st + 1 - (st + 1) + t - 1)%Z with (t - 1)%Z by lia. apply Z.div_small. lia.
    + replace (st + 1 - (st - (len - 1) * t) + t - 1)%Z with (len * t)%Z by lia. apply Z.div_mul. lia.
  - intros k. rewrite HC2. split.
    + intros H1. exists (Z.to_nat (st + Z.of_nat k * - t)). split; auto. lia.
    + intros (p & H1 & H2). lia.
  - intros k Hk. assert (Hk2 : Z.to_nat len - 1 - k < Z.to_nat len) by lia. apply HC2 in Hk2.
    exists (Z.to_nat (st + Z.of_nat (Z.to_nat len - 1 - k) * - t)). split; [split; auto; lia|].
    cbn. destruct (Z.eqb_spec len 0); [lia|]. replace (Z.of_nat (Z.to_nat len - 1 - k)) with (len - 1 - Z.of_nat k)%Z in * by lia. nia.
Qed.
Lemma neg_slice_expand a b s n : (py_step s < 0)%Z -> exists c adv, expand_indices [ISlice a b s] [n] = Val [adv] /\
  shp adv = [c] /\ slice_count a b s n c /\
  forall k, k < c -> exists x, slice_nth a b s n (c - 1 - k) x /\ get adv [k] = Z.of_nat x.
Proof.
  intros Hs. destruct (neg_slice a b s n Hs) as (c & F1 & F2 & F3).
  rewrite expand_eq. cbn -[slice_arr].
  unfold broadcast_arrays, bcast_all. cbn -[slice_arr]. unfold slot. cbn -[slice_arr]. rewrite F1. cbn -[slice_arr].
  eexists c, _; split; [reflexivity|]. split; [reflexivity|]. split; auto. intros k Hk. destruct (F3 k Hk) as (x & X1 & X2).
  exists x. split; auto. cbn -[slice_arr]. rewrite F1. unfold align. cbn. destruct (Nat.eqb_spec c 1); [|exact X2].
  assert (k = 0) by lia. subst k. exact X2.
Qed.
