(** Lemmas about index expansion. *)
From Coq Require Import List Arith ZArith Bool Lia.
From Verif Require Import XR ModelVec ModelIdx SpecIdx.
Import ListNotations.
Open Scope nat_scope.

(** ** Lists *)
Lemma nth_ext_1 (a b : list nat) : length a = length b -> (forall r, nth r a 1 = nth r b 1) -> a = b.
Proof. intros L H. apply (nth_ext a b 1 1 L). intros; apply H. Qed.
Lemma map2_app {A B C} (f : A -> B -> C) a b a' b' : length a = length b ->
  map2 f (a ++ a') (b ++ b') = map2 f a b ++ map2 f a' b'.
Proof. revert b; induction a as [|x a IH]; intros [|y b] L; try discriminate; cbn; [easy|]. f_equal. apply IH. now injection L. Qed.
Lemma map2_length {A B C} (f : A -> B -> C) a b : length (map2 f a b) = min (length a) (length b).
Proof. revert b; induction a as [|x a IH]; intros [|y b]; cbn; auto. Qed.
Lemma map2_nth {A B C} (f : A -> B -> C) a b k da db dc : k < length a -> k < length b ->
  nth k (map2 f a b) dc = f (nth k a da) (nth k b db).
Proof. revert b k; induction a as [|x a IH]; intros [|y b] [|k] H1 H2; cbn in *; try lia; auto. apply IH; lia. Qed.
Lemma nth_repeat1 k j : nth j (repeat 1 k) 1 = 1.
Proof. revert j; induction k; intros [|j]; cbn; auto. Qed.
Lemma nth_app_l {A} (a b : list A) j d : j < length a -> nth j (a ++ b) d = nth j a d.
Proof. apply app_nth1. Qed.
Lemma nth_app_r {A} (a b : list A) j d : nth (length a + j) (a ++ b) d = nth j b d.
Proof. rewrite app_nth2 by lia. f_equal; lia. Qed.
Lemma nth_skipn {A} k (l : list A) j d : nth j (skipn k l) d = nth (k + j) l d.
Proof. revert k; induction l as [|x l IH]; intros [|k]; cbn; auto. now destruct j. Qed.
Lemma nth_firstn {A} k (l : list A) j d : j < k -> nth j (firstn k l) d = nth j l d.
Proof. revert k j; induction l as [|x l IH]; intros [|k] [|j] H; cbn; auto; try lia. apply IH; lia. Qed.

(** ** Broadcasting of shapes *)
Definition compat (l : list (list nat)) (t : list nat) : Prop :=
  forall sh, In sh l -> forall r, nth r sh 1 = 1 \/ nth r sh 1 = nth r t 1.
Definition RB (l : list (list nat)) (s : list nat) : Prop :=
  (forall sh, In sh l -> length sh <= length s) /\
  (s = [] \/ exists sh, In sh l /\ length sh = length s) /\
  compat l s /\ forall r, nth r s 1 = 1 \/ exists sh, In sh l /\ nth r sh 1 = nth r s 1.
Lemma RB_unique l s t : RB l s -> RB l t -> s = t.
Proof.
  intros (A1 & B1 & C1 & D1) (A2 & B2 & C2 & D2).
  apply nth_ext_1.
  - assert (length s <= length t) by (destruct B1 as [->|(sh & I & <-)]; [cbn; lia|auto]).
    assert (length t <= length s) by (destruct B2 as [->|(sh & I & <-)]; [cbn; lia|auto]). lia.
  - intros r. destruct (D1 r) as [E|(sh & I & E)].
    + destruct (D2 r) as [E'|(sh & I & E')]; [congruence|]. destruct (C1 sh I r); congruence.
    + destruct (C2 sh I r) as [F|F]; [|congruence].
      destruct (D2 r) as [E'|(sh' & I' & E')]; [congruence|]. destruct (C1 sh' I' r); congruence.
Qed.
Lemma rbcast_ok a b t : compat [a; b] t -> exists s, rbcast a b = Val s /\ RB [a; b] s /\ compat [s] t.
Proof.
  revert b t; induction a as [|x a IH]; intros b t H.
  - exists b. split; [destruct b; easy|]. split.
    + split; [|split; [|split]].
      * intros sh [<-|[<-|[]]]; cbn; lia.
      * right. exists b; cbn; auto.
      * intros sh [<-|[<-|[]]] r; auto. left; destruct r; easy.
      * intros r. right; exists b; cbn; auto.
    + intros sh [<-|[]] r. apply (H b); cbn; auto.
  - destruct b as [|y b].
    + exists (x :: a). split; [easy|]. split.
      * split; [|split; [|split]].
        -- intros sh [<-|[<-|[]]]; cbn; lia.
        -- right. exists (x :: a); cbn; auto.
        -- intros sh [<-|[<-|[]]] r; auto. left; destruct r; easy.
        -- intros r. right; exists (x :: a); cbn; auto.
      * intros sh [<-|[]] r. apply (H (x :: a)); cbn; auto.
    + assert (Ha : forall r, nth r a 1 = 1 \/ nth r a 1 = nth r (tl t) 1).
      { intros r. destruct (H (x :: a) (or_introl eq_refl) (S r)) as [E|E]; cbn in E; auto. right. rewrite E. destruct t; cbn; auto. now destruct r. }
      assert (Hb : forall r, nth r b 1 = 1 \/ nth r b 1 = nth r (tl t) 1).
      { intros r. destruct (H (y :: b) (or_intror (or_introl eq_refl)) (S r)) as [E|E]; cbn in E; auto. right. rewrite E. destruct t; cbn; auto. now destruct r. }
      destruct (IH b (tl t)) as (s & E & (R1 & R2 & R3 & R4) & C); [intros sh [<-|[<-|[]]] r; auto|].
      pose proof (H (x :: a) (or_introl eq_refl) 0) as Hx. pose proof (H (y :: b) (or_intror (or_introl eq_refl)) 0) as Hy. cbn in Hx, Hy.
      assert (Hd : exists d, (if x =? y then Val x else if x =? 1 then Val y else if y =? 1 then Val x else Raise) = Val d
                   /\ (x = 1 \/ x = d) /\ (y = 1 \/ y = d) /\ (d = x \/ d = y) /\ (d = 1 \/ d = nth 0 t 1)).
      { destruct (Nat.eqb_spec x y); [exists x; subst; tauto|]. destruct (Nat.eqb_spec x 1); [exists y; tauto|].
        destruct (Nat.eqb_spec y 1); [exists x; tauto|]. exfalso. lia. }
      destruct Hd as (d & Ed & D1 & D2 & D3 & D4).
      exists (d :: s). split; [cbn; rewrite Ed; cbn; rewrite E; easy|]. split.
      * split; [|split; [|split]].
        -- intros sh [<-|[<-|[]]]; cbn; apply le_n_S; apply R1; cbn; auto.
        -- right. destruct R2 as [->|(sh & [<-|[<-|[]]] & L)].
           ++ exists (x :: a). cbn. split; auto. f_equal. specialize (R1 a (or_introl eq_refl)). cbn in R1. lia.
           ++ exists (x :: a); cbn; auto.
           ++ exists (y :: b); cbn; auto.
        -- intros sh [<-|[<-|[]]] [|r]; cbn; auto; apply R3; cbn; auto.
        -- intros [|r]; cbn.
           ++ right. destruct D3 as [->| ->]; [exists (x :: a)|exists (y :: b)]; cbn; auto.
           ++ destruct (R4 r) as [?|(sh & [<-|[<-|[]]] & F)]; auto; right; [exists (x :: a)|exists (y :: b)]; cbn; auto.
      * intros sh [<-|[]] [|r]; cbn; [tauto|]. destruct (C s (or_introl eq_refl) r) as [F|F]; auto. right. rewrite F. destruct t; cbn; auto. now destruct r.
Qed.
Lemma rbcast_RB a b s : rbcast a b = Val s -> RB [a; b] s.
Proof.
  revert b s; induction a as [|x a IH]; intros b s E.
  - cbn in E. destruct (rbcast_ok [] b b) as (s' & E' & R & _).
    { intros sh [<-|[<-|[]]] r; auto. left; now destruct r. }
    cbn in E'. congruence.
  - destruct b as [|y b].
    + destruct (rbcast_ok (x :: a) [] (x :: a)) as (s' & E' & R & _).
      { intros sh [<-|[<-|[]]] r; auto. left; now destruct r. }
      cbn in E, E'. congruence.
    + cbn in E. destruct (if x =? y then Val x else if x =? 1 then Val y else if y =? 1 then Val x else Raise) as [d|] eqn:Ed; [|discriminate]. cbn in E.
      destruct (rbcast a b) as [s'|] eqn:E'; [|discriminate]. cbn in E.
      destruct (IH b s' E') as (R1 & R2 & R3 & R4).
      assert (D : (x = 1 \/ x = d) /\ (y = 1 \/ y = d)).
      { destruct (Nat.eqb_spec x y); [injection Ed; intros; subst; auto|]. destruct (Nat.eqb_spec x 1); [injection Ed; intros; subst; auto|].
        destruct (Nat.eqb_spec y 1); [injection Ed; intros; subst; auto|discriminate]. }
      assert (Cc : compat [x :: a; y :: b] s).
      { injection E as <-. intros sh [<-|[<-|[]]] [|r]; cbn; try tauto; apply R3; cbn; auto. }
      destruct (rbcast_ok (x :: a) (y :: b) s Cc) as (s'' & E'' & R & _).
      cbn in E''. rewrite Ed in E''. cbn in E''. rewrite E' in E''. cbn in E''. congruence.
Qed.
Lemma RB_cons a l s' s : RB l s' -> RB [a; s'] s -> RB (a :: l) s.
Proof.
  intros (A1 & B1 & C1 & D1) (A2 & B2 & C2 & D2). split; [|split; [|split]].
  - intros sh [<-|I]; [apply A2; cbn; auto|]. specialize (A1 sh I). specialize (A2 s' (or_intror (or_introl eq_refl))). lia.
  - destruct B2 as [->|(sh & [<-|[<-|[]]] & L)]; auto.
    + right; exists a; cbn; auto.
    + destruct B1 as [->|(sh & I & L')]; [left|right; exists sh; cbn; split; auto; lia]. now destruct s.
  - intros sh [<-|I] r; [apply C2; cbn; auto|].
    destruct (C1 sh I r) as [?|E]; auto. destruct (C2 s' (or_intror (or_introl eq_refl)) r) as [F|F]; [left|right]; congruence.
  - intros r. destruct (D2 r) as [?|(sh & [<-|[<-|[]]] & F)]; auto.
    + right; exists a; cbn; auto.
    + destruct (D1 r) as [E|(sh & I & E)]; [left; congruence|right; exists sh; cbn; split; auto; congruence].
Qed.
Definition rfold (l : list (list nat)) : res (list nat) := fold_right (fun a r => bind r (rbcast (rev a))) (Val []) l.
Lemma rfold_ok l t : compat (map (@rev nat) l) t -> exists s, rfold l = Val s /\ RB (map (@rev nat) l) s /\ compat [s] t.
Proof.
  induction l as [|a l IH]; intros H.
  - exists []. split; [easy|]. split.
    + split; [easy|]. split; [auto|]. split; [easy|]. intros [|r]; auto.
    + intros sh [<-|[]] [|r]; auto.
  - destruct IH as (s' & E & R & C); [intros sh I; apply H; cbn; auto|].
    destruct (rbcast_ok (rev a) s' t) as (s & E2 & R2 & C2).
    { intros sh [<-|[<-|[]]]; [apply H; cbn; auto|apply C; cbn; auto]. }
    exists s. split; [|split; auto]. cbn. unfold rfold in E. rewrite E. easy. cbn. eapply RB_cons; eauto.
Qed.
Lemma rfold_RB l s : rfold l = Val s -> RB (map (@rev nat) l) s.
Proof.
  revert s; induction l as [|a l IH]; intros s E.
  - injection E as <-. split; [easy|]. split; [auto|]. split; [easy|]. intros [|r]; auto.
  - cbn in E. change (fold_right _ _ l) with (rfold l) in E. destruct (rfold l) as [s'|]; [|discriminate].
    cbn in E. cbn. eapply RB_cons; [apply IH; reflexivity|]. now apply rbcast_RB.
Qed.
Lemma is_broadcast_RB l s : is_broadcast l s <-> RB (map (@rev nat) l) (rev s).
Proof.
  unfold is_broadcast, RB, rnth. split.
  - intros (A & B & C). rewrite rev_length.
    assert (O : forall sh, In sh l -> forall r, length s <= r -> nth r (rev sh) 1 = 1).
    { intros sh I r Hr. apply nth_overflow. rewrite rev_length. specialize (A sh I). lia. }
    split; [|split; [|split]].
    + intros sh I. apply in_map_iff in I as (x & <- & I). rewrite rev_length. auto.
    + destruct B as [->|(sh & I & L)]; auto. right. exists (rev sh). split; [now apply in_map|]. now rewrite rev_length.
    + intros sh I r. apply in_map_iff in I as (x & <- & I). destruct (Nat.lt_ge_cases r (length s)) as [L|L].
      * now apply C.
      * left. now apply O.
    + intros r. destruct (Nat.lt_ge_cases r (length s)) as [L|L].
      * destruct (proj2 (C r L)) as [?|(sh & I & E)]; auto. right; exists (rev sh); split; auto. now apply in_map.
      * left. apply nth_overflow. rewrite rev_length. lia.
  - rewrite rev_length. intros (A & B & C & D). split; [|split].
    + intros sh I. rewrite <- (rev_length sh). apply A. now apply in_map.
    + destruct B as [E|(sh & I & L)]; [left; rewrite <- (rev_involutive s), E; easy|].
      apply in_map_iff in I as (x & <- & I). right; exists x; split; auto. now rewrite <- (rev_length x).
    + intros r Hr. split.
      * intros sh I. apply C. now apply in_map.
      * destruct (D r) as [?|(sh & I & E)]; auto. apply in_map_iff in I as (x & <- & I). right; exists x; auto.
Qed.
Lemma bcast_all_spec l s : bcast_all l = Val s <-> is_broadcast l s.
Proof.
  rewrite is_broadcast_RB. unfold bcast_all. change (fold_right _ _ l) with (rfold l). split.
  - destruct (rfold l) as [t|] eqn:E; [|discriminate]. cbn. intros H. injection H as <-. rewrite rev_involutive. now apply rfold_RB.
  - intros H. destruct (rfold_ok l (rev s)) as (t & E & R & _).
    + apply H.
    + rewrite E. cbn. rewrite (RB_unique _ _ _ R H), rev_involutive. easy.
Qed.
(** columns of left-padded shapes *)
Definition lpad (N : nat) (sh : list nat) : list nat := repeat 1 (N - length sh) ++ sh.
Lemma rnth_lpad N sh r : length sh <= N -> r < N -> rnth 1 sh r = nth (N - 1 - r) (lpad N sh) 1.
Proof.
  intros L R. unfold rnth, lpad. destruct (Nat.lt_ge_cases r (length sh)) as [H|H].
  - rewrite rev_nth by auto. rewrite app_nth2; rewrite repeat_length; [f_equal; lia|lia].
  - rewrite nth_overflow by (rewrite rev_length; lia). rewrite app_nth1 by (rewrite repeat_length; lia). now rewrite nth_repeat1.
Qed.
Lemma lpad_id sh : lpad (length sh) sh = sh. Proof. unfold lpad. now rewrite Nat.sub_diag. Qed.
Lemma is_broadcast_cols l s : is_broadcast l s <->
  (forall sh, In sh l -> length sh <= length s) /\
  (s = [] \/ exists sh, In sh l /\ length sh = length s) /\
  forall j, j < length s ->
    (forall sh, In sh l -> nth j (lpad (length s) sh) 1 = 1 \/ nth j (lpad (length s) sh) 1 = nth j s 1) /\
    (nth j s 1 = 1 \/ exists sh, In sh l /\ nth j (lpad (length s) sh) 1 = nth j s 1).
Proof.
  unfold is_broadcast. split; intros (A & B & C); split; auto; split; auto; intros r Hr; destruct (C (length s - 1 - r) ltac:(lia)) as (C1 & C2).
  all: assert (Es : nth r s 1 = rnth 1 s (length s - 1 - r)) by (rewrite (rnth_lpad (length s)) by lia; rewrite lpad_id; f_equal; lia).
  all: assert (Er : rnth 1 s r = nth (length s - 1 - r) s 1) by (rewrite (rnth_lpad (length s)) by lia; rewrite lpad_id; f_equal; lia).
  - assert (E : forall sh, In sh l -> nth r (lpad (length s) sh) 1 = rnth 1 sh (length s - 1 - r)).
    { intros sh I. rewrite (rnth_lpad (length s)) by (auto; lia). f_equal; lia. }
    rewrite Es. split.
    + intros sh I. rewrite E by auto. auto.
    + destruct C2 as [?|(sh & I & F)]; auto. right; exists sh; split; auto. rewrite E; auto.
  - assert (E : forall sh, In sh l -> rnth 1 sh r = nth (length s - 1 - r) (lpad (length s) sh) 1).
    { intros sh I. rewrite (rnth_lpad (length s)) by (auto; lia). f_equal; lia. }
    rewrite Er. split.
    + intros sh I. rewrite E by auto. auto.
    + destruct C2 as [?|(sh & I & F)]; auto. right; exists sh; split; auto. rewrite E; auto.
Qed.

(** ** Position tests *)
Lemma find_from_Some b l d k : find_from b l d = Some k <->
  d <= k /\ nth_error l k = Some b /\ forall j, d <= j < k -> nth_error l j <> Some b.
Proof.
  revert d k; induction l as [|x l IH]; intros d k.
  - cbn. split; [discriminate|]. intros (_ & E & _). destruct k; discriminate.
  - cbn [find_from]. destruct (Nat.eqb_spec d 0) as [->|Hd].
    + cbn. destruct (Bool.eqb_spec x b) as [->|Hx].
      * split.
        -- intros H; injection H as <-. split; [lia|]. split; [easy|]. lia.
        -- intros (_ & E & H). destruct k; [easy|]. exfalso. apply (H 0); [lia|easy].
      * destruct (find_from b l 0) as [k'|] eqn:F; cbn.
        -- apply IH in F as (F1 & F2 & F3). split.
           ++ intros H; injection H as <-. split; [lia|]. split; [easy|]. intros [|j] Hj; cbn; [congruence|]. apply F3; lia.
           ++ intros (_ & E & H). f_equal. destruct k as [|k]; [cbn in E; congruence|]. cbn in E. f_equal.
              destruct (Nat.lt_trichotomy k' k) as [L|[L|L]]; auto.
              ** exfalso. apply (H (S k')); [lia|]. easy.
              ** exfalso. apply (F3 k); [lia|easy].
        -- split; [discriminate|]. intros (_ & E & H). destruct k as [|k]; [cbn in E; congruence|]. cbn in E.
           assert (G : exists m, find_from b l 0 = Some m).
           { clear -E. revert k E. induction l as [|y l IH]; intros [|k] E; try discriminate; cbn.
             - injection E as ->. rewrite Bool.eqb_reflx. eauto.
             - destruct (Bool.eqb y b); eauto. destruct (IH k E) as (m & ->). cbn; eauto. }
           destruct G; congruence.
    + cbn [andb]. destruct d as [|d]; [lia|]. cbn [Nat.pred]. destruct (find_from b l d) as [k'|] eqn:F; cbn.
      * apply IH in F as (F1 & F2 & F3). split.
        -- intros H; injection H as <-. split; [lia|]. split; [easy|]. intros [|j] Hj; [lia|]. apply F3; lia.
        -- intros (L & E & H). destruct k as [|k]; [lia|]. cbn in E. do 2 f_equal.
           destruct (Nat.lt_trichotomy k' k) as [M|[M|M]]; auto.
           ++ exfalso. apply (H (S k')); [lia|easy].
           ++ exfalso. apply (F3 k); [lia|easy].
      * split; [discriminate|]. intros (L & E & H). destruct k as [|k]; [lia|]. cbn in E.
        assert (G : exists m, find_from b l d = Some m).
        { clear -E L. assert (L' : d <= k) by lia. clear L. revert d k E L'. induction l as [|y l IH]; intros d [|k] E L; try discriminate; cbn.
          - injection E as ->. assert (d = 0) as -> by lia. cbn. rewrite Bool.eqb_reflx. eauto.
          - destruct ((d =? 0) && Bool.eqb y b); eauto. destruct (IH (pred d) k E) as (m & ->); [lia|]. cbn; eauto. }
        destruct G; congruence.
Qed.
Lemma find_from_None b l d : find_from b l d = None <-> forall j, d <= j -> nth_error l j <> Some b.
Proof.
  split.
  - intros H j L E.
    assert (G : exists m, find_from b l d = Some m); [|destruct G; congruence].
    clear H. revert d j E L. induction l as [|y l IH]; intros d [|k] E L; try discriminate; cbn.
    + injection E as ->. assert (d = 0) as -> by lia. cbn. rewrite Bool.eqb_reflx. eauto.
    + destruct ((d =? 0) && Bool.eqb y b); eauto. destruct (IH (pred d) k E) as (m & ->); [lia|]. cbn; eauto.
  - intros H. destruct (find_from b l d) as [k|] eqn:E; auto. apply find_from_Some in E as (A & B & _). exfalso. eapply H; eauto.
Qed.
Lemma basic_b i : is_basic i = true <-> basic i. Proof. destruct i; cbn; split; auto; try discriminate; tauto. Qed.
Lemma advanced_b i : is_basic i = false <-> advanced i. Proof. destruct i; cbn; split; auto; try discriminate; tauto. Qed.
Lemma nth_error_map_basic full k b : nth_error (map is_basic full) k = Some b <-> exists i, nth_error full k = Some i /\ is_basic i = b.
Proof.
  rewrite nth_error_map. destruct (nth_error full k) as [i|]; cbn; split.
  - intros H; injection H as <-; eauto.
  - intros (i' & E & <-); congruence.
  - discriminate.
  - intros (i' & E & _); discriminate.
Qed.
Definition sep_at (types : list bool) : Prop := exists i j k, i < j < k /\
  nth_error types i = Some false /\ nth_error types j = Some true /\ nth_error types k = Some false.
Lemma moved_sep types : moved_subspace types = true <-> sep_at types.
Proof.
  unfold moved_subspace. destruct (find_from false types 0) as [a|] eqn:A.
  - apply find_from_Some in A as (_ & A & A').
    destruct (find_from true types a) as [b|] eqn:B.
    + apply find_from_Some in B as (B0 & B & B').
      assert (a <> b) by (intros ->; congruence).
      destruct (find_from false types b) as [c|] eqn:C.
      * apply find_from_Some in C as (C0 & C & _). assert (b <> c) by (intros ->; congruence).
        split; auto. intros _. exists a, b, c. repeat split; auto; lia.
      * split; [discriminate|]. intros (i & j & k & L & I & J & K). exfalso.
        assert (a <= i) by (destruct (Nat.lt_ge_cases i a); auto; exfalso; apply (A' i); auto; lia).
        assert (b <= j) by (destruct (Nat.lt_ge_cases j b); auto; exfalso; apply (B' j); auto; lia).
        rewrite find_from_None in C. apply (C k); auto. lia.
    + split; [discriminate|]. intros (i & j & k & L & I & J & K). exfalso.
      assert (a <= i) by (destruct (Nat.lt_ge_cases i a); auto; exfalso; apply (A' i); auto; lia).
      rewrite find_from_None in B. apply (B j); auto. lia.
  - split; [discriminate|]. intros (i & j & k & L & I & J & K). exfalso.
    rewrite find_from_None in A. apply (A i); auto. lia.
Qed.
Lemma sep_separated full : sep_at (map is_basic full) <-> separated full.
Proof.
  split.
  - intros (i & j & k & L & I & J & K).
    apply nth_error_map_basic in I as (a & I & Ha), J as (b & J & Hb), K as (c & K & Hc).
    apply nth_error_split in I as (l1 & r1 & E1 & L1). subst full.
    rewrite nth_error_app2 in J by lia. destruct (j - length l1) as [|j'] eqn:Ej; [lia|]. cbn in J.
    rewrite nth_error_app2 in K by lia. destruct (k - length l1) as [|k'] eqn:Ek; [lia|]. cbn in K.
    apply nth_error_split in J as (l2 & r2 & E2 & L2). subst r1.
    rewrite nth_error_app2 in K by lia. destruct (k' - length l2) as [|k''] eqn:Ek2; [lia|]. cbn in K.
    apply nth_error_split in K as (l3 & r3 & E3 & L3). subst r2.
    exists l1, a, l2, b, l3, c, r3. split; auto. split; [now apply advanced_b|]. split; [now apply basic_b|now apply advanced_b].
  - intros (l1 & a & l2 & b & l3 & c & l4 & -> & A & B & C).
    apply advanced_b in A, C. apply basic_b in B.
    exists (length l1), (length l1 + S (length l2)), (length l1 + S (length l2) + S (length l3)).
    split; [lia|].
    rewrite !nth_error_map, !nth_error_app2 by lia.
    replace (length l1 - length l1) with 0 by lia.
    replace (length l1 + S (length l2) - length l1) with (S (length l2)) by lia.
    replace (length l1 + S (length l2) + S (length l3) - length l1) with (S (length l2 + S (length l3))) by lia. cbn.
    rewrite !nth_error_app2 by lia.
    replace (length l2 - length l2) with 0 by lia. replace (length l2 + S (length l3) - length l2) with (S (length l3)) by lia. cbn.
    rewrite !nth_error_app2 by lia. replace (length l3 - length l3) with 0 by lia. cbn. now rewrite A, B, C.
Qed.
Definition cnt (l : list index) : nat := length (filter is_basic l).
Lemma cnt_app a b : cnt (a ++ b) = cnt a + cnt b.
Proof. unfold cnt. now rewrite filter_app, app_length. Qed.
Lemma cnt_all l : List.Forall basic l -> cnt l = length l.
Proof. induction 1 as [|i l H]; auto. unfold cnt in *. cbn. apply basic_b in H. rewrite H. cbn. now f_equal. Qed.
Lemma cnt_none l : List.Forall advanced l -> cnt l = 0.
Proof. induction 1 as [|i l H]; auto. unfold cnt in *. cbn. apply advanced_b in H. now rewrite H. Qed.
Lemma cnt_cons i l : cnt (i :: l) = (if is_basic i then 1 else 0) + cnt l.
Proof. unfold cnt. cbn. now destruct (is_basic i). Qed.

(** the insertion point of the subspace dimensions *)
Definition insertion (full : list index) : nat :=
  if moved_subspace (map is_basic full) then 0
  else match find_from false (map is_basic full) 0 with Some d => d | None => length full end.
Lemma leading_split full d : (match find_from false (map is_basic full) 0 with Some d => d | None => length full end) = d ->
  leading full d.
Proof.
  destruct (find_from false (map is_basic full) 0) as [a|] eqn:A.
  - intros <-. apply find_from_Some in A as (_ & A & A'). apply nth_error_map_basic in A as (i & A & Hi).
    apply nth_error_split in A as (l1 & l2 & -> & L). exists l1, (i :: l2). split; auto. split; [|split; auto].
    + apply Forall_forall. intros x Hx. apply In_nth_error in Hx as (j & Hj).
      assert (j < length l1) by (apply nth_error_Some; congruence).
      apply basic_b. destruct (is_basic x) eqn:E; auto. exfalso. apply (A' j); [lia|].
      apply nth_error_map_basic. exists x. split; auto. rewrite nth_error_app1; auto.
    + now apply advanced_b.
  - intros <-. rewrite find_from_None in A. exists full, []. rewrite app_nil_r. split; auto. split; [|split; auto].
    apply Forall_forall. intros x Hx. apply In_nth_error in Hx as (j & Hj).
    apply basic_b. destruct (is_basic x) eqn:E; auto. exfalso. apply (A j); [lia|].
    apply nth_error_map_basic. eauto.
Qed.
Lemma leading_unique full p q : leading full p -> leading full q -> p = q.
Proof.
  intros (l1 & l2 & -> & F1 & <- & H1) (m1 & m2 & E & F2 & <- & H2).
  revert m1 E F2. induction l1 as [|x l1 IH]; intros [|y m1] E F2; cbn in *; auto.
  - subst l2. apply Forall_inv in F2. exfalso. now destruct y.
  - subst. apply Forall_inv in F1. exfalso; now destruct x.
  - injection E as -> E. f_equal. apply IH; auto. eapply Forall_inv_tail; eauto. eapply Forall_inv_tail; eauto.
Qed.
Lemma placed_insertion {A} full (sub bs o : list A) :
  placed full sub bs o <-> o = firstn (insertion full) bs ++ sub ++ skipn (insertion full) bs.
Proof.
  unfold placed, insertion. destruct (moved_subspace (map is_basic full)) eqn:M.
  - apply moved_sep, sep_separated in M. cbn. split; [intros (H & _); auto|]. intros ->. split; auto. tauto.
  - assert (N : ~ separated full).
    { intros H. apply sep_separated, moved_sep in H. congruence. }
    remember (match find_from false (map is_basic full) 0 with Some d => d | None => length full end) as d eqn:Ed.
    pose proof (leading_split full d (eq_sym Ed)) as Ld. split.
    + intros (_ & H). destruct (H N) as (p & Lp & ->). now rewrite (leading_unique _ _ _ Lp Ld).
    + intros ->. split; [tauto|]. intros _. exists d. auto.
Qed.
Lemma adv_position full pre i ix : full = pre ++ i :: ix -> advanced i -> moved_subspace (map is_basic full) = false ->
  cnt pre = insertion full.
Proof.
  intros E A M. unfold insertion. rewrite M.
  assert (N : ~ separated full). { intros H. apply sep_separated, moved_sep in H. congruence. }
  remember (match find_from false (map is_basic full) 0 with Some d => d | None => length full end) as d eqn:Ed.
  destruct (leading_split full d (eq_sym Ed)) as (l1 & l2 & E' & F & L & H2). subst d. rewrite E in E'.
  (* pre extends l1 *)
  assert (P : exists l3, pre = l1 ++ l3 /\ List.Forall advanced l3).
  { assert (exists l3, pre = l1 ++ l3) as (l3 & ->).
    { clear -E' F A. revert pre E'. induction l1 as [|x l1 IH]; intros pre E'; [exists pre; easy|].
      destruct pre as [|y pre].
      - injection E' as <- _. apply Forall_inv in F. exfalso; now destruct i.
      - injection E' as <- E'. destruct (IH (Forall_inv_tail F) pre E') as (l3 & ->). exists l3; easy. }
    exists l3. split; auto. rewrite <- app_assoc in E'. apply app_inv_head in E'.
    destruct l3 as [|a l3]; [constructor|]. cbn in E'. subst l2. cbn in H2. constructor; auto.
    apply Forall_forall. intros x Hx. destruct (is_basic x) eqn:Ex; [|now apply advanced_b].
    exfalso. apply N. apply in_split in Hx as (u & v & ->). exists l1, a, u, x, v, i, ix. split.
    - rewrite E. now rewrite <- !app_assoc, <- !app_comm_cons, <- !app_assoc.
    - split; auto. split; auto. now apply basic_b. }
  destruct P as (l3 & -> & F3). rewrite cnt_app, (cnt_all _ F), (cnt_none _ F3). lia.
Qed.
Lemma slice_position full pre i ix len : full = pre ++ i :: ix -> basic i -> moved_subspace (map is_basic full) = false ->
  (forall x, In x full -> basic x) \/
  (first_adv_idx (map is_basic full) len <? length pre) = (insertion full <=? cnt pre).
Proof.
  intros E B M. unfold first_adv_idx, insertion. rewrite M.
  destruct (find_from false (map is_basic full) 0) as [a|] eqn:Fa.
  - right. pose proof (leading_split full a) as Ld. rewrite Fa in Ld. destruct (Ld eq_refl) as (l1 & l2 & E' & F & L & H2). subst a.
    rewrite E in E'.
    destruct (Nat.ltb_spec (length l1) (length pre)) as [H|H]; symmetry.
    + apply Nat.leb_le. assert (exists l3, pre = l1 ++ l3) as (l3 & ->).
      { clear -E' H. revert pre E' H. induction l1 as [|x l1 IH]; intros pre E' H; [exists pre; easy|].
        destruct pre as [|y pre]; [cbn in H; lia|]. injection E' as <- E'. cbn in H. destruct (IH pre E') as (l3 & ->); [lia|]. exists l3; easy. }
      rewrite cnt_app, (cnt_all _ F). lia.
    + apply Nat.leb_gt.
      assert (exists l3, l1 = pre ++ l3 /\ l3 <> []) as (l3 & -> & N3).
      { clear -E' H H2 B. revert l1 E' H. induction pre as [|x pre IH]; intros l1 E' H.
        - exists l1; split; auto. intros ->. cbn in E'. subst l2. now destruct i.
        - destruct l1 as [|y l1]; [cbn in H; lia|]. injection E' as <- E'. cbn in H. destruct (IH l1 E') as (l3 & -> & N); [lia|]. exists l3; easy. }
      apply Forall_app in F as (F1 & F3). rewrite (cnt_all _ F1), app_length. destruct l3; [easy|]. cbn; lia.
  - left. rewrite find_from_None in Fa. intros x Hx. apply In_nth_error in Hx as (j & Hj).
    apply basic_b. destruct (is_basic x) eqn:Ex; auto. exfalso. apply (Fa j); [lia|]. apply nth_error_map_basic; eauto.
Qed.

(** ** Normal form of the loop *)
Section Norm.
Variables (p0 B Sn : nat).
Definition slot (q : nat) : nat := (if p0 <=? q then Sn else 0) + q.
Definition e_adv (t : arr) : arr := pad_right (B - p0) (pad_left p0 t).
Definition e_slice (q : nat) (t : arr) : arr := pad_right (Sn + B - slot q - 1) (pad_left (slot q) t).
Definition slice_arr (a b s : option Z) (n : nat) : arr :=
  let '(x, y, z) := canonical_slice a b s (Z.of_nat n) in arange x y z.
Fixpoint nloop (ix : list index) (sh : list nat) (q : nat) : res (list arr) :=
  match ix with
  | [] => Val []
  | INew :: ix => nloop ix sh (S q)
  | ISlice a b s :: ix =>
      match sh with
      | [] => Raise
      | n :: sh => bind (nloop ix sh (S q)) (fun r => Val (e_slice q (slice_arr a b s n) :: r))
      end
  | i :: ix =>
      match sh with
      | [] => Raise
      | n :: sh => bind (nloop ix sh q) (fun r => Val (e_adv (as_tensor i) :: r))
      end
  end.
End Norm.
Lemma pad_left_0 t : pad_left 0 t = t. Proof. destruct t; reflexivity. Qed.
Lemma bind_ext {A C} (r r' : res A) (f g : A -> res C) : r = r' -> (forall a, f a = g a) -> bind r f = bind r' g.
Proof. intros -> H. destruct r'; cbn; auto. Qed.
Lemma expand_norm full len Sn : ((forall x, In x full -> basic x) -> Sn = 0) ->
  forall ix pre sh, full = pre ++ ix ->
  expand_loop (moved_subspace (map is_basic full)) (first_adv_idx (map is_basic full) len) (cnt full) Sn (length pre) ix sh (cnt pre)
  = nloop (insertion full) (cnt full) Sn ix sh (cnt pre).
Proof.
  intros HS. induction ix as [|i ix IH]; intros pre sh E; [easy|].
  assert (E' : full = (pre ++ [i]) ++ ix) by (rewrite <- app_assoc; auto).
  assert (L : length (pre ++ [i]) = S (length pre)) by (rewrite app_length; cbn; lia).
  assert (Cp : cnt (pre ++ [i]) = (if is_basic i then 1 else 0) + cnt pre).
  { rewrite cnt_app, cnt_cons. unfold cnt at 2. cbn. lia. }
  assert (Cf : cnt full = cnt pre + (if is_basic i then 1 else 0) + cnt ix).
  { rewrite E, cnt_app, cnt_cons. lia. }
  assert (EA : advanced i -> forall t, (if moved_subspace (map is_basic full) then pad_right (cnt full) t
      else pad_right (cnt full - cnt pre) (pad_left (cnt pre) t)) = e_adv (insertion full) (cnt full) t).
  { intros A t. unfold e_adv. destruct (moved_subspace (map is_basic full)) eqn:M.
    - unfold insertion. rewrite M. rewrite pad_left_0. f_equal. lia.
    - now rewrite (adv_position full pre i ix). }
  assert (ES : basic i -> forall t, (if moved_subspace (map is_basic full) then pad_right (cnt full - cnt pre - 1) (pad_left (Sn + cnt pre) t)
      else pad_right (Sn + cnt full - ((if first_adv_idx (map is_basic full) len <? length pre then Sn else 0) + cnt pre) - 1)
             (pad_left ((if first_adv_idx (map is_basic full) len <? length pre then Sn else 0) + cnt pre) t)) = e_slice (insertion full) (cnt full) Sn (cnt pre) t).
  { intros A t. unfold e_slice, slot. destruct (moved_subspace (map is_basic full)) eqn:M.
    - unfold insertion. rewrite M. cbn. f_equal. lia.
    - destruct (slice_position full pre i ix len E A M) as [H|H].
      + rewrite (HS H). now destruct (_ <? _), (_ <=? _).
      + now rewrite H. }
  destruct i as [|a b s|z|a]; cbn [expand_loop nloop is_basic negb].
  - specialize (IH (pre ++ [INew]) sh E'). rewrite L, Cp in IH. exact IH.
  - destruct sh as [|n sh]; [easy|]. unfold slice_arr. destruct (canonical_slice a b s (Z.of_nat n)) as ((x, y), w).
    specialize (IH (pre ++ [ISlice a b s]) sh E'). rewrite L, Cp in IH. cbn [is_basic] in IH.
    apply bind_ext; [exact IH|]. intros r. now rewrite (ES I).
  - destruct sh as [|n sh]; [easy|].
    specialize (IH (pre ++ [IInt z]) sh E'). rewrite L, Cp in IH. cbn [is_basic] in IH.
    apply bind_ext; [exact IH|]. intros r. now rewrite (EA I).
  - destruct sh as [|n sh]; [easy|].
    specialize (IH (pre ++ [IArr a]) sh E'). rewrite L, Cp in IH. cbn [is_basic] in IH.
    apply bind_ext; [exact IH|]. intros r. now rewrite (EA I).
Qed.
