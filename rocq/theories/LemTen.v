(** Proofs for dimension shuffles and joins. *)
From Coq Require Import Reals Lra List Arith ZArith Bool Lia Permutation.
From Verif Require Import XR SpecIdx ModelVec ModelMix LemMix ModelTen SpecTen.
Import ListNotations.
Open Scope nat_scope.

(** ** Dimension shuffles *)
Lemma insert_In {A} k (x y : A) l : In y (insert k x l) <-> y = x \/ In y l.
Proof.
  unfold insert. rewrite in_app_iff. cbn. rewrite <- (firstn_skipn k l) at 3. rewrite in_app_iff. intuition congruence.
Qed.
Lemma insert_map {A B} (f : A -> B) k x l : map f (insert k x l) = insert k (f x) (map f l).
Proof. unfold insert. rewrite map_app. cbn. now rewrite firstn_map, skipn_map. Qed.
Lemma insert_NoDup {A} k (x : A) l : ~ In x l -> NoDup l -> NoDup (insert k x l).
Proof.
  intros N H. unfold insert. apply NoDup_Add with (a := x) (l := firstn k l ++ skipn k l); [apply Add_app|].
  rewrite firstn_skipn. auto.
Qed.
Lemma index_of_nth x l k : index_of x l = Some k -> nth_error l k = Some x.
Proof.
  revert k. induction l as [|y l IH]; cbn; [discriminate|]. intros k. destruct (Nat.eqb_spec y x).
  - intros E; injection E as <-. cbn. congruence.
  - destruct (index_of x l) as [j|]; [|discriminate]. intros E; injection E as <-. cbn. auto.
Qed.
Lemma index_of_In x l : In x l -> exists k, index_of x l = Some k.
Proof.
  induction l as [|y l IH]; cbn; [easy|]. intros H. destruct (Nat.eqb_spec y x); [eauto|].
  destruct IH as (k & ->); [destruct H; [congruence|auto]|]. cbn. eauto.
Qed.
Lemma axis_at_nth d o j : axis_at d o = Some j -> nth_error o j = Some (Some d).
Proof.
  revert j. induction o as [|[e|] o IH]; cbn; [discriminate| |]; intros j.
  - destruct (Nat.eqb_spec e d).
    + intros E; injection E as <-. cbn. congruence.
    + destruct (axis_at d o) as [i|]; [|discriminate]. intros E; injection E as <-. cbn. auto.
  - destruct (axis_at d o) as [i|]; [|discriminate]. intros E; injection E as <-. cbn. auto.
Qed.
Lemma axis_at_In d o : In (Some d) o -> exists j, axis_at d o = Some j.
Proof.
  induction o as [|[e|] o IH]; cbn; [easy| |]; intros H.
  - destruct (Nat.eqb_spec e d); [eauto|]. destruct IH as (k & ->); [destruct H; [congruence|auto]|]. cbn. eauto.
  - destruct IH as (k & ->); [destruct H; [discriminate|auto]|]. cbn. eauto.
Qed.
Lemma axis_at_None d o : axis_at d o = None <-> ~ In (Some d) o.
Proof.
  split.
  - intros E H. destruct (axis_at_In d o H) as (j & E'). congruence.
  - intros H. destruct (axis_at d o) as [j|] eqn:E; auto. apply axis_at_nth, nth_error_In in E. easy.
Qed.
Lemma kept_shuffle_len o : forall k, length (kept_from k o) = length (shuffle o).
Proof. induction o as [|[d|] o IH]; intros k; cbn; auto. Qed.
Lemma kept_pairs o : forall k j d, In (Some j, d) (combine (map Some (kept_from k o)) (shuffle o)) <-> exists i, j = k + i /\ nth_error o i = Some (Some d).
Proof.
  induction o as [|[e|] o IH]; intros k j d; cbn.
  - split; [easy|]. intros (i & _ & H). destruct i; discriminate.
  - rewrite IH. split.
    + intros [E|(i & -> & H)]; [injection E as <- <-; exists 0; split; [lia|reflexivity]|]. exists (S i). split; [lia|auto].
    + intros ([|i] & -> & H); [left; cbn in H; injection H as ->; f_equal; f_equal; lia|right]. exists i. split; [lia|auto].
  - rewrite IH. split.
    + intros (i & -> & H). exists (S i). split; [lia|auto].
    + intros ([|i] & -> & H); [discriminate|]. exists i. split; [lia|auto].
Qed.
Lemma in_shuffle o d : In d (shuffle o) <-> exists j, nth_error o j = Some (Some d).
Proof.
  unfold shuffle. rewrite in_flat_map. split.
  - intros ([e|] & H & H'); [|easy]. destruct H' as [<-|[]]. now apply In_nth_error in H.
  - intros (j & H). exists (Some d). split; [eapply nth_error_In; eauto|now left].
Qed.
Lemma shuffle_NoDup o : (forall j j' d, nth_error o j = Some (Some d) -> nth_error o j' = Some (Some d) -> j = j') -> NoDup (shuffle o).
Proof.
  induction o as [|[e|] o IH]; cbn; intros H; [constructor| |].
  - constructor; [|apply IH; intros j j' d Hj Hj'; specialize (H (S j) (S j') d Hj Hj'); lia].
    intros Hin. apply in_shuffle in Hin as (j & Hj). specialize (H 0 (S j) e eq_refl Hj). discriminate.
  - apply IH; intros j j' d Hj Hj'; specialize (H (S j) (S j') d Hj Hj'); lia.
Qed.

Section Unshuffle.
Variables (n : nat) (o : list (option nat)).
Hypothesis V : valid_order n o.
Definition joint : list (option nat * nat) :=
  fold_left (fun l d => insert d (None, d) l) (dropped_dims n o) (combine (map Some (kept_from 0 o)) (shuffle o)).
Lemma fold_insert_map {A B} (f : A -> B) (g : nat -> A) (l : list nat) : forall l0,
  map f (fold_left (fun l d => insert d (g d) l) l l0) = fold_left (fun l d => insert d (f (g d)) l) l (map f l0).
Proof. induction l as [|x l IH]; intros l0; cbn; auto. now rewrite IH, insert_map. Qed.
Lemma map_fst_combine {A B} (a : list A) (b : list B) : length a = length b -> map fst (combine a b) = a.
Proof. revert b; induction a; intros [|] L; try discriminate; cbn; auto. f_equal; auto. Qed.
Lemma map_snd_combine {A B} (a : list A) (b : list B) : length a = length b -> map snd (combine a b) = b.
Proof. revert b; induction a; intros [|] L; try discriminate; cbn; auto. f_equal; auto. Qed.
Lemma joint_fst : map fst joint = undo_drop n o.
Proof.
  unfold joint, undo_drop. rewrite fold_insert_map. rewrite map_fst_combine; auto. rewrite map_length. apply kept_shuffle_len.
Qed.
Lemma joint_snd : map snd joint = original_shuffle n o.
Proof.
  unfold joint, original_shuffle. rewrite fold_insert_map. rewrite map_snd_combine; auto. rewrite map_length. apply kept_shuffle_len.
Qed.
Lemma in_dropped d : In d (dropped_dims n o) <-> d < n /\ dropped o d.
Proof.
  unfold dropped_dims. rewrite filter_In, in_seq, negb_true_iff. split.
  - intros (H & E). split; [lia|]. intros j Hj. assert (X : In d (shuffle o)) by (apply in_shuffle; eauto).
    assert (existsb (Nat.eqb d) (shuffle o) = true) by (apply existsb_exists; exists d; split; auto; apply Nat.eqb_refl). congruence.
  - intros (H & D). split; [lia|]. apply not_true_is_false. intros E. apply existsb_exists in E as (x & Hx & Ex).
    apply Nat.eqb_eq in Ex. subst x. apply in_shuffle in Hx as (j & Hj). now apply (D j).
Qed.
Lemma fold_insert_In {A} (g : nat -> A) l : forall l0 y, In y (fold_left (fun l d => insert d (g d) l) l l0) <-> In y l0 \/ exists d, In d l /\ y = g d.
Proof.
  induction l as [|x l IH]; intros l0 y; cbn; [firstorder|]. rewrite IH, insert_In. split.
  - intros [[->|H]|(d & Hd & ->)]; eauto.
  - intros [H|(d & [<-|Hd] & ->)]; eauto.
Qed.
Lemma combine_somes (a b : list nat) x : In (None, x) (combine (map Some a) b) -> False.
Proof. revert b; induction a as [|y a IH]; intros [|z b]; cbn; try easy. intros [E|H]; [discriminate|eauto]. Qed.
Lemma joint_In e d : In (e, d) joint <-> match e with Some j => nth_error o j = Some (Some d) | None => d < n /\ dropped o d end.
Proof.
  unfold joint. rewrite fold_insert_In. destruct e as [j|].
  - rewrite kept_pairs. cbn. split.
    + intros [(i & -> & H)|(d' & _ & E)]; [auto|discriminate].
    + intros H. left. eauto.
  - split.
    + intros [H|(d' & H & E)]; [now apply combine_somes in H|]. injection E as ->. now apply in_dropped.
    + intros H. right. exists d. split; auto. now apply in_dropped.
Qed.
Lemma orig_In d : In d (original_shuffle n o) <-> d < n.
Proof.
  rewrite <- joint_snd, in_map_iff. split.
  - intros ([[j|] d'] & E & H); cbn in E; subst d'; apply joint_In in H; [eapply V; eauto|easy].
  - intros H. destruct (in_dec Nat.eq_dec d (shuffle o)) as [Hin|Hin].
    + apply in_shuffle in Hin as (j & Hj). exists (Some j, d). split; auto. now apply joint_In.
    + exists (None, d). split; auto. apply joint_In. split; auto. intros j Hj. apply Hin. apply in_shuffle. eauto.
Qed.
Lemma dropped_NoDup : NoDup (dropped_dims n o). Proof. apply NoDup_filter, seq_NoDup. Qed.
Lemma fold_insert_NoDup l : forall l0, NoDup l -> NoDup l0 -> (forall x, In x l -> ~ In x l0) -> NoDup (fold_left (fun l d => insert d d l) l l0 : list nat).
Proof.
  induction l as [|x l IH]; intros l0 N N0 H; cbn; auto. inversion N; subst. apply IH; auto.
  - apply insert_NoDup; auto. apply H. now left.
  - intros y Hy. rewrite insert_In. intros [->|Hy0]; [easy|]. exact (H y (or_intror Hy) Hy0).
Qed.
Lemma orig_NoDup : NoDup (original_shuffle n o).
Proof.
  apply fold_insert_NoDup; [apply dropped_NoDup|apply shuffle_NoDup, V|].
  intros x Hx Hs. apply in_dropped in Hx as (_ & D). apply in_shuffle in Hs as (j & Hj). exact (D j Hj).
Qed.
Lemma orig_len : length (original_shuffle n o) = n.
Proof.
  transitivity (length (seq 0 n)); [|apply seq_length]. apply Permutation.Permutation_length. apply Permutation.NoDup_Permutation; [apply orig_NoDup|apply seq_NoDup|].
  intros x. rewrite orig_In, in_seq. lia.
Qed.
Lemma undo_drop_len : length (undo_drop n o) = n.
Proof. rewrite <- joint_fst, map_length, <- (map_length snd), joint_snd. apply orig_len. Qed.
(** the entry of [undo_shuffle] that points to place [k] *)
Lemma undo_shuffle_at k d : nth_error (original_shuffle n o) k = Some d -> axis_at k (undo_shuffle n o) = Some d.
Proof.
  intros Hk. assert (Hd : d < n) by (apply orig_In; eapply nth_error_In; eauto).
  assert (Hn : nth_error (undo_shuffle n o) d = Some (index_of d (original_shuffle n o))).
  { unfold undo_shuffle. rewrite orig_len. erewrite map_nth_error; [reflexivity|]. rewrite (nth_error_nth' _ 0) by (now rewrite seq_length). f_equal. rewrite seq_nth; auto. }
  assert (Ei : forall e k', index_of e (original_shuffle n o) = Some k' -> k' = k -> e = d).
  { intros e k' E ->. apply index_of_nth in E. congruence. }
  assert (E : index_of d (original_shuffle n o) = Some k).
  { destruct (index_of_In d (original_shuffle n o)) as (k' & E'); [now apply orig_In|]. rewrite E'. f_equal.
    apply index_of_nth in E'. apply (proj1 (NoDup_nth_error _) orig_NoDup); [apply nth_error_Some; congruence|congruence]. }
  rewrite E in Hn. destruct (axis_at_In k (undo_shuffle n o)) as (d' & Ed); [eapply nth_error_In; eauto|].
  rewrite Ed. f_equal. apply axis_at_nth in Ed.
  assert (Hd' : d' < n).
  { assert (L : length (undo_shuffle n o) = n) by (unfold undo_shuffle; now rewrite map_length, seq_length, orig_len).
    rewrite <- L. apply nth_error_Some. congruence. }
  unfold undo_shuffle in Ed. rewrite orig_len in Ed. erewrite map_nth_error in Ed; [|rewrite (nth_error_nth' _ 0) by (now rewrite seq_length); rewrite seq_nth by auto; reflexivity].
  cbn in Ed. injection Ed as Ed. exact (Ei d' k Ed eq_refl).
Qed.
Definition back (p : list nat) : list nat :=
  map (fun j => match nth_error o j with Some (Some d) => nth d p 0 | _ => 0 end) (seq 0 (length o)).
Lemma joint_at k e : nth_error (undo_drop n o) k = Some e -> exists d, nth_error (original_shuffle n o) k = Some d /\ In (e, d) joint.
Proof.
  rewrite <- joint_fst, <- joint_snd. intros H.
  destruct (nth_error joint k) as [[e' d]|] eqn:E.
  - rewrite (map_nth_error fst _ _ E) in H. injection H as <-. exists d. split; [now rewrite (map_nth_error snd _ _ E)|]. eapply nth_error_In; eauto.
  - apply nth_error_None in E. assert (k < length (map fst joint)) by (apply nth_error_Some; congruence). rewrite map_length in H0. lia.
Qed.
Lemma unshuffled_elt {A} (y : nd A) p : length (nshp y) = length o -> nelt (unshuffled n o y) p = nelt y (back p).
Proof.
  intros L. unfold unshuffled. cbn [nelt dimshuffle nshp]. f_equal. rewrite map_length, undo_drop_len, L. unfold back.
  apply map_ext_in. intros j Hj. apply in_seq in Hj.
  destruct (nth_error o j) as [[d|]|] eqn:Ej.
  - destruct (axis_at_In j (undo_drop n o)) as (k & Ek).
    { rewrite <- joint_fst. apply in_map_iff. exists (Some j, d). split; auto. now apply joint_In. }
    rewrite Ek. apply axis_at_nth in Ek. destruct (joint_at k _ Ek) as (d' & Hd' & Hin). apply joint_In in Hin. rewrite Ej in Hin. injection Hin as <-.
    assert (Hk : k < n) by (rewrite <- orig_len; apply nth_error_Some; congruence).
    rewrite (nth_indep _ 0 (match axis_at 0 (undo_shuffle n o) with Some j0 => nth j0 p 0 | None => 0 end)) by (now rewrite map_length, seq_length).
    rewrite (map_nth (fun d0 => match axis_at d0 (undo_shuffle n o) with Some j0 => nth j0 p 0 | None => 0 end)).
    rewrite seq_nth by auto. cbn [Nat.add]. now rewrite (undo_shuffle_at k d Hd').
  - rewrite (proj2 (axis_at_None j (undo_drop n o))); auto. rewrite <- joint_fst, in_map_iff. intros ([e d] & E & Hin). cbn in E. subst e.
    apply joint_In in Hin. congruence.
  - apply nth_error_None in Ej. lia.
Qed.
Lemma unshuffled_shape {A} (y : nd A) sh : length sh = n -> shuffled_shape o sh (nshp y) -> nshp (unshuffled n o y) = sh.
Proof.
  intros Ls (L & H1 & H2 & H3). unfold unshuffled. cbn [nshp dimshuffle]. apply nth_error_ext. intros i.
  destruct (lt_dec i n) as [Hi|Hi].
  - unfold undo_shuffle. rewrite orig_len, map_map.
    erewrite map_nth_error; [|rewrite (nth_error_nth' _ 0) by (now rewrite seq_length); rewrite seq_nth by auto; reflexivity]. cbn [Nat.add].
    destruct (index_of_In i (original_shuffle n o)) as (k & Ek); [now apply orig_In|]. rewrite Ek. apply index_of_nth in Ek.
    assert (Hk : k < n) by (rewrite <- orig_len; apply nth_error_Some; congruence).
    destruct (nth_error (undo_drop n o) k) as [e|] eqn:Ee; [|apply nth_error_None in Ee; rewrite undo_drop_len in Ee; lia].
    destruct (joint_at k e Ee) as (d & Hd & Hin). rewrite Ek in Hd. injection Hd as <-. apply joint_In in Hin.
    erewrite nth_error_nth; [|erewrite map_nth_error; [reflexivity|exact Ee]].
    destruct e as [j|].
    + rewrite <- (H1 j i Hin). rewrite (nth_error_nth' _ 1); auto. rewrite L. apply nth_error_Some. congruence.
    + symmetry. apply H3; [lia|apply Hin].
  - rewrite (proj2 (nth_error_None _ _)); [symmetry; apply nth_error_None; lia|]. unfold undo_shuffle. rewrite !map_length, seq_length, orig_len. lia.
Qed.
Lemma back_source q p sh : length sh = n -> forall osh, shuffled_shape o sh osh -> inside osh q -> source o n q p -> back p = q.
Proof.
  intros Ls osh (L & H1 & H2 & H3) Hin (Lp & S1 & S2).
  assert (Lq : length q = length o).
  { rewrite <- L. clear -Hin. induction Hin; cbn; auto. }
  apply nth_error_ext. intros j. unfold back. destruct (lt_dec j (length o)) as [Hj|Hj].
  - erewrite map_nth_error; [|rewrite (nth_error_nth' _ 0) by (now rewrite seq_length); rewrite seq_nth by auto; reflexivity]. cbn [Nat.add].
    destruct (nth_error o j) as [[d|]|] eqn:Ej.
    + rewrite <- (S1 j d Ej). rewrite (nth_error_nth' _ 0); auto. rewrite Lp. eapply V; eauto.
    + specialize (H2 j Ej). destruct (nth_error q j) as [x|] eqn:Eq; [|apply nth_error_None in Eq; lia].
      assert (x < 1); [|f_equal; lia].
      clear -Hin H2 Eq. revert j H2 Eq. induction Hin as [|a b l l' Hab Hl IH]; intros [|j] H2 Eq; cbn in *; try discriminate; [|eauto].
      injection H2 as ->. injection Eq as ->. auto.
    + apply nth_error_None in Ej. lia.
  - rewrite !(proj2 (nth_error_None _ _)); auto; [lia|rewrite map_length, seq_length; lia].
Qed.
End Unshuffle.
Lemma redo_all n o : valid_order n o -> redo n o = o.
Proof.
  intros (_ & V). unfold redo. assert (forall l, (forall e, In e l -> In e o) -> filter (fun e => match e with None => true | Some d => d <? n end) l = l).
  { induction l as [|e l IH]; intros H; auto. cbn [filter]. specialize (IH (fun e He => H e (or_intror He))). rewrite IH.
    destruct e as [d|]; auto. destruct (Nat.ltb_spec d n); auto. exfalso. destruct (In_nth_error o (Some d)) as (j & Hj); [apply H; now left|].
    specialize (V j d Hj). lia. }
  apply H. auto.
Qed.
Lemma shuffle_source n o q : length q = length o -> valid_order n o ->
  let p := map (fun d => match axis_at d o with Some j => nth j q 0 | None => 0 end) (seq 0 n) in source o n q p.
Proof.
  intros L (V1 & V2) p. assert (N : forall d, d < n -> nth_error p d = Some (match axis_at d o with Some j => nth j q 0 | None => 0 end)).
  { intros d Hd. unfold p. erewrite map_nth_error; [reflexivity|]. rewrite (nth_error_nth' _ 0) by (now rewrite seq_length). now rewrite seq_nth. }
  split; [unfold p; now rewrite map_length, seq_length|]. split.
  - intros j d Hj. rewrite N by eauto. destruct (axis_at_In d o) as (j' & E); [eapply nth_error_In; eauto|]. rewrite E.
    apply axis_at_nth in E. rewrite (V1 _ _ _ E Hj) in *. symmetry. apply nth_error_nth'. rewrite L. apply nth_error_Some. congruence.
  - intros d Hd D. rewrite N by auto. rewrite (proj2 (axis_at_None d o)); auto. intros Hin. apply In_nth_error in Hin as (j & Hj). exact (D j Hj).
Qed.
Lemma source_unique o n q p p' : valid_order n o -> source o n q p -> source o n q p' -> p = p'.
Proof.
  intros V (L & S1 & S2) (L' & S1' & S2'). apply nth_error_ext. intros d. destruct (lt_dec d n).
  - destruct (axis_at d o) as [j|] eqn:E.
    + apply axis_at_nth in E. now rewrite (S1 j d E), (S1' j d E).
    + assert (D : dropped o d) by (intros j Hj; apply axis_at_None in E; apply E; eapply nth_error_In; eauto). now rewrite S2, S2'.
  - rewrite !(proj2 (nth_error_None _ _)); auto; lia.
Qed.
Lemma inside_len sh q : inside sh q -> length q = length sh.
Proof. induction 1; cbn; auto. Qed.
Lemma dimshuffle_is_shuffle {A} o (x : nd A) : valid_order (length (nshp x)) o ->
  (forall d, d < length (nshp x) -> dropped o d -> nth_error (nshp x) d = Some 1) -> is_shuffle o x (dimshuffle o x).
Proof.
  intros V D. split.
  - split; [cbn; now rewrite map_length|]. split; [|split; auto].
    + intros j d Hj. cbn. erewrite map_nth_error; [|exact Hj]. cbn. symmetry. apply nth_error_nth'. eapply V; eauto.
    + intros j Hj. cbn. erewrite map_nth_error; [|exact Hj]. reflexivity.
  - intros q p Hin S. cbn. f_equal. eapply source_unique; [exact V| |exact S]. apply shuffle_source; auto.
    apply inside_len in Hin. cbn in Hin. now rewrite map_length in Hin.
Qed.
Lemma dimshuffle_logprob o base y : valid_order (length (cshp base)) o -> shuffled_shape o (cshp base) (nshp y) ->
  nshp (logprob_dimshuffle o base y) = nshp y /\
  forall q p, inside (nshp y) q -> source o (length (cshp base)) q p -> nelt (logprob_dimshuffle o base y) q = clp base p (nelt y q).
Proof.
  intros V S. set (n := length (cshp base)) in *.
  pose proof (unshuffled_shape n o V y (cshp base) eq_refl S) as Sh.
  assert (Ly : length (nshp y) = length o) by apply S.
  assert (R : redo (length (nshp (unshuffled n o y))) o = o) by (rewrite Sh; apply (redo_all n); auto).
  unfold logprob_dimshuffle. fold n. cbn [nshp nelt] in *. rewrite R.
  destruct (dimshuffle_is_shuffle o {| nshp := nshp (unshuffled n o y); nelt := fun p => clp base p (nelt (unshuffled n o y) p) |}) as (S' & H).
  - cbn [nshp]. rewrite Sh. auto.
  - cbn [nshp]. rewrite Sh. apply S.
  - cbn [nshp] in *. split.
    + destruct S' as (L' & A1 & A2 & _). destruct S as (L & B1 & B2 & _). apply nth_error_ext. intros j.
      destruct (nth_error o j) as [[d|]|] eqn:Ej.
      * rewrite (A1 j d Ej), (B1 j d Ej). now rewrite Sh.
      * now rewrite (A2 j Ej), (B2 j Ej).
      * apply nth_error_None in Ej. rewrite !(proj2 (nth_error_None _ _)); auto; [lia|cbn in L' |- *; lia].
    + intros q p Hin Hs. rewrite (H q p).
      * cbn [nelt]. rewrite unshuffled_elt by auto. rewrite (back_source n o V q p (cshp base) eq_refl (nshp y) S Hin Hs). reflexivity.
      * clear -Hin Ly Sh S S' n. destruct S' as (L' & A1 & A2 & _). destruct S as (L & B1 & B2 & _).
        match goal with |- inside ?s q => assert (E : s = nshp y); [|now rewrite E] end.
        apply nth_error_ext. intros j. destruct (nth_error o j) as [[d|]|] eqn:Ej.
        -- rewrite (A1 j d Ej), (B1 j d Ej). now rewrite Sh.
        -- now rewrite (A2 j Ej), (B2 j Ej).
        -- apply nth_error_None in Ej. rewrite !(proj2 (nth_error_None _ _)); auto; [lia|cbn in L' |- *; lia].
      * now rewrite Sh.
Qed.
Lemma unshuffle_ok {A} o (x y : nd A) : valid_order (length (nshp x)) o -> is_shuffle o x y ->
  nshp (unshuffled (length (nshp x)) o y) = nshp x /\
  forall p, inside (nshp x) p -> nelt (unshuffled (length (nshp x)) o y) p = nelt x p.
Proof.
  intros V (S & H). split; [now apply unshuffled_shape|]. intros p Hp. rewrite unshuffled_elt; [|auto|apply S].
  pose proof (inside_len _ _ Hp) as Lp.
  assert (Hn : forall j, j < length o -> nth_error (back o p) j = Some (match nth_error o j with Some (Some d) => nth d p 0 | _ => 0 end)).
  { intros j Hj. unfold back. erewrite map_nth_error; [reflexivity|]. rewrite (nth_error_nth' _ 0) by (now rewrite seq_length). now rewrite seq_nth. }
  apply H.
  - destruct S as (L & H1 & H2 & H3). red in Hp |- *.
    assert (G : forall (a b : list nat), length a = length b -> (forall k x d, nth_error a k = Some x -> nth_error b k = Some d -> x < d) -> Forall2 (fun x d => x < d) a b).
    { induction a as [|a0 a IH]; intros [|b0 b] E K; try discriminate; constructor; [exact (K 0 a0 b0 eq_refl eq_refl)|]. apply IH; [cbn in E; lia|]. intros k. exact (K (S k)). }
    assert (G' : forall k x0 d, nth_error p k = Some x0 -> nth_error (nshp x) k = Some d -> x0 < d).
    { clear -Hp. induction Hp as [|a b l l' Hab Hl IH]; intros [|k] x0 d Hx Hd; cbn in *; try discriminate; [congruence|eauto]. }
    apply G; [unfold back; rewrite map_length, seq_length; lia|]. intros j x0 d Hx Hd.
    assert (Hj : j < length o) by (rewrite <- L; apply nth_error_Some; congruence). rewrite Hn in Hx by auto.
    destruct (nth_error o j) as [[e|]|] eqn:Ej.
    + rewrite (H1 j e Ej) in Hd. eapply G'; [|exact Hd]. injection Hx as <-. apply nth_error_nth'. rewrite Lp. eapply V; eauto.
    + rewrite (H2 j Ej) in Hd. injection Hd as <-. injection Hx as <-. lia.
    + apply nth_error_None in Ej. lia.
  - split; auto. split.
    + intros j d Hj. assert (j < length o) by (apply nth_error_Some; congruence). rewrite Hn by auto. rewrite Hj. apply nth_error_nth'. rewrite Lp. eapply V; eauto.
    + intros d Hd D. destruct S as (L & H1 & H2 & H3). specialize (H3 d Hd D).
      destruct (nth_error p d) as [x0|] eqn:E; [|apply nth_error_None in E; lia]. f_equal.
      assert (x0 < 1); [|lia]. clear -Hp E H3. revert d E H3. induction Hp as [|a b l l' Hab Hl IH]; intros [|k] Hx Hd; cbn in *; try discriminate; [congruence|eauto].
Qed.
