(** Lemmas on batches of categorical variables. *)
From Coq Require Import Reals Lra Lia List Arith ZArith Bool.
From Verif Require Import XR Special SpecDist XTac ModelDist LemDist LemCheck ModelVec SpecVec LemVec ModelIdx SpecIdx LemIdx LemIdx2 ModelTen ModelSub LemSub
  ModelElem SpecElem LemElem ModelBatch SpecBatch LemBatch.
Import ListNotations.
Open Scope nat_scope.

(** ** reading with integer arrays *)
Lemma rseq_all {A} (l : list (res A)) : (forall x, In x l -> exists a, x = Val a) -> exists m, rseq l = Val m.
Proof.
  induction l as [|x l IH]; intros H; [now exists []|]. destruct (H x (or_introl eq_refl)) as (a & ->).
  destruct IH as (m & E); [intros y I; apply H; now right|]. exists (a :: m). cbn. now rewrite E.
Qed.
Lemma rseq_fail {A} (l : list (res A)) : In Raise l -> rseq l = Raise.
Proof.
  induction l as [|x l IH]; [easy|]. intros [->|I]; [reflexivity|]. cbn. rewrite (IH I). now destruct x.
Qed.
Lemma fancy_ok s f : (forall q, inside s q -> exists x, f q = Val x) -> exists r, fancy s f = Val r /\ nshp r = s /\ forall q, inside s q -> f q = Val (nelt r q).
Proof.
  intros H. unfold fancy. destruct (rseq_all (map f (positions s))) as (m & E).
  - intros x I. apply in_map_iff in I. destruct I as (q & <- & I). apply H. now apply positions_in.
  - rewrite E. cbn [bind]. eexists. split; [reflexivity|]. split; [reflexivity|]. intros q I. cbn. destruct (H q I) as (x & ->). reflexivity.
Qed.
Lemma fancy_raise s f q : inside s q -> f q = Raise -> fancy s f = Raise.
Proof.
  intros I E. unfold fancy. rewrite rseq_fail; [reflexivity|]. rewrite <- E. apply in_map. now apply positions_in.
Qed.

(** ** the moved axis *)
Lemma axis_seq d a m : a <= d < a + m -> axis_at d (map Some (seq a m)) = Some (d - a).
Proof.
  revert a. induction m as [|m IH]; intros a H; [lia|]. cbn [seq map axis_at]. destruct (Nat.eqb_spec a d) as [->|N]; [now rewrite Nat.sub_diag|].
  rewrite (IH (S a)) by lia. cbn. f_equal. lia.
Qed.
Lemma last_first (a : nd xr) b K : nshp a = b ++ [K] -> let n := length (nshp a) in
  nshp (dimshuffle (Some (n - 1) :: map Some (seq 0 (n - 1))) a) = K :: b /\
  forall k t, length t = length b -> nelt (dimshuffle (Some (n - 1) :: map Some (seq 0 (n - 1))) a) (k :: t) = nelt a (t ++ [k]).
Proof.
  intros E. cbv zeta. rewrite E, app_length, Nat.add_sub. cbn [length]. split.
  - cbn [dimshuffle nshp map]. rewrite E, app_nth2, Nat.sub_diag by lia. cbn [nth]. f_equal. rewrite map_map.
    apply (nth_ext _ _ 1 1); [now rewrite map_length, seq_length|]. intros j H. rewrite map_length, seq_length in H.
    rewrite (nth_indep _ 1 (nth 0 (b ++ [K]) 1)) by (now rewrite map_length, seq_length).
    rewrite (map_nth (fun x => nth x (b ++ [K]) 1)), seq_nth by exact H. cbn. now rewrite app_nth1.
  - intros k t L. cbn [dimshuffle nelt]. f_equal. rewrite E, app_length. cbn [length]. rewrite seq_app, map_app. cbn [seq map Nat.add]. f_equal.
    + apply (nth_ext _ _ 0 0); [now rewrite map_length, seq_length|]. intros j H. rewrite map_length, seq_length in H.
      set (f := fun d => _). rewrite (nth_indep _ 0 (f 0)) by (now rewrite map_length, seq_length).
      rewrite (map_nth f), seq_nth by exact H. unfold f. cbn [axis_at Nat.add]. destruct (Nat.eqb_spec (length b) j); [lia|].
      rewrite axis_seq by lia. cbn. now rewrite Nat.sub_0_r.
    + cbn [axis_at]. now rewrite Nat.eqb_refl.
Qed.
Lemma pad_if {A} (a : nd A) x y : exists a', (if true && (x <? y) then padleft (y - x) a else a) = a' /\ nshp a' = repeat 1 (y - x) ++ nshp a /\
  forall i, nelt a' i = nelt a (skipn (y - x) i).
Proof.
  cbn [andb]. eexists. split; [reflexivity|]. destruct (Nat.ltb_spec x y) as [L|L]; [split; reflexivity|]. replace (y - x) with 0 by lia. split; reflexivity.
Qed.
Lemma bc_length2 a b o : is_broadcast [a; b] o -> length o = Nat.max (length a) (length b).
Proof.
  intros (A & E & _). pose proof (A a (or_introl eq_refl)). pose proof (A b (or_intror (or_introl eq_refl))).
  destruct E as [->|(x & [<-|[<-|[]]] & L)]; [cbn in *|..]; lia.
Qed.
Lemma inside_pad m o q : inside (repeat 1 m ++ o) q -> exists i, q = repeat 0 m ++ i /\ inside o i.
Proof.
  revert q. induction m as [|m IH]; intros q H; [exists q; auto|]. cbn in H. inversion H as [|x d q' ? Hx H' E1 E2]; subst.
  destruct (IH q' H') as (i & -> & Hi). exists i. split; [|exact Hi]. cbn. f_equal. lia.
Qed.
Lemma inside_pad_r m o i : inside o i -> inside (repeat 1 m ++ o) (repeat 0 m ++ i).
Proof. intros H. induction m as [|m IH]; [exact H|]. cbn. constructor; [lia|exact IH]. Qed.
Lemma align_pad k s q : k + length s <= length q -> skipn k (align (repeat 1 k ++ s) q) = align s q.
Proof. intros L. rewrite <- (repeat_length 1 k) at 1. apply align_skip. now rewrite repeat_length. Qed.

(** ** normalised rows *)
Definition normed (l : list xr) : list xr := map (fun x => xdiv x (xsum l)) l.
Lemma normalised (p : nd xr) b K : nshp p = b ++ [K] -> exists p1,
  elem2 xdiv p {| nshp := removelast (nshp p) ++ [1]; nelt := fun i => xsum (row p (removelast i)) |} = Val p1 /\ nshp p1 = b ++ [K] /\
  forall c, inside b c -> row p1 c = normed (row p c).
Proof.
  intros E. destruct (elem2_ok xdiv p {| nshp := removelast (nshp p) ++ [1]; nelt := fun i => xsum (row p (removelast i)) |} (b ++ [K])) as (p1 & E1 & S1 & F1).
  - cbn [nshp]. rewrite E, removelast_last. apply bc_keep.
  - exists p1. split; [exact E1|]. split; [exact S1|]. intros c Hc. rewrite (row_eq p1 b K c S1). unfold normed. set (tot := xsum (row p c)). rewrite (row_eq p b K c E), map_map. subst tot.
    apply map_ext_in. intros k I. apply in_seq in I. rewrite F1. cbn [nshp nelt]. rewrite E, removelast_last. pose proof (inside_length b c Hc).
    rewrite align_snoc by lia. rewrite align_app by (cbn; lia). change (align [1] [k]) with [0]. rewrite removelast_last.
    now rewrite !(align_self b c Hc).
Qed.

Lemma bc_nil s : is_broadcast [s; []] s.
Proof.
  split; [intros x [<-|[<-|[]]]; cbn; lia|]. split; [right; exists s; cbn; auto|]. intros r R. split; [|right; exists s; cbn; auto].
  intros x [<-|[<-|[]]]; [auto|]. left. apply rnth_over. cbn. lia.
Qed.
Lemma align_nil i : align [] i = [].
Proof. reflexivity. Qed.

(** ** rows with several axes *)
Section Cat.
Variables (p : nd xr) (value : nd Z) (b : list nat) (K : nat) (bv o : list nat).
Hypothesis Sp : nshp p = b ++ [K].
Hypothesis Sv : nshp value = bv.
Hypothesis B : is_broadcast [bv; b] o.
(** the additional leading axis *)
Definition extra : nat := if (1 <=? length b) && (length bv <=? length b) then 1 else 0.
Definition vget (i : list nat) : Z := nelt value (align bv i).
Definition pget (i : list nat) : list xr := normed (row p (align b i)).
Lemma cat_ok : (forall c, inside b c -> forallb (fun x => xge x (Fin 0)) (normed (row p c)) = true /\ forallb (fun x => xle x (Fin 1)) (normed (row p c)) = true) ->
  (forall i, inside o i -> exists x, np_index (pget i) (vget i) = Val x) ->
  exists r, categorical_nd p value = Val r /\ nshp r = repeat 1 extra ++ o /\
    forall i, inside o i -> exists x, np_index (pget i) (vget i) = Val x /\
      nelt r (repeat 0 extra ++ i) = if ((0 <=? vget i) && (vget i <? Z.of_nat K))%Z then xlog x else NInf.
Proof.
  intros Hc Hv. unfold categorical_nd. destruct (normalised p b K Sp) as (p1 & -> & S1 & R1). cbn [bind].
  rewrite S1, app_length. cbn [length]. rewrite Sv. pose proof (bc_length2 bv b o B) as Lo.
  pose proof (bc_in _ _ bv B (or_introl eq_refl)) as Bvo. pose proof (bc_in _ _ b B (or_intror (or_introl eq_refl))) as Bbo.
  unfold extra. destruct (Nat.leb_spec 1 (length b)) as [Lb|Lb].
  - replace (1 <? length b + 1) with true by (symmetry; apply Nat.ltb_lt; lia). cbn [andb]. set (m := if length bv <=? length b then 1 else 0).
    destruct (pad_if value (length bv) (length b + 1)) as (v' & Ev & Sv' & Nv). cbn [andb] in Ev. rewrite Ev. clear Ev.
    destruct (pad_if p1 (length b + 1) (length bv)) as (p' & Ep & Sp' & Np). cbn [andb] in Ep. rewrite Ep. clear Ep.
    rewrite Sv in Sv'. rewrite S1, app_assoc in Sp'. set (k := length b + 1 - length bv) in *. set (j := length bv - (length b + 1)) in *.
    assert (Hm : m + length o = k + length bv /\ m + length o = S j + length b /\ m <= 1).
    { subst m. destruct (Nat.leb_spec (length bv) (length b)); subst k j; lia. }
    destruct (last_first p' (repeat 1 j ++ b) K Sp') as (Ss & Ns). unfold take_along. rewrite Ss.
    assert (Bs : is_broadcast [repeat 1 k ++ bv; 1 :: repeat 1 j ++ b] (repeat 1 m ++ o)).
    { change (1 :: repeat 1 j ++ b) with (repeat 1 (S j) ++ b). apply bc_pad; [exact B|lia|lia|lia]. }
    rewrite Sv', (proj2 (bcast_all_spec _ _) Bs). cbn [bind].
    set (f := fun o0 => np_index _ _).
    assert (Hf : forall i, inside o i -> f (repeat 0 m ++ i) = np_index (pget i) (vget i)).
    { intros i Hi. pose proof (inside_length o i Hi) as Li. unfold f, pget, vget. f_equal.
      - rewrite <- R1 by (exact (align_inside b o i Bbo Hi)). rewrite (row_eq p1 b K _ S1). apply map_ext. intros x.
        rewrite Ns by (rewrite align_length; rewrite ?app_length, ?repeat_length; lia). rewrite Np, skipn_app.
        rewrite align_length by (rewrite !app_length, !repeat_length; lia). rewrite app_length, repeat_length.
        replace (j - (j + length b)) with 0 by lia. cbn [skipn]. rewrite align_pad by (rewrite app_length, repeat_length; lia). now rewrite align_drop by lia.
      - rewrite Nv. rewrite align_pad by (rewrite app_length, repeat_length; lia). now rewrite align_drop by lia. }
    destruct (fancy_ok (repeat 1 m ++ o) f) as (t & -> & St & Nt).
    { intros q Hq. apply inside_pad in Hq. destruct Hq as (i & -> & Hi). rewrite (Hf i Hi). now apply Hv. }
    cbn [bind]. unfold switch_nd.
    destruct (elem2_ok (fun (b : bool) x => if b then x else NInf) (elem1 (fun z => (0 <=? z) && (z <? Z.of_nat (last (nshp p') 1%nat)))%Z v') (elem1 xlog t) (repeat 1 m ++ o)) as (r & -> & Sr & Er).
    { cbn [elem1 nshp]. rewrite Sv', St. apply (bc_in _ _ _ Bs). now left. }
    unfold check_nd. cbn [bind forallb].
    rewrite (proj2 (all_rows (fun x => xge x (Fin 0)) p' (repeat 1 j ++ b) K Sp')), (proj2 (all_rows (fun x => xle x (Fin 1)) p' (repeat 1 j ++ b) K Sp')).
    + cbn [andb]. exists r. split; [reflexivity|]. split; [exact Sr|]. intros i Hi. pose proof (inside_length o i Hi) as Li. exists (nelt t (repeat 0 m ++ i)).
      assert (Hq : inside (repeat 1 m ++ o) (repeat 0 m ++ i)) by now apply inside_pad_r.
      split; [rewrite <- (Hf i Hi); now apply Nt|]. rewrite Er. cbn [elem1 nshp nelt]. rewrite Sp', last_last, Sv', St, (align_self _ _ Hq), Nv.
      rewrite align_pad by (rewrite app_length, repeat_length; lia). now rewrite align_drop by lia.
    + intros c I. rewrite (row_eq p' (repeat 1 j ++ b) K c Sp'). apply inside_pad in I. destruct I as (i & -> & Hi). rewrite <- (proj2 (Hc i Hi)), <- R1 by exact Hi.
      f_equal. rewrite (row_eq p1 b K i S1). apply map_ext. intros x. rewrite Np. f_equal. rewrite <- app_assoc, skipn_app, skipn_all2, repeat_length, Nat.sub_diag by (rewrite repeat_length; lia). reflexivity.
    + intros c I. rewrite (row_eq p' (repeat 1 j ++ b) K c Sp'). apply inside_pad in I. destruct I as (i & -> & Hi). rewrite <- (proj1 (Hc i Hi)), <- R1 by exact Hi.
      f_equal. rewrite (row_eq p1 b K i S1). apply map_ext. intros x. rewrite Np. f_equal. rewrite <- app_assoc, skipn_app, skipn_all2, repeat_length, Nat.sub_diag by (rewrite repeat_length; lia). reflexivity.
  - assert (Eb : b = []) by (destruct b; [reflexivity|cbn in Lb; lia]). clear Lb. rewrite Eb in *. cbn [length Nat.add Nat.ltb Nat.leb andb repeat app].
    assert (Eo : o = bv) by (apply (bc_unique [bv; []]); [exact B|apply bc_nil]). rewrite Eo in *. cbn [app] in S1, Sp.
    assert (Hf : forall i, inside bv i -> np_index (row p1 []) (nelt value i) = np_index (pget i) (vget i)).
    { intros i Hi. unfold pget, vget. rewrite Eb, (align_self bv i Hi). f_equal. rewrite R1 by constructor. now rewrite align_nil. }
    rewrite Sv. destruct (fancy_ok bv (fun q => np_index (row p1 []) (nelt value q))) as (t & -> & St & Nt).
    { intros q Hq. rewrite (Hf q Hq). now apply Hv. }
    cbn [bind]. unfold switch_nd.
    destruct (elem2_ok (fun (b : bool) x => if b then x else NInf) (elem1 (fun z => (0 <=? z) && (z <? Z.of_nat (last (nshp p1) 1%nat)))%Z value) (elem1 xlog t) bv) as (r & -> & Sr & Er).
    { cbn [elem1 nshp]. rewrite Sv, St. apply broadcasts_refl. }
    unfold check_nd. cbn [bind forallb].
    rewrite (proj2 (all_rows (fun x => xge x (Fin 0)) p1 [] K S1)), (proj2 (all_rows (fun x => xle x (Fin 1)) p1 [] K S1)).
    + cbn [andb]. exists r. split; [reflexivity|]. split; [exact Sr|]. intros i Hi. exists (nelt t i). split; [rewrite <- (Hf i Hi); now apply Nt|].
      rewrite Er. cbn [elem1 nshp nelt]. rewrite S1, Sv, St, (align_self bv i Hi). cbn [last]. unfold vget. now rewrite (align_self bv i Hi).
    + intros c I. rewrite R1 by exact I. apply (Hc c I).
    + intros c I. rewrite R1 by exact I. apply (Hc c I).
Qed.
End Cat.

Open Scope R_scope.
Lemma categorical_batch p value b bv K o (w : list nat -> list R) (k : list nat -> nat) : batch Fin p b K w -> array_of Z.of_nat value bv k -> is_broadcast [bv; b] o ->
  (forall c, inside b c -> weights (w c)) -> (forall c, inside bv c -> (k c < K)%nat) ->
  exists r, categorical_nd p value = Val r /\ nshp r = (repeat 1 (extra b bv) ++ o)%nat /\
    forall i kp kv, inside o i -> aligned b i kp -> aligned bv i kv -> denotes (Val (nelt r (repeat 0 (extra b bv) ++ i)%nat)) (categorical_pmf (w kp) (k kv)).
Proof.
  intros Bp (Sv & Nv) B W Hk. pose proof (bc_in _ _ bv B (or_introl eq_refl)) as Bvo. pose proof (bc_in _ _ b B (or_intror (or_introl eq_refl))) as Bbo.
  assert (G : forall i, inside o i -> exists x, np_index (pget p b i) (vget value bv i) = Val x /\
     check (Val (if ((0 <=? vget value bv i) && (vget value bv i <? Z.of_nat K))%Z then xlog x else NInf))
       [forallb (fun x => xge x (Fin 0)) (pget p b i); forallb (fun x => xle x (Fin 1)) (pget p b i)] = categorical_logprob (map Fin (w (align b i))) (Z.of_nat (k (align bv i)))).
  { intros i Hi. pose proof (align_inside b o i Bbo Hi) as Ib. pose proof (align_inside bv o i Bvo Hi) as Iv. unfold pget, vget. rewrite (Nv _ Iv), (batch_row Fin p b K w _ Bp Ib).
    destruct (proj2 Bp _ Ib) as (L & _). destruct (cat_index (normed (map Fin (w (align b i)))) (Z.of_nat (k (align bv i)))) as (x & E & _).
    { unfold normed. rewrite !map_length, L. specialize (Hk _ Iv). lia. }
    exists x. split; [exact E|]. unfold categorical_logprob. cbv zeta. fold (normed (map Fin (w (align b i)))). rewrite E. unfold normed at 3. now rewrite !map_length, L. }
  assert (C : forall c, inside b c -> forallb (fun x => xge x (Fin 0)) (normed (row p c)) = true /\ forallb (fun x => xle x (Fin 1)) (normed (row p c)) = true).
  { intros c Hc. rewrite (batch_row Fin p b K w c Bp Hc). unfold normed. rewrite (cat_norm (w c) (W c Hc)). exact (cat_check (w c) (W c Hc)). }
  destruct (cat_ok p value b K bv o (proj1 Bp) Sv B C) as (r & E & Sr & Nr).
  - intros i Hi. destruct (G i Hi) as (x & X & _). eauto.
  - exists r. split; [exact E|]. split; [exact Sr|]. intros i kp kv Hi Ap Av. pose proof (inside_length o i Hi) as Li.
    apply aligned_iff in Ap; [|pose proof (bc_len _ _ Bbo); lia]. apply aligned_iff in Av; [|pose proof (bc_len _ _ Bvo); lia]. subst kp kv.
    destruct (Nr i Hi) as (x & X & ->). destruct (G i Hi) as (y & Y & D). assert (y = x) as -> by congruence.
    pose proof (align_inside b o i Bbo Hi) as Ib. pose proof (align_inside bv o i Bvo Hi) as Iv. destruct (C _ Ib) as (C1 & C2).
    unfold check in D. unfold pget in D at 1 2. rewrite C1, C2 in D. cbn [forallb andb] in D. rewrite D. apply categorical_mass; [exact (W _ Ib)|].
    destruct (proj2 Bp _ Ib) as (-> & _). exact (Hk _ Iv).
Qed.
