(** Lemmas on batches of vector-valued variables. *)
From Coq Require Import Reals Lra Lia List Arith ZArith Bool.
From Verif Require Import XR Special SpecDist XTac ModelDist LemDist LemCheck ModelVec SpecVec LemVec ModelIdx SpecIdx LemIdx LemIdx2 ModelTen ModelSub LemSub
  ModelElem SpecElem LemElem ModelBatch SpecBatch.
Import ListNotations.
Open Scope nat_scope.

(** ** broadcasting *)
Lemma bc_ext l m s : (forall x, In x l <-> In x m) -> is_broadcast l s -> is_broadcast m s.
Proof.
  intros E (A & B & C). split; [intros x I; apply A, E, I|]. split.
  - destruct B as [B|(x & I & L)]; [now left|]. right. exists x. split; [now apply E|exact L].
  - intros r R. destruct (C r R) as [P Q]. split; [intros x I; apply P, E, I|]. destruct Q as [Q|(x & I & L)]; [now left|]. right. exists x. split; [now apply E|exact L].
Qed.
Lemma bc_unique l s t : is_broadcast l s -> is_broadcast l t -> s = t.
Proof. intros A B. apply bcast_all_spec in A, B. congruence. Qed.
Lemma bc_in l s x : is_broadcast l s -> In x l -> broadcasts x s.
Proof.
  intros (A & B & C) I. split; [intros y [<-|[<-|[]]]; auto|]. split; [right; exists s; cbn; auto|].
  intros r R. split; [intros y [<-|[<-|[]]]; [now apply C|auto]|]. right. exists s. cbn. auto.
Qed.
(** part of the shapes *)
Lemma bc_part l m s : is_broadcast m s -> (forall x, In x l -> In x m) -> exists c, is_broadcast l c /\ broadcasts c s.
Proof.
  intros H I. destruct (rfold_ok l (rev s)) as (t & E & R & C).
  - apply is_broadcast_RB in H. destruct H as (_ & _ & C & _). intros x J. apply C. apply in_map_iff in J. destruct J as (y & <- & J). apply in_map. auto.
  - exists (rev t). assert (HB : is_broadcast l (rev t)) by (apply is_broadcast_RB; now rewrite rev_involutive). split; [exact HB|].
    assert (L : length (rev t) <= length s).
    { destruct HB as (_ & [E0|(x & J & <-)] & _); [rewrite E0; cbn; lia|]. destruct H as (A & _). apply A. auto. }
    split; [intros y [<-|[<-|[]]]; auto|]. split; [right; exists s; cbn; auto|]. intros r Rr. split; [|right; exists s; cbn; auto].
    intros y [<-|[<-|[]]]; [|auto]. unfold rnth. rewrite rev_involutive. apply (C t). now left.
Qed.
Lemma rnth_over s r : length s <= r -> rnth 1 s r = 1.
Proof. intros L. unfold rnth. apply nth_overflow. now rewrite rev_length. Qed.
Lemma bc_col l s x r : is_broadcast l s -> In x l -> rnth 1 x r = 1 \/ rnth 1 x r = rnth 1 s r.
Proof.
  intros (A & _ & C) I. destruct (Nat.lt_ge_cases r (length s)) as [L|L]; [now apply C|]. left. apply rnth_over. specialize (A x I). lia.
Qed.
Lemma bc_got l s r : is_broadcast l s -> rnth 1 s r = 1 \/ exists x, In x l /\ rnth 1 x r = rnth 1 s r.
Proof. intros (_ & _ & C). destruct (Nat.lt_ge_cases r (length s)) as [L|L]; [now apply C|]. left. now apply rnth_over. Qed.
(** broadcasting some of the shapes first *)
Lemma bc_flat l c m s : is_broadcast l c -> is_broadcast (l ++ m) s -> is_broadcast (c :: m) s.
Proof.
  intros H K. pose proof (bc_part l (l ++ m) s K (fun x I => proj2 (in_app_iff _ _ _) (or_introl I))) as (c' & H' & B).
  rewrite <- (bc_unique l c c' H H') in B. destruct K as (A & E & F). destruct B as (A' & _ & F').
  split; [intros x [<-|I]; [apply A'; cbn; auto|apply A, in_or_app; auto]|]. split.
  - destruct E as [E|(x & I & L)]; [now left|]. right. apply in_app_or in I. destruct I as [I|I]; [|exists x; cbn; auto].
    exists c. split; [now left|]. destruct H as (AH & _). specialize (AH x I). specialize (A' c (or_introl eq_refl)). lia.
  - intros r R. destruct (F r R) as [P Q]. split.
    + intros x [<-|I]; [apply (F' r R); cbn; auto|apply P, in_or_app; auto].
    + destruct Q as [Q|(x & I & L)]; [now left|]. apply in_app_or in I. destruct I as [I|I]; [|right; exists x; cbn; auto].
      destruct (bc_col l c x r H I) as [V|V]; [left; congruence|]. right. exists c. split; [now left|congruence].
Qed.
Lemma bc_flat2 l c m d s : is_broadcast l c -> is_broadcast m d -> is_broadcast (l ++ m) s -> is_broadcast [c; d] s.
Proof.
  intros H K B. pose proof (bc_flat l c m s H B) as B1.
  assert (B2 : is_broadcast (m ++ [c]) s) by (revert B1; apply bc_ext; intros x; rewrite in_app_iff; cbn; tauto).
  pose proof (bc_flat m d [c] s K B2) as B3. revert B3. apply bc_ext. cbn. tauto.
Qed.
Lemma bc_len sh s : broadcasts sh s -> length sh <= length s.
Proof. intros (A & _). apply A. now left. Qed.
(** alignment through an intermediate shape *)
Lemma rnth_align s i r : length s <= length i -> r < length s -> rnth 0 (align s i) r = if rnth 1 s r =? 1 then 0 else rnth 0 i r.
Proof. intros L R. assert (A : aligned s i (align s i)) by now apply aligned_iff. now apply A. Qed.
Lemma align_align a c s i : broadcasts a c -> broadcasts c s -> length i = length s -> align a (align c i) = align a i.
Proof.
  intros A C L. pose proof (bc_len a c A) as La. pose proof (bc_len c s C) as Lc.
  symmetry. apply aligned_iff; [rewrite align_length; lia|]. split; [apply align_length; lia|]. intros r R.
  rewrite rnth_align by lia. destruct (Nat.eqb_spec (rnth 1 a r) 1) as [E|E]; [reflexivity|]. rewrite rnth_align by lia.
  destruct (bc_col _ _ a r A (or_introl eq_refl)) as [V|V]; [easy|]. destruct (Nat.eqb_spec (rnth 1 c r) 1); [congruence|reflexivity].
Qed.
Lemma align_inside a s i : broadcasts a s -> inside s i -> inside a (align a i).
Proof.
  intros B H. pose proof (bc_len a s B) as L. pose proof (inside_length s i H) as Li.
  assert (G : forall k, k < length a -> nth k (align a i) 0 < nth k a 1).
  { intros k K. rewrite align_nth by lia. destruct (Nat.eqb_spec (nth k a 1) 1) as [->|N]; [lia|].
    assert (E : nth k a 1 = nth (length s - length a + k) s 1).
    { destruct (bc_col _ _ a (length a - 1 - k) B (or_introl eq_refl)) as [V|V]; unfold rnth in V; rewrite ?rev_nth in V by lia.
      - replace (length a - S (length a - 1 - k)) with k in V by lia. easy.
      - replace (length a - S (length a - 1 - k)) with k in V by lia. rewrite V. f_equal. lia. }
    rewrite E, Li. assert (J : length s - length a + k < length s) by lia. revert J. generalize (length s - length a + k). clear - H.
    induction H as [|x d i s Hx H IH]; intros [|j] J; cbn in *; try lia. apply IH. lia. }
  assert (La : length (align a i) = length a) by (apply align_length; lia). revert G La. generalize (align a i). clear.
  induction a as [|d a IH]; intros [|x c] G L; cbn in L; try lia; constructor.
  - apply (G 0). cbn. lia.
  - apply IH; [|lia]. intros k K. apply (G (S k)). cbn. lia.
Qed.
Lemma rnth_snoc0 d s K : rnth d (s ++ [K]) 0 = K.
Proof. unfold rnth. now rewrite rev_app_distr. Qed.
Lemma rnth_snoc d s K r : rnth d (s ++ [K]) (S r) = rnth d s r.
Proof. unfold rnth. now rewrite rev_app_distr. Qed.
Lemma bc_snoc a b o K : is_broadcast [a; b] o -> is_broadcast [a ++ [K]; b ++ [K]] (o ++ [K]).
Proof.
  intros (A & B & C). split; [|split].
  - intros x [<-|[<-|[]]]; rewrite !app_length; cbn; [specialize (A a)|specialize (A b)]; cbn in A; assert (X := A ltac:(tauto)); lia.
  - right. destruct B as [->|(x & I & L)].
    + exists (a ++ [K]). split; [now left|]. specialize (A a (or_introl eq_refl)). destruct a; [reflexivity|cbn in A; lia].
    + exists (x ++ [K]). split; [destruct I as [<-|[<-|[]]]; cbn; auto|]. rewrite !app_length. cbn. lia.
  - intros [|r] R.
    + split; [intros x [<-|[<-|[]]]; right; now rewrite !rnth_snoc0|]. right. exists (a ++ [K]). split; [now left|now rewrite !rnth_snoc0].
    + rewrite app_length in R. cbn in R. destruct (C r ltac:(lia)) as [P Q]. rewrite rnth_snoc. split.
      * intros x [<-|[<-|[]]]; rewrite rnth_snoc; apply P; cbn; auto.
      * destruct Q as [Q|(x & I & L)]; [now left|]. right. exists (x ++ [K]). rewrite rnth_snoc. split; [destruct I as [<-|[<-|[]]]; cbn; auto|exact L].
Qed.
Lemma bc_keep b K : is_broadcast [b ++ [K]; b ++ [1]] (b ++ [K]).
Proof.
  split; [intros x [<-|[<-|[]]]; rewrite !app_length; cbn; lia|]. split; [right; exists (b ++ [K]); cbn; auto|].
  intros [|r] R; (split; [intros x [<-|[<-|[]]]|right; exists (b ++ [K]); cbn; auto]); rewrite ?rnth_snoc0, ?rnth_snoc; auto.
Qed.
Lemma rnth_pad k s r : rnth 1 (repeat 1 k ++ s) r = rnth 1 s r.
Proof.
  unfold rnth. rewrite rev_app_distr. destruct (Nat.lt_ge_cases r (length (rev s))) as [L|L]; [now rewrite app_nth1|].
  rewrite app_nth2 by exact L. rewrite (nth_overflow (rev s)) by exact L. generalize (r - length (rev s)). intros j.
  destruct (Nat.lt_ge_cases j (length (rev (repeat 1 k)))) as [Lj|Lj]; [|now apply nth_overflow].
  assert (I : In (nth j (rev (repeat 1 k)) 1) (rev (repeat 1 k))) by now apply nth_In. apply in_rev in I. now apply repeat_spec in I.
Qed.
Lemma bc_pad a b o i j m : is_broadcast [a; b] o -> i + length a <= m + length o -> j + length b <= m + length o ->
  (i + length a = m + length o \/ j + length b = m + length o) ->
  is_broadcast [repeat 1 i ++ a; repeat 1 j ++ b] (repeat 1 m ++ o).
Proof.
  intros B Li Lj E. split; [|split].
  - intros x [<-|[<-|[]]]; rewrite !app_length, !repeat_length; lia.
  - right. destruct E as [E|E]; [exists (repeat 1 i ++ a)|exists (repeat 1 j ++ b)]; (split; [cbn; tauto|rewrite !app_length, !repeat_length; exact E]).
  - intros r R. rewrite rnth_pad. split.
    + intros x [<-|[<-|[]]]; rewrite rnth_pad; apply (bc_col _ _ _ r B); cbn; tauto.
    + destruct (bc_got _ _ r B) as [V|(x & [<-|[<-|[]]] & V)]; [now left| |]; right;
        [exists (repeat 1 i ++ a)|exists (repeat 1 j ++ b)]; (split; [cbn; tauto|now rewrite rnth_pad]).
Qed.

(** ** element-wise operations and reductions *)
Lemma elem2_ok {A B C} (f : A -> B -> C) a b o : is_broadcast [nshp a; nshp b] o -> exists r, elem2 f a b = Val r /\ nshp r = o /\
  forall i, nelt r i = f (nelt a (align (nshp a) i)) (nelt b (align (nshp b) i)).
Proof. intros H. apply bcast_all_spec in H. unfold elem2. rewrite H. cbn [bind]. eexists. split; [reflexivity|]. split; [reflexivity|]. reflexivity. Qed.
Lemma elem2_raise {A B C} (f : A -> B -> C) a b : (forall o, ~ is_broadcast [nshp a; nshp b] o) -> elem2 f a b = Raise.
Proof.
  intros H. unfold elem2. destruct (bcast_all [nshp a; nshp b]) as [o|] eqn:E; [|reflexivity]. apply bcast_all_spec in E. now apply H in E.
Qed.
Lemma reduce_shape {A B} (f : list A -> B) a b K : nshp a = b ++ [K] -> nshp (reduce f a) = b.
Proof. intros E. cbn. rewrite E. apply removelast_last. Qed.
Lemma row_eq {A} (a : nd A) b K i : nshp a = b ++ [K] -> row a i = map (fun k => nelt a (i ++ [k])) (seq 0 K).
Proof. intros E. unfold row. now rewrite E, last_last. Qed.
Lemma align_snoc b K i k : length b <= length i -> k < K -> align (b ++ [K]) (i ++ [k]) = align b i ++ [k].
Proof.
  intros L H. rewrite align_app by auto. f_equal. unfold align. cbn. destruct (Nat.eqb_spec K 1); [f_equal; lia|reflexivity].
Qed.
(** the rows of an element-wise operation *)
Lemma elem2_rows {A B C} (f : A -> B -> C) a b ba bb o K r : nshp a = ba ++ [K] -> nshp b = bb ++ [K] -> is_broadcast [ba; bb] o ->
  nshp r = o ++ [K] -> (forall i, nelt r i = f (nelt a (align (nshp a) i)) (nelt b (align (nshp b) i))) ->
  forall i, length i = length o -> row r i = map2 f (row a (align ba i)) (row b (align bb i)).
Proof.
  intros Ea Eb BC Er F i Li. rewrite (row_eq r o K i Er), (row_eq a ba K _ Ea), (row_eq b bb K _ Eb).
  assert (La : length ba <= length i) by (rewrite Li; destruct BC as (X & _); apply X; cbn; auto).
  assert (Lb : length bb <= length i) by (rewrite Li; destruct BC as (X & _); apply X; cbn; auto).
  assert (G : forall l, (forall k, In k l -> k < K) -> map (fun k => nelt r (i ++ [k])) l =
     map2 f (map (fun k => nelt a (align ba i ++ [k])) l) (map (fun k => nelt b (align bb i ++ [k])) l)).
  { induction l as [|k l IH]; intros H; [reflexivity|]. cbn [map map2]. rewrite F, Ea, Eb.
    rewrite !align_snoc by (auto; apply H; now left). f_equal. apply IH. intros x I. apply H. now right. }
  apply G. intros k I. apply in_seq in I. lia.
Qed.
Lemma all_of_true a : all_of a = true <-> forall i, inside (nshp a) i -> nelt a i = true.
Proof.
  unfold all_of. rewrite forallb_forall. split; intros H i I; apply H; now apply positions_in.
Qed.
Lemma inside_snoc b K i : inside (b ++ [K]) i <-> exists c k, i = c ++ [k] /\ inside b c /\ k < K.
Proof.
  split.
  - intros H. apply Forall2_app_inv_r in H. destruct H as (c & e & Hc & He & ->). inversion He as [|k ? e' ? Hk He' E1 E2]. inversion He'. subst. eauto.
  - intros (c & k & -> & Hc & Hk). apply Forall2_app; [exact Hc|]. constructor; [exact Hk|constructor].
Qed.
(** a condition on all entries is the condition on all rows *)
Lemma all_rows {A} (g : A -> bool) (a : nd A) b K : nshp a = b ++ [K] ->
  all_of (elem1 g a) = true <-> forall c, inside b c -> forallb g (row a c) = true.
Proof.
  intros E. rewrite all_of_true. cbn [elem1 nshp nelt]. rewrite E. split.
  - intros H c Hc. rewrite (row_eq a b K c E). apply forallb_forall. intros x I. apply in_map_iff in I. destruct I as (k & <- & I).
    apply in_seq in I. apply H. apply inside_snoc. exists c, k. split; [reflexivity|]. split; [exact Hc|lia].
  - intros H i Hi. apply inside_snoc in Hi. destruct Hi as (c & k & -> & Hc & Hk). specialize (H c Hc). rewrite (row_eq a b K c E) in H.
    rewrite forallb_forall in H. apply H. apply in_map_iff. exists k. split; [reflexivity|]. apply in_seq. lia.
Qed.
Lemma nth_ext_o {A} (l m : list A) : (forall k, nth_error l k = nth_error m k) -> l = m.
Proof.
  revert m. induction l as [|x l IH]; intros [|y m] H; [reflexivity|specialize (H 0); discriminate|specialize (H 0); discriminate|].
  f_equal; [specialize (H 0); cbn in H; congruence|]. apply IH. intros k. exact (H (S k)).
Qed.
Lemma batch_row {A B} (inj : B -> A) a b K v c : batch inj a b K v -> inside b c -> row a c = map inj (v c).
Proof.
  intros (E & H) Hc. destruct (H c Hc) as (L & F). rewrite (row_eq a b K c E).
  apply nth_ext_o. intros k. destruct (Nat.lt_ge_cases k K) as [Hk|Hk].
  - rewrite F by exact Hk. apply (map_nth_error (fun k => nelt a (c ++ [k])) k (seq 0 K) (d := k)).
    rewrite (nth_error_nth' _ 0) by (now rewrite seq_length). now rewrite seq_nth.
  - rewrite !(proj2 (nth_error_None _ _)); [reflexivity| |]; rewrite map_length, ?seq_length; lia.
Qed.

(** ** Dirichlet *)
Lemma bc_sym a b o : is_broadcast [a; b] o -> is_broadcast [b; a] o.
Proof. apply bc_ext. cbn. tauto. Qed.
Lemma bc_idem a b o : is_broadcast [a; b] o -> is_broadcast [o; a] o.
Proof. intros H. apply bc_sym. exact (bc_in _ _ a H (or_introl eq_refl)). Qed.
Lemma row_len {A} (a : nd A) b K i : nshp a = b ++ [K] -> length (row a i) = K.
Proof. intros E. rewrite (row_eq a b K i E). now rewrite map_length, seq_length. Qed.
Lemma dirichlet_rows alpha value ba bv K o : nshp alpha = ba ++ [K] -> nshp value = bv ++ [K] -> is_broadcast [ba; bv] o -> exists r,
  dirichlet_nd alpha value = (if all_of (elem1 (fun a => xlt (Fin 0) a) alpha) then Val r else Raise) /\ nshp r = o /\
  forall i, inside o i -> forallb (fun a => xlt (Fin 0) a) (row alpha (align ba i)) = true ->
    dirichlet_logprob (row alpha (align ba i)) (row value (align bv i)) = Val (nelt r i).
Proof.
  intros Ea Ev B. unfold dirichlet_nd.
  destruct (elem2_ok (fun a v => xsub (xlogy0 (xsub a (Fin 1)) v) (xgammaln a)) alpha value (o ++ [K])) as (t & -> & St & Et);
    [rewrite Ea, Ev; now apply bc_snoc|]. cbn [bind].
  destruct (elem2_ok xadd (reduce xsum t) (elem1 xgammaln (reduce xsum alpha)) o) as (r1 & -> & S1 & E1);
    [cbn [elem1 nshp]; rewrite (reduce_shape xsum t o K St), (reduce_shape xsum alpha ba K Ea); exact (bc_idem _ _ _ B)|]. cbn [bind].
  destruct (elem2_ok andb (reduce (forallb (fun v => xle (Fin 0) v)) value) (reduce (forallb (fun v => xle v (Fin 1))) value) bv) as (c & -> & Sc & Ec);
    [rewrite !(reduce_shape _ value bv K Ev); apply broadcasts_refl|]. cbn [bind]. unfold switch_nd.
  destruct (elem2_ok (fun (b : bool) x => if b then x else NInf) c r1 o) as (r & -> & Sr & Er);
    [rewrite Sc, S1; apply (bc_in [ba; bv] o bv B); cbn; auto|]. unfold check_nd. cbn [bind forallb].
  exists r. rewrite andb_true_r. split; [reflexivity|]. split; [exact Sr|]. intros i Hi P.
  pose proof (inside_length o i Hi) as Li. pose proof (bc_in _ _ ba B (or_introl eq_refl)) as Ba. pose proof (bc_in _ _ bv B (or_intror (or_introl eq_refl))) as Bv.
  unfold dirichlet_logprob. rewrite P. unfold check. cbn [forallb andb]. f_equal.
  rewrite Er, Sc, S1, Ec, E1, !(reduce_shape _ value bv K Ev). cbn [elem1 nshp]. rewrite (reduce_shape xsum t o K St), (reduce_shape xsum alpha ba K Ea).
  cbn [nelt reduce elem1]. rewrite (align_self o i Hi), (align_align bv bv o i (broadcasts_refl bv) Bv Li), (align_self o i Hi).
  destruct (_ && _); [|reflexivity]. f_equal. f_equal. symmetry. exact (elem2_rows _ alpha value ba bv o K t Ea Ev B St Et i Li).
Qed.
Open Scope R_scope.
Lemma dirichlet_batch alpha value ba bv K o (al x : list nat -> list R) : batch Fin alpha ba K al -> batch Fin value bv K x -> is_broadcast [ba; bv] o -> (0 < K)%nat ->
  (forall c, inside ba c -> List.Forall (fun a => 0 < a) (al c)) -> (forall c, inside bv c -> List.Forall (fun v => 0 < v <= 1) (x c)) ->
  exists r, dirichlet_nd alpha value = Val r /\ nshp r = o /\
    forall i ka kv, inside o i -> aligned ba i ka -> aligned bv i kv -> denotes (Val (nelt r i)) (dirichlet_pdf (al ka) (x kv)).
Proof.
  intros Ba Bv B HK Pa Px. destruct (dirichlet_rows alpha value ba bv K o (proj1 Ba) (proj1 Bv) B) as (r & E & Sr & Er).
  assert (Q : forall c, inside ba c -> forallb (fun a => xlt (Fin 0) a) (row alpha c) = true).
  { intros c Hc. rewrite (batch_row Fin alpha ba K al c Ba Hc). apply forallb_forall. intros y I. apply in_map_iff in I. destruct I as (a & <- & I).
    specialize (Pa c Hc). rewrite List.Forall_forall in Pa. apply xlt_true. now apply Pa. }
  rewrite (proj2 (all_rows (fun a => xlt (Fin 0) a) alpha ba K (proj1 Ba)) Q) in E. exists r. split; [exact E|]. split; [exact Sr|].
  intros i ka kv Hi Aa Av. pose proof (inside_length o i Hi) as Li. destruct B as (BL & B').
  assert (La : (length ba <= length i)%nat) by (rewrite Li; apply BL; cbn; auto). assert (Lv : (length bv <= length i)%nat) by (rewrite Li; apply BL; cbn; auto).
  apply (aligned_iff _ _ _ La) in Aa. apply (aligned_iff _ _ _ Lv) in Av. subst ka kv.
  assert (Ia : inside ba (align ba i)) by (apply (align_inside ba o i); [apply (bc_in [ba; bv] o); [split; auto|now left]|exact Hi]).
  assert (Iv : inside bv (align bv i)) by (apply (align_inside bv o i); [apply (bc_in [ba; bv] o); [split; auto|right; now left]|exact Hi]).
  rewrite <- (Er i Hi (Q _ Ia)). rewrite (batch_row Fin alpha ba K al _ Ba Ia), (batch_row Fin value bv K x _ Bv Iv).
  destruct Ba as (_ & Ba). destruct Bv as (_ & Bv). destruct (Ba _ Ia) as (L1 & _). destruct (Bv _ Iv) as (L2 & _).
  apply dirichlet_density; auto; [|lia]. intros E0. rewrite E0 in L1. cbn in L1. lia.
Qed.
Lemma dirichlet_batch_raises alpha value ba bv K o (al x : list nat -> list R) : batch Fin alpha ba K al -> nshp value = bv ++ [K] -> is_broadcast [ba; bv] o ->
  (dirichlet_nd alpha value = Raise <-> exists c a, inside ba c /\ In a (al c) /\ a <= 0).
Proof.
  intros Ba Ev B. destruct (dirichlet_rows alpha value ba bv K o (proj1 Ba) Ev B) as (r & E & _). rewrite E. split.
  - destruct (all_of _) eqn:A; [discriminate|]. intros _. unfold all_of in A. cbn [elem1 nshp nelt] in A. rewrite (proj1 Ba) in A.
    assert (H : exists i, In i (positions (ba ++ [K])) /\ xlt (Fin 0) (nelt alpha i) = false).
    { revert A. generalize (positions (ba ++ [K])). induction l as [|i l IH]; [discriminate|]. cbn [forallb]. destruct (xlt (Fin 0) (nelt alpha i)) eqn:F.
      - cbn [andb]. intros H. destruct (IH H) as (j & I & G). exists j. split; [now right|exact G].
      - intros _. exists i. split; [now left|exact F]. }
    destruct H as (i & I & F). apply positions_in, inside_snoc in I. destruct I as (c & k & -> & Hc & Hk).
    destruct (proj2 Ba c Hc) as (L & G). specialize (G k Hk). rewrite nth_error_map in G. destruct (nth_error (al c) k) as [a|] eqn:N; [|discriminate].
    cbn in G. injection G as G. exists c, a. split; [exact Hc|]. split; [exact (nth_error_In _ _ N)|]. rewrite <- G in F. apply Rnot_lt_le. intros P. now rewrite (xlt_true _ _ P) in F.
  - intros (c & a & Hc & I & P). destruct (all_of _) eqn:A; [|reflexivity]. exfalso.
    rewrite (all_rows (fun a => xlt (Fin 0) a) alpha ba K (proj1 Ba)) in A. specialize (A c Hc). rewrite (batch_row Fin alpha ba K al c Ba Hc) in A.
    rewrite forallb_forall in A. specialize (A (Fin a) (in_map Fin _ _ I)). cbn [xlt] in A. apply Rltb_true in A. lra.
Qed.

(** ** Multinomial *)
Open Scope nat_scope.
Lemma bc_one s : is_broadcast [s] s.
Proof. apply (bc_ext [s; s] [s] s); [cbn; tauto|apply broadcasts_refl]. Qed.
Lemma multinomial_rows n p value bn bp bv K o : nshp n = bn -> nshp p = bp ++ [K] -> nshp value = bv ++ [K] -> is_broadcast [bn; bp; bv] o -> exists r,
  multinomial_nd n p value = (if forallb (fun b => b) [all_of (elem1 (fun q => xle q (Fin 1)) p); all_of (elem1 (fun s => xeq s (Fin 1)) (reduce xsum p)); all_of (elem1 (fun x => xge x (Fin 0)) n)]
    then Val r else Raise) /\ nshp r = o /\
  forall i, inside o i -> forallb (fun q => xle q (Fin 1)) (row p (align bp i)) && (xeq (xsum (row p (align bp i))) (Fin 1) && xge (nelt n (align bn i)) (Fin 0)) = true ->
    multinomial_logprob (nelt n (align bn i)) (row p (align bp i)) (row value (align bv i)) = Val (nelt r i).
Proof.
  intros En Ep Ev B. unfold multinomial_nd. set (ck := [_; _; _]).
  destruct (bc_part [bv; bp] _ o B) as (c & Bc & Bco); [cbn; intros x [<-|[<-|[]]]; auto|].
  destruct (bc_part [bv; bn] _ o B) as (e & Be & Beo); [cbn; intros x [<-|[<-|[]]]; auto|].
  destruct (elem2_ok (fun v q => xadd (xneg (xgammaln (xadd v (Fin 1)))) (xlogy0 v q)) value p (c ++ [K])) as (t & -> & St & Et);
    [rewrite Ep, Ev; now apply bc_snoc|]. cbn [bind].
  destruct (elem2_ok xadd (elem1 (fun x => xgammaln (xadd x (Fin 1))) n) (reduce xsum t) o) as (r1 & -> & S1 & E1).
  { cbn [elem1 nshp]. rewrite (reduce_shape xsum t c K St), En. apply (bc_flat2 [bn] bn [bv; bp] c o (bc_one bn) Bc). revert B. apply bc_ext. cbn. tauto. }
  cbn [bind]. destruct (elem2_ok xeq (reduce xsum value) n e) as (q & -> & Sq & Eq); [rewrite (reduce_shape _ value bv K Ev), En; exact Be|]. cbn [bind].
  destruct (elem2_ok andb (reduce (forallb (fun v => xle (Fin 0) v)) value) q e) as (cd & -> & Sc & Ec);
    [rewrite (reduce_shape _ value bv K Ev), Sq; apply (bc_in _ _ bv Be); now left|]. cbn [bind]. unfold switch_nd.
  destruct (elem2_ok (fun (b : bool) x => if b then x else NInf) cd r1 o) as (r & -> & Sr & Er); [rewrite Sc, S1; exact Beo|]. unfold check_nd. cbn [bind].
  exists r. split; [reflexivity|]. split; [exact Sr|]. intros i Hi P. pose proof (inside_length o i Hi) as Li.
  pose proof (bc_in _ _ bv Be (or_introl eq_refl)) as Bve. pose proof (bc_in _ _ bn Be (or_intror (or_introl eq_refl))) as Bne.
  pose proof (bc_in _ _ bv Bc (or_introl eq_refl)) as Bvc. pose proof (bc_in _ _ bp Bc (or_intror (or_introl eq_refl))) as Bpc.
  unfold multinomial_logprob, check. cbn [forallb]. rewrite andb_true_r, P. f_equal.
  pose proof (bc_len e o Beo) as Le. pose proof (bc_len c o Bco) as Lc.
  rewrite Er, Sc, S1, Ec, E1, Sq, Eq. cbn [elem1 nshp]. rewrite (reduce_shape xsum t c K St), !(reduce_shape _ value bv K Ev), En. cbn [nelt reduce elem1].
  rewrite (align_self o i Hi).
  rewrite (align_align e e o i (broadcasts_refl e) Beo Li). rewrite !(align_align bv e o i Bve Beo Li), (align_align bn e o i Bne Beo Li).
  clear P. destruct (_ && _); [|reflexivity]. f_equal. f_equal. symmetry.
  rewrite (elem2_rows (fun v q => xadd (xneg (xgammaln (xadd v (Fin 1)))) (xlogy0 v q)) value p bv bp c K t Ev Ep Bc St Et (align c i)) by (rewrite align_length; lia).
  now rewrite (align_align bv c o i Bvc Bco Li), (align_align bp c o i Bpc Bco Li).
Qed.
Open Scope R_scope.
Lemma prob_le1 q x : prob_vector q -> In x q -> x <= 1.
Proof. intros [F E] I. rewrite <- E. now apply rtotal_ge. Qed.
Lemma multinomial_batch n p value bn bp bv K o (m : list nat -> nat) (w : list nat -> list R) (k : list nat -> list nat) :
  array_of (fun j => Fin (INR j)) n bn m -> batch Fin p bp K w -> batch (fun j => Fin (INR j)) value bv K k -> is_broadcast [bn; bp; bv] o ->
  (forall c, inside bp c -> prob_vector (w c)) ->
  exists r, multinomial_nd n p value = Val r /\ nshp r = o /\
    forall i kn kp kv, inside o i -> aligned bn i kn -> aligned bp i kp -> aligned bv i kv -> denotes (Val (nelt r i)) (multinomial_pmf (m kn) (w kp) (k kv)).
Proof.
  intros (En & An) Bp Bv B W. destruct (multinomial_rows n p value bn bp bv K o En (proj1 Bp) (proj1 Bv) B) as (r & E & Sr & Er).
  assert (Q1 : forall c, inside bp c -> forallb (fun q => xle q (Fin 1)) (row p c) = true).
  { intros c Hc. rewrite (batch_row Fin p bp K w c Bp Hc). apply forallb_forall. intros y I. apply in_map_iff in I. destruct I as (a & <- & I).
    apply xle_true. exact (prob_le1 (w c) a (W c Hc) I). }
  assert (Q2 : forall c, inside bp c -> xeq (xsum (row p c)) (Fin 1) = true).
  { intros c Hc. rewrite (batch_row Fin p bp K w c Bp Hc), xsum_Fin. apply xeq_true. apply (W c Hc). }
  assert (Q3 : forall c, inside bn c -> xge (nelt n c) (Fin 0) = true).
  { intros c Hc. rewrite (An c Hc). apply xge_true. apply pos_INR. }
  cbn [forallb] in E. rewrite (proj2 (all_rows (fun q => xle q (Fin 1)) p bp K (proj1 Bp)) Q1) in E.
  rewrite (proj2 (all_of_true (elem1 (fun s => xeq s (Fin 1)) (reduce xsum p)))) in E by (cbn [elem1 nshp]; rewrite (reduce_shape xsum p bp K (proj1 Bp)); exact Q2).
  rewrite (proj2 (all_of_true (elem1 (fun x => xge x (Fin 0)) n))) in E by (cbn [elem1 nshp]; rewrite En; exact Q3).
  exists r. split; [exact E|]. split; [exact Sr|]. intros i kn kp kv Hi Hn Hp Hv. pose proof (inside_length o i Hi) as Li.
  assert (X : forall s c, In s [bn; bp; bv] -> aligned s i c -> c = align s i /\ inside s (align s i)).
  { intros s c I A. pose proof (bc_in _ _ s B I) as Bs. pose proof (bc_len s o Bs). split; [apply aligned_iff; [lia|exact A]|exact (align_inside s o i Bs Hi)]. }
  destruct (X bn kn) as [-> In1]; [cbn; auto|exact Hn|]. destruct (X bp kp) as [-> Ip]; [cbn; auto|exact Hp|]. destruct (X bv kv) as [-> Iv]; [cbn; auto|exact Hv|].
  rewrite <- (Er i Hi) by (now rewrite (Q1 _ Ip), (Q2 _ Ip), (Q3 _ In1)).
  rewrite (batch_row Fin p bp K w _ Bp Ip), (batch_row _ value bv K k _ Bv Iv), (An _ In1).
  destruct Bp as (_ & Bp). destruct Bv as (_ & Bv). destruct (Bp _ Ip) as (L1 & _). destruct (Bv _ Iv) as (L2 & _).
  apply multinomial_mass; [exact (W _ Ip)|lia].
Qed.
