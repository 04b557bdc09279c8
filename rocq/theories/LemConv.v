(** Lemmas for C42. *)
From Coq Require Import Reals Lra Lia List Arith.
From Coquelicot Require Import Coquelicot.
From Verif Require Import XR Special LemInt SpecDist ModelDist LemDist LemNorm ModelVec ModelIdx SpecIdx LemIdx LemIdx2 ModelTen ModelConv SpecConv.
Import ListNotations.
Open Scope R_scope.

(** ** completing the square *)
Lemma sq_sqrt x : 0 <= x -> sqrt x ^ 2 = x.
Proof. intros H. simpl. rewrite Rmult_1_r. now apply sqrt_sqrt. Qed.
Lemma normal_product m1 s1 m2 s2 y z mc d : 0 < s1 -> 0 < s2 ->
  (y - m1) ^ 2 / (2 * s1 ^ 2) + (z - m2) ^ 2 / (2 * s2 ^ 2) =
  d ^ 2 / (2 * (s1 ^ 2 + s2 ^ 2)) + mc ^ 2 / (2 * (s1 * s2 / sqrt (s1 ^ 2 + s2 ^ 2)) ^ 2) ->
  normal_pdf m1 s1 y * normal_pdf m2 s2 z =
  normal_pdf 0 (sqrt (s1 ^ 2 + s2 ^ 2)) d * normal_pdf 0 (s1 * s2 / sqrt (s1 ^ 2 + s2 ^ 2)) mc.
Proof.
  intros H1 H2 E. assert (Hs : 0 < s1 ^ 2 + s2 ^ 2) by (assert (0 < s1 ^ 2) by (apply pow_lt; lra); assert (0 < s2 ^ 2) by (apply pow_lt; lra); lra).
  assert (Hq := sqrt_lt_R0 _ Hs). pose proof PI_RGT_0. assert (0 < sqrt (2 * PI)) by (apply sqrt_lt_R0; lra).
  unfold normal_pdf. rewrite !Rminus_0_r, sq_sqrt by lra.
  match goal with |- (?a * exp ?u) * (?b * exp ?v) = (?c * exp ?w) * (?d' * exp ?q) =>
    replace ((a * exp u) * (b * exp v)) with (a * b * exp (u + v)) by (rewrite exp_plus; ring);
    replace ((c * exp w) * (d' * exp q)) with (c * d' * exp (w + q)) by (rewrite exp_plus; ring);
    replace (u + v) with (w + q); [f_equal|] end.
  - field. repeat split; lra.
  - unfold Rdiv in *. rewrite <- !Ropp_mult_distr_l. lra.
Qed.
Lemma normal_shift m s x : normal_pdf m s x = normal_pdf 0 s (x - m).
Proof. unfold normal_pdf. rewrite Rminus_0_r. easy. Qed.

Lemma prim_integral f l : prim f m_infty p_infty l -> integral f l.
Proof. intros H. apply prim_RInt_gen in H. exact H. Qed.
Lemma integral_unique f l l' : integral f l -> integral f l' -> l = l'.
Proof.
  intros H1 H2. assert (E1 := is_RInt_gen_unique (V:=R_CompleteNormedModule) f l H1). assert (E2 := is_RInt_gen_unique (V:=R_CompleteNormedModule) f l' H2). congruence.
Qed.
Lemma normal_conv m1 s1 m2 s2 x : 0 < s1 -> 0 < s2 ->
  integral (fun t => normal_pdf m1 s1 t * normal_pdf m2 s2 (x - t)) (normal_pdf (m1 + m2) (sqrt (s1 ^ 2 + s2 ^ 2)) x).
Proof.
  intros H1 H2. assert (Hs : 0 < s1 ^ 2 + s2 ^ 2) by (assert (0 < s1 ^ 2) by (apply pow_lt; lra); assert (0 < s2 ^ 2) by (apply pow_lt; lra); lra).
  assert (Hq := sqrt_lt_R0 _ Hs). assert (Hc : 0 < s1 * s2 / sqrt (s1 ^ 2 + s2 ^ 2)) by (apply Rdiv_lt_0_compat; [nra|lra]).
  apply prim_integral. set (mc := (m1 * s2 ^ 2 + (x - m2) * s1 ^ 2) / (s1 ^ 2 + s2 ^ 2)).
  rewrite <- (Rmult_1_r (normal_pdf (m1 + m2) _ x)).
  apply (prim_ext (fun t => normal_pdf (m1 + m2) (sqrt (s1 ^ 2 + s2 ^ 2)) x * normal_pdf mc (s1 * s2 / sqrt (s1 ^ 2 + s2 ^ 2)) t)); [|now apply prim_scal, normal_prim].
  intros t _. symmetry. rewrite (normal_shift (m1 + m2)), (normal_shift mc). apply normal_product; auto.
  unfold mc. assert (Q : (s1 * s2 / sqrt (s1 ^ 2 + s2 ^ 2)) ^ 2 = s1 ^ 2 * s2 ^ 2 / (s1 ^ 2 + s2 ^ 2)).
  { rewrite <- (sq_sqrt (s1 ^ 2 + s2 ^ 2)) at 2 by lra. field. lra. }
  rewrite Q. field. repeat split; try nra; lra.
Qed.
Lemma normal_diff m1 s1 m2 s2 : 0 < s1 -> 0 < s2 ->
  difference_law (normal_pdf m1 s1) (normal_pdf m2 s2) (normal_pdf (m1 - m2) (sqrt (s1 ^ 2 + s2 ^ 2))).
Proof.
  intros H1 H2 x. assert (Hs : 0 < s1 ^ 2 + s2 ^ 2) by (assert (0 < s1 ^ 2) by (apply pow_lt; lra); assert (0 < s2 ^ 2) by (apply pow_lt; lra); lra).
  assert (Hq := sqrt_lt_R0 _ Hs). assert (Hc : 0 < s1 * s2 / sqrt (s1 ^ 2 + s2 ^ 2)) by (apply Rdiv_lt_0_compat; [nra|lra]).
  apply prim_integral. set (mc := ((m1 - x) * s2 ^ 2 + m2 * s1 ^ 2) / (s1 ^ 2 + s2 ^ 2)).
  rewrite <- (Rmult_1_r (normal_pdf (m1 - m2) _ x)).
  apply (prim_ext (fun t => normal_pdf (m1 - m2) (sqrt (s1 ^ 2 + s2 ^ 2)) x * normal_pdf mc (s1 * s2 / sqrt (s1 ^ 2 + s2 ^ 2)) t)); [|now apply prim_scal, normal_prim].
  intros t _. symmetry. rewrite (normal_shift (m1 - m2)), (normal_shift mc). apply normal_product; auto.
  unfold mc. assert (Q : (s1 * s2 / sqrt (s1 ^ 2 + s2 ^ 2)) ^ 2 = s1 ^ 2 * s2 ^ 2 / (s1 ^ 2 + s2 ^ 2)).
  { rewrite <- (sq_sqrt (s1 ^ 2 + s2 ^ 2)) at 2 by lra. field. lra. }
  rewrite Q. field. repeat split; try nra; lra.
Qed.

(** any number of terms *)
Lemma rsum_sq_pos (l : list (R * R)) : l <> [] -> (forall p, In p l -> 0 < snd p) -> 0 < rsum (map (fun p => snd p ^ 2) l).
Proof.
  induction l as [|p l IH]; [easy|]. intros _ H. cbn [map rsum fold_right]. assert (0 < snd p ^ 2) by (apply pow_lt, H; left; easy).
  destruct l as [|q l]; [cbn; lra|]. assert (0 < rsum (map (fun p => snd p ^ 2) (q :: l))); [|unfold rsum in *; lra].
  apply IH; [easy|]. intros r I. apply H. right. exact I.
Qed.
Lemma normal_sum (l : list (R * R)) : l <> [] -> (forall p, In p l -> 0 < snd p) ->
  sum_law (map (fun p => normal_pdf (fst p) (snd p)) l) (normal_pdf (rsum (map fst l)) (sqrt (rsum (map (fun p => snd p ^ 2) l)))).
Proof.
  induction l as [|p l IH]; [easy|]. intros _ H. assert (Hp : 0 < snd p) by (apply H; left; easy). destruct l as [|q l].
  - cbn [map rsum fold_right]. rewrite !Rplus_0_r. replace (sqrt (snd p ^ 2)) with (snd p); [apply sl_one|].
    simpl. rewrite Rmult_1_r, sqrt_square; lra.
  - assert (Hl : forall r, In r (q :: l) -> 0 < snd r) by (intros r I; apply H; right; exact I). assert (S := IH ltac:(discriminate) Hl).
    assert (P := rsum_sq_pos (q :: l) ltac:(discriminate) Hl). set (m := q :: l) in *. clearbody m. cbn [map rsum fold_right].
    apply (sl_cons _ _ _ _ S). intros x. fold (rsum (map fst m)). fold (rsum (map (fun p => snd p ^ 2) m)).
    replace (snd p ^ 2 + rsum (map (fun p => snd p ^ 2) m)) with (snd p ^ 2 + sqrt (rsum (map (fun p => snd p ^ 2) m)) ^ 2) by (rewrite (sq_sqrt (rsum _)); lra).
    apply normal_conv; [exact Hp|apply sqrt_lt_R0, P].
Qed.

(** ** shapes *)
Open Scope nat_scope.
Definition sub (s t : list nat) : Prop := length s <= length t /\ forall r, rnth 1 s r = 1 \/ rnth 1 s r = rnth 1 t r.
Lemma sub_trans a b c : sub a b -> sub b c -> sub a c.
Proof. intros (L1 & A) (L2 & B). split; [lia|]. intros r. destruct (A r) as [?|E]; auto. rewrite E. destruct (B r); auto. Qed.
Lemma sub_refl a : sub a a.
Proof. split; auto. Qed.
Lemma sub_antisym a b : sub a b -> sub b a -> a = b.
Proof.
  intros (L1 & A) (L2 & B). rewrite <- (rev_involutive a), <- (rev_involutive b). f_equal. apply (nth_ext _ _ 1 1); [rewrite !rev_length; lia|].
  intros r _. specialize (A r). specialize (B r). unfold rnth in *. intuition congruence.
Qed.
Lemma bc_RB l s : bcast_all l = Val s -> RB (map (@rev nat) l) (rev s).
Proof. intros E. apply is_broadcast_RB, bcast_all_spec, E. Qed.
Lemma bc_ub l s sh : bcast_all l = Val s -> In sh l -> sub sh s.
Proof.
  intros E I. apply bc_RB in E as (A & _ & C & _). apply (in_map (@rev nat)) in I. split; [|apply (C _ I)]. specialize (A _ I). rewrite !rev_length in A. exact A.
Qed.
Lemma bc_lub l s t : bcast_all l = Val s -> (forall sh, In sh l -> sub sh t) -> sub s t.
Proof.
  intros E H. apply bc_RB in E as (_ & B & _ & D). rewrite rev_length in B. split.
  - destruct B as [B|(sh & I & <-)]; [rewrite <- (rev_length s), B; cbn; lia|]. apply in_map_iff in I as (x & <- & I). rewrite rev_length. apply H, I.
  - intros r. destruct (D r) as [D'|(sh & I & E)]; [auto|]. apply in_map_iff in I as (x & <- & I). unfold rnth. rewrite <- E. apply (H x I).
Qed.
Lemma bc_ex l t : (forall sh, In sh l -> sub sh t) -> exists s, bcast_all l = Val s.
Proof.
  intros H. destruct (rfold_ok l (rev t)) as (s & E & _).
  - intros sh I r. apply in_map_iff in I as (x & <- & I). apply (H x I).
  - exists (rev s). unfold bcast_all. change (fold_right _ _ l) with (rfold l). rewrite E. easy.
Qed.
Lemma bc_intro l s : (forall sh, In sh l -> sub sh s) -> (forall t, (forall sh, In sh l -> sub sh t) -> sub s t) -> bcast_all l = Val s.
Proof.
  intros U L. destruct (bc_ex l s U) as (s' & E). rewrite E. f_equal. apply sub_antisym; [apply (bc_lub l); assumption|].
  apply L. intros sh I. apply (bc_ub l); assumption.
Qed.
Lemma align_align sh s i : sub sh s -> length s <= length i -> align sh (align s i) = align sh i.
Proof.
  intros (L & A) Li. apply (nth_ext _ _ 0 0); [rewrite !align_length; rewrite ?align_length; lia|].
  intros k Hk. rewrite align_length in Hk by (rewrite align_length; lia). rewrite (align_nth sh (align s i)), (align_nth sh i) by (rewrite ?align_length; lia). rewrite align_length, align_nth by lia.
  destruct (nth k sh 1 =? 1) eqn:E; [easy|]. apply Nat.eqb_neq in E. specialize (A (length sh - 1 - k)).
  unfold rnth in A. rewrite !rev_nth in A by lia. replace (length sh - S (length sh - 1 - k)) with k in A by lia.
  replace (length s - S (length sh - 1 - k)) with (length s - length sh + k) in A by lia.
  destruct A as [A|A]; [contradiction|]. rewrite (proj2 (Nat.eqb_neq (nth (length s - length sh + k) s 1) 1)) by congruence. f_equal. lia.
Qed.

Lemma elemwise_at f l w i : elemwise f l = Val w -> length (nshp w) <= length i ->
  nelt w (align (nshp w) i) = f (map (fun a => nelt a (align (nshp a) i)) l).
Proof.
  unfold elemwise. destruct (bcast_all (map nshp l)) as [s|] eqn:E; [|discriminate]. cbn [bind]. intros Q. injection Q as <-. cbn [nshp nelt]. intros L. f_equal.
  apply map_ext_in. intros a I. cbv beta. rewrite align_align; [easy| |exact L]. apply (bc_ub _ _ _ E), in_map, I.
Qed.
Lemma new_split b l w : add_independent_normals b l = Val w ->
  bcast_all (map n_size l) = Val (n_size w) /\ elemwise (if b then x_sub else x_add) (map n_mu l) = Val (n_mu w) /\
  elemwise (fun l => xsqrt (x_add l)) (map (fun v => nd_sq (n_sigma v)) l) = Val (n_sigma w).
Proof.
  unfold add_independent_normals. destruct (bcast_all (map n_size l)) as [s|]; [|discriminate]. cbn [bind].
  destruct (elemwise (if b then x_sub else x_add) (map n_mu l)) as [m|]; [|discriminate]. cbn [bind].
  destruct (elemwise _ (map (fun v => nd_sq (n_sigma v)) l)) as [d|]; [|discriminate]. cbn [bind]. intros E. injection E as <-. easy.
Qed.
Lemma elemwise_shape f l w : elemwise f l = Val w -> bcast_all (map nshp l) = Val (nshp w).
Proof. unfold elemwise. destruct (bcast_all (map nshp l)) as [s|] eqn:E; [|discriminate]. cbn. intros Q. injection Q as <-. easy. Qed.
Lemma rv_shape_spec v s : rv_shape v = Val s -> sub (nshp (n_mu v)) s /\ sub (nshp (n_sigma v)) s /\ sub (n_size v) s /\
  (n_size v = [] -> bcast_all [nshp (n_mu v); nshp (n_sigma v)] = Val s) /\ (n_size v <> [] -> n_size v = s).
Proof.
  unfold rv_shape. destruct (bcast_all [nshp (n_mu v); nshp (n_sigma v)]) as [p|] eqn:E; [|discriminate]. cbn [bind].
  assert (U1 := bc_ub _ _ (nshp (n_mu v)) E (or_introl eq_refl)). assert (U2 := bc_ub _ _ (nshp (n_sigma v)) E (or_intror (or_introl eq_refl))).
  destruct (n_size v) as [|x z] eqn:Z.
  - intros Q. injection Q as <-. split; [exact U1|]. split; [exact U2|]. split; [|easy]. split; [cbn; lia|]. intros [|r]; left; easy.
  - destruct (bcast_all [x :: z; p]) as [q|] eqn:E2; [|discriminate]. cbn [bind]. unfold list_eqb. destruct (list_eq_dec Nat.eq_dec q (x :: z)) as [->|]; [|discriminate].
    intros Q. injection Q as <-. assert (U3 := bc_ub _ _ p E2 (or_intror (or_introl eq_refl))).
    split; [eapply sub_trans; eauto|]. split; [eapply sub_trans; eauto|]. split; [apply sub_refl|]. easy.
Qed.
Lemma Forall2_in_l {A B} (P : A -> B -> Prop) l m a : Forall2 P l m -> In a l -> exists b, In b m /\ P a b.
Proof. intros F. induction F as [|x y l m H F IH]; intros I; [destruct I|]. destruct I as [<-|I]; [exists y; cbn; auto|]. destruct (IH I) as (b & Ib & Hb). exists b. cbn. auto. Qed.
Lemma Forall2_in_r {A B} (P : A -> B -> Prop) l m b : Forall2 P l m -> In b m -> exists a, In a l /\ P a b.
Proof. intros F. induction F as [|x y l m H F IH]; intros I; [destruct I|]. destruct I as [<-|I]; [exists x; cbn; auto|]. destruct (IH I) as (a & Ia & Ha). exists a. cbn. auto. Qed.

Lemma new_shape b l w shs s : add_independent_normals b l = Val w -> Forall2 (fun v sh => rv_shape v = Val sh) l shs -> bcast_all shs = Val s ->
  (rv_shape w = Val s <-> bcast_all (map n_size l) = Val [] \/ bcast_all (map n_size l) = Val s).
Proof.
  intros N F B. apply new_split in N as (Ns & Nm & Nd). apply elemwise_shape in Nm. apply elemwise_shape in Nd. rewrite map_map in Nm. rewrite map_map in Nd. cbn in Nd.
  assert (Um : forall v, In v l -> sub (nshp (n_mu v)) s /\ sub (nshp (n_sigma v)) s).
  { intros v I. destruct (Forall2_in_l _ _ _ v F I) as (sh & Ish & Hsh). apply rv_shape_spec in Hsh as (A1 & A2 & _). assert (U := bc_ub _ _ _ B Ish).
    split; eapply sub_trans; eauto. }
  assert (M1 : sub (nshp (n_mu w)) s). { apply (bc_lub _ _ _ Nm). intros sh I. apply in_map_iff in I as (v & <- & I). apply (Um v I). }
  assert (M2 : sub (nshp (n_sigma w)) s). { apply (bc_lub _ _ _ Nd). intros sh I. apply in_map_iff in I as (v & <- & I). apply (Um v I). }
  rewrite Ns. destruct (n_size w) as [|x z] eqn:Z.
  - split; [auto|]. intros _. unfold rv_shape. rewrite Z.
    assert (Q : bcast_all [nshp (n_mu w); nshp (n_sigma w)] = Val s); [|rewrite Q; easy].
    apply bc_intro.
    + intros sh [<-|[<-|[]]]; assumption.
    + intros t U. apply (bc_lub _ _ _ B). intros sh I. destruct (Forall2_in_r _ _ _ sh F I) as (v & Iv & Hv). apply rv_shape_spec in Hv as (_ & _ & _ & E0 & _).
      assert (S0 : n_size v = []). { assert (Uz := bc_ub _ _ _ Ns (in_map n_size _ _ Iv)). destruct Uz as (Lz & _). destruct (n_size v); [easy|cbn in Lz; lia]. }
      apply (bc_lub _ _ _ (E0 S0)). intros sh' [<-|[<-|[]]].
      * eapply sub_trans; [apply (bc_ub _ _ _ Nm (in_map (fun x => nshp (n_mu x)) _ _ Iv))|apply U; cbn; auto].
      * eapply sub_trans; [apply (bc_ub _ _ _ Nd (in_map (fun x => nshp (n_sigma x)) _ _ Iv))|apply U; cbn; auto].
  - split.
    + intros Q. right. f_equal. apply rv_shape_spec in Q as (_ & _ & _ & _ & Q). rewrite Z in Q. apply Q. discriminate.
    + intros [Q|Q]; [discriminate|]. assert (Q' : s = x :: z) by congruence. subst s. unfold rv_shape. rewrite Z.
      destruct (bc_ex [nshp (n_mu w); nshp (n_sigma w)] (x :: z)) as (p & Ep); [intros sh [<-|[<-|[]]]; assumption|]. rewrite Ep. cbn [bind].
      assert (Up : sub p (x :: z)) by (apply (bc_lub _ _ _ Ep); intros sh [<-|[<-|[]]]; assumption).
      assert (E2 : bcast_all [x :: z; p] = Val (x :: z)). { apply bc_intro; [intros sh [<-|[<-|[]]]; [apply sub_refl|exact Up]|]. intros t U. apply U. cbn. auto. }
      rewrite E2. cbn [bind]. unfold list_eqb. destruct (list_eq_dec Nat.eq_dec (x :: z) (x :: z)); easy.
Qed.

(** ** elements *)
Open Scope R_scope.
Lemma xadd_fold : forall (l : list R) a, fold_left xadd (map Fin l) (Fin a) = Fin (a + rsum l).
Proof. induction l as [|x l IH]; intros a; cbn; [f_equal; lra|]. rewrite IH. f_equal. unfold rsum. lra. Qed.
Lemma x_add_fin (l : list R) : x_add (map Fin l) = Fin (rsum l).
Proof. destruct l as [|x l]; [easy|]. cbn. rewrite xadd_fold. easy. Qed.
Lemma params_mu l i ps : Forall2 (fun v p => has_params v i p) l ps -> map (fun a => nelt a (align (nshp a) i)) (map n_mu l) = map Fin (map fst ps).
Proof. intros F. induction F as [|v p l ps (H & _) F IH]; [easy|]. cbn. rewrite IH. f_equal. exact H. Qed.
Lemma params_sd l i ps : Forall2 (fun v p => has_params v i p) l ps ->
  map (fun a => nelt a (align (nshp a) i)) (map (fun v => nd_sq (n_sigma v)) l) = map Fin (map (fun p => snd p ^ 2) ps).
Proof.
  intros F. induction F as [|v p l ps (_ & H & _) F IH]; [easy|]. cbn [map nd_sq nshp nelt]. rewrite IH. f_equal. unfold sigma_at in H. rewrite H. cbn. f_equal. ring.
Qed.
Lemma params_pos l i ps : Forall2 (fun v p => has_params v i p) l ps -> forall p, In p ps -> 0 < snd p.
Proof. intros F p I. destruct (Forall2_in_r _ _ _ p F I) as (v & _ & _ & _ & H). exact H. Qed.
Lemma new_sigma b l w i ps : add_independent_normals b l = Val w -> in_range w i -> l <> [] -> Forall2 (fun v p => has_params v i p) l ps ->
  sigma_at w i = Fin (sqrt (rsum (map (fun p => snd p ^ 2) ps))) /\ 0 < sqrt (rsum (map (fun p => snd p ^ 2) ps)).
Proof.
  intros N (R1 & R2) NE F. apply new_split in N as (_ & _ & Nd). unfold sigma_at. rewrite (elemwise_at _ _ _ i Nd R2), (params_sd _ _ _ F), x_add_fin.
  assert (P : 0 < rsum (map (fun p => snd p ^ 2) ps)). { apply rsum_sq_pos; [intros ->; inversion F; subst; easy|]. apply (params_pos _ _ _ F). }
  split; [|now apply sqrt_lt_R0]. unfold xsqrt. destruct (Rle_dec 0 (rsum (map (fun p => snd p ^ 2) ps))); [easy|lra].
Qed.
Lemma new_mu l w i ps : add_independent_normals false l = Val w -> in_range w i -> Forall2 (fun v p => has_params v i p) l ps ->
  mu_at w i = Fin (rsum (map fst ps)).
Proof. intros N (R1 & R2) F. apply new_split in N as (_ & Nm & _). unfold mu_at. rewrite (elemwise_at _ _ _ i Nm R1), (params_mu _ _ _ F), x_add_fin. easy. Qed.

Lemma add_law l w i ps : add_independent_normals false l = Val w -> in_range w i -> l <> [] -> Forall2 (fun v p => has_params v i p) l ps ->
  exists h, sum_law (map (fun p => normal_pdf (fst p) (snd p)) ps) h /\ forall x, denotes (normal_logprob (mu_at w i) (sigma_at w i) (Fin x)) (h x).
Proof.
  intros N R NE F. destruct (new_sigma _ _ _ _ _ N R NE F) as (Es & Ps). rewrite Es, (new_mu _ _ _ _ N R F).
  eexists. split; [apply normal_sum; [intros ->; inversion F; subst; easy|apply (params_pos _ _ _ F)]|]. intros x. now apply normal_ok.
Qed.
Lemma sub_law u v w i p q : add_independent_normals true [u; v] = Val w -> in_range w i -> has_params u i p -> has_params v i q ->
  exists h, difference_law (normal_pdf (fst p) (snd p)) (normal_pdf (fst q) (snd q)) h /\ forall x, denotes (normal_logprob (mu_at w i) (sigma_at w i) (Fin x)) (h x).
Proof.
  intros N R Hp Hq. assert (F : Forall2 (fun v p => has_params v i p) [u; v] [p; q]) by auto.
  destruct (new_sigma _ _ _ _ _ N R ltac:(discriminate) F) as (Es & Ps). rewrite Es.
  assert (Em : mu_at w i = Fin (fst p - fst q)).
  { apply new_split in N as (_ & Nm & _). unfold mu_at. rewrite (elemwise_at _ _ _ i Nm (proj1 R)), (params_mu _ _ _ F). easy. }
  rewrite Em. cbn [map rsum fold_right] in *. rewrite Rplus_0_r in *.
  eexists. split; [apply normal_diff; [apply Hp|apply Hq]|]. intros x. now apply normal_ok.
Qed.
Lemma params_formula b l w i ps : add_independent_normals b l = Val w -> in_range w i -> (b = true -> length l = 2%nat) -> l <> [] -> Forall2 (fun v p => has_params v i p) l ps ->
  exists m s, mu_at w i = Fin m /\ sigma_at w i = Fin s /\ 0 < s /\ s ^ 2 = rsum (map (fun p => snd p ^ 2) ps) /\
    m = (if b then match map fst ps with [x; y] => x - y | _ => 0 end else rsum (map fst ps)).
Proof.
  intros N R L NE F. destruct (new_sigma _ _ _ _ _ N R NE F) as (Es & Ps).
  assert (P : 0 < rsum (map (fun p => snd p ^ 2) ps)). { apply rsum_sq_pos; [intros ->; inversion F; subst; easy|]. apply (params_pos _ _ _ F). }
  destruct b.
  - specialize (L eq_refl). destruct l as [|u [|v [|x l]]]; try discriminate. inversion F as [|? p ? ps' H1 F1]; subst. inversion F1 as [|? q ? ps'' H2 F2]; subst. inversion F2; subst.
    eexists _, _. split; [apply new_split in N as (_ & Nm & _); unfold mu_at; rewrite (elemwise_at _ _ _ i Nm (proj1 R)), (params_mu _ _ _ F); cbn; reflexivity|].
    split; [exact Es|]. split; [exact Ps|]. split; [apply sq_sqrt; lra|]. cbn. easy.
  - eexists _, _. split; [apply (new_mu _ _ _ _ N R F)|]. split; [exact Es|]. split; [exact Ps|]. split; [apply sq_sqrt; lra|easy].
Qed.

(** ** a broadcast term is shared *)
Lemma shared_value : shared_term_density (normal_pdf 0 1) (normal_pdf 0 1) (normal_pdf 0 1) 0 0 (/ (2 * PI * sqrt 3)).
Proof.
  pose proof PI_RGT_0 as Hpi. assert (H3 : 0 < sqrt 3) by (apply sqrt_lt_R0; lra). assert (H2p : 0 < sqrt (2 * PI)) by (apply sqrt_lt_R0; lra).
  assert (Q : sqrt (2 * PI) * sqrt (2 * PI) = 2 * PI) by (apply sqrt_sqrt; lra). assert (Q3 : sqrt 3 * sqrt 3 = 3) by (apply sqrt_sqrt; lra).
  apply prim_integral. rewrite <- (Rmult_1_r (/ (2 * PI * sqrt 3))).
  apply (prim_ext (fun y => / (2 * PI * sqrt 3) * normal_pdf 0 (/ sqrt 3) y)); [|apply prim_scal, normal_prim, Rinv_0_lt_compat, H3].
  intros y _. unfold normal_pdf. replace (2 * PI * sqrt 3) with (sqrt (2 * PI) * sqrt (2 * PI) * sqrt 3) by (rewrite Q; easy).
  replace (- (y - 0) ^ 2 / (2 * (/ sqrt 3) ^ 2)) with (- (0 - y - 0) ^ 2 / (2 * 1 ^ 2) + (- (0 - y - 0) ^ 2 / (2 * 1 ^ 2) + - (y - 0) ^ 2 / (2 * 1 ^ 2))).
  - rewrite !exp_plus. field. repeat split; lra.
  - replace ((/ sqrt 3) ^ 2) with (/ (sqrt 3 * sqrt 3)) by (simpl; field; lra). rewrite Q3. field.
Qed.
Lemma broadcast_refuted : exists l w, add_independent_normals false l = Val w /\ map rv_shape l = [Val [2%nat]; Val [1%nat]] /\ rv_shape w = Val [2%nat] /\
  (forall v i, In v l -> mu_at v i = Fin 0 /\ sigma_at v i = Fin 1) /\
  forall p0 p1, denotes (normal_logprob (mu_at w [0%nat]) (sigma_at w [0%nat]) (Fin 0)) p0 -> denotes (normal_logprob (mu_at w [1%nat]) (sigma_at w [1%nat]) (Fin 0)) p1 ->
    ~ shared_term_density (normal_pdf 0 1) (normal_pdf 0 1) (normal_pdf 0 1) 0 0 (p0 * p1).
Proof.
  set (c := fun x : R => {| nshp := []; nelt := fun _ => Fin x |}).
  set (l := [{| n_size := [2%nat]; n_mu := c 0; n_sigma := c 1 |}; {| n_size := [1%nat]; n_mu := c 0; n_sigma := c 1 |}]).
  destruct (add_independent_normals false l) as [w|] eqn:E; [|discriminate]. exists l, w. split; [exact E|]. split; [reflexivity|].
  assert (E' := E). cbn in E'. injection E' as E'. split; [rewrite <- E'; reflexivity|]. split; [intros v i [<-|[<-|[]]]; easy|].
  assert (F : forall i, Forall2 (fun v p => has_params v i p) l [(0, 1); (0, 1)]) by (intros i; repeat constructor; cbn; lra).
  assert (R : forall i, in_range w i) by (intros i; rewrite <- E'; split; cbn; lia).
  assert (D : forall i p, denotes (normal_logprob (mu_at w i) (sigma_at w i) (Fin 0)) p -> p = / (2 * sqrt PI)).
  { intros i p H. destruct (new_sigma _ _ _ _ _ E (R i) ltac:(discriminate) (F i)) as (Es & Ps). rewrite Es, (new_mu _ _ _ _ E (R i) (F i)) in H.
    cbn [map rsum fold_right fst snd] in *. assert (K := normal_ok (0 + (0 + 0)) _ 0 Ps). unfold denotes in *. destruct (normal_logprob _ _ _) as [[r| | |]|]; try easy; [|exfalso].
    - rewrite <- H, K. unfold normal_pdf. replace (- (0 - (0 + (0 + 0))) ^ 2 / _) with 0 by (unfold Rdiv; ring). rewrite exp_0, Rmult_1_r. f_equal.
      rewrite <- sqrt_mult; [|lra|pose proof PI_RGT_0; lra]. replace ((1 ^ 2 + (1 ^ 2 + 0)) * (2 * PI)) with (2 * 2 * PI) by ring.
      rewrite sqrt_mult by (pose proof PI_RGT_0; lra). rewrite sqrt_square by lra. easy.
    - unfold normal_pdf in K. pose proof PI_RGT_0. assert (0 < sqrt (2 * PI)) by (apply sqrt_lt_R0; lra).
      assert (0 < / (sqrt (1 ^ 2 + (1 ^ 2 + 0)) * sqrt (2 * PI)) * exp (- (0 - (0 + (0 + 0))) ^ 2 / (2 * sqrt (1 ^ 2 + (1 ^ 2 + 0)) ^ 2))); [|lra].
      apply Rmult_lt_0_compat; [apply Rinv_0_lt_compat; nra|apply exp_pos]. }
  intros p0 p1 H0 H1 S. apply D in H0. apply D in H1. assert (U := integral_unique _ _ _ S shared_value). subst p0 p1.
  pose proof PI_RGT_0. assert (0 < sqrt PI) by (apply sqrt_lt_R0; lra). assert (QP : sqrt PI * sqrt PI = PI) by (apply sqrt_sqrt; lra).
  assert (H3 : 0 < sqrt 3) by (apply sqrt_lt_R0; lra). assert (Q3 : sqrt 3 * sqrt 3 = 3) by (apply sqrt_sqrt; lra).
  rewrite <- Rinv_mult in U. apply (f_equal Rinv) in U. rewrite !Rinv_inv in U. replace (2 * sqrt PI * (2 * sqrt PI)) with (4 * PI) in U by (replace (4 * PI) with (4 * (sqrt PI * sqrt PI)) by (rewrite QP; easy); ring).
  assert (sqrt 3 = 2) by nra. nra.
Qed.
Lemma shape_refuted : exists l w s, add_independent_normals false l = Val w /\ map rv_shape l = [Val [2%nat; 3%nat]; Val [3%nat]] /\
  bcast_all [[2%nat; 3%nat]; [3%nat]] = Val s /\ rv_shape w = Raise.
Proof.
  set (c := fun s (x : R) => {| nshp := s; nelt := fun _ => Fin x |}).
  set (l := [{| n_size := []; n_mu := c [2%nat; 3%nat] 0; n_sigma := c [] 1 |}; {| n_size := [3%nat]; n_mu := c [] 0; n_sigma := c [] 1 |}]).
  eexists l, _, _. split; [reflexivity|]. split; [reflexivity|]. split; reflexivity.
Qed.
