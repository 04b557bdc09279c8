(** conditional_logprob on model graphs: C14, C35, C36. *)
From Coq Require Import List Arith Lia Bool.
From Verif Require Import XR ModelVec ModelJoint SpecJoint LemJoint ModelGraph SpecGraph LemGraph.
Import ListNotations.
Open Scope nat_scope.

Section Sem.
Context {V L : Type} (S : sem V L).
Scheme ev_mind := Induction for ev Sort Prop with evs_mind := Induction for evs Sort Prop.
Scheme me_mind := Induction for means Sort Prop with mes_mind := Induction for meanss Sort Prop.

Lemma ev_det : forall h v x, ev S h v x -> forall y, ev S h v y -> x = y.
Proof.
  intros h v x H. induction H as [v ps E|v o ps xs x E Es IH R| |p ps x xs Ep IH Es IHs] using ev_mind
    with (P0 := fun vs xs _ => forall ys, evs S h vs ys -> xs = ys); intros y Y.
  - inversion Y as [w ps' E'|w o ps' xs y' E' Es R]; subst; [easy|]. rewrite E in E'. injection E' as <- <-. discriminate.
  - inversion Y as [w ps' E'|w o' ps' xs' y' E' Es' R']; subst; rewrite E in E'.
    + injection E' as -> ->. discriminate.
    + injection E' as <- <-. rewrite (IH _ Es') in R. congruence.
  - inversion Y. easy.
  - inversion Y; subst. f_equal; auto.
Qed.
Lemma evs_det : forall h vs xs, evs S h vs xs -> forall ys, evs S h vs ys -> xs = ys.
Proof.
  intros h vs xs H. induction H as [|p ps x xs Ep Es IHs]; intros ys Y; inversion Y; subst; [easy|].
  f_equal; [eapply ev_det; eauto|auto].
Qed.
Lemma fvalue_det : forall h f y y', fvalue S h f y -> fvalue S h f y' -> y = y'.
Proof.
  intros h f y y' (xs & x & P & E & Y) (xs' & x' & P' & E' & Y').
  rewrite <- (evs_det _ _ _ P _ P'), <- (ev_det _ _ _ E _ E') in Y'. destruct (f_trans f) as [[tr b]|]; [|congruence].
  destruct Y as (z & Ez & ->). destruct Y' as (z' & Ez' & ->). rewrite (ev_det _ _ _ Ez _ Ez'). easy.
Qed.
Lemma ev_app : forall g t v x, ev S g v x -> ev S (g ++ t) v x.
Proof.
  intros g t v x H. assert (Q : forall i nd, nth_error g i = Some nd -> nth_error (g ++ t) i = Some nd).
  { intros i nd E. rewrite nth_error_app1; [exact E|]. eapply nth_lt, E. }
  induction H using ev_mind with (P0 := fun vs xs _ => evs S (g ++ t) vs xs).
  - eapply ev_in, Q; eauto.
  - eapply ev_op; eauto.
  - constructor.
  - constructor; auto.
Qed.
Lemma means_app : forall g t rho v x, means S g rho v x -> means S (g ++ t) rho v x.
Proof.
  intros g t rho v x H. assert (Q : forall i nd, nth_error g i = Some nd -> nth_error (g ++ t) i = Some nd).
  { intros i nd E. rewrite nth_error_app1; [exact E|]. eapply nth_lt, E. }
  induction H using me_mind with (P0 := fun vs xs _ => meanss S (g ++ t) rho vs xs).
  - apply me_val. auto.
  - eapply me_in; eauto.
  - eapply me_rv; eauto.
  - eapply me_det; eauto.
  - constructor.
  - constructor; auto.
Qed.
Lemma meanss_app : forall g t rho vs xs, meanss S g rho vs xs -> meanss S (g ++ t) rho vs xs.
Proof. intros g t rho vs xs H. induction H; constructor; auto using means_app. Qed.
Lemma means_total : forall g rho, model_graph g -> forall v, v < length g -> exists x, means S g rho v x.
Proof.
  intros g rho W. induction v as [v IH] using lt_wf_ind. intros H.
  destruct (rho v) as [x|] eqn:R; [exists x; constructor; easy|].
  destruct (nth_error g v) as [nd|] eqn:E; [|apply nth_error_None in E; lia]. destruct (W _ _ E) as (Wo & Wa).
  assert (A : forall l, (forall a, In a l -> a < v) -> exists xs, meanss S g rho l xs).
  { induction l as [|a l IHl]; intros B; [exists []; constructor|].
    destruct (IH a) as (x & X); [apply B; cbn; auto|pose proof (B a (or_introl eq_refl)); lia|].
    destruct IHl as (xs & Xs); [intros; apply B; cbn; auto|]. exists (x :: xs). constructor; auto. }
  destruct (A _ Wa) as (xs & Xs). destruct nd as [[] ps]; cbn in *; try easy.
  - eexists. eapply me_in; eauto.
  - eexists. eapply me_rv; eauto.
  - eexists. eapply me_det; eauto.
Qed.
Lemma meanss_total : forall g rho, model_graph g -> forall l, (forall a, In a l -> a < length g) -> exists xs, meanss S g rho l xs.
Proof.
  intros g rho W. induction l as [|a l IHl]; intros B; [exists []; constructor|].
  destruct (means_total g rho W a) as (x & X); [apply B; cbn; auto|].
  destruct IHl as (xs & Xs); [intros; apply B; cbn; auto|]. exists (x :: xs). constructor; auto.
Qed.
End Sem.

Lemma dep_app : forall g t u v, model_graph g -> depends (g ++ t) u v -> u < length g -> depends g u v.
Proof.
  intros g t u v W D. induction D as [u|u nd a v E I D IH]; intros H; [constructor|].
  rewrite nth_error_app1 in E by auto. eapply dep_step; eauto. apply IH. apply (W _ _ E) in I. lia.
Qed.
Lemma repeat_nth : forall A (a : A) n i x, nth_error (repeat a n) i = Some x -> x = a.
Proof. intros A a n i x H. apply nth_error_In in H. apply repeat_spec in H. exact H. Qed.
Lemma nth_combine : forall A B (l : list A) (m : list B) i, length l = length m ->
  nth_error (combine l m) i = match nth_error l i, nth_error m i with Some a, Some b => Some (a, b) | _, _ => None end.
Proof.
  induction l as [|a l IH]; intros [|b m] [|i] H; cbn in *; try discriminate; try easy. apply IH. lia.
Qed.
Lemma nth_seq : forall n a i, i < n -> nth_error (seq a n) i = Some (a + i).
Proof.
  induction n as [|n IH]; intros a [|i] H; cbn; try lia; [f_equal; lia|]. rewrite IH by lia. f_equal. lia.
Qed.

Section Main.
Context (trav : heap -> list nat -> list nat) (uj : bool) (g : heap) (requested : list nat) (realized trs : list (nat * nat)).
Context (h : heap) (fs : list (nat * factor)) (vv : list nat).
Hypothesis REQ : request g requested realized trs.
Hypothesis ORD : trs = [] \/ trav = toposort /\ transformed_first g requested trs.
Hypothesis OK : conditional_logprob trav uj g requested realized trs = Ok (h, fs, vv).
Let g0 := g ++ repeat (mk OIn []) (length requested).
Let rvs := combine requested (seq (length g) (length requested)) ++ realized.
Let n := length requested.

Lemma m_wf : model_graph g0.
Proof.
  destruct REQ as (W & _). intros v nd E. destruct (lt_dec v (length g)) as [H|H].
  - unfold g0 in E. rewrite nth_error_app1 in E by auto. apply (W _ _ E).
  - unfold g0 in E. rewrite nth_error_app2 in E by lia. apply repeat_nth in E as ->. easy.
Qed.
Lemma m_rvs : rv_values requested (seq (length g) (length requested)) realized = rvs.
Proof. apply rv_values_order; [apply seq_length|apply REQ]. Qed.
Lemma m_fst : map fst rvs = requested ++ map fst realized.
Proof. unfold rvs. rewrite map_app, map_fst_combine by (symmetry; apply seq_length). easy. Qed.
Lemma m_keys : NoDup (map fst rvs).
Proof. rewrite m_fst. apply REQ. Qed.
Lemma m_len0 : length g0 = length g + n.
Proof. unfold g0. rewrite app_length, repeat_length. easy. Qed.
Lemma m_req : forall i rv, nth_error requested i = Some rv -> nth_error rvs i = Some (rv, length g + i).
Proof.
  intros i rv E. apply nth_lt in E as Hi. unfold rvs. rewrite nth_error_app1 by (rewrite combine_length, seq_length; lia).
  rewrite nth_combine, E, nth_seq by (rewrite ?seq_length; auto). easy.
Qed.
Lemma m_rea : forall rv val, In (rv, val) realized -> exists k, nth_error rvs k = Some (rv, val).
Proof. intros rv val I. apply In_nth_error. unfold rvs. apply in_or_app. auto. Qed.
Lemma m_nth : forall k rv val, nth_error rvs k = Some (rv, val) ->
  (k < n /\ nth_error requested k = Some rv /\ val = length g + k) \/ (n <= k /\ In (rv, val) realized).
Proof.
  intros k rv val E. destruct (lt_dec k n) as [H|H].
  - left. unfold n in H. destruct (nth_error requested k) as [rv'|] eqn:Q; [|apply nth_error_None in Q; lia].
    rewrite (m_req _ _ Q) in E. injection E as <- <-. auto.
  - right. split; [lia|]. unfold rvs in E. rewrite nth_error_app2 in E by (rewrite combine_length, seq_length; unfold n in H; lia).
    apply nth_error_In in E. exact E.
Qed.
Lemma m_below : forall rv val, In (rv, val) rvs -> rv < length g0 /\ val < length g0.
Proof.
  intros rv val I. apply In_nth_error in I as [k I]. rewrite m_len0. destruct REQ as (_ & _ & B1 & B2 & _).
  destruct (m_nth _ _ _ I) as [(K & Q & ->)|(_ & Q)].
  - apply nth_error_In in Q. apply B1 in Q. lia.
  - apply B2 in Q. lia.
Qed.
Lemma m_trv : forall k rv val, nth_error rvs k = Some (rv, val) -> dget trs rv <> None ->
  exists rng dist ps, nth_error g0 rv = Some (mk (ORv rng dist) ps).
Proof.
  intros k rv val E D. destruct REQ as (_ & _ & B1 & B2 & B3). destruct (B3 _ D) as (_ & rng & dist & ps & G).
  exists rng, dist, ps. unfold g0. rewrite nth_error_app1; [exact G|]. eapply nth_lt, G.
Qed.
Lemma m_first : transformed_first g requested trs ->
  forall j k rvj valj rv val, nth_error rvs j = Some (rvj, valj) -> nth_error rvs k = Some (rv, val) ->
  dget trs rv <> None -> rv <> rvj -> depends g0 rvj rv -> k < j.
Proof.
  intros TF j k rvj valj rv val Ej Ek D Ne Dp. destruct REQ as (W & ND & B1 & B2 & B3). destruct (B3 _ D) as (Iq & _).
  apply In_nth_error in Iq as [i Eq].
  assert (k = i) as ->.
  { pose proof (m_req _ _ Eq) as E. eapply (NoDup_nth_error (map fst rvs)); [exact m_keys| |].
    - rewrite map_length. eapply nth_lt, Ek.
    - rewrite !nth_error_map, E, Ek. easy. }
  apply nth_lt in Eq as Hi. destruct (m_nth _ _ _ Ej) as [(_ & Qj & _)|(Kj & Qj)]; [|unfold n in Kj; lia].
  eapply TF; eauto. apply (dep_app g (repeat (mk OIn []) (length requested))); auto. apply B1. eapply nth_error_In, Qj.
Qed.

Lemma m_parts : exists h1 ms T ord bs out fs0, measure g0 rvs = Ok (h1, ms) /\ values_to_transforms ms trs = Ok T /\
  good_order g0 rvs trs ord /\
  bindings_of (h6 h1 ms T ord) (map fst rvs) (g_outs (fold_left (transform_values T) ord (s3 h1 ms)))
     (map snd (g_vals (fold_left (transform_values T) ord (s3 h1 ms)))) = Some bs /\
  assign (node_measurable (h6 h1 ms T ord)) (node_logprob uj (h6 h1 ms T ord)) (map fst realized) bs = Ok (out, vv) /\
  all_some out = Some fs0 /\ h = hF h1 ms T ord /\ fs = map (fun p => (fst p, finish h1 ms T ord (snd p))) fs0.
Proof.
  unfold conditional_logprob in OK. rewrite m_rvs in OK. fold g0 in OK. unfold construct_ir_fgraph in OK.
  destruct (measure g0 rvs) as [[h1 ms]|] eqn:M; [|discriminate].
  destruct (values_to_transforms ms trs) as [T|] eqn:VT; [|discriminate]. cbv zeta in OK.
  change {| g_heap := value_non_outputs h1 ms; g_outs := _; g_vals := _ |} with (s3 h1 ms) in OK.
  unfold apply_transforms in OK. set (ord := trav (g_heap (s3 h1 ms)) (g_outs (s3 h1 ms))) in OK.
  cbn [g_heap g_outs g_vals] in OK. change (replace_all _ _) with (h6 h1 ms T ord) in OK.
  destruct (bindings_of _ _ _ _) as [bs|] eqn:B; [|discriminate].
  destruct (assign _ _ _ _) as [[out vv']|] eqn:A; [|discriminate].
  destruct (all_some out) as [fs0|] eqn:AS; [|discriminate].
  exists h1, ms, T, ord, bs, out, fs0. split; [easy|]. split; [easy|]. split.
  - destruct ORD as [E0|(E0 & TF)].
    + intros k rv val _ D. rewrite E0 in D. destruct (D eq_refl).
    + unfold ord. rewrite E0. apply (toposort_good g0 rvs m_wf m_keys m_below h1 ms trs T M).
      apply (m_first); auto.
  - split; [easy|]. cbv [cleanup] in OK. injection OK as <- <- <-. split; [easy|]. split; [easy|]. split; [easy|].
    rewrite map_map. easy.
Qed.

Lemma m_vv : length vv = length requested /\ NoDup vv /\
  (forall i rv v, nth_error requested i = Some rv -> nth_error vv i = Some v -> length g <= v /\ nth_error h v = Some (mk OIn [])).
Proof.
  destruct m_parts as (h1 & ms & T & ord & bs & out & fs0 & M & VT & GO & B & A & AS & Eh & Ef).
  assert (K1 := vv_len g0 rvs m_wf m_keys m_below h1 ms trs T M VT m_trv ord GO uj requested (map fst realized) bs out vv fs0 m_fst B A AS).
  assert (K2 := vv_nth g0 rvs m_wf m_keys m_below h1 ms trs T M VT m_trv ord GO uj requested (map fst realized) bs out vv fs0 m_fst B A AS).
  assert (K3 := bind_k g0 rvs m_wf m_keys m_below h1 ms trs T M VT m_trv ord GO bs B).
  assert (K4 := factor_k g0 rvs m_wf m_keys m_below h1 ms trs T M VT m_trv ord GO uj (map fst realized) bs out vv fs0 B A AS).
  assert (K5 := h6_trd g0 rvs m_wf m_keys m_below h1 ms trs T M VT m_trv ord GO).
  assert (KV := bs_vars g0 rvs m_wf m_keys m_below h1 ms trs T M VT m_trv ord GO uj (map fst realized) bs out vv B A).
  assert (Q : forall i rv, nth_error requested i = Some rv -> exists b, nth_error bs i = Some b /\ nth_error vv i = Some (b_val b) /\
     (dget trs rv = None -> b_val b = length g + i) /\
     (forall tr, dget trs rv = Some tr -> b_var b = b_val b + 1 /\ length g0 <= b_val b /\ nth_error (h6 h1 ms T ord) (b_val b) = Some (mk OIn []))).
  { intros i rv E. assert (Er := m_req _ _ E). apply nth_lt in E as Hi. destruct (K3 _ _ _ Er) as (b & Eb & _ & _ & Vb & _ & P1 & P2).
    exists b. split; [exact Eb|]. split; [rewrite (K2 _ _ _ Er Hi); exact Vb|]. split.
    - intros D. destruct (K4 _ _ _ Er) as (f & _ & rng & dist & ps & args & _ & _ & U & _). destruct (U D) as (_ & Bv).
      rewrite nth_error_map, Bv in Vb. cbn in Vb. congruence.
    - intros tr D. split; [apply (P2 _ D)|].
      destruct (K5 _ _ _ _ Er D) as (rng & dist & ps & args & r & c & _ & _ & _ & _ & _ & _ & _ & H7 & _ & Bv & Bb).
      rewrite nth_error_map, Bv in Vb. cbn in Vb. injection Vb as <-. split; [lia|exact H7]. }
  split; [exact K1|]. split.
  - apply NoDup_nth_error. intros i j Hi E. rewrite K1 in Hi.
    destruct (nth_error requested i) as [ri|] eqn:Ei; [|apply nth_error_None in Ei; lia].
    destruct (Q _ _ Ei) as (b & Eb & Vb & U & Tt). rewrite Vb in E. symmetry in E. apply nth_lt in E as Hj. rewrite K1 in Hj.
    destruct (nth_error requested j) as [rj|] eqn:Ej; [|apply nth_error_None in Ej; lia].
    destruct (Q _ _ Ej) as (b' & Eb' & Vb' & U' & Tt'). rewrite Vb' in E. injection E as E. assert (L0 := m_len0). unfold n in L0.
    destruct (dget trs ri) as [tr|] eqn:D, (dget trs rj) as [tr'|] eqn:D'.
    + destruct (Tt _ eq_refl) as (Va & _). destruct (Tt' _ eq_refl) as (Va' & _).
      eapply (NoDup_nth_error (map b_var bs)); [exact KV|rewrite map_length; eapply nth_lt, Eb|].
      rewrite !nth_error_map, Eb, Eb'. cbn. f_equal. congruence.
    + destruct (Tt _ eq_refl) as (_ & Va & _). specialize (U' eq_refl). lia.
    + destruct (Tt' _ eq_refl) as (_ & Va & _). specialize (U eq_refl). lia.
    + specialize (U eq_refl). specialize (U' eq_refl). lia.
  - intros i rv v E Ev. destruct (Q _ _ E) as (b & Eb & Vb & U & Tt). rewrite Vb in Ev. injection Ev as <-. apply nth_lt in E as Hi.
    subst h. destruct (dget trs rv) as [tr|] eqn:D.
    + destruct (Tt _ eq_refl) as (_ & Va & H0). rewrite hF_nth, H0. rewrite m_len0 in Va. split; [lia|easy].
    + rewrite (U eq_refl). split; [lia|]. apply (hF_orig g0 rvs m_wf m_keys m_below h1 ms trs T M VT m_trv ord GO).
      unfold g0. rewrite nth_error_app2, (Nat.add_comm (length g)), Nat.add_sub by lia. rewrite nth_error_repeat by auto. easy.
Qed.
Lemma m_fkeys : keys_exact (map fst fs) requested (map fst realized).
Proof.
  destruct m_parts as (h1 & ms & T & ord & bs & out & fs0 & M & VT & GO & B & A & AS & Eh & Ef).
  assert (E : map fst fs = map fst fs0) by (subst fs; rewrite map_map; apply map_ext; easy). rewrite E. split.
  - apply (fs_nodup g0 rvs m_wf m_keys m_below h1 ms trs T M VT m_trv ord GO uj (map fst realized) bs out vv fs0 B A AS).
  - intros k. rewrite (fs_in g0 rvs m_wf m_keys m_below h1 ms trs T M VT m_trv ord GO uj (map fst realized) bs out vv fs0 B A AS k).
    rewrite m_fst, in_app_iff. easy.
Qed.
Lemma m_draws : (forall rv val, In (rv, val) realized -> forall a, depends g val a -> ~ In a (requested ++ map fst realized)) ->
  forall rv f w nd rng dist, In (rv, f) fs -> fdepends h f w -> nth_error h w = Some nd -> draws nd rng dist ->
  exists a ps, ~ In a requested /\ ~ In a (map fst realized) /\ nth_error g a = Some (mk (ORv rng dist) ps).
Proof.
  intros IND rv f w nd rng dist If Fd Hw X.
  destruct m_parts as (h1 & ms & T & ord & bs & out & fs0 & M & VT & GO & B & A & AS & Eh & Ef). subst h fs.
  apply in_map_iff in If as ([rv' f0] & E & If). cbn in E. injection E as -> <-.
  assert (IND0 : forall k rv val, nth_error rvs k = Some (rv, val) -> dget trs rv = None -> forall a, depends g0 val a -> ~ In a (map fst rvs)).
  { intros k rv0 val Er D a Da. rewrite m_fst. destruct REQ as (W & ND & B1 & B2 & _). destruct (m_nth _ _ _ Er) as [(K & Q & ->)|(K & Q)].
    - assert (a = length g + k) as ->.
      { inversion Da as [u E1 E2|u nd' p v E I D' E1 E2]; subst; [easy|]. exfalso. unfold g0 in E.
        rewrite nth_error_app2 in E by lia. apply repeat_nth in E as ->. destruct I. }
      intros J. apply in_app_iff in J as [J|J]; [apply B1 in J; lia|]. apply in_map_iff in J as ([r v] & E & J). cbn in E. apply B2 in J. lia.
    - apply (IND _ _ Q). apply (dep_app g (repeat (mk OIn []) (length requested))); auto. apply (B2 _ _ Q). }
  destruct (factor_draws g0 rvs m_wf m_keys m_below h1 ms trs T M VT m_trv ord GO IND0 uj (map fst realized) bs out vv fs0 B A AS
    f0 rv w nd rng dist If Fd Hw X) as (a & ps & Na & Ga).
  rewrite m_fst, in_app_iff in Na. exists a, ps. split; [tauto|]. split; [tauto|].
  unfold g0 in Ga. destruct (lt_dec a (length g)) as [Ha|Ha]; [rewrite nth_error_app1 in Ga; auto|].
  rewrite nth_error_app2 in Ga by lia. apply repeat_nth in Ga. discriminate.
Qed.

Context {V L : Type} (S : sem V L) (rho : nat -> option V).
Hypothesis PT : point S g requested vv realized trs rho.
Lemma mf_app : forall rv t y, model_factor S g rho rv t y -> model_factor S g0 rho rv t y.
Proof.
  intros rv t y (rng & dist & ps & xs & x & G & MS & R & Y). exists rng, dist, ps, xs, x. split.
  - unfold g0. rewrite nth_error_app1; [exact G|eapply nth_lt, G].
  - split; [apply meanss_app, MS|]. auto.
Qed.
Lemma m_value : forall rv f, In (rv, f) fs ->
  (forall i v, nth_error requested i = Some rv -> nth_error vv i = Some v ->
     forall y, fvalue S h f y <-> model_factor S g rho rv (trans_of S uj trs rv v) y) /\
  (In rv (map fst realized) -> forall y, fvalue S h f y <-> model_factor S g rho rv None y).
Proof.
  intros rv f If.
  destruct m_parts as (h1 & ms & T & ord & bs & out & fs0 & M & VT & GO & B & A & AS & Eh & Ef).
  assert (K2 := vv_nth g0 rvs m_wf m_keys m_below h1 ms trs T M VT m_trv ord GO uj requested (map fst realized) bs out vv fs0 m_fst B A AS).
  assert (K3 := bind_k g0 rvs m_wf m_keys m_below h1 ms trs T M VT m_trv ord GO bs B).
  assert (K4 := factor_k g0 rvs m_wf m_keys m_below h1 ms trs T M VT m_trv ord GO uj (map fst realized) bs out vv fs0 B A AS).
  destruct REQ as (W & ND & B1 & B2 & B3). destruct PT as (P1 & P2 & P3).
  assert (PU' : forall k rv val, nth_error rvs k = Some (rv, val) -> dget trs rv = None -> exists x, ev S g0 val x /\ rho rv = Some x).
  { intros k r val Er D. destruct (m_nth _ _ _ Er) as [(K & Q & ->)|(K & Q)].
    - destruct (K4 _ _ _ Er) as (f1 & _ & rng & dist & ps & args & _ & _ & U & _). destruct (U D) as (_ & Bv).
      assert (Ev : nth_error vv k = Some (length g + k)) by (rewrite (K2 _ _ _ Er K), nth_error_map, Bv; easy).
      specialize (P1 _ _ _ Q Ev). rewrite D in P1. eexists. split; [|exact P1].
      eapply ev_in. unfold g0. rewrite nth_error_app2, (Nat.add_comm (length g)), Nat.add_sub by lia. rewrite nth_error_repeat by auto. easy.
    - destruct (P2 _ _ Q) as (x & E & R). exists x. split; [apply ev_app, E|exact R]. }
  assert (PT' : forall k rv val tr b, nth_error rvs k = Some (rv, val) -> dget trs rv = Some tr ->
     nth_error (g_vals (fold_left (transform_values T) ord (s3 h1 ms))) k = Some (xid g0 k, b) ->
     exists rng dist ps xs, nth_error g0 rv = Some (mk (ORv rng dist) ps) /\ meanss S g0 rho ps xs /\ rho rv = Some (s_back S tr (s_in S b) xs)).
  { intros k r val tr b Er D Bv. destruct (m_nth _ _ _ Er) as [(K & Q & ->)|(K & Q)].
    - assert (Ev : nth_error vv k = Some b) by (rewrite (K2 _ _ _ Er K), nth_error_map, Bv; easy).
      specialize (P1 _ _ _ Q Ev). rewrite D in P1. destruct P1 as (rng & dist & ps & xs & G & MS & R).
      exists rng, dist, ps, xs. split; [|split; [apply meanss_app, MS|exact R]].
      unfold g0. rewrite nth_error_app1; [exact G|eapply nth_lt, G].
    - exfalso. destruct (B3 r) as (I & _); [congruence|]. apply (in_map fst) in Q. cbn in Q. clear -ND I Q.
      induction requested as [|a l IH]; [destruct I|]. cbn in ND. inversion ND as [|? ? Na Nb]; subst.
      destruct I as [->|I]; [apply Na, in_or_app; auto|auto]. }
  assert (PN' : forall rv, rho rv <> None -> In rv (map fst rvs)).
  { intros r R. rewrite m_fst, in_app_iff. apply P3, R. }
  assert (FV := factor_value g0 rvs m_wf m_keys m_below h1 ms trs T M VT m_trv ord GO S rho PU' PT' PN' uj (map fst realized) bs out vv fs0 B A AS).
  subst h fs. apply in_map_iff in If as ([r f0] & E & If). cbn in E. injection E as -> <-.
  assert (TOT : forall k val t, nth_error rvs k = Some (rv, val) -> exists y, model_factor S g rho rv t y).
  { intros k val t Er. destruct (K4 _ _ _ Er) as (f1 & _ & rng & dist & ps & args & G & _).
    assert (Hg : rv < length g). { destruct (m_nth _ _ _ Er) as [(K & Q & _)|(K & Q)]; [apply B1; eapply nth_error_In, Q|apply (B2 _ _ Q)]. }
    assert (Gg : nth_error g rv = Some (mk (ORv rng dist) ps)) by (unfold g0 in G; rewrite nth_error_app1 in G; auto).
    destruct (meanss_total S g rho W ps) as (xs & Xs); [intros a Ia; apply (W _ _ Gg) in Ia; lia|].
    assert (exists x, rho rv = Some x) as (x & R).
    { destruct (dget trs rv) as [tr|] eqn:D.
      - destruct (K3 _ _ _ Er) as (b & _ & _ & _ & Vb & _). rewrite nth_error_map in Vb. destruct (nth_error (g_vals _) k) as [[x b']|] eqn:Eg; [|discriminate].
        destruct (m_nth _ _ _ Er) as [(K & Q & Ev)|(K & Q)].
        + assert (Ev' : nth_error vv k = Some b') by (rewrite (K2 _ _ _ Er K), nth_error_map, Eg; easy).
          specialize (P1 _ _ _ Q Ev'). rewrite D in P1. destruct P1 as (? & ? & ? & ? & _ & _ & R). eauto.
        + destruct (P2 _ _ Q) as (x' & _ & R). eauto.
      - destruct (PU' _ _ _ Er D) as (x & _ & R). eauto. }
    destruct t as [[tr z]|]; eexists; exists rng, dist, ps, xs, x; repeat (split; eauto). }
  assert (MAIN : forall k val v, nth_error rvs k = Some (rv, val) ->
     nth_error (map snd (g_vals (fold_left (transform_values T) ord (s3 h1 ms)))) k = Some v ->
     forall y, fvalue S (hF h1 ms T ord) (finish h1 ms T ord f0) y <-> model_factor S g rho rv (trans_of S uj trs rv v) y).
  { intros k val v Er Hv y. split.
    - intros Y. destruct (TOT k val (trans_of S uj trs rv v) Er) as (y0 & Y0).
      rewrite (fvalue_det S _ _ _ _ Y (FV k rv val f0 v y0 Er If Hv (mf_app _ _ _ Y0))). exact Y0.
    - intros Y. apply (FV k rv val f0 v y Er If Hv (mf_app _ _ _ Y)). }
  split.
  - intros i v Ei Ev. apply (MAIN i (length g + i)); [apply m_req, Ei|]. rewrite <- (K2 _ _ _ (m_req _ _ Ei)); [exact Ev|eapply nth_lt, Ei].
  - intros I y. apply in_map_iff in I as ([r val] & E & I). cbn in E. subst r. destruct (m_rea _ _ I) as (k & Er).
    destruct (K3 _ _ _ Er) as (b & _ & _ & _ & Vb & _). rewrite (MAIN _ _ _ Er Vb y).
    enough (dget trs rv = None) as D by (unfold trans_of; rewrite D; easy).
    destruct (dget trs rv) eqn:D; [|easy]. exfalso. destruct (B3 rv) as (J & _); [congruence|]. apply (in_map fst) in I. cbn in I. clear -ND I J.
    induction requested as [|a l IH]; [destruct J|]. cbn in ND. inversion ND as [|? ? Na Nb]; subst.
    destruct J as [->|J]; [apply Na, in_or_app; auto|auto].
Qed.
End Main.

(** ** Requests for RandomVariables succeed *)
Lemma vt_total : forall ms trs, (forall rv tr, In (rv, tr) trs -> exists m, In m ms /\ m_rv m = rv) -> exists T, values_to_transforms ms trs = Ok T.
Proof.
  intros ms. induction trs as [|[rv tr] trs IH]; intros H; cbn; [eauto|].
  destruct (dget (map (fun m => (m_rv m, m_vclone m)) ms) rv) as [v|] eqn:D.
  - destruct IH as (T & ->); [|eauto]. intros. eapply H. cbn. eauto.
  - destruct (H rv tr) as (m & I & E); [cbn; auto|]. exfalso. apply dget_none in D. apply D. rewrite map_map. cbn. rewrite <- E. apply (in_map m_rv), I.
Qed.
Lemma cl_total : forall trav uj g requested realized trs, request g requested realized trs ->
  trs = [] \/ trav = toposort /\ transformed_first g requested trs ->
  (forall rv, In rv (requested ++ map fst realized) -> exists rng dist ps, nth_error g rv = Some (mk (ORv rng dist) ps)) ->
  exists r, conditional_logprob trav uj g requested realized trs = Ok r.
Proof.
  intros trav uj g requested realized trs REQ ORD ALL. unfold conditional_logprob. rewrite (m_rvs g requested realized trs REQ).
  set (g0 := g ++ repeat (mk OIn []) (length requested)). set (rvs := combine requested (seq (length g) (length requested)) ++ realized).
  assert (W := m_wf g requested realized trs REQ). assert (K := m_keys g requested realized trs REQ). assert (B := m_below g requested realized trs REQ).
  assert (TV := m_trv g requested realized trs REQ). assert (MF := m_fst g requested realized).
  fold g0 rvs in W, K, B, TV, MF.
  assert (A0 : forall k rv val, nth_error rvs k = Some (rv, val) -> exists rng dist ps, nth_error g0 rv = Some (mk (ORv rng dist) ps)).
  { intros k rv val E. destruct (ALL rv) as (rng & dist & ps & G).
    - rewrite <- MF. apply nth_error_In in E. apply (in_map fst) in E. exact E.
    - exists rng, dist, ps. unfold g0. rewrite nth_error_app1; [exact G|eapply nth_lt, G]. }
  unfold construct_ir_fgraph. destruct (measure_total rvs g0) as ([h1 ms] & M).
  { intros rv val I. apply In_nth_error in I as [k I]. destruct (A0 _ _ _ I) as (rng & dist & ps & G). eauto. }
  rewrite M. destruct (vt_total ms trs) as (T & VT).
  { intros rv tr I. assert (D : dget trs rv <> None). { intros D. apply dget_none in D. apply D. apply (in_map fst) in I. exact I. }
    destruct REQ as (_ & _ & _ & _ & B3). destruct (B3 rv D) as (J & _). apply In_nth_error in J as [i E].
    destruct (measure_spec g0 rvs B h1 ms M) as (_ & _ & _ & P). destruct (P i rv (length g + i)) as (Q & _).
    - apply (m_req g requested realized). exact E.
    - apply nth_error_In in Q. eexists. split; [exact Q|easy]. }
  rewrite VT. cbv zeta. change {| g_heap := value_non_outputs h1 ms; g_outs := _; g_vals := _ |} with (s3 h1 ms).
  unfold apply_transforms. set (ord := trav (g_heap (s3 h1 ms)) (g_outs (s3 h1 ms))).
  cbn [g_heap g_outs g_vals]. change (replace_all _ _) with (h6 h1 ms T ord).
  assert (GO : good_order g0 rvs trs ord).
  { destruct ORD as [E0|(E0 & TF)].
    - intros k rv val _ D. rewrite E0 in D. destruct (D eq_refl).
    - unfold ord. rewrite E0. apply (toposort_good g0 rvs W K B h1 ms trs T M). apply (m_first g requested realized trs REQ TF). }
  destruct (loops_total g0 rvs W K B h1 ms trs T M VT TV ord GO uj (map fst realized) A0) as (bs & out & vv & fs & B1 & B2 & B3).
  rewrite B1, B2, B3. destruct (cleanup _ _) as [h fs']. eauto.
Qed.

(** ** Points exist *)
Section Point.
Context {V L : Type} (S : sem V L) (g : heap).
Hypothesis W : model_graph g.
Lemma ev_total : forall v, v < length g -> exists x, ev S g v x.
Proof.
  induction v as [v IH] using lt_wf_ind. intros H.
  destruct (nth_error g v) as [nd|] eqn:E; [|apply nth_error_None in E; lia]. destruct (W _ _ E) as (Wo & Wa).
  assert (A : forall l, (forall a, In a l -> a < v) -> exists xs, evs S g l xs).
  { induction l as [|a l IHl]; intros B; [exists []; constructor|].
    destruct (IH a) as (x & X); [apply B; cbn; auto|pose proof (B a (or_introl eq_refl)); lia|].
    destruct IHl as (xs & Xs); [intros; apply B; cbn; auto|]. exists (x :: xs). constructor; auto. }
  destruct (A _ Wa) as (xs & Xs). destruct nd as [o ps]; cbn in *.
  destruct o; try easy; eexists; solve [eapply ev_in; exact E|eapply ev_op; [exact E|exact Xs|reflexivity]].
Qed.
Lemma means_agree : forall rho rho' a x, (forall b, b <= a -> rho b = rho' b) -> means S g rho a x -> means S g rho' a x.
Proof.
  intros rho rho'. induction a as [a IH] using lt_wf_ind. intros x Q H.
  assert (A : forall l xs, (forall p, In p l -> p < a) -> meanss S g rho l xs -> meanss S g rho' l xs).
  { intros l xs B M. induction M as [|p l y xs Mp M IHm]; constructor.
    - assert (p < a) by (apply B; cbn; auto). apply IH; auto. intros b Hb. apply Q. lia.
    - apply IHm. intros q Hq. apply B. cbn. auto. }
  inversion H as [v y R|v ps R E|v rng dist ps xs R E M|v f ps xs R E M]; subst.
  - apply me_val. rewrite <- Q; auto.
  - eapply me_in; eauto. rewrite <- Q; auto.
  - eapply me_rv; eauto; [rewrite <- Q; auto|]. apply A; auto. intros p I. apply (W _ _ E), I.
  - eapply me_det; eauto; [rewrite <- Q; auto|]. apply A; auto. intros p I. apply (W _ _ E), I.
Qed.
Lemma meanss_agree : forall rho rho' l xs m, (forall b, b < m -> rho b = rho' b) -> (forall p, In p l -> p < m) ->
  meanss S g rho l xs -> meanss S g rho' l xs.
Proof.
  intros rho rho' l xs m Q B M. induction M as [|p l y xs Mp M IH]; constructor.
  - apply means_agree with (rho := rho); auto. intros b Hb. apply Q. pose proof (B p (or_introl eq_refl)). lia.
  - apply IH. intros. apply B. cbn. auto.
Qed.
Lemma point_exists : forall requested realized trs vv, request g requested realized trs -> length vv = length requested ->
  exists rho, point S g requested vv realized trs rho.
Proof.
  intros requested realized trs vv (_ & ND & B1 & B2 & B3) LV.
  assert (DIS : forall rv, In rv requested -> In rv (map fst realized) -> False).
  { clear -ND. intros rv I J. induction requested as [|a l IH]; [destruct I|]. cbn in ND. inversion ND as [|? ? Na Nb]; subst.
    destruct I as [->|I]; [apply Na, in_or_app; auto|auto]. }
  assert (NDr : NoDup requested) by (eapply nodup_app_l; eauto).
  assert (NDz : NoDup (map fst realized)).
  { clear -ND. induction requested as [|a l IH]; [exact ND|]. inversion ND. auto. }
  assert (P : forall m, exists rho, (forall rv, m <= rv -> rho rv = None) /\
    (forall i rv v, nth_error requested i = Some rv -> nth_error vv i = Some v -> rv < m ->
     match dget trs rv with
     | None => rho rv = Some (s_in S v)
     | Some tr => exists rng dist ps xs, nth_error g rv = Some (mk (ORv rng dist) ps) /\
                    meanss S g rho ps xs /\ rho rv = Some (s_back S tr (s_in S v) xs)
     end) /\
    (forall rv val, In (rv, val) realized -> rv < m -> exists x, ev S g val x /\ rho rv = Some x) /\
    (forall rv, rho rv <> None -> In rv requested \/ In rv (map fst realized))).
  { induction m as [|m (rho & H0 & H1 & H2 & H3)].
    - exists (fun _ => None). split; [easy|]. split; [lia|]. split; [lia|]. congruence.
    - assert (EXT : forall o, (forall i v, nth_error requested i = Some m -> nth_error vv i = Some v ->
           match dget trs m with None => o = Some (s_in S v)
           | Some tr => exists rng dist ps xs, nth_error g m = Some (mk (ORv rng dist) ps) /\ meanss S g rho ps xs /\ o = Some (s_back S tr (s_in S v) xs) end) ->
         (forall val, In (m, val) realized -> exists x, ev S g val x /\ o = Some x) ->
         (o <> None -> In m requested \/ In m (map fst realized)) ->
         exists rho, (forall rv, Datatypes.S m <= rv -> rho rv = None) /\
          (forall i rv v, nth_error requested i = Some rv -> nth_error vv i = Some v -> rv < Datatypes.S m ->
           match dget trs rv with
           | None => rho rv = Some (s_in S v)
           | Some tr => exists rng dist ps xs, nth_error g rv = Some (mk (ORv rng dist) ps) /\
                          meanss S g rho ps xs /\ rho rv = Some (s_back S tr (s_in S v) xs)
           end) /\
          (forall rv val, In (rv, val) realized -> rv < Datatypes.S m -> exists x, ev S g val x /\ rho rv = Some x) /\
          (forall rv, rho rv <> None -> In rv requested \/ In rv (map fst realized))).
      { intros o A1 A2 A3. exists (fun rv => if rv =? m then o else rho rv).
        assert (AG : forall b, b < m -> rho b = if b =? m then o else rho b).
        { intros b Hb. destruct (Nat.eqb_spec b m); [lia|easy]. }
        split; [intros rv Hr; destruct (Nat.eqb_spec rv m); [lia|apply H0; lia]|]. split; [|split].
        - intros i rv v E Ev Hr. destruct (Nat.eqb_spec rv m) as [->|Ne].
          + specialize (A1 _ _ E Ev). destruct (dget trs m) as [tr|]; [|exact A1].
            destruct A1 as (rng & dist & ps & xs & G & M & ->). exists rng, dist, ps, xs. split; [exact G|]. split; [|easy].
            eapply meanss_agree; [exact AG|intros p I; apply (W _ _ G), I|exact M].
          + assert (Hm : rv < m) by lia. specialize (H1 _ _ _ E Ev Hm). destruct (dget trs rv) as [tr|]; [|exact H1].
            destruct H1 as (rng & dist & ps & xs & G & M & R). exists rng, dist, ps, xs. split; [exact G|]. split; [|exact R].
            eapply meanss_agree; [exact AG|intros p I; apply (W _ _ G) in I; lia|exact M].
        - intros rv val I Hr. destruct (Nat.eqb_spec rv m) as [->|Ne]; [apply A2, I|apply (H2 _ _ I); lia].
        - intros rv. destruct (Nat.eqb_spec rv m) as [->|Ne]; [exact A3|apply H3]. }
      destruct (in_dec Nat.eq_dec m requested) as [I|I].
      + apply In_nth_error in I as [i E]. apply nth_lt in E as Hi. rewrite <- LV in Hi.
        destruct (nth_error vv i) as [v|] eqn:Ev; [|apply nth_error_None in Ev; lia].
        assert (UI : forall i', nth_error requested i' = Some m -> i' = i).
        { intros i' E'. eapply NoDup_nth_error; [exact NDr|eapply nth_lt, E'|congruence]. }
        destruct (dget trs m) as [tr|] eqn:D.
        * destruct (B3 m) as (_ & rng & dist & ps & G); [congruence|].
          destruct (meanss_total S g rho W ps) as (xs & M); [intros a Ia; apply (W _ _ G) in Ia; apply nth_lt in G; lia|].
          apply (EXT (Some (s_back S tr (s_in S v) xs))).
          -- intros i' v' E' Ev'. rewrite (UI _ E'), Ev in Ev'. injection Ev' as <-. exists rng, dist, ps, xs. auto.
          -- intros val J. destruct (DIS m); [eapply nth_error_In, E|apply (in_map fst) in J; exact J].
          -- intros _. left. eapply nth_error_In, E.
        * apply (EXT (Some (s_in S v))).
          -- intros i' v' E' Ev'. rewrite (UI _ E'), Ev in Ev'. injection Ev' as <-. easy.
          -- intros val J. destruct (DIS m); [eapply nth_error_In, E|apply (in_map fst) in J; exact J].
          -- intros _. left. eapply nth_error_In, E.
      + destruct (in_dec Nat.eq_dec m (map fst realized)) as [J|J].
        * apply in_map_iff in J as ([r val] & E & J). cbn in E. subst r. destruct (ev_total val) as (x & X); [apply (B2 _ _ J)|].
          apply (EXT (Some x)).
          -- intros i' v' E'. apply nth_error_In in E'. easy.
          -- intros val' J'. rewrite (nodup_fst_fun _ _ _ _ _ _ NDz J' J). eauto.
          -- intros _. right. apply (in_map fst) in J. exact J.
        * apply (EXT None); [|intros val I'; destruct J; apply (in_map fst) in I'; exact I'|easy].
          intros i' v' E'. apply nth_error_In in E'. easy. }
  destruct (P (length g)) as (rho & _ & H1 & H2 & H3). exists rho. split; [|split; [|exact H3]].
  - intros i rv v E Ev. apply H1 with (i := i); auto. apply B1. eapply nth_error_In, E.
  - intros rv val I. apply H2; auto. apply (B2 _ _ I).
Qed.
End Point.

(** ** The joint log-probability *)
From Coq Require Import Permutation.
Lemma perm_concat_map : forall A (Y : nat -> list A) l m, Permutation l m -> Permutation (concat (map Y l)) (concat (map Y m)).
Proof.
  intros A Y l m H. induction H; cbn; auto.
  - apply Permutation_app_head, IHPermutation.
  - rewrite !app_assoc. apply Permutation_app_tail, Permutation_app_comm.
  - etransitivity; eauto.
Qed.
Lemma m_joint : forall trav uj g requested realized trs h fs vv V (S : sem V (list xr)) rho Y,
  request g requested realized trs -> trs = [] \/ trav = toposort /\ transformed_first g requested trs ->
  conditional_logprob trav uj g requested realized trs = Ok (h, fs, vv) -> point S g requested vv realized trs rho ->
  (forall i rv v, nth_error requested i = Some rv -> nth_error vv i = Some v -> model_factor S g rho rv (trans_of S uj trs rv v) (Y rv)) ->
  (forall rv, In rv (map fst realized) -> model_factor S g rho rv None (Y rv)) ->
  requested ++ map fst realized <> [] ->
  exists ys, Forall2 (fun p y => fvalue S h (snd p) y) fs ys /\ joint_reduce ys = Some (xsum (concat (map Y (requested ++ map fst realized)))).
Proof.
  intros trav uj g requested realized trs h fs vv V S rho Y REQ ORD OK PT Y1 Y2 NE.
  destruct (m_fkeys trav uj g requested realized trs h fs vv REQ ORD OK) as (K1 & K2).
  destruct (m_vv trav uj g requested realized trs h fs vv REQ ORD OK) as (LV & _ & _).
  exists (map Y (map fst fs)). split.
  - assert (Q : forall p, In p fs -> fvalue S h (snd p) (Y (fst p))).
    { intros [rv f] I. destruct (m_value trav uj g requested realized trs h fs vv REQ ORD OK S rho PT rv f I) as (V1 & V2). cbn.
      assert (J : In rv (map fst fs)) by (apply (in_map fst) in I; exact I). apply K2 in J as [J|J].
      - apply In_nth_error in J as [i E]. apply nth_lt in E as Hi. rewrite <- LV in Hi.
        destruct (nth_error vv i) as [v|] eqn:Ev; [|apply nth_error_None in Ev; lia]. apply (V1 i v E Ev). eauto.
      - apply (V2 J). auto. }
    clear -Q. induction fs as [|p l IH]; cbn; constructor; [apply Q; cbn; auto|]. apply IH. intros. apply Q. cbn. auto.
  - assert (PM : Permutation (map fst fs) (requested ++ map fst realized)).
    { apply NoDup_Permutation; [exact K1|apply REQ|]. intros x. rewrite K2, in_app_iff. easy. }
    destruct (requested ++ map fst realized) as [|r l] eqn:E; [easy|].
    rewrite (joint_order (map Y (map fst fs)) (map Y (r :: l))).
    + cbn [map]. rewrite joint_concat. easy.
    + apply perm_concat_map, PM.
    + intros H. apply map_eq_nil in H. rewrite H in PM. apply Permutation_nil in PM. discriminate.
    + discriminate.
Qed.

(** ** Combined statements *)
Lemma m_sound : forall trav uj g requested realized trs h fs vv, request g requested realized trs ->
  trs = [] \/ trav = toposort /\ transformed_first g requested trs ->
  conditional_logprob trav uj g requested realized trs = Ok (h, fs, vv) -> factorises uj g requested realized trs h fs vv.
Proof.
  intros trav uj g requested realized trs h fs vv REQ ORD OK.
  destruct (m_vv trav uj g requested realized trs h fs vv REQ ORD OK) as (V1 & V2 & V3).
  split; [apply (m_fkeys trav uj g requested realized trs h fs vv REQ ORD OK)|]. split; [exact V1|]. split; [exact V2|]. split; [exact V3|].
  intros V L S rho PT. apply (m_value trav uj g requested realized trs h fs vv REQ ORD OK S rho PT).
Qed.
