(** Lemmas for C74. *)
From Coq Require Import Reals List Arith ZArith Lia Bool.
From Verif Require Import XR SpecDist ModelVec ModelJoint SpecJoint LemJoint ModelGraph SpecGraph LemGraph LemGraph2 LemGraph3
  ModelScan SpecScan LemScan ModelScanBody SpecScanBody.
Import ListNotations.
Open Scope nat_scope.

(** ** The order of the log-probabilities *)
Lemma outer_order {L} (mout : nat -> list nat) (lp : nat -> list nat -> list L) rvars no : forall bs lv vv out vv',
  (forall b, In b bs -> (mout (b_var b) = [] \/ mout (b_var b) = [b_var b]) /\ dget no (b_var b) = Some (b_old b)) -> one_each mout lp ->
  NoDup (map fst lv ++ map b_old bs) -> outer mout lp rvars no (map (fun b => (b_var b, [bpair b])) bs) lv vv = Ok (out, vv') ->
  map fst out = map fst lv ++ map b_old bs.
Proof.
  induction bs as [|b bs IH]; intros lv vv out vv' H OE ND OK; cbn in OK.
  - injection OK as <- <-. cbn. now rewrite app_nil_r.
  - destruct (H b) as (Q & G); [cbn; auto|]. assert (Q1 := OE (b_var b) [b_valvar b]). destruct Q as [Q|Q]; rewrite Q in OK; [discriminate|].
    cbn in OK. rewrite Q in Q1. specialize (Q1 eq_refl).
    destruct (lp (b_var b) [b_valvar b]) as [|l [|l' r]]; try discriminate. cbn [inner] in OK. rewrite G in OK. cbn [inner] in OK.
    assert (Fr : ~ In (b_old b) (map fst lv)).
    { intros I. cbn in ND. apply NoDup_remove_2 in ND. apply ND, in_or_app. auto. }
    rewrite (dset_fresh _ lv _ l Fr) in OK.
    apply IH in OK; [| |exact OE|].
    + rewrite OK, map_app, <- app_assoc. reflexivity.
    + intros b' I. apply H. cbn. auto.
    + rewrite map_app, <- app_assoc. exact ND.
Qed.
Lemma assign_order {L} (mout : nat -> list nat) (lp : nat -> list nat -> list L) realized bs out vv :
  (forall n, mout n = [] \/ mout n = [n]) -> one_each mout lp -> NoDup (map b_var bs) -> NoDup (map b_old bs) ->
  (forall b, In b bs -> b_node b = Some (b_var b)) -> assign mout lp realized bs = Ok (out, vv) -> map fst out = map b_old bs.
Proof.
  intros M OE NV NO BN OK. unfold assign in OK. destruct (own_blocks bs NV BN) as (OB & FM).
  destruct (collect_blocks mout lp realized (fun n => filter (of_node n) bs) (map b_var bs) [] [] []) as (rv & no & C).
  { cbn. exact NV. }
  { intros n I. apply in_map_iff in I as (b & <- & I). rewrite (OB b I). discriminate. }
  { intros n b I J. apply filter_In in J as (_ & J). unfold of_node in J. destruct (b_node b); [|discriminate]. apply Nat.eqb_eq in J. now subst. }
  rewrite FM in C. cbn [app] in C. rewrite map_map in C. rewrite C in OK.
  assert (E : map (fun b => (b_var b, map bpair (filter (of_node (b_var b)) bs))) bs = map (fun b => (b_var b, [bpair b])) bs).
  { apply map_ext_in. intros b I. now rewrite (OB b I). }
  rewrite E in OK. destruct (collect_spec _ _ _ _ _ _ _ _ C) as (_ & _ & C2 & _).
  apply (outer_order mout lp rv no bs [] [] out vv) in OK; auto. intros b I. split; [apply M|].
  destruct (C2 (b_var b)) as [(b' & I' & E' & G)|(N & _)]; [|destruct (N b I eq_refl)].
  assert (Eb := in_map_inj b_var bs b b' NV I I' (eq_sym E')). rewrite Eb at 2. exact G.
Qed.
Lemma m_order trav uj g requested realized trs h fs vv : request g requested realized trs ->
  trs = [] \/ trav = toposort /\ transformed_first g requested trs ->
  conditional_logprob trav uj g requested realized trs = Ok (h, fs, vv) -> map fst fs = requested ++ map fst realized.
Proof.
  intros REQ ORD OK.
  destruct (m_parts trav uj g requested realized trs h fs vv REQ ORD OK) as (h1 & ms & T & ord & bs & out & fs0 & M & VT & GO & B & A & AS & Eh & Ef).
  set (g0 := g ++ repeat (mk OIn []) (length requested)) in *. set (rvs := combine requested (seq (length g) (length requested)) ++ realized) in *.
  assert (MW := m_wf g requested realized trs REQ). assert (MK := m_keys g requested realized trs REQ).
  assert (MB := m_below g requested realized trs REQ). assert (MT := m_trv g requested realized trs REQ).
  assert (E : map fst fs = map fst fs0) by (subst fs; rewrite map_map; apply map_ext; easy).
  rewrite E, (fs_keys out fs0 AS).
  rewrite (assign_order _ _ _ bs out vv) with (6 := A).
  - rewrite (bs_old g0 rvs MW MK MB h1 ms trs T M VT MT ord GO bs B). apply (m_fst g requested realized).
  - intros n. unfold node_measurable. destruct (nth_error _ n) as [[[] ps]|]; auto.
  - apply node_one_each.
  - apply (bs_vars g0 rvs MW MK MB h1 ms trs T M VT MT ord GO uj (map fst realized) bs out vv B A).
  - apply (bs_nodup g0 rvs MW MK MB h1 ms trs T M VT MT ord GO bs B).
  - apply (bs_node g0 rvs MW MK MB h1 ms trs T M VT MT ord GO bs B).
Qed.

(** ** The guard *)
Definition dclosed (h : heap) (d : list nat) : Prop :=
  forall w u nd, In w d -> depends h w u -> nth_error h u = Some nd -> is_in (nop nd) = false -> In u d.
Lemma dfs_complete (h : heap) : model_graph h -> forall fuel v done, v < fuel -> dclosed h done ->
  dclosed h (dfs fuel h done v) /\
  forall u nd, depends h v u -> nth_error h u = Some nd -> is_in (nop nd) = false -> In u (dfs fuel h done v).
Proof.
  intros W. induction fuel as [|fuel IH]; intros v done Hv C; [lia|]. cbn [dfs].
  destruct (mem v done) eqn:Mv. { split; [exact C|]. intros u nd D E N. apply mem_In in Mv. eapply C; eauto. }
  destruct (nth_error h v) as [nv|] eqn:Ev.
  2: { split; [exact C|]. intros u nd D E N. inversion D; subst; congruence. }
  destruct (is_in (nop nv)) eqn:Iv.
  { split; [exact C|]. intros u nd D E N. inversion D as [|? nd' a ? E' Ia D']; subst; [congruence|].
    rewrite Ev in E'. injection E' as <-. destruct (W _ _ Ev) as (Q & _). destruct (nop nv); try discriminate. rewrite Q in Ia. destruct Ia. }
  assert (P : forall l d, incl l (nargs nv) -> dclosed h d -> incl d (fold_left (dfs fuel h) l d) /\ dclosed h (fold_left (dfs fuel h) l d) /\
     forall a u nd, In a l -> depends h a u -> nth_error h u = Some nd -> is_in (nop nd) = false -> In u (fold_left (dfs fuel h) l d)).
  { induction l as [|a l IHl]; intros d Il Cd; cbn [fold_left]; [split; [apply incl_refl|]; split; [exact Cd|]; intros ? ? ? []|].
    destruct (IH a d) as (C1 & D1); [|exact Cd|].
    { destruct (W _ _ Ev) as (_ & Q). specialize (Q a (Il a (or_introl eq_refl))). lia. }
    destruct (dfs_adds fuel h d a) as (l1 & E1 & _).
    destruct (IHl (dfs fuel h d a)) as (I2 & C2 & D2); [intros x Hx; apply Il; cbn; auto|exact C1|].
    split; [|split; [exact C2|]].
    - intros x Hx. apply I2. rewrite E1. apply in_or_app. auto.
    - intros b u nd [<-|Ib] D E N; [apply I2; eapply D1; eauto|eapply D2; eauto]. }
  destruct (P (nargs nv) done (incl_refl _) C) as (I1 & C1 & D1). split.
  - intros w u nd Iw D E N. apply in_or_app. apply in_app_iff in Iw as [Iw|[<-|[]]]; [left; eapply C1; eauto|].
    inversion D as [|? nd' a ? E' Ia D']; subst; [right; cbn; auto|]. rewrite Ev in E'. injection E' as <-. left. eapply D1; eauto.
  - intros u nd D E N. apply in_or_app. inversion D as [|? nd' a ? E' Ia D']; subst; [right; cbn; auto|].
    rewrite Ev in E'. injection E' as <-. left. eapply D1; eauto.
Qed.
Lemma toposort_complete (h : heap) (outs : list nat) : model_graph h -> forall u,
  In u (toposort h outs) <-> (exists o nd, In o outs /\ depends h o u /\ nth_error h u = Some nd /\ is_in (nop nd) = false).
Proof.
  intros W u.
  assert (P : forall l d, dclosed h d -> incl d (fold_left (dfs (S (length h)) h) l d) /\ dclosed h (fold_left (dfs (S (length h)) h) l d) /\
     forall o u nd, In o l -> depends h o u -> nth_error h u = Some nd -> is_in (nop nd) = false -> In u (fold_left (dfs (S (length h)) h) l d)).
  { induction l as [|a l IHl]; intros d Cd; cbn [fold_left]; [split; [apply incl_refl|]; split; [exact Cd|]; intros ? ? ? []|].
    destruct (dfs_adds (S (length h)) h d a) as (l1 & E1 & _).
    assert (Q : dclosed h (dfs (S (length h)) h d a) /\ forall u nd, depends h a u -> nth_error h u = Some nd -> is_in (nop nd) = false -> In u (dfs (S (length h)) h d a)).
    { destruct (le_lt_dec (length h) a) as [Ha|Ha]; [|apply dfs_complete; [exact W|lia|exact Cd]].
      assert (En : nth_error h a = None) by (apply nth_error_None; exact Ha). cbn [dfs]. rewrite En.
      split; [destruct (mem a d); exact Cd|]. intros x nd D E N. inversion D; subst; congruence. }
    destruct Q as (C1 & D1).
    destruct (IHl (dfs (S (length h)) h d a)) as (I2 & C2 & D2); [exact C1|].
    split; [intros x Hx; apply I2; rewrite E1; apply in_or_app; auto|]. split; [exact C2|].
    intros o x nd [<-|Io] D E N; [apply I2; eapply D1; eauto|eapply D2; eauto]. }
  split.
  - assert (G : forall l d, (forall x, In x d -> exists o nd, In o outs /\ depends h o x /\ nth_error h x = Some nd /\ is_in (nop nd) = false) -> incl l outs ->
      forall x, In x (fold_left (dfs (S (length h)) h) l d) -> exists o nd, In o outs /\ depends h o x /\ nth_error h x = Some nd /\ is_in (nop nd) = false).
    { assert (DI : forall fuel d v x, In x (dfs fuel h d v) -> In x d \/ depends h v x /\ exists nd, nth_error h x = Some nd /\ is_in (nop nd) = false).
      { induction fuel as [|fuel IH]; intros d v x I; cbn [dfs] in I; [auto|]. destruct (mem v d); [auto|].
        destruct (nth_error h v) as [nv|] eqn:Ev; [|auto]. destruct (is_in (nop nv)) eqn:Iv; [auto|].
        apply in_app_iff in I as [I|[<-|[]]]; [|right; split; [constructor|eauto]].
        assert (F : forall l d, incl l (nargs nv) -> In x (fold_left (dfs fuel h) l d) -> In x d \/ depends h v x /\ exists nd, nth_error h x = Some nd /\ is_in (nop nd) = false).
        { induction l as [|a l IHl]; intros d' Il J; cbn [fold_left] in J; [auto|].
          destruct (IHl _ (fun y Hy => Il y (or_intror Hy)) J) as [K|K]; [|auto].
          destruct (IH _ _ _ K) as [K'|(K' & K2)]; [auto|]. right. split; [|exact K2]. eapply dep_step; eauto. apply Il. cbn. auto. }
        exact (F (nargs nv) d (incl_refl _) I). }
      induction l as [|a l IHl]; intros d Hd Il x I; cbn [fold_left] in I; [auto|].
      apply (IHl (dfs (S (length h)) h d a)); auto; [|intros y Hy; apply Il; cbn; auto].
      intros y Iy. destruct (DI _ _ _ _ Iy) as [K|(K & nd & E & N)]; [auto|]. exists a, nd. split; [apply Il; cbn; auto|auto]. }
    apply (G outs []); [intros x []|apply incl_refl].
  - intros (o & nd & Io & D & E & N). refine (proj2 (proj2 (P outs [] _)) o u nd Io D E N). intros ? ? ? [].
Qed.
Lemma is_rv_random g v : is_rv g v = true <-> random g v.
Proof.
  unfold is_rv, random. destruct (nth_error g v) as [[o ps]|]; [destruct o|]; split; intros H; try discriminate; try easy; eauto;
    destruct H as (? & ? & ? & H); discriminate.
Qed.
Lemma guard_iff g outs : model_graph g -> (find_measurable_scans g outs = true <-> all_output g outs).
Proof.
  intros W. unfold find_measurable_scans. rewrite forallb_forall. split.
  - intros H o a Io D R. assert (I : In a (toposort g outs)).
    { apply toposort_complete; [exact W|]. destruct R as (rng & dist & ps & E). exists o, (mk (ORv rng dist) ps). auto. }
    specialize (H a I). apply is_rv_random in R. rewrite R in H. cbn in H. now apply mem_In.
  - intros H n I. destruct (is_rv g n) eqn:R; [|reflexivity]. cbn. apply mem_In. apply is_rv_random in R.
    apply (proj1 (toposort_complete g outs W n)) in I as (o & nd & Io & D & _). exact (H o n Io D R).
Qed.

(** ** Meaning of the body with other draws *)
Section Same.
Context (M : sem R (res xr)) (g t : heap) (rho : nat -> option R).
Hypothesis W : model_graph g.
Lemma means_same i i' d d' : (forall v, v < length g -> nth_error g v = Some (mk OIn []) -> i v = i' v) ->
  forall v x, (forall a, depends g v a -> random g a -> rho a <> None) ->
  means (with_inputs M i d) g rho v x -> means (with_inputs M i' d') (g ++ t) rho v x.
Proof.
  intros SI. induction v as [v IH] using lt_wf_ind. intros x N H.
  assert (MS : forall ps xs, (forall a, In a ps -> a < v /\ forall b, depends g a b -> random g b -> rho b <> None) ->
     meanss (with_inputs M i d) g rho ps xs -> meanss (with_inputs M i' d') (g ++ t) rho ps xs).
  { induction ps as [|p ps IHp]; intros xs A Q; inversion Q; subst; constructor.
    - apply IH; [apply A; cbn; auto|apply A; cbn; auto|assumption].
    - apply IHp; [intros a I; apply A; cbn; auto|assumption]. }
  assert (A : forall nd, nth_error g v = Some nd -> forall a, In a (nargs nd) -> a < v /\ forall b, depends g a b -> random g b -> rho b <> None).
  { intros nd E a I. split; [apply (W _ _ E), I|]. intros b D R. apply N; [eapply dep_step; eauto|exact R]. }
  assert (AP : forall nd, nth_error g v = Some nd -> nth_error (g ++ t) v = Some nd).
  { intros nd E. rewrite nth_error_app1; [exact E|eapply nth_lt, E]. }
  inversion H as [? ? E|? ps E G|? rng dist ps xs E G Q|? f ps xs E G Q]; subst.
  - now apply me_val.
  - assert (ps = []) as -> by (destruct (W _ _ G) as (K & _); exact K). cbn. rewrite SI; [|eapply nth_lt, G|exact G].
    change (i' v) with (s_in (with_inputs M i' d') v). eapply me_in; eauto.
  - exfalso. apply (N v); [constructor|unfold random; eauto|exact E].
  - change (s_det (with_inputs M i d)) with (s_det (with_inputs M i' d')). eapply me_det; [exact E|apply AP, G|]. apply MS; [apply (A _ G)|exact Q].
Qed.
Lemma meanss_same i i' d d' : (forall v, v < length g -> nth_error g v = Some (mk OIn []) -> i v = i' v) ->
  forall ps xs, (forall p a, In p ps -> depends g p a -> random g a -> rho a <> None) ->
  meanss (with_inputs M i d) g rho ps xs -> meanss (with_inputs M i' d') (g ++ t) rho ps xs.
Proof.
  intros SI. induction ps as [|p ps IH]; intros xs N Q; inversion Q; subst; constructor.
  - eapply means_same; eauto. intros a. apply N. cbn. auto.
  - apply IH; [|assumption]. intros q a I. apply N. cbn. auto.
Qed.
End Same.

(** ** The inner conditional_logprob *)
Section Body.
Context (g : heap) (outs : list nat).
Hypothesis W : model_graph g.
Hypothesis ND : NoDup outs.
Hypothesis RV : forall o, In o outs -> random g o.
Let g' := g ++ repeat (mk OIn []) (length outs).
Let rl := combine outs (seq (length g) (length outs)).

Lemma outs_random : random_outputs g outs = outs.
Proof.
  unfold random_outputs. clear ND g' rl. induction outs as [|o l IH]; [reflexivity|]. cbn.
  rewrite (proj2 (is_rv_random g o) (RV o (or_introl eq_refl))). f_equal. apply IH. intros x I. apply RV. cbn. auto.
Qed.
Lemma rl_fst : map fst rl = outs.
Proof. apply map_fst_combine. now rewrite seq_length. Qed.
Lemma rl_nth u o : nth_error outs u = Some o -> nth_error rl u = Some (o, length g + u).
Proof.
  intros E. unfold rl. rewrite nth_combine by now rewrite seq_length. rewrite E, nth_seq; [easy|eapply nth_lt, E].
Qed.
Lemma rl_in o x : In (o, x) rl -> exists u, nth_error outs u = Some o /\ x = length g + u.
Proof.
  intros I. apply In_nth_error in I as (u & E). assert (Hu : u < length outs).
  { apply nth_lt in E. unfold rl in E. rewrite combine_length, seq_length in E. lia. }
  destruct (nth_error outs u) as [o'|] eqn:Eo; [|apply nth_error_None in Eo; lia]. exists u. rewrite (rl_nth u o' Eo) in E.
  injection E as -> ->. auto.
Qed.
Lemma wf' : model_graph g'.
Proof.
  intros v nd E. unfold g' in E. destruct (lt_dec v (length g)) as [H|H].
  - rewrite nth_error_app1 in E by exact H. exact (W v nd E).
  - rewrite nth_error_app2 in E by lia. apply repeat_nth in E as ->. cbn. split; [reflexivity|intros a []].
Qed.
Lemma body_request : request g' [] rl [].
Proof.
  split; [exact wf'|]. split; [cbn; rewrite rl_fst; exact ND|]. split; [intros rv []|]. split.
  - intros rv val I. apply rl_in in I as (u & E & ->). unfold g'. rewrite app_length, repeat_length.
    assert (Hu := nth_lt _ _ _ _ E). destruct (RV rv) as (rng & dist & ps & G); [eapply nth_error_In, E|]. apply nth_lt in G. lia.
  - intros rv H. cbn in H. congruence.
Qed.
Lemma inner_def : exists h fs, inner_logps g outs = Ok (h, fs, []) /\ map fst fs = outs.
Proof.
  unfold inner_logps. rewrite outs_random. fold g'. fold rl. destruct (defined_plain toposort true g' [] rl body_request) as (h & fs & vv & E & _).
  - intros rv I. cbn in I. rewrite rl_fst in I. destruct (RV rv I) as (rng & dist & ps & G). exists rng, dist, ps. unfold g'.
    rewrite nth_error_app1; [exact G|eapply nth_lt, G].
  - assert (vv = []) as ->.
    { destruct (m_vv toposort true g' [] rl [] h fs vv body_request (or_introl eq_refl) E) as (Q & _). now destruct vv. }
    exists h, fs. split; [exact E|].
    rewrite (m_order toposort true g' [] rl [] h fs [] body_request (or_introl eq_refl) E). exact rl_fst.
Qed.
Lemma inner_value h fs M i d rho v o rv f y : inner_logps g outs = Ok (h, fs, []) -> nth_error outs v = Some o -> nth_error fs v = Some (rv, f) ->
  (forall u o, nth_error outs u = Some o -> rho o = Some (i (length g + u))) -> (forall n, ~ In n outs -> rho n = None) ->
  fvalue (with_inputs M i d) h f y <-> model_factor (with_inputs M i d) g' rho o None y.
Proof.
  intros E Eo Ef R N. destruct inner_def as (h0 & fs0 & E0 & K). rewrite E in E0. injection E0 as <- <-.
  assert (rv = o) as ->. { apply (map_nth_error fst) in Ef. rewrite K, Eo in Ef. now injection Ef. }
  unfold inner_logps in E. rewrite outs_random in E. fold g' in E. fold rl in E.
  destruct (m_sound toposort true g' [] rl [] h fs [] body_request (or_introl eq_refl) E) as (_ & _ & _ & _ & F).
  refine (proj2 (F _ (res xr) (with_inputs M i d) rho _ o f (nth_error_In _ _ Ef)) _ y).
  - split; [intros j r x Q; destruct j; discriminate|]. split.
    + intros r x I. apply rl_in in I as (u & Eu & ->). exists (i (length g + u)). split; [|apply R, Eu].
      change (i (length g + u)) with (s_in (with_inputs M i d) (length g + u)). eapply ev_in with (ps := []). unfold g'.
      rewrite nth_error_app2, (Nat.add_comm (length g)), Nat.add_sub by lia. apply nth_error_repeat. eapply nth_lt, Eu.
    + intros r Q. right. rewrite rl_fst. destruct (in_dec Nat.eq_dec r outs) as [I|I]; [exact I|]. now rewrite N in Q.
  - rewrite rl_fst. eapply nth_error_In, Eo.
Qed.
End Body.

(** ** The whole scan *)
Lemma find_in_env (env : list ((nat * Z) * R)) (p : (nat * Z) * R -> bool) q : In q env -> p q = true ->
  exists q', find p env = Some q' /\ In q' env /\ p q' = true.
Proof.
  intros I P. destruct (find p env) as [q'|] eqn:E.
  - exists q'. split; [reflexivity|]. apply find_some in E. exact E.
  - rewrite (find_none _ _ E q I) in P. discriminate.
Qed.

Lemma body_steps g outs lag seqs M draw h fs step vars D L N :
  model_graph g -> NoDup outs -> (forall o, In o outs -> random g o) -> all_output g outs -> length vars = length outs ->
  (forall u x, nth_error vars u = Some x -> tap_list (s_taps x)) -> lag_inputs g lag vars ->
  inner_logps g outs = Ok (h, fs, []) -> step_runs g lag seqs M draw h fs step -> body_density g outs lag seqs M D vars L N ->
  step_computes step D vars L N.
Proof.
  intros W ND RV AO LV TL (L1 & L2 & L3) E SR BD t v env Ht Hv HI HC. set (f := history vars L t) in *.
  destruct (nth_error outs v) as [o|] eqn:Eo; [|apply nth_error_None in Eo; lia].
  set (i := input_values g lag seqs t env).
  assert (NZ : forall u, lag u 0%Z = None).
  { intros u. destruct (lag u 0%Z) as [n|] eqn:Q; [|reflexivity]. destruct (proj1 (L1 u 0%Z)) as (x & Ex & I); [congruence|].
    destruct (TL u x Ex) as (_ & P). specialize (P _ I). lia. }
  assert (K0 : forall u, u < length outs -> f u 0%Z = Some (i (length g + u))).
  { intros u Hu. destruct (nth_error vars u) as [x|] eqn:Ex; [|apply nth_error_None in Ex; lia].
    destruct (HC u x 0%Z Ex (or_introl eq_refl)) as (y & I). unfold i, input_values.
    destruct (find_in_env env (fun p => match in_node g lag (fst p) with Some n => n =? length g + u | None => false end) _ I) as ([[u' k'] y'] & -> & I' & P').
    { cbn. apply Nat.eqb_refl. }
    unfold in_node in P'. cbn [fst snd] in P'. destruct (k' =? 0)%Z eqn:Ek.
    - apply Z.eqb_eq in Ek as ->. apply Nat.eqb_eq in P'. assert (u' = u) as -> by lia. exact (HI _ _ _ I').
    - destruct (lag u' k') as [n|] eqn:Q; [|discriminate]. apply Nat.eqb_eq in P' as ->. apply L2, nth_lt in Q. lia. }
  assert (KL : forall u k n, lag u k = Some n -> f u k = Some (i n)).
  { intros u k n Q. destruct (proj1 (L1 u k)) as (x & Ex & I); [congruence|]. destruct (HC u x k Ex (or_intror I)) as (y & Iy).
    unfold i, input_values.
    destruct (find_in_env env (fun p => match in_node g lag (fst p) with Some m => m =? n | None => false end) _ Iy) as ([[u' k'] y'] & -> & I' & P').
    { unfold in_node. cbn [fst snd]. destruct (k =? 0)%Z eqn:Ek; [apply Z.eqb_eq in Ek as ->; congruence|]. rewrite Q. apply Nat.eqb_refl. }
    unfold in_node in P'. cbn [fst snd] in P'. destruct (k' =? 0)%Z eqn:Ek.
    - apply Nat.eqb_eq in P'. apply L2, nth_lt in Q. lia.
    - destruct (lag u' k') as [m|] eqn:Q'; [|discriminate]. apply Nat.eqb_eq in P' as ->. destruct (L3 _ _ _ _ _ Q Q') as (-> & ->). exact (HI _ _ _ I'). }
  assert (KN : forall n, n < length g -> (forall u k, lag u k <> Some n) -> i n = seqs t n).
  { intros n Hn NL. unfold i, input_values.
    destruct (find _ env) as [[[u' k'] y']|] eqn:Fd; [|reflexivity]. apply find_some in Fd as (_ & P'). unfold in_node in P'. cbn [fst snd] in P'.
    destruct (k' =? 0)%Z; [apply Nat.eqb_eq in P'; lia|]. destruct (lag u' k') as [m|] eqn:Q'; [|discriminate].
    apply Nat.eqb_eq in P' as ->. now destruct (NL u' k'). }
  set (i0 := fun n => if n <? length g then i n else seqs t n).
  assert (SI : forall n, n < length g -> i0 n = i n). { intros n Hn. unfold i0. apply Nat.ltb_lt in Hn. now rewrite Hn. }
  set (rho := fun n => match find (fun u => match nth_error outs u with Some o => o =? n | None => false end) (seq 0 (length outs)) with
                       | Some u => f u 0%Z | None => None end).
  assert (RO : forall u o, nth_error outs u = Some o -> rho o = f u 0%Z).
  { intros u o' Eu. unfold rho. destruct (find _ _) as [u'|] eqn:Fd.
    - apply find_some in Fd as (Iu & P). destruct (nth_error outs u') as [o2|] eqn:E2; [|discriminate]. apply Nat.eqb_eq in P as ->.
      f_equal. rewrite NoDup_nth_error in ND. apply ND; [eapply nth_lt, E2|congruence].
    - exfalso. assert (Iu : In u (seq 0 (length outs))) by (apply in_seq; apply nth_lt in Eu; lia).
      assert (Q := find_none _ _ Fd u Iu). cbv beta in Q. rewrite Eu, Nat.eqb_refl in Q. discriminate. }
  assert (RN : forall n, ~ In n outs -> rho n = None).
  { intros n NI. unfold rho. destruct (find _ _) as [u'|] eqn:Fd; [|reflexivity]. apply find_some in Fd as (_ & P).
    destruct (nth_error outs u') as [o2|] eqn:E2; [|discriminate]. apply Nat.eqb_eq in P as ->. destruct NI. eapply nth_error_In, E2. }
  destruct (BD t v o i0 rho Ht Eo) as (dr & y & (rng & dist & ps & xs & x & G & MS & Rx & Ey) & Dn).
  - split.
    + intros u k n Q. rewrite SI; [apply KL, Q|]. apply L2, nth_lt in Q. exact Q.
    + intros n NL. unfold i0. destruct (n <? length g) eqn:Q; [apply Nat.ltb_lt in Q; apply KN; auto|reflexivity].
  - split; [exact RO|exact RN].
  - destruct (inner_def g outs W ND RV) as (h' & fs' & E' & KF). rewrite E in E'. injection E' as <- <-.
    destruct (nth_error fs v) as [[rv fc]|] eqn:Ef.
    2: { apply nth_error_None in Ef. rewrite <- (map_length fst), KF in Ef. apply nth_lt in Eo. lia. }
    rewrite (SR t v env rv fc y Ef); [exact Dn|].
    apply (inner_value g outs W ND RV h fs M i (draw t) rho v o rv fc y E Eo Ef); [|exact RN|].
    + intros u o' Eu. rewrite (RO u o' Eu). apply K0. eapply nth_lt, Eu.
    + exists rng, dist, ps, xs, x. split; [rewrite nth_error_app1; [exact G|eapply nth_lt, G]|]. split; [|split; [exact Rx|exact Ey]].
      eapply meanss_same with (i := i0); [exact W| | |exact MS].
      * intros n Hn _. apply SI, Hn.
      * intros p a Ip Da Ra. assert (Ia : In a outs).
        { apply (AO o a); [eapply nth_error_In, Eo| |exact Ra]. eapply dep_step; eauto. }
        apply In_nth_error in Ia as (u & Eu). rewrite (RO u a Eu), (K0 u (nth_lt _ _ _ _ Eu)). discriminate.
Qed.
Lemma body_scan g outs lag seqs M draw h fs vv step vars D L N :
  model_graph g -> NoDup outs -> outs <> [] -> (forall o, In o outs -> random g o) -> find_measurable_scans g outs = true ->
  length vars = length outs -> lag_inputs g lag vars ->
  (forall u x, nth_error vars u = Some x -> tap_list (s_taps x) /\ max_lag (s_taps x) (L u) /\ symmetric (s_taps x) /\ length (s_value x) = N + L u) ->
  inner_logps g outs = Ok (h, fs, vv) -> step_runs g lag seqs M draw h fs step -> body_density g outs lag seqs M D vars L N ->
  exists out, logprob_scan step vars = Val (map (fun v => map (out v) (seq 0 N)) (seq 0 (length vars))) /\
    (forall v t, v < length vars -> t < N -> denotes (Val (out v t)) (D t v (history vars L t))) /\
    denotes (Val (xsum (concat (map (fun v => map (out v) (seq 0 N)) (seq 0 (length vars)))))) (scan_density D vars L N).
Proof.
  intros W ND NE RV GU LV LI TL E SR BD. destruct (inner_def g outs W ND RV) as (h' & fs' & E' & _). rewrite E in E'. injection E' as <- <- ->.
  apply scan_joint.
  - destruct vars; [destruct outs; [easy|discriminate]|discriminate].
  - eapply body_steps; eauto; [apply guard_iff; auto|]. intros u x Ex. apply (TL u x Ex).
  - exact TL.
Qed.
