(** Models with mixtures of mixtures: each component that is a mixture is
    replaced by the component that it selects; [LemMixSys2] applies to the
    result. *)
From Coq Require Import Reals Lra Lia List Arith Bool ZArith Classical.
From Coquelicot Require Import Coquelicot.
From Verif Require Import XR XTac SpecDist ModelDist LemDist ModelVec SpecVec LemDisc ModelJoint LemJoint ModelTrans ModelNest SpecNest LemNest LemNest2 RMx
  ModelMix LemMix ModelGuard ModelSys SpecSys LemSys LemSys2 LemSys3 ModelStack SpecStack LemStack LemStack2 LemSysGiven ModelMixSys SpecMixSys LemMixSys LemMixSys2 ModelMixTree SpecMixTree.
Import ListNotations.
Open Scope nat_scope.
Notation fin f := (fun v : nat => Fin (f v : R)).

Lemma nth_numbered {A} (l : list A) : forall s v, nth_error (combine (seq s (length l)) l) v = option_map (fun a => (s + v, a)) (nth_error l v).
Proof. induction l as [|a l IH]; intros s [|v]; cbn; auto; [now rewrite Nat.add_0_r|]. rewrite IH. now rewrite Nat.add_succ_r. Qed.
Lemma all_forms_some (fm : nat -> option mform) l : (forall c, In c l -> fm c <> None) ->
  exists ms, all_forms (map fm l) = Some ms /\ forall i c, nth_error l i = Some c -> exists f, nth_error ms i = Some f /\ fm c = Some f.
Proof.
  induction l as [|c l IH]; intros H; [exists []; split; [reflexivity|intros [|i] c E; discriminate]|].
  destruct IH as (ms & E & N); [intros d D; apply H; now right|]. destruct (fm c) as [f|] eqn:F; [|destruct (H c (or_introl eq_refl)); auto].
  exists (f :: ms). cbn [map all_forms]. rewrite F, E. split; [reflexivity|]. intros [|i] d D; cbn in *; [injection D as <-; eauto|auto].
Qed.
Lemma all_forms_none (fm : nat -> option mform) l : all_forms (map fm l) <> None -> forall c, In c l -> fm c <> None.
Proof.
  induction l as [|c l IH]; cbn [map all_forms]; intros H d D; [easy|]. destruct (fm c) as [f|] eqn:F; [|easy]. destruct D as [<-|D]; [congruence|]. apply IH; auto. destruct (all_forms (map fm l)); [discriminate|easy].
Qed.

Section Trees.
Variable kind : nat -> role.
Variable ddt : nat -> dtype.
Variable fs : nat -> list xr -> xr.
Variable dlp : nat -> list xr -> xr -> res xr.
Variable pdf : nat -> list R -> R -> R.
Variable h : list snode.
Variable qs : list request.
Variable M : list nat.
Variable y : nat -> R.
Variable base pick : nat -> nat.
Variable rho : nat -> R.
Variable rho0 : nat -> xr.
Notation vars := (q_vars qs).
Notation mixture := (mixture_node kind h).
Hypothesis Ac : acyclic h.
Hypothesis Ro : roles_ok kind fs.
Hypothesis Gn : given_nodes kind h qs M.
Hypothesis Vals : forall l xs, In (QStack l xs) qs -> xs = map (fin y) l.
Hypothesis P_plain : forall v, In v (q_req qs) -> (forall idx comps, ~ mixture v idx comps) -> pick v = v.
Hypothesis P_mix : forall v idx comps, member kind h qs v -> mixture v idx comps ->
  known h M idx /\ (exists i c, svalue fs h rho idx (INR i) /\ nth_error comps i = Some c /\ pick v = pick c) /\
  (forall w, In w vars -> exists D, partial fs h rho idx (base w) D) /\
  (forall c, In c comps -> ~ In c (q_req qs) /\
    ((exists idx' comps', mixture c idx' comps') \/ pick c = c /\ exists b, leads h M c b /\ (rv_dtype ddt h b <> DInt \/ b = c))).
Hypothesis Val : forall v, In v vars -> svalue fs h rho v (y v).

Lemma mix_fun v i c i' c' : mixture v i c -> mixture v i' c' -> i' = i /\ c' = c.
Proof. intros (k & E & _) (k' & E' & _). split; congruence. Qed.
Lemma mix_lt v idx comps c : mixture v idx comps -> c = idx \/ In c comps -> c < v.
Proof. intros (k & E & _) I. apply (Ac v _ c E). cbn. destruct I; auto. Qed.
Lemma mix_len v idx comps : mixture v idx comps -> v < length h.
Proof. intros (k & E & _). apply nth_error_Some. congruence. Qed.
Lemma req_M v : In v (q_req qs) -> In v M. Proof. intros R. apply Gn. now left. Qed.
Lemma mix_M v idx comps : mixture v idx comps -> ~ In v (q_req qs) -> ~ In v M.
Proof. intros (k & E & K) R I. apply Gn in I as [I|(e & k' & l & xs & i & E' & K' & _)]; [tauto|]. congruence. Qed.
(** components *)
Definition comp (c : nat) : Prop := exists v idx comps, member kind h qs v /\ mixture v idx comps /\ In c comps.
Lemma comp_member c : comp c -> member kind h qs c. Proof. intros (v & idx & comps & Mv & Mx & I). eapply mb_comp; eauto. Qed.
Lemma comp_cases c : comp c -> ~ In c (q_req qs) /\ ((exists idx comps, mixture c idx comps) \/ pick c = c /\ exists b, leads h M c b /\ (rv_dtype ddt h b <> DInt \/ b = c)).
Proof. intros (v & idx & comps & Mv & Mx & I). destruct (P_mix v idx comps Mv Mx) as (_ & _ & _ & Cs). auto. Qed.
(** the selected leaf *)
Lemma leaf c : comp c -> pick c <= c /\ ~ In (pick c) (q_req qs) /\ ~ In (pick c) M /\ (forall idx comps, ~ mixture (pick c) idx comps) /\ exists b, leads h M (pick c) b /\ (rv_dtype ddt h b <> DInt \/ b = pick c).
Proof.
  induction c as [c IH] using lt_wf_ind. intros C. destruct (comp_cases c C) as (R & [(idx & comps & Mx)|(-> & b & L & D)]).
  - destruct (P_mix c idx comps (comp_member c C) Mx) as (_ & (i & d & _ & N & E) & _ & _). assert (Id : In d comps) by (eapply nth_error_In; eauto). pose proof (mix_lt c idx comps d Mx (or_intror Id)) as Lt.
    assert (Cd : comp d) by (exists c, idx, comps; split; [now apply comp_member|auto]). rewrite E. destruct (IH d Lt Cd) as (Le & Q). split; [lia|exact Q].
  - split; [lia|]. split; [exact R|]. split; [exact (leads_notM kind dlp pdf h qs M Gn c b L R)|]. split; [|eauto]. intros idx comps (k & E & _). inversion L; congruence.
Qed.
(** indices keep selecting the same components *)
Definition steady_tree (r : nat -> R) : Prop := forall v idx comps, member kind h qs v -> mixture v idx comps ->
  exists x i c, svalue fs h r idx x /\ (Rabs (x - INR i) < / 2)%R /\ nth_error comps i = Some c /\ pick v = pick c.
Lemma pick_val r : steady_tree r -> forall c x, comp c -> svalue fs h r c x -> svalue fs h r (pick c) x.
Proof.
  intros St c. induction c as [c IH] using lt_wf_ind. intros x C V. destruct (comp_cases c C) as (R & [(idx & comps & Mx)|(-> & _)]); auto.
  destruct (St c idx comps (comp_member c C) Mx) as (z & i & d & Vz & Ni & Nd & E). assert (Id : In d comps) by (eapply nth_error_In; eauto). pose proof (mix_lt c idx comps d Mx (or_intror Id)) as Lt.
  assert (Cd : comp d) by (exists c, idx, comps; split; [now apply comp_member|auto]). rewrite E. apply IH; auto. destruct Mx as (k & N & K).
  inversion V as [? e N'|? e ps N'|? b t N' A|? b t N' A P|? b t N' A P|? l rs N' F|? l rs N' F|? b e t t' N' A B|? b e t t' N' A B P|? k' l rs ? N' F Kf]; subst; rewrite N in N'; try discriminate.
  injection N' as <- <-. inversion F as [|? z' ? rs' Vz' Fr]; subst. assert (z' = z) as -> by (eapply svalue_fun; eassumption).
  destruct (Forall2_nth _ _ _ _ _ Fr Nd) as (w & Nw & Vw). rewrite (proj1 Ro k K z i rs' w Ni Nw) in Kf. injection Kf as <-. exact Vw.
Qed.
Lemma steady_rho_tree : steady_tree rho.
Proof. intros v idx comps Mv Mx. destruct (P_mix v idx comps Mv Mx) as (_ & (i & c & V & N & E) & _). exists (INR i), i, c. repeat split; auto. rewrite Rminus_eq_0, Rabs_R0. lra. Qed.
Lemma near_tree v idx comps w : member kind h qs v -> mixture v idx comps -> In w vars ->
  locally (rho (base w)) (fun t => exists x i c, svalue fs h (upd rho (base w) t) idx x /\ (Rabs (x - INR i) < / 2)%R /\ nth_error comps i = Some c /\ pick v = pick c).
Proof.
  intros Mv Mx W. destruct (P_mix v idx comps Mv Mx) as (_ & (i & c & V & C & E) & Pa & _). destruct (Pa w W) as (D & g & L & G).
  assert (E0 : g (rho (base w)) = INR i).
  { pose proof (locally_singleton _ _ L) as V0. cbn in V0. apply (svalue_fun fs h Ac rho idx); [|exact V].
    assert (U : forall j, upd rho (base w) (rho (base w)) j = rho j) by (intros j; unfold upd; destruct (Nat.eqb_spec j (base w)); congruence).
    assert (X : upd rho (base w) (rho (base w)) = rho) by (apply FunctionalExtensionality.functional_extensionality; exact U). now rewrite X in V0. }
  assert (Cg : continuous g (rho (base w))) by (apply (ex_derive_continuous g); exists D; exact G).
  assert (Near : locally (rho (base w)) (fun t => Rabs (g t - INR i) < / 2)%R).
  { assert (O : locally (g (rho (base w))) (fun z => Rabs (z - INR i) < / 2)%R).
    { rewrite E0. assert (Hp : (0 < / 2)%R) by lra. exists (mkposreal _ Hp). intros z Z. exact Z. }
    exact (Cg _ O). }
  generalize (filter_and _ _ L Near). apply filter_imp. intros t [A B]. exists (g t), i, c. auto.
Qed.
Lemma steady_near_tree w : In w vars -> locally (rho (base w)) (fun t => steady_tree (upd rho (base w) t)).
Proof.
  intros W.
  assert (G : forall l, locally (rho (base w)) (fun t => forall v idx comps, In v l -> member kind h qs v -> mixture v idx comps ->
    exists x i c, svalue fs h (upd rho (base w) t) idx x /\ (Rabs (x - INR i) < / 2)%R /\ nth_error comps i = Some c /\ pick v = pick c)).
  { induction l as [|v l IH]; [apply filter_forall; intros t v idx comps []|].
    destruct (classic (member kind h qs v /\ exists idx comps, mixture v idx comps)) as [(Mv & idx & comps & Mx)|N].
    - generalize (filter_and _ _ IH (near_tree v idx comps w Mv Mx W)). apply filter_imp. intros t [A B] u i c [<-|U] Mu Xu; [|now apply A].
      destruct (mix_fun _ _ _ _ _ Mx Xu) as [-> ->]. exact B.
    - generalize IH. apply filter_imp. intros t A u i c [<-|U] Mu Xu; [|now apply A]. destruct N. eauto. }
  generalize (G (seq 0 (length h))). apply filter_imp. intros t A v idx comps Mv Mx. apply A; auto. apply in_seq. pose proof (mix_len _ _ _ Mx). lia.
Qed.

(** ** the model without mixtures of mixtures *)
Definition flat (v : nat) (nd : snode) : snode :=
  match nd with
  | SOther k (idx :: comps) => match kind k with Select => if mem v (q_req qs) then SOther k (idx :: map pick comps) else nd | _ => nd end
  | _ => nd
  end.
Definition h2 : list snode := map (fun p => flat (fst p) (snd p)) (combine (seq 0 (length h)) h).
Lemma h2_nth v : nth_error h2 v = option_map (flat v) (nth_error h v).
Proof. unfold h2. rewrite nth_error_map, nth_numbered. now destruct (nth_error h v). Qed.
Lemma h2_len : length h2 = length h.
Proof. unfold h2. rewrite map_length, combine_length, seq_length. apply Nat.min_id. Qed.
Definition top_mix (v : nat) : Prop := In v (q_req qs) /\ exists idx comps, mixture v idx comps.
Lemma h2_cases v nd : nth_error h v = Some nd -> (exists k idx comps, nd = SOther k (idx :: comps) /\ kind k = Select /\ In v (q_req qs) /\ flat v nd = SOther k (idx :: map pick comps)) \/ ~ top_mix v /\ flat v nd = nd.
Proof.
  intros N. destruct nd as [c|d ps|u a|n l|a b|a b|k [|idx comps]]; try (right; split; [intros (_ & i & c0 & k' & E & _); congruence|reflexivity]).
  cbn [flat]. destruct (kind k) eqn:K; try (right; split; [intros (_ & ix & c0 & k' & E & K'); congruence|reflexivity]). destruct (mem v (q_req qs)) eqn:R.
  - left. exists k, idx, comps. apply mem_In in R. auto.
  - right. split; auto. intros (Q & _). apply mem_In in Q. congruence.
Qed.
Lemma h2_same v : ~ top_mix v -> nth_error h2 v = nth_error h v.
Proof.
  intros T. rewrite h2_nth. destruct (nth_error h v) as [nd|] eqn:N; auto. cbn. destruct (h2_cases v nd N) as [(k & idx & comps & -> & K & R & _)|[_ ->]]; auto. destruct T. split; auto. exists idx, comps, k. auto.
Qed.
Lemma h2_mix v idx comps : In v (q_req qs) -> mixture v idx comps -> mixture_node kind h2 v idx (map pick comps).
Proof. intros R (k & N & K). exists k. split; auto. rewrite h2_nth, N. cbn [option_map flat]. now rewrite K, (proj2 (mem_In v _) R). Qed.
Lemma mix_h2 v idx comps : mixture_node kind h2 v idx comps -> exists comps0, mixture v idx comps0 /\ (In v (q_req qs) -> comps = map pick comps0) /\ (~ In v (q_req qs) -> comps = comps0).
Proof.
  intros (k & N & K). rewrite h2_nth in N. destruct (nth_error h v) as [nd|] eqn:E; [|discriminate]. cbn in N. injection N as N. destruct (h2_cases v nd E) as [(k' & i & cs & -> & K' & R & F)|[T F]]; rewrite F in N.
  - injection N as -> -> <-. exists cs. split; [exists k; auto|]. split; [reflexivity|tauto].
  - subst nd. exists comps. split; [exists k; auto|]. split; auto. intros R. destruct T. split; auto. exists idx, comps, k. auto.
Qed.
Lemma top_comp v idx comps c : In v (q_req qs) -> mixture v idx comps -> In c comps -> comp c.
Proof. intros R Mx I. exists v, idx, comps. split; auto. now apply mb_req. Qed.
Lemma h2_acyclic : acyclic h2.
Proof.
  intros v nd a N I. rewrite h2_nth in N. destruct (nth_error h v) as [nd0|] eqn:E; [|discriminate]. cbn in N. injection N as <-.
  destruct (h2_cases v nd0 E) as [(k & idx & comps & -> & K & R & F)|[_ F]]; rewrite F in I; [|eapply Ac; eauto]. cbn in I. assert (Mx : mixture v idx comps) by (exists k; auto). destruct I as [<-|I]; [eapply mix_lt; eauto|].
  apply in_map_iff in I as (c & <- & I). pose proof (leaf c (top_comp v idx comps c R Mx I)) as (Le & _). pose proof (mix_lt v idx comps c Mx (or_intror I)). lia.
Qed.
Lemma h2_dtype i : rv_dtype ddt h2 i = rv_dtype ddt h i.
Proof.
  unfold rv_dtype. rewrite h2_nth. destruct (nth_error h i) as [nd|] eqn:E; auto. cbn. destruct (h2_cases i nd E) as [(k & idx & comps & -> & K & R & ->)|[_ ->]]; reflexivity.
Qed.
Lemma h2_value r : steady_tree r -> forall v x, svalue fs h r v x -> svalue fs h2 r v x.
Proof.
  intros St v. induction v as [v IH] using lt_wf_ind. intros x V. destruct (classic (top_mix v)) as [(R & idx & comps & Mx)|T].
  - pose proof Mx as (k & N & K). inversion V as [? e N'|? e ps N'|? b t N' A|? b t N' A P|? b t N' A P|? l rs N' F|? l rs N' F|? b e t t' N' A B|? b e t t' N' A B P|? k' l rs ? N' F Kf]; subst; rewrite N in N'; try discriminate.
    injection N' as <- <-. destruct (h2_mix v idx comps R Mx) as (k' & N2 & K'). rewrite h2_nth, N in N2. cbn [option_map flat] in N2. rewrite K, (proj2 (mem_In v _) R) in N2. injection N2 as <-.
    apply (v_other fs h2 r v k (idx :: map pick comps) rs x); [rewrite h2_nth, N; cbn [option_map flat]; now rewrite K, (proj2 (mem_In v _) R)| |exact Kf].
    inversion F as [|? z ? rs' Vz Fr]; subst. constructor; [apply IH; [eapply mix_lt; eauto|exact Vz]|]. apply Forall2_map_l. revert Fr. apply Forall2_imp2. intros c w Ic Vc.
    pose proof (top_comp v idx comps c R Mx Ic) as C. pose proof (leaf c C) as (Le & _). pose proof (mix_lt v idx comps c Mx (or_intror Ic)). apply IH; [lia|]. now apply pick_val.
  - assert (L : forall nd a z, nth_error h v = Some nd -> In a (node_inputs nd) -> svalue fs h r a z -> svalue fs h2 r a z) by (intros nd a z E I; apply IH; eapply Ac; eauto).
    assert (L2 : forall nd l rs, nth_error h v = Some nd -> incl l (node_inputs nd) -> Forall2 (svalue fs h r) l rs -> Forall2 (svalue fs h2 r) l rs).
    { intros nd l rs E I F. revert F. apply Forall2_imp2. intros a z A. apply (L nd a z E). now apply I. }
    inversion V as [? c E|? d ps E|? a t E A|? a t E A P|? a t E A P|? l rs E F|? l rs E F|? a c t t' E A B|? a c t t' E A B P|? k l rs ? E F Kf]; subst.
    all: pose proof E as E0; rewrite <- (h2_same v T) in E0.
    + exact (SpecSys.v_con fs h2 r v _ E0).
    + exact (v_rv fs h2 r v _ _ E0).
    + apply (v_exp _ _ _ _ _ t E0). apply (L _ _ _ E); cbn; auto.
    + apply (v_log _ _ _ _ _ t E0); [|exact P]. apply (L _ _ _ E); cbn; auto.
    + apply (v_recip _ _ _ _ _ t E0); [|exact P]. apply (L _ _ _ E); cbn; auto.
    + apply (v_add _ _ _ _ _ rs E0). apply (L2 _ _ _ E); [apply incl_refl|exact F].
    + apply (v_mul _ _ _ _ _ rs E0). apply (L2 _ _ _ E); [apply incl_refl|exact F].
    + apply (v_sub _ _ _ _ _ _ t t' E0); apply (L _ _ _ E); cbn; auto.
    + apply (v_div _ _ _ _ _ _ t t' E0); [apply (L _ _ _ E); cbn; auto|apply (L _ _ _ E); cbn; auto|exact P].
    + apply (v_other _ _ _ _ k _ rs x E0); [|exact Kf]. apply (L2 _ _ _ E); [apply incl_refl|exact F].
Qed.
Lemma h2_partial v w D : In w vars -> partial fs h rho v (base w) D -> partial fs h2 rho v (base w) D.
Proof.
  intros W (g & L & G). exists g. split; [|exact G]. generalize (filter_and _ _ L (steady_near_tree w W)). apply filter_imp. intros t [A St]. now apply h2_value.
Qed.
Lemma not_top a : ~ In a M -> ~ top_mix a. Proof. intros N [R _]. apply N. now apply req_M. Qed.
Lemma h2_known : forall a, known h M a -> known h2 M a.
Proof.
  intros a. induction a as [a IH] using lt_wf_ind. intros K. destruct (in_dec Nat.eq_dec a M) as [H|H]; [now apply k_req|].
  inversion K as [? R|? nd E N F]; subst; [tauto|]. apply (k_det h2 M a nd); [now rewrite h2_same by now apply not_top|exact N|]. rewrite List.Forall_forall in F |- *. intros b B. apply IH; auto. eapply Ac; eauto.
Qed.
Lemma h2_knowns l : List.Forall (known h M) l -> List.Forall (known h2 M) l.
Proof. intros F. eapply List.Forall_impl; [|exact F]. intros a. apply h2_known. Qed.
Lemma h2_leads v b : ~ top_mix v -> leads h M v b -> leads h2 M v b.
Proof.
  intros T H. induction H as [v d ps E|v u a b E N H IH|v n l a r0 b E N H IH Kl Kr NE|v a c b E N H IH K|v a c b E K N H IH|v a c b E N H IH K|v a c b E K N H IH]; rewrite <- (h2_same v T) in E; try specialize (IH (not_top _ N)).
  - exact (d_rv h2 M v d _ E).
  - exact (d_one h2 M v u a b E N IH).
  - apply (d_many h2 M v n l a r0 b E N IH); auto using h2_knowns.
  - apply (d_sub_l h2 M v a c b E N IH). now apply h2_known.
  - apply (d_sub_r h2 M v a c b E); auto. now apply h2_known.
  - apply (d_div_l h2 M v a c b E N IH). now apply h2_known.
  - apply (d_div_r h2 M v a c b E); auto. now apply h2_known.
Qed.
Lemma h2_values r l rs : steady_tree r -> Forall2 (svalue fs h r) l rs -> Forall2 (svalue fs h2 r) l rs.
Proof. intros St. apply Forall2_imp2. intros a z _. now apply h2_value. Qed.
Lemma h2_smooth r v b : steady_tree r -> ~ top_mix v -> smooth fs h M r v b -> smooth fs h2 M r v b.
Proof.
  intros St T H.
  induction H as [v d ps E|v u a b x E N H IH V P|v l a r0 b E N H IH Kl Kr NE|v l a r0 b ls rs E N H IH Kl Kr NE Vl Vr NZ|v a c b E N H IH K|v a c b E K N H IH|v a c b E N H IH K|v a c b x z E K N H IH Va Nr Vc Ps].
  all: rewrite <- (h2_same v T) in E; try specialize (IH (not_top _ N)).
  - exact (s_rv fs h2 M r v d _ E).
  - apply (s_one fs h2 M r v u a b x E N IH); [now apply h2_value|exact P].
  - apply (s_add fs h2 M r v l a r0 b E N IH); auto using h2_knowns.
  - apply (s_mul fs h2 M r v l a r0 b ls rs E N IH); auto using h2_knowns, h2_values.
  - apply (s_sub_l fs h2 M r v a c b E N IH). now apply h2_known.
  - apply (s_sub_r fs h2 M r v a c b E); auto. now apply h2_known.
  - apply (s_div_l fs h2 M r v a c b E N IH). now apply h2_known.
  - apply (s_div_r fs h2 M r v a c b x z E); auto using h2_known, h2_value.
Qed.
Lemma needs_back v b : ~ top_mix v -> needs h2 M v b -> needs h M v b.
Proof.
  intros T N. induction N as [v nd b E I|v nd a b E I R N IH]; rewrite (h2_same v T) in E; [eapply n_in; eauto|]. eapply n_step; eauto. apply IH. now apply not_top.
Qed.
Lemma other_h2 a k l : kind k <> Select -> (nth_error h2 a = Some (SOther k l) <-> nth_error h a = Some (SOther k l)).
Proof.
  intros K. rewrite h2_nth. destruct (nth_error h a) as [nd|] eqn:E; cbn; [|easy]. destruct (h2_cases a nd E) as [(k' & i & cs & -> & K' & R & ->)|[_ ->]]; [|easy].
  split; intros H; injection H as <- <-; easy.
Qed.
Lemma entry_h2 a e : entry_of kind h2 qs a e <-> entry_of kind h qs a e.
Proof.
  split; intros (k & l & xs & i & N & K & Q & C); exists k, l, xs, i; (split; [|auto]); apply (other_h2 a k l); auto; congruence.
Qed.
Lemma h2_given : given_nodes kind h2 qs M.
Proof. intros a. rewrite (Gn a). split; (intros [H|(e & H)]; [now left|right; exists e; now apply entry_h2]). Qed.
(** the computed side *)
Lemma h2_entry a : entry_value kind h2 qs a = entry_value kind h qs a.
Proof.
  unfold entry_value. rewrite h2_nth. destruct (nth_error h a) as [nd|] eqn:E; auto. cbn. destruct (h2_cases a nd E) as [(k' & i & cs & -> & K' & R & ->)|[_ ->]]; [|reflexivity]. now rewrite K'.
Qed.
Lemma h2_valued : valued kind h2 qs = valued kind h qs.
Proof. unfold valued. rewrite h2_len. f_equal. apply filter_ext. intros a. unfold is_entry. now rewrite h2_entry. Qed.
Lemma h2_as Y : valued_as kind h2 Y qs = valued_as kind h Y qs.
Proof. apply FunctionalExtensionality.functional_extensionality. intros a. unfold valued_as. now rewrite h2_entry. Qed.
Lemma h2_dt : rv_dtype ddt h2 = rv_dtype ddt h.
Proof. apply FunctionalExtensionality.functional_extensionality, h2_dtype. Qed.
Notation vd := (valued kind h qs).
Notation va := (valued_as kind h (fin y) qs).
Lemma h2_expand go v : ~ top_mix v -> expand h2 go v = expand h go v.
Proof. intros T. unfold expand. now rewrite h2_same. Qed.
Lemma h2_unfold : forall fuel v, unfold h2 vd va fuel v = unfold h vd va fuel v.
Proof.
  induction fuel as [|fuel IH]; intros v; [reflexivity|]. cbn [unfold]. destruct (mem v vd) eqn:R; [reflexivity|]. apply mem_not in R.
  rewrite h2_expand by (intros [Q _]; apply R; unfold valued; apply in_or_app; now left). apply expand_ext. intros. apply IH.
Qed.
Lemma h2_node : u_node h2 va (map QVar vd) = u_node h va (map QVar vd).
Proof. apply FunctionalExtensionality.functional_extensionality. intros v. unfold u_node. rewrite q_req_vars, h2_len. apply h2_unfold. Qed.
Lemma h2_top v : ~ top_mix v -> top h2 vd va v = top h vd va v.
Proof. intros T. unfold top. rewrite h2_len, h2_expand by exact T. apply expand_ext. intros. apply h2_unfold. Qed.
Lemma h2_rv : u_rv_logprob ddt fs dlp h2 va rho0 (map QVar vd) = u_rv_logprob ddt fs dlp h va rho0 (map QVar vd).
Proof.
  apply FunctionalExtensionality.functional_extensionality. intros i. unfold u_rv_logprob. rewrite h2_nth, h2_node, h2_dt.
  destruct (nth_error h i) as [nd|] eqn:E; auto. cbn. destruct (h2_cases i nd E) as [(k' & j & cs & -> & K' & R & ->)|[_ ->]]; reflexivity.
Qed.
Lemma h2_cond v : ~ top_mix v -> u_conditional ddt fs dlp h2 va rho0 (map QVar vd) v = u_conditional ddt fs dlp h va rho0 (map QVar vd) v.
Proof. intros T. unfold u_conditional. now rewrite !q_req_vars, h2_top, h2_dt, h2_rv. Qed.
Lemma h2_stack l : forall xs, stack_logprob ddt fs dlp h2 va rho0 (map QVar vd) l xs = stack_logprob ddt fs dlp h va rho0 (map QVar vd) l xs.
Proof. induction l as [|a l IH]; intros xs; [reflexivity|]. cbn [stack_logprob]. now rewrite h2_node, h2_dt, h2_rv, IH. Qed.
Lemma h2_components l : components kind ddt fs h2 (fin y) qs l = components kind ddt fs h (fin y) qs l.
Proof. induction l as [|a l IH]; [reflexivity|]. cbn [components]. unfold m_node. now rewrite IH, h2_valued, h2_as, h2_node, h2_dt. Qed.
Lemma h2_select idx l x : select_logprob kind ddt fs dlp h2 (fin y) rho0 qs idx l x = select_logprob kind ddt fs dlp h (fin y) rho0 qs idx l x.
Proof. unfold select_logprob, m_rv_logprob, m_node. now rewrite h2_components, h2_valued, h2_as, h2_node, h2_dt, h2_rv. Qed.
Notation my := (mY kind h qs y).
Notation rvlp := (m_rv_logprob kind ddt fs dlp h (fin y) rho0 qs).
Notation lp f := (form_logprob kind ddt fs dlp h (fin y) rho0 qs f).
Lemma valued_M v : In v vd <-> In v M.
Proof. rewrite (valued_given kind h qs y Vals v). symmetry. apply Gn. Qed.
Lemma index_tree v idx comps i : member kind h qs v -> mixture v idx comps -> svalue fs h rho idx (INR i) -> index_value kind ddt fs h (fin y) rho0 qs idx = Z.of_nat i.
Proof.
  intros Mv Mx V. destruct (P_mix v idx comps Mv Mx) as (K & _). apply (index_val kind ddt fs dlp pdf h qs M y rho rho0); auto. pose proof (mix_lt v idx comps idx Mx (or_introl eq_refl)). pose proof (mix_len v idx comps Mx). lia.
Qed.
Lemma form_leaf c b : leads h M c b -> rv_dtype ddt h b <> DInt \/ b = c -> ~ In c M -> exists m, a_m (annotate (rv_dtype ddt h) fs (top h M (fin my) c)) = Some m /\
  forall fuel, c < fuel -> m_form kind ddt fs h (fin y) rho0 qs fuel c = Some (FOne m).
Proof.
  intros L D NM. assert (A : conditional ddt fs dlp h M (fin my) c <> None) by (apply sys_accepted; [exact Ac|]; eauto). unfold conditional in A.
  destruct (a_m (annotate (rv_dtype ddt h) fs (top h M (fin my) c))) as [m|] eqn:Em; [|tauto]. exists m. split; [reflexivity|]. intros [|fuel] Lt; [lia|]. cbn [m_form].
  rewrite (proj2 (mem_not c vd)) by (now rewrite valued_M). rewrite (node_top kind h qs M y Ac Gn Vals c NM (leads_lt kind dlp pdf h qs M y Ac c b L)), Em. inversion L; subst; match goal with E : nth_error h _ = Some _ |- _ => now rewrite E end.
Qed.
Lemma form_pick : forall fuel c, comp c -> c < fuel -> exists f m, m_form kind ddt fs h (fin y) rho0 qs fuel c = Some f /\ a_m (annotate (rv_dtype ddt h) fs (top h M (fin my) (pick c))) = Some m /\
  forall x, lp f x = nested_logprob rvlp m x.
Proof.
  induction fuel as [|fuel IH]; intros c C Lt; [lia|]. destruct (comp_cases c C) as (R & [(idx & comps & Mx)|(-> & b & L & D)]).
  - pose proof (comp_member c C) as Mc. destruct (P_mix c idx comps Mc Mx) as (_ & (i & d & Vi & N & E) & _ & _).
    assert (Cs : forall e, In e comps -> comp e) by (intros e I; exists c, idx, comps; auto).
    destruct (all_forms_some (m_form kind ddt fs h (fin y) rho0 qs fuel) comps) as (ms & Ef & Nf).
    { intros e I. pose proof (mix_lt c idx comps e Mx (or_intror I)). destruct (IH e (Cs e I) ltac:(lia)) as (f & m & -> & _). discriminate. }
    destruct (Nf i d N) as (f & Nm & Ed). assert (Id : In d comps) by (eapply nth_error_In; eauto). pose proof (mix_lt c idx comps d Mx (or_intror Id)).
    destruct (IH d (Cs d Id) ltac:(lia)) as (f' & m & Ed' & Em & Lp). rewrite Ed in Ed'. injection Ed' as <-.
    exists (FSelect (Z.of_nat i) ms), m. rewrite E. split; [|split; [exact Em|]].
    + cbn [m_form]. rewrite (proj2 (mem_not c vd)) by (rewrite valued_M; now apply (mix_M c idx comps)). rewrite <- (index_tree c idx comps i Mc Mx Vi). destruct Mx as (k & -> & ->). now rewrite Ef.
    + intros x. cbn [form_logprob]. rewrite <- Lp. apply (mixture_scalar_in _ i). now rewrite nth_error_map, Nm.
  - destruct (form_leaf c b L D) as (m & Em & F); [exact (leads_notM kind dlp pdf h qs M Gn c b L R)|]. exists (FOne m), m. split; [now apply F|]. split; [exact Em|]. reflexivity.
Qed.
Lemma t_sum_h2 q : In q qs -> t_sum kind ddt fs dlp h (fin y) rho0 qs q = m_sum kind ddt fs dlp h2 (fin y) rho0 qs q.
Proof.
  intros Q. destruct q as [v|l xs].
  - assert (R : In v (q_req qs)) by (apply in_flat_map; exists (QVar v); cbn; auto). destruct (mix_dec kind h v) as [(idx & comps & Mx)|N].
    + pose proof (mb_req kind h qs v R) as Mv. destruct (h2_mix v idx comps R Mx) as (k2 & N2 & K2). cbn [m_sum]. rewrite N2, K2, h2_select. unfold select_logprob.
      assert (Cs : forall c, In c comps -> comp c) by (intros c I; exists v, idx, comps; auto).
      destruct (components_some kind ddt fs dlp pdf h qs M y Ac Gn Vals (map pick comps)) as (ms & -> & Nm).
      { intros c I. apply in_map_iff in I as (c0 & <- & I). destruct (leaf c0 (Cs c0 I)) as (_ & R0 & _ & _ & B). split; auto. }
      assert (Lv := mix_len v idx comps Mx).
      destruct (P_mix v idx comps Mv Mx) as (_ & (i & d & Vi & Nd & E) & _ & _). assert (Id : In d comps) by (eapply nth_error_In; eauto). pose proof (mix_lt v idx comps d Mx (or_intror Id)).
      destruct (all_forms_some (m_form kind ddt fs h (fin y) rho0 qs (length h)) comps) as (fms & Ef & Nf).
      { intros e I. pose proof (mix_lt v idx comps e Mx (or_intror I)). destruct (form_pick (length h) e (Cs e I) ltac:(lia)) as (f & m & -> & _). discriminate. }
      destruct (Nf i d Nd) as (f & Nfm & Ed). destruct (form_pick (length h) d (Cs d Id) ltac:(lia)) as (f' & m & Ed' & Em & Lp). rewrite Ed in Ed'. injection Ed' as <-.
      destruct (Nm i (pick d)) as (m' & Nm' & Em'); [rewrite nth_error_map, Nd; reflexivity|]. rewrite Em in Em'. injection Em' as <-.
      cbn [t_sum]. pose proof Mx as (k & En & Kn). rewrite En, Kn, Ef. f_equal. cbn [form_logprob]. pose proof (index_tree v idx comps i Mv Mx Vi) as Ix. rewrite Ix. unfold index_value in Ix. rewrite Ix.
      rewrite (mixture_scalar_in _ i _ (form_logprob kind ddt fs dlp h (fin y) rho0 qs f)) by (now rewrite nth_error_map, Nfm).
      rewrite (mixture_scalar_in _ i _ (nested_logprob rvlp m)) by (now rewrite nth_error_map, Nm'). apply Lp.
    + assert (T : ~ top_mix v) by (intros (_ & idx & comps & Mx); exact (N idx comps Mx)).
      assert (E1 : t_sum kind ddt fs dlp h (fin y) rho0 qs (QVar v) = u_conditional ddt fs dlp h va rho0 (map QVar vd) v).
      { cbn [t_sum m_sum]. destruct (nth_error h v) as [[| | | | | |k [|idx comps]]|] eqn:En; try reflexivity. destruct (kind k) eqn:K; try reflexivity. destruct (N idx comps). exists k. auto. }
      rewrite E1. cbn [m_sum]. rewrite h2_same, h2_valued, h2_as, h2_cond by exact T.
      destruct (nth_error h v) as [[| | | | | |k [|idx comps]]|] eqn:En; try reflexivity. destruct (kind k) eqn:K; try reflexivity. destruct (N idx comps). exists k. auto.
  - cbn [t_sum m_sum]. now rewrite h2_valued, h2_as, h2_stack.
Qed.
Lemma tree_h2 : tree_joint kind ddt fs dlp h (fin y) rho0 qs = mixed_joint kind ddt fs dlp h2 (fin y) rho0 qs.
Proof.
  unfold tree_joint, mixed_joint. assert (G : forall ql, incl ql qs -> t_sums kind ddt fs dlp h (fin y) rho0 qs ql = m_sums kind ddt fs dlp h2 (fin y) rho0 qs ql); [|now rewrite G by apply incl_refl].
  induction ql as [|q ql IH]; intros I; [reflexivity|]. cbn [t_sums m_sums]. rewrite t_sum_h2 by (apply I; now left). rewrite IH; [reflexivity|]. intros z Z. apply I. now right.
Qed.

Hypothesis ND : NoDup vars.
Hypothesis P_elem : forall v, In v (q_elems qs) -> pick v = v.
Hypothesis Sep : forall v w, In v vars -> In w vars -> ~ In (pick w) (q_req qs) -> ~ needs h M (pick v) (pick w).
Hypothesis Lead : forall v, In v vars -> leads h M (pick v) (base v).
Hypothesis Inj : forall v w, In v vars -> In w vars -> base v = base w -> v = w.
Hypothesis Own : forall v w, In v vars -> In w vars -> needs h M (base v) (base w) -> In (base w) (q_req qs).
Hypothesis Ag : forall i, ~ In i (map base vars) -> rho0 i = Fin (rho i).
Hypothesis Dlp : forall v d l rs, In v vars -> nth_error h (base v) = Some (SRv d l) -> Forall2 (svalue fs h rho) l rs ->
  denotes (dlp d (map Fin rs) (Fin (rho (base v)))) (pdf d rs (rho (base v))).
Variable J : nat -> nat -> R.
Variable ps : list R.
Hypothesis Den : Forall2 (fun v p => draw_density fs h pdf rho (base v) p) vars ps.
Hypothesis Pa : forall i j, i < length vars -> j < length vars -> partial fs h rho (nth i vars 0) (base (nth j vars 0)) (J i j).
Lemma pick_not_top v : In v vars -> ~ top_mix (pick v).
Proof. intros V (R & idx & comps & (k & E & _)). pose proof (Lead v V) as L. inversion L; congruence. Qed.
Lemma base_node v : In v vars -> exists d l, nth_error h (base v) = Some (SRv d l).
Proof. intros V. exact (leads_rv h M (pick v) (base v) (Lead v V)). Qed.
Lemma base_not_top v : In v vars -> ~ top_mix (base v).
Proof. intros V (R & idx & comps & (k & E & _)). destruct (base_node v V) as (d & l & E'). congruence. Qed.
Lemma plain_h2 v : In v (q_req qs) -> (forall idx comps, ~ mixture_node kind h2 v idx comps) -> pick v = v.
Proof. intros R N. apply P_plain; auto. intros idx comps Mx. exact (N idx _ (h2_mix v idx comps R Mx)). Qed.
Lemma flat_h2 v idx comps : In v (q_req qs) -> mixture_node kind h2 v idx comps ->
  known h2 M idx /\ (exists i, svalue fs h2 rho idx (INR i) /\ nth_error comps i = Some (pick v)) /\
  (forall w, In w vars -> exists D, partial fs h2 rho idx (base w) D) /\
  (forall c, In c comps -> ~ In c (q_req qs) /\ exists b, leads h2 M c b /\ (rv_dtype ddt h2 b <> DInt \/ b = c)).
Proof.
  intros R Mx2. destruct (mix_h2 v idx comps Mx2) as (comps0 & Mx & E & _). specialize (E R). subst comps.
  pose proof (mb_req kind h qs v R) as Mv. destruct (P_mix v idx comps0 Mv Mx) as (K & (i & d & Vi & Nd & E) & Pt & _). split; [now apply h2_known|]. split; [|split].
  - exists i. split; [apply h2_value; auto using steady_rho_tree|]. rewrite nth_error_map, Nd, E. reflexivity.
  - intros w W. destruct (Pt w W) as (D & P). exists D. now apply h2_partial.
  - intros c I. apply in_map_iff in I as (c0 & <- & I). destruct (leaf c0 (top_comp v idx comps0 c0 R Mx I)) as (_ & R0 & NM & _ & b & L & D). split; [exact R0|]. exists b. split; [|now rewrite h2_dt].
    apply h2_leads; auto. now apply not_top.
Qed.
Lemma sep_h2 v w : In v vars -> In w vars -> ~ In (pick w) (q_req qs) -> ~ needs h2 M (pick v) (pick w).
Proof. intros V W N Nd. apply (Sep v w V W N). apply needs_back; auto using pick_not_top. Qed.
Lemma val_h2 v : In v vars -> svalue fs h2 rho v (y v).
Proof. intros V. apply h2_value; auto using steady_rho_tree. Qed.
Lemma own_h2 v w : In v vars -> In w vars -> needs h2 M (base v) (base w) -> In (base w) (q_req qs).
Proof. intros V W N. apply (Own v w V W). apply needs_back; auto using base_not_top. Qed.
Lemma dlp_h2 v d l rs : In v vars -> nth_error h2 (base v) = Some (SRv d l) -> Forall2 (svalue fs h2 rho) l rs ->
  denotes (dlp d (map Fin rs) (Fin (rho (base v)))) (pdf d rs (rho (base v))).
Proof.
  intros V E F. rewrite h2_same in E by now apply base_not_top. apply (Dlp v d l rs V E).
  assert (D : exists p, draw_density fs h pdf rho (base v) p). { clear - Den V. induction Den as [|w p l ps' D F IH]; [destruct V|]. destruct V as [->|V]; [eauto|auto]. }
  destruct D as (p & d1 & l1 & rs1 & E1 & F1 & _). rewrite E in E1. injection E1 as <- <-. pose proof (h2_values rho l rs1 steady_rho_tree F1) as F2.
  assert (rs = rs1) as ->; [|exact F1]. clear - F F2 Ac P_plain P_mix Ro Gn Vals Val dlp pdf.
  revert rs F. induction F2 as [|a x l m A G IH]; intros rs G'; inversion G' as [|? z ? rs'' B G'']; subst; [reflexivity|]. f_equal; [|now apply IH]. exact (svalue_fun fs h2 h2_acyclic rho a z x B A).
Qed.
Lemma den_h2 : Forall2 (fun v p => draw_density fs h2 pdf rho (base v) p) vars ps.
Proof.
  assert (G : forall l qs', incl l vars -> Forall2 (fun v p => draw_density fs h pdf rho (base v) p) l qs' -> Forall2 (fun v p => draw_density fs h2 pdf rho (base v) p) l qs').
  { intros l qs' I F. induction F as [|v p l qs' D F IH]; constructor.
    - destruct D as (d & l0 & rs & E & Fs & ->). exists d, l0, rs. split; [now rewrite h2_same by (apply base_not_top, I; now left)|]. split; [|reflexivity]. now apply h2_values; auto using steady_rho_tree.
    - apply IH. intros z Z. apply I. now right. }
  apply G; [apply incl_refl|exact Den].
Qed.
Lemma pa_h2 i j : i < length vars -> j < length vars -> partial fs h2 rho (nth i vars 0) (base (nth j vars 0)) (J i j).
Proof. intros Li Lj. apply h2_partial; auto. now apply nth_In. Qed.
Lemma tree_sound r d : tree_joint kind ddt fs dlp h (fin y) rho0 qs = Some r -> denotes r d ->
  rdet (length vars) J <> 0%R /\ d = (rprod ps / Rabs (rdet (length vars) J))%R.
Proof.
  rewrite tree_h2. apply (mixed_sound kind ddt fs dlp pdf h2 qs M y base pick rho rho0);
    auto using h2_acyclic, h2_given, plain_h2, flat_h2, sep_h2, val_h2, den_h2, pa_h2; [|exact own_h2|exact dlp_h2].
  intros v V. apply h2_leads; auto using pick_not_top.
Qed.
Hypothesis Sm : forall v, In v vars -> smooth fs h M rho (pick v) (base v) /\ (rv_dtype ddt h (base v) <> DInt \/ base v = pick v).
Lemma tree_here : rdet (length vars) J <> 0%R /\
  exists r, tree_joint kind ddt fs dlp h (fin y) rho0 qs = Some r /\ denotes r (rprod ps / Rabs (rdet (length vars) J)).
Proof.
  rewrite tree_h2. apply (mixed_density kind ddt fs dlp pdf h2 qs M y base pick rho rho0);
    auto using h2_acyclic, h2_given, plain_h2, flat_h2, sep_h2, val_h2, den_h2, pa_h2; [|exact own_h2|exact dlp_h2].
  intros v V. destruct (Sm v V) as [S D]. split; [|now rewrite h2_dt]. apply h2_smooth; auto using steady_rho_tree, pick_not_top.
Qed.
End Trees.

Lemma tree_density : forall kind ddt fs dlp pdf h qs M y base pick rho (rho0 : nat -> xr),
  acyclic h -> NoDup (q_vars qs) -> roles_ok kind fs -> given_nodes kind h qs M ->
  (forall l xs, In (QStack l xs) qs -> xs = map (fun v => Fin (y v)) l) ->
  (forall v, In v (q_elems qs) -> pick v = v) ->
  (forall v, In v (q_req qs) -> (forall idx comps, ~ mixture_node kind h v idx comps) -> pick v = v) ->
  (forall v idx comps, member kind h qs v -> mixture_node kind h v idx comps ->
    known h M idx /\ (exists i c, svalue fs h rho idx (INR i) /\ nth_error comps i = Some c /\ pick v = pick c) /\
    (forall w, In w (q_vars qs) -> exists D, partial fs h rho idx (base w) D) /\
    (forall c, In c comps -> ~ In c (q_req qs) /\
      ((exists idx' comps', mixture_node kind h c idx' comps') \/ pick c = c /\ exists b, leads h M c b /\ (rv_dtype ddt h b <> DInt \/ b = c)))) ->
  (forall v w, In v (q_vars qs) -> In w (q_vars qs) -> ~ In (pick w) (q_req qs) -> ~ needs h M (pick v) (pick w)) ->
  (forall v, In v (q_vars qs) -> svalue fs h rho v (y v)) ->
  (forall v, In v (q_vars qs) -> smooth fs h M rho (pick v) (base v) /\ (rv_dtype ddt h (base v) <> DInt \/ base v = pick v)) ->
  (forall v w, In v (q_vars qs) -> In w (q_vars qs) -> base v = base w -> v = w) ->
  (forall v w, In v (q_vars qs) -> In w (q_vars qs) -> needs h M (base v) (base w) -> In (base w) (q_req qs)) ->
  (forall i, ~ In i (map base (q_vars qs)) -> rho0 i = Fin (rho i)) ->
  (forall v d l rs, In v (q_vars qs) -> nth_error h (base v) = Some (SRv d l) -> Forall2 (svalue fs h rho) l rs ->
    denotes (dlp d (map Fin rs) (Fin (rho (base v)))) (pdf d rs (rho (base v)))) ->
  forall J ps, Forall2 (fun v p => draw_density fs h pdf rho (base v) p) (q_vars qs) ps ->
  (forall i j, i < length (q_vars qs) -> j < length (q_vars qs) -> partial fs h rho (nth i (q_vars qs) 0) (base (nth j (q_vars qs) 0)) (J i j)) ->
  rdet (length (q_vars qs)) J <> 0%R /\
  exists r, tree_joint kind ddt fs dlp h (fun v => Fin (y v)) rho0 qs = Some r /\ denotes r (rprod ps / Rabs (rdet (length (q_vars qs)) J)).
Proof.
  intros kind ddt fs dlp pdf h qs M y base pick rho rho0 Ac ND Ro Gn Vs P1 P2 P3 Sep V Sm Inj Own Ag Dlp J ps Den Pa.
  apply (tree_here kind ddt fs dlp pdf h qs M y base pick rho rho0); auto. intros v I. eapply smooth_leads, Sm, I.
Qed.

(** which variables get a factor *)
Lemma tree_accepted : forall kind ddt fs dlp h y rho qs M v, acyclic h -> given_nodes kind h qs M ->
  (forall l xs, In (QStack l xs) qs -> xs = map (fun v => Fin (y v)) l) ->
  (t_sum kind ddt fs dlp h (fun v => Fin (y v)) rho qs (QVar v) <> None <-> composed kind h ddt M v).
Proof.
  intros kind ddt fs dlp h y rho qs M v Ac Gn Vals.
  assert (VM : forall v, In v (valued kind h qs) <-> In v M) by (intros w; rewrite (valued_given kind h qs y Vals w); symmetry; apply Gn).
  assert (Un : forall a, m_node kind h (fin y) qs a = u_node h (fin (mY kind h qs y)) (map QVar M) a).
  { intros a. unfold m_node, u_node. rewrite !q_req_vars. apply unfold_set; [exact VM|]. intros w W. now apply valued_as_val. }
  assert (Inv : forall c, (forall idx comps, ~ mixture_node kind h c idx comps) -> (composed kind h ddt M c <-> exists b, leads h M c b /\ (rv_dtype ddt h b <> DInt \/ b = c))).
  { intros c N. split; [intros C; inversion C as [? b L D|? idx comps Mx]; subst; eauto; destruct (N idx comps Mx)|intros (b & L & D); econstructor; eauto]. }
  assert (Inm : forall c idx comps, mixture_node kind h c idx comps -> (composed kind h ddt M c <-> forall d, In d comps -> ~ In d M /\ composed kind h ddt M d)).
  { intros c idx comps Mx. split; [|intros H; exact (cp_mix kind h ddt M c idx comps Mx H)]. destruct Mx as (k & E & K). intros C. inversion C as [? b L D|? idx' comps' (k' & E' & K') H]; subst; [inversion L; congruence|]. rewrite E in E'. injection E' as <- <- <-. exact H. }
  assert (Lt : forall c idx comps d, mixture_node kind h c idx comps -> In d comps -> d < c < length h).
  { intros c idx comps d (k & E & _) I. split; [apply (Ac c _ d E); cbn; auto|]. apply nth_error_Some. congruence. }
  assert (Al : forall fm l, (all_forms (map fm l) <> None <-> forall c : nat, In c l -> fm c <> None)).
  { intros fm l. split; [apply all_forms_none|]. intros H. destruct (all_forms_some fm l H) as (ms & -> & _). discriminate. }
  assert (Fo : forall fuel c, c < fuel -> (m_form kind ddt fs h (fin y) rho qs fuel c <> None <-> ~ In c M /\ composed kind h ddt M c)).
  { induction fuel as [|fuel IH]; intros c Lc; [lia|]. cbn [m_form]. destruct (mem c (valued kind h qs)) eqn:Mc.
    - apply mem_In, VM in Mc. tauto.
    - apply mem_not in Mc. rewrite VM in Mc. destruct (mix_dec kind h c) as [(idx & comps & Mx)|N].
      + rewrite (Inm c idx comps Mx). pose proof Mx as (k & E & K). rewrite E, K.
        assert (Q : all_forms (map (m_form kind ddt fs h (fin y) rho qs fuel) comps) <> None <-> forall d, In d comps -> ~ In d M /\ composed kind h ddt M d).
        { rewrite Al. split; intros H d I; destruct (Lt c idx comps d Mx I); [apply IH; [lia|auto]|apply IH; [lia|auto]]. }
        destruct (all_forms _); split; try tauto; [intros _; split; [exact Mc|]; apply Q; discriminate|discriminate].
      + rewrite (Inv c N). pose proof (elem_accepted ddt fs h (mY kind h qs y) (map QVar M) c Ac) as Q. rewrite q_req_vars in Q.
        assert (Sk : match nth_error h c with Some (SOther k (idx :: comps)) => False | _ => True end \/ exists k idx comps, nth_error h c = Some (SOther k (idx :: comps)) /\ kind k <> Select).
        { destruct (nth_error h c) as [[| | | | | |k [|idx comps]]|] eqn:E; auto. right. exists k, idx, comps. split; auto. intros K. destruct (N idx comps). exists k. auto. }
        destruct Sk as [Sk|(k & idx & comps & E & K)].
        * rewrite <- Q, Un. destruct (nth_error h c) as [[| | | | | |k [|idx comps]]|] eqn:E; try (destruct (a_m _); split; congruence).
        * rewrite E. split; [intros Hn; exfalso; destruct (kind k); congruence|]. intros (_ & b & L & _). inversion L; congruence. }
  cbn [t_sum]. destruct (mix_dec kind h v) as [(idx & comps & Mx)|N].
  - rewrite (Inm v idx comps Mx). pose proof Mx as (k & E & K). rewrite E, K.
    assert (Q : all_forms (map (m_form kind ddt fs h (fin y) rho qs (length h)) comps) <> None <-> forall d, In d comps -> ~ In d M /\ composed kind h ddt M d).
    { rewrite Al. split; intros H d I; destruct (Lt v idx comps d Mx I); assert (Ld : d < length h) by lia; apply (Fo (length h) d Ld); auto. }
    rewrite <- Q. destruct (all_forms _); split; congruence.
  - rewrite (Inv v N).
    assert (E1 : match nth_error h v with
      | Some (SOther k (idx :: comps)) => match kind k with Select => match all_forms (map (m_form kind ddt fs h (fin y) rho qs (length h)) comps) with
            Some l => Some (form_logprob kind ddt fs dlp h (fin y) rho qs (FSelect (index_value kind ddt fs h (fin y) rho qs idx) l) (fin y v)) | None => None end
          | _ => m_sum kind ddt fs dlp h (fin y) rho qs (QVar v) end
      | _ => m_sum kind ddt fs dlp h (fin y) rho qs (QVar v) end = u_conditional ddt fs dlp h (valued_as kind h (fin y) qs) rho (map QVar (valued kind h qs)) v).
    { cbn [m_sum]. destruct (nth_error h v) as [[| | | | | |k [|idx comps]]|] eqn:En; try reflexivity. destruct (kind k) eqn:K; try reflexivity. destruct (N idx comps). exists k. auto. }
    rewrite E1. unfold u_conditional. rewrite q_req_vars, (top_val kind h qs M y Gn Vals v). pose proof (sys_accepted ddt fs dlp h M (mY kind h qs y) v Ac) as Q. unfold conditional in Q.
    rewrite <- Q. destruct (a_m _); split; congruence.
Qed.
