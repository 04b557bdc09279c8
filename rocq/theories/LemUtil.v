(** Proofs for resizing and observed data. *)
From Coq Require Import Reals Lra List Arith ZArith Bool Lia String Permutation.
From Verif Require Import XR ModelVec ModelIdx SpecIdx LemIdx LemIdx2 ModelMix SpecMix LemMix ModelTen ModelSub SpecSub LemSub SpecElem LemBatch ModelUtil SpecUtil.
Import ListNotations.
Open Scope nat_scope.

(** ** Resizing *)
Lemma batch_of_app b core : batch_of (List.length core) (b ++ core) = b.
Proof.
  unfold batch_of. rewrite app_length. replace (List.length b + List.length core - List.length core) with (List.length b) by lia.
  rewrite firstn_app, Nat.sub_diag, firstn_all. cbn. apply app_nil_r.
Qed.
Lemma batches_in r b : In b (batches (vop r) (vparams r)) -> well_formed r -> exists k, batch_dims r k b.
Proof.
  intros H (L & W). unfold batches in H. apply In_nth_error in H as (k & Hk).
  assert (G : forall ns ps k b, nth_error (map2 batch_of ns (map nshp ps)) k = Some b -> exists n (p : nd xr), nth_error ns k = Some n /\ nth_error ps k = Some p /\ b = batch_of n (nshp p)).
  { clear. induction ns as [|n ns IH]; intros [|p ps] [|k] b H; try discriminate; cbn in *.
    - injection H as <-. eauto.
    - apply IH; auto. }
  apply G in Hk as (n & p & Hn & Hp & ->). exists k.
  destruct (W k) as (b & p' & n' & core & Hp' & Hn' & E & Lc). { apply nth_error_Some. congruence. }
  rewrite Hp in Hp'. injection Hp' as <-. rewrite Hn in Hn'. injection Hn' as <-. exists p, n, core.
  subst n. rewrite E, batch_of_app. auto.
Qed.
Lemma batches_all r k b : batch_dims r k b -> In b (batches (vop r) (vparams r)).
Proof.
  intros (p & n & core & Hp & Hn & E & L). unfold batches.
  assert (G : forall ns ps k n (p : nd xr), nth_error ns k = Some n -> nth_error ps k = Some p -> In (batch_of n (nshp p)) (map2 batch_of ns (map nshp ps))).
  { clear. induction ns as [|m ns IH]; intros [|q ps] [|k] n p H1 H2; try discriminate; cbn in *.
    - injection H1 as ->. injection H2 as ->. now left.
    - right. eapply IH; eauto. }
  specialize (G _ _ _ _ _ Hn Hp). subst n. now rewrite E, batch_of_app in G.
Qed.
Lemma batches_iff r : well_formed r -> forall b, In b (batches (vop r) (vparams r)) <-> exists k, batch_dims r k b.
Proof. intros W b. split; [intros; now apply batches_in|intros (k & H); eapply batches_all; eauto]. Qed.
Lemma infer_empty r B : well_formed r -> vsize r = [] -> batch_shape r B -> bcast_all (batches (vop r) (vparams r)) = Val B.
Proof.
  intros W E (H & _). destruct (H E) as (l & Hl & HB). apply bcast_all_spec. eapply bc_ext; [|exact HB].
  intros x. now rewrite Hl, batches_iff.
Qed.
Lemma bcast_under l s : is_broadcast l s -> forall x, In x l -> broadcasts x s.
Proof. intros H x Hx. eapply bc_in; eauto. Qed.
Lemma batch_broadcasts r B : batch_shape r B -> forall k b, batch_dims r k b -> broadcasts b B.
Proof.
  intros (H1 & H2) k b Hb. destruct (vsize r) eqn:E.
  - destruct (H1 eq_refl) as (l & Hl & HB). eapply bc_in; [exact HB|]. apply Hl. eauto.
  - destruct (H2 ltac:(easy)) as (_ & H). eauto.
Qed.
Lemma broadcasts_prefix b d B : broadcasts b B -> broadcasts b (d ++ B).
Proof.
  intros (H1 & _ & H3). split; [|split].
  - intros sh [<-|[<-|[]]]; [|lia]. rewrite app_length. specialize (H1 b (or_introl eq_refl)). lia.
  - right. exists (d ++ B). split; [right; now left|auto].
  - intros r Hr. split; [|right; exists (d ++ B); split; [right; now left|auto]].
    intros sh [<-|[<-|[]]]; [|now right]. destruct (lt_dec r (List.length B)) as [L|L].
    + destruct (H3 r L) as (H & _). destruct (H b (or_introl eq_refl)) as [E|E]; [now left|right]. rewrite E.
      unfold rnth. rewrite rev_app_distr, app_nth1 by now rewrite rev_length. reflexivity.
    + left. apply rnth_over. specialize (H1 b (or_introl eq_refl)). lia.
Qed.
Lemma bcast_nil_params l : (forall b, In b l -> b = []) -> forall B, is_broadcast l B -> B = [].
Proof.
  intros H B (H1 & [E|(s & Hs & L)] & _); auto. rewrite (H s Hs) in L. destruct B; auto. discriminate.
Qed.
Lemma aligned_prefix b i j a : List.length b <= List.length j -> (aligned b (i ++ j) a <-> aligned b j a).
Proof.
  intros L. unfold aligned. split; intros (H1 & H2); split; auto; intros r Hr; rewrite H2 by auto;
    unfold rnth; rewrite rev_app_distr, app_nth1 by (rewrite rev_length; lia); reflexivity.
Qed.
Lemma dims_same r r' : vop r' = vop r -> vparams r' = vparams r -> forall k b, batch_dims r' k b <-> batch_dims r k b.
Proof. intros E1 E2 k b. unfold batch_dims. rewrite E1, E2. tauto. Qed.
Lemma infer_ok r B op size ps : op = vop r -> ps = vparams r -> well_formed r -> batch_shape r B -> (size = [] -> vsize r = []) -> exists s, infer_shape op size ps = Val s.
Proof.
  intros -> -> W HB H. destruct size; [|cbn; eauto]. cbn. rewrite (infer_empty r B); cbn; eauto.
Qed.
Definition resized fresh r (size : list nat) : rvar :=
  {| vop := vop r; vrng := vrng r; vsize := size; vdtype := vdtype r; vparams := vparams r; vname := vname r; vtag := fold_left setdefault (vtag r) fresh |}.
Lemma expand_value fresh r new B : well_formed r -> batch_shape r B -> exists size,
  change_rv_size fresh r new true = Val (resized fresh r size) /\
  ((ndim_supp (vop r) = 0 -> size = dims new ++ B) /\ (vsize r <> [] -> size = dims new ++ B) /\ (ndim_supp (vop r) <> 0 -> size = dims new ++ vsize r)).
Proof.
  intros W HB. unfold change_rv_size. change as_vector with dims.
  assert (Sz : vsize r <> [] -> vsize r = B). { intros N. destruct HB as (_ & H). destruct (H N) as (-> & _). auto. }
  assert (K : forall size, (size = [] -> vsize r = []) -> bind (make_node fresh (vop r) (vrng r) size (vdtype r) (vparams r)) (fun v =>
     Val {| vop := vop v; vrng := vrng v; vsize := vsize v; vdtype := vdtype v; vparams := vparams v; vname := vname r; vtag := fold_left setdefault (vtag r) (vtag v) |})
     = Val (resized fresh r size)).
  { intros size E. unfold make_node. destruct (infer_ok r B (vop r) size (vparams r) eq_refl eq_refl W HB E) as (s & ->). cbn. reflexivity. }
  destruct (ndim_supp (vop r) =? 0) eqn:E0; [apply Nat.eqb_eq in E0|apply Nat.eqb_neq in E0].
  - destruct (List.length (vsize r) =? 0) eqn:E1; [apply Nat.eqb_eq in E1|apply Nat.eqb_neq in E1]; cbn [andb].
    + assert (Ez : vsize r = []) by (destruct (vsize r); auto; discriminate).
      assert (Hi : infer_shape (vop r) (vsize r) (vparams r) = Val B).
      { rewrite Ez. cbn. rewrite (infer_empty r B) by auto. cbn. unfold supp_of. rewrite E0. cbn. now rewrite app_nil_r. }
      rewrite Hi. cbn [bind]. rewrite K by auto. eexists. split; [reflexivity|]. repeat split; auto; intros N; easy.
    + cbn [bind]. rewrite K.
      * eexists. split; [reflexivity|]. assert (N : vsize r <> []) by (intros Q; rewrite Q in E1; now apply E1). rewrite (Sz N). repeat split; auto.
      * intros Q. apply app_eq_nil in Q. tauto.
  - cbn [andb bind]. rewrite K.
    + eexists. split; [reflexivity|]. repeat split; auto; intros N; [easy|now rewrite (Sz N)].
    + intros Q. apply app_eq_nil in Q. tauto.
Qed.
Lemma resized_shape fresh r size : well_formed r -> size <> [] -> (forall k b, batch_dims r k b -> broadcasts b size) -> batch_shape (resized fresh r size) size.
Proof.
  intros W N H. split; cbn [vsize resized]; [easy|]. intros _. split; auto.
Qed.
Lemma expand_ok fresh r new B : well_formed r -> expandable r -> batch_shape r B -> exists r',
  change_rv_size fresh r new true = Val r' /\ same_but_size r r' /\ batch_shape r' (dims new ++ B) /\
  (forall i j k c x, List.length i = List.length (dims new) -> inside B j -> (param_at r' (i ++ j) k c x <-> param_at r j k c x)).
Proof.
  intros W X HB. destruct (expand_value fresh r new B W HB) as (size & E & K1 & K2 & K3). exists (resized fresh r size).
  split; [exact E|]. split; [repeat split|].
  assert (Bn : ndim_supp (vop r) <> 0 -> vsize r = [] -> B = []).
  { intros N Z. destruct X as [X|[X|X]]; try easy. destruct HB as (H & _). destruct (H Z) as (l & Hl & Hb).
    eapply bcast_nil_params; [|exact Hb]. intros b Hi. apply Hl in Hi as (k & Hk). eauto. }
  assert (Es : size = dims new ++ B).
  { destruct (Nat.eq_dec (ndim_supp (vop r)) 0) as [Z|Z]; auto. destruct (vsize r) eqn:Ev; [|apply K2; easy].
    rewrite (Bn Z eq_refl). now apply K3. }
  split.
  - destruct size as [|s0 size'] eqn:Esz.
    + symmetry in Es. pose proof (app_eq_nil _ _ Es) as (Ed & ->). rewrite Es.
      assert (Zv : vsize r = []). { destruct HB as (_ & H). destruct (vsize r) eqn:Ev; auto. destruct (H ltac:(easy)) as (Q & _). discriminate. }
      split; cbn [vsize resized]; [|easy]. intros _. destruct HB as (H & _). destruct (H Zv) as (l & Hl & Hb). exists l. split; auto.
    + rewrite <- Es. apply resized_shape; [auto|easy|]. intros k b Hb. rewrite Es. apply broadcasts_prefix. eapply batch_broadcasts; eauto.
  - intros i j k c x Hi Hj. unfold param_at. cbn [vparams resized].
    assert (Lj : List.length j = List.length B) by (red in Hj; now apply F2_len in Hj).
    split; intros (p & b & a & H1 & H2 & H3 & H4); exists p, b, a; (split; [exact H1|]); (split; [exact H2|]); (split; [|exact H4]).
    + apply (aligned_prefix b i j a); auto. rewrite Lj. apply bc_len. eapply batch_broadcasts; eauto.
    + apply (aligned_prefix b i j a); auto. rewrite Lj. apply bc_len. eapply batch_broadcasts; eauto.
Qed.
Lemma resize_ok fresh r new : well_formed r -> dims new <> [] -> exists r',
  change_rv_size fresh r new false = Val r' /\ same_but_size r r' /\
  ((forall k b, batch_dims r k b -> broadcasts b (dims new)) <-> batch_shape r' (dims new)) /\
  (forall B, batch_shape r' B -> B = dims new) /\
  (forall i k c x, param_at r' i k c x <-> param_at r i k c x).
Proof.
  intros W N. exists (resized fresh r (dims new)). split.
  { unfold change_rv_size. change as_vector with dims. cbn [bind]. unfold make_node, infer_shape.
    destruct (dims new) eqn:E; [easy|]. cbn. reflexivity. }
  split; [repeat split|]. split; [|split].
  - split; intros H; [now apply resized_shape|]. destruct H as (_ & H). destruct (H N) as (_ & G). exact G.
  - intros B (_ & H). destruct (H N) as (-> & _). reflexivity.
  - intros. unfold param_at. reflexivity.
Qed.
(** tags *)
Lemma lookup_app k d e : lookup k (d ++ e) = match lookup k d with Some v => Some v | None => lookup k e end.
Proof. induction d as [|[k' v] d IH]; cbn; auto. destruct (String.eqb k k'); auto. Qed.
Lemma setdefault_lookup d kv k : lookup k (setdefault d kv) = match lookup k d with Some v => Some v | None => if String.eqb k (fst kv) then Some (snd kv) else None end.
Proof.
  unfold setdefault. destruct (lookup (fst kv) d) as [w|] eqn:E.
  - destruct (lookup k d) eqn:F; auto. destruct (String.eqb k (fst kv)) eqn:G; auto. apply String.eqb_eq in G. subst k. congruence.
  - rewrite lookup_app. destruct (lookup k d); auto. destruct kv as [k' v]. cbn. now destruct (String.eqb k k').
Qed.
Lemma tags_lookup l : forall d k, lookup k (fold_left setdefault l d) = match lookup k d with Some v => Some v | None => lookup k l end.
Proof.
  induction l as [|kv l IH]; intros d k; cbn [fold_left]; [now destruct (lookup k d)|]. rewrite IH, setdefault_lookup. destruct kv as [k' v]. cbn [fst snd lookup].
  destruct (lookup k d); auto. now destruct (String.eqb k k').
Qed.
Lemma change_tags fresh r new e r' : change_rv_size fresh r new e = Val r' -> vname r' = vname r /\
  forall k, lookup k (vtag r') = match lookup k fresh with Some v => Some v | None => lookup k (vtag r) end.
Proof.
  unfold change_rv_size, make_node. intros H.
  destruct (if e then _ else _) as [s|]; [|discriminate]. cbn [bind] in H. destruct (infer_shape _ _ _); [|discriminate]. cbn in H. injection H as <-.
  cbn. split; auto. intros k. apply tags_lookup.
Qed.

(** ** Observed data *)
Lemma all_some (js : list index) : all_val (map (fun i => match i with Some i => Val i | None => Raise end) (map Some js)) = Val js.
Proof. induction js as [|j js IH]; cbn; auto. cbn in IH. now rewrite IH. Qed.
Lemma all_none (ix : list (option index)) : In None ix -> all_val (map (fun i => match i with Some i => Val i | None => Raise end) ix) = Raise.
Proof. induction ix as [|j js IH]; intros []; subst; cbn; auto. destruct j; cbn; auto. rewrite IH; auto. Qed.
Lemma scalar_assignable js sh osh dsh : assignable js sh osh dsh -> assignable js sh osh [].
Proof.
  intros (H1 & H2 & H3). split; auto. split; auto.
  split; [intros s [<-|[<-|[]]]; cbn; lia|]. split; [right; exists osh; split; [right; now left|auto]|].
  intros r Hr. split; [|right; exists osh; split; [right; now left|auto]]. intros s [<-|[<-|[]]]; [left|now right]. unfold rnth. cbn. now destruct r.
Qed.
(** the writes of an index, in a list *)
Lemma nodup_app {A} (l m : list A) : NoDup l -> NoDup m -> (forall x, In x l -> ~ In x m) -> NoDup (l ++ m).
Proof.
  induction l as [|x l IH]; intros Hl Hm D; cbn; auto. inversion Hl; subst. constructor.
  - rewrite in_app_iff. intros [Q|Q]; auto. eapply D; eauto. now left.
  - apply IH; auto. intros y Hy. apply D. now right.
Qed.
Lemma positions_nodup sh : NoDup (positions sh).
Proof.
  induction sh as [|n sh IH]; cbn; [repeat constructor; easy|].
  assert (G : forall l, NoDup l -> NoDup (flat_map (fun k => map (cons k) (positions sh)) l)).
  { induction l as [|k l IHl]; intros N; [constructor|]. inversion N; subst. cbn. apply nodup_app; auto.
    - apply FinFun.Injective_map_NoDup; auto. intros a b E. now injection E.
    - intros x Hx Hy. apply in_map_iff in Hx as (q & <- & _). apply in_flat_map in Hy as (k' & Hk & Hy).
      apply in_map_iff in Hy as (q' & E & _). injection E as -> _. auto. }
  apply G, seq_NoDup.
Qed.
Lemma writes_ok js sh osh dsh : sh <> [] -> positive_steps js -> assignable js sh osh dsh ->
  exists ts : list (list nat), forall p o, In (p, o) (combine ts (positions osh)) <-> targets js sh osh o p.
Proof.
  intros Hsh HP (HS & HB & HT).
  destruct (proj1 (expand_indices_spec js sh Hsh HP) osh HS) as (advs & E & L & F & HE).
  assert (HR : forall o p, inside osh o -> resolve_all sh (map (fun a => get a o) advs) = Val p <-> np_element js sh o p).
  { intros o p Hin. rewrite (HE o p Hin). rewrite <- resolve_all_spec by now rewrite map_length.
    clear -L. assert (G : forall (sh0 : list nat) (advs : list arr) p, List.length advs = List.length sh0 ->
      Forall2 (fun (nz : nat * Z) x => wraps (fst nz) (snd nz) x) (combine sh0 (map (fun a => get a o) advs)) p <->
      Forall2 (fun (na : nat * arr) x => wraps (fst na) (get (snd na) o) x) (combine sh0 advs) p).
    { intros sh0; induction sh0 as [|n sh' IH]; intros [|a l] q HL; try discriminate; cbn.
      - split; intros X; inversion X; constructor.
      - split; intros X; inversion X; subst; constructor; auto; apply IH; auto. }
    apply G. auto. }
  destruct (exists_list (fun o p => resolve_all sh (map (fun a => get a o) advs) = Val p) (positions osh)) as (ts & Hts).
  { intros o Ho'. apply positions_in in Ho'. destruct (HT o Ho') as (p & _ & Hp). exists p. now apply HR. }
  exists ts. intros p o. split.
  - intros Hin. pose proof (Forall2_combine _ _ _ Hts _ _ Hin) as Hr. cbn in Hr.
    assert (inside osh o) by (apply positions_in; eapply in_combine_r; eauto). split; auto. now apply HR.
  - intros (Hin & He). destruct (Forall2_combine' _ _ _ Hts o) as (p' & Hp'); [now apply positions_in|].
    pose proof (Forall2_combine _ _ _ Hts _ _ Hp') as Hr. cbn in Hr. apply HR in He; auto. rewrite Hr in He. injection He as ->. auto.
Qed.
(** the positions of the index result written to [p] *)
Definition writers (ts : list (list nat)) osh p : list (list nat) :=
  map snd (filter (fun tc : list nat * list nat => pos_eqb p (fst tc)) (combine ts (positions osh))).
Lemma writers_in ts osh p o : In o (writers ts osh p) <-> In (p, o) (combine ts (positions osh)).
Proof.
  unfold writers. rewrite in_map_iff. split.
  - intros ([t c] & <- & H). apply filter_In in H as (H & E). cbn in *. apply pos_eqb_true in E. now subst.
  - intros H. exists (p, o). split; auto. apply filter_In. split; auto. apply pos_eqb_refl.
Qed.
Lemma combine_snd_nodup {A B} (l : list A) (m : list B) : NoDup m -> NoDup (map snd (combine l m)).
Proof.
  revert m. induction l as [|a l IH]; intros [|b m] H; cbn; try constructor; inversion H; subst; auto.
  intros Q. apply in_map_iff in Q as ([x y] & E & Q). cbn in E. subst. apply in_combine_r in Q. auto.
Qed.
Lemma filter_snd_nodup {A B} (f : A * B -> bool) l : NoDup (map snd l) -> NoDup (map snd (filter f l)).
Proof.
  induction l as [|x l IH]; cbn; auto. intros H. inversion H; subst. destruct (f x); cbn; auto. constructor; auto.
  intros Q. apply H2. apply in_map_iff in Q as (y & E & Q). apply filter_In in Q as (Q & _). apply in_map_iff. eauto.
Qed.
Lemma writers_nodup ts osh p : NoDup (writers ts osh p).
Proof. unfold writers. apply filter_snd_nodup, combine_snd_nodup, positions_nodup. Qed.
Lemma target_len js sh osh dsh o p : assignable js sh osh dsh -> targets js sh osh o p -> List.length dsh <= List.length o.
Proof.
  intros (_ & HB & _) (Hin & _). destruct HB as (HB & _). specialize (HB dsh (or_introl eq_refl)). red in Hin. apply F2_len in Hin. lia.
Qed.

(** extraction succeeds; its data is the innermost array *)
Fixpoint innermost (x : obs) : option (nd R) :=
  match x with OConst a | OShared a => Some a | OInc _ x _ _ _ => innermost x | OOther => None end.
Definition mask_of (m : option (list nat -> bool)) (p : list nat) : bool := match m with Some f => f p | None => false end.
Lemma masked_iff m p : masked m p <-> mask_of m p = true.
Proof. unfold masked, mask_of. destruct m as [f|]; split; intros H; [destruct H as (g & E & H); now injection E as <-|eauto|destruct H as (g & E & _); discriminate|discriminate]. Qed.
Lemma legal_nonempty x sh : legal x sh -> sh <> [].
Proof. induction 1; auto. Qed.
Lemma extract_legal x sh : legal x sh -> exists a m, extract_obs_data x = Val (a, m) /\ nshp a = sh /\ innermost x = Some a.
Proof.
  induction 1 as [a N|a N|set x w dsh js sh osh Hx (a & m & E & Ea & Ei) HP HA]; cbn; eauto.
  rewrite E. cbn [bind fst snd]. rewrite all_some. cbn [bind]. rewrite Ea.
  destruct (np_set_ok _ sh (fun _ => false) js osh [] (fun _ => true) (legal_nonempty _ _ Hx) HP (scalar_assignable _ _ _ _ HA)) as (z & -> & _).
  cbn. eauto.
Qed.
Lemma extract_step set x w dsh js sh osh a m : legal x sh -> positive_steps js -> assignable js sh osh dsh -> extract_obs_data x = Val (a, m) -> nshp a = sh ->
  exists m', extract_obs_data (OInc set x w dsh (map Some js)) = Val (a, m') /\
    forall p, mask_of m' p = true <-> mask_of m p = true \/ exists o, targets js sh osh o p.
Proof.
  intros Hx HP HA E Ea. cbn. rewrite E. cbn [bind fst snd]. rewrite all_some. cbn [bind]. rewrite Ea.
  destruct (np_set_ok _ sh (fun _ => false) js osh [] (fun _ => true) (legal_nonempty _ _ Hx) HP (scalar_assignable _ _ _ _ HA)) as (z & -> & Z1 & Z2).
  cbn [bind]. eexists. split; [reflexivity|]. intros p. cbn [mask_of].
  assert (Hz : z p = true <-> exists o, targets js sh osh o p).
  { destruct (writes_ok js sh osh dsh (legal_nonempty _ _ Hx) HP HA) as (ts & Hts).
    destruct (writers ts osh p) as [|o os] eqn:Ew.
    - assert (N : forall o, ~ targets js sh osh o p). { intros o Ho. apply Hts, writers_in in Ho. rewrite Ew in Ho. easy. }
      rewrite Z1 by auto. split; [discriminate|]. intros (o & Ho). now apply N in Ho.
    - assert (Ho : exists o, targets js sh osh o p). { exists o. apply Hts, writers_in. rewrite Ew. now left. }
      rewrite (Z2 p true); auto. tauto. }
  unfold mask_of. destruct m as [f|]; rewrite orb_true_iff, Hz; tauto.
Qed.
Lemma value_shape env x y : value env x y -> forall sh, legal x sh -> nshp y = sh.
Proof.
  induction 1; intros sh L; inversion L; subst; auto. rewrite H1. apply IHvalue. auto.
Qed.
Lemma map_some_inj (a b : list index) : map Some a = map Some b -> a = b.
Proof. revert b. induction a as [|x a IH]; intros [|y b] H; try discriminate; auto. cbn in H. injection H as -> H. f_equal. auto. Qed.
Lemma shape_unique ix sh o o' : np_shape ix sh o -> np_shape ix sh o' -> sh <> [] -> positive_steps ix -> o = o'.
Proof.
  intros H H' Hsh HP. destruct (proj1 (expand_indices_spec ix sh Hsh HP) o H) as (advs & E & L & F & _).
  destruct (proj1 (expand_indices_spec ix sh Hsh HP) o' H') as (advs' & E' & _ & F' & _). rewrite E in E'. injection E' as <-.
  destruct advs as [|a advs]; [destruct sh; [easy|discriminate]|]. apply Forall_inv in F. apply Forall_inv in F'. congruence.
Qed.
Lemma value_inv env (set : bool) x w dsh js sh osh y : legal x sh -> positive_steps js -> assignable js sh osh dsh -> value env (OInc set x w dsh (map Some js)) y ->
  exists y0, value env x y0 /\ (forall p, (forall o, ~ targets js sh osh o p) -> nelt y p = nelt y0 p) /\
    (forall p, (exists o, targets js sh osh o p) ->
       if set then exists o c, targets js sh osh o p /\ aligned dsh o c /\ nelt y p = insert env w c
       else exists os cs, NoDup os /\ (forall o, In o os <-> targets js sh osh o p) /\ Forall2 (aligned dsh) os cs /\
            nelt y p = (nelt y0 p + total (map (insert env w) cs))%R).
Proof.
  intros Hx HP HA V. remember (OInc set x w dsh (map Some js)) as e eqn:Ee. destruct V as [a|a|set' x' w' dsh' js' y0 y osh' V A S T1 T2]; try discriminate.
  injection Ee as -> -> -> -> Ej. apply map_some_inj in Ej. subst js'. exists y0. pose proof (value_shape _ _ _ V _ Hx) as Sy. rewrite Sy in *.
  assert (osh' = osh). { destruct HA as (S1 & _). destruct A as (S2 & _). eapply shape_unique; eauto. now apply (legal_nonempty x). } subst osh'. auto.
Qed.
(** unmasked entries *)
Lemma unmasked_known x sh : legal x sh -> forall a m, extract_obs_data x = Val (a, m) -> forall env y, value env x y ->
  forall p, mask_of m p = false -> nelt y p = nelt a p.
Proof.
  induction 1 as [a0 N|a0 N|set x w dsh js sh osh Hx IH HP HA]; intros a m E env y V p M.
  - cbn in E. injection E as <- _. inversion V; subst. reflexivity.
  - cbn in E. injection E as <- _. inversion V; subst. reflexivity.
  - destruct (extract_legal x sh Hx) as (a1 & m1 & E1 & Ea & _).
    destruct (extract_step set x w dsh js sh osh a1 m1 Hx HP HA E1 Ea) as (m' & E' & Hm). rewrite E in E'. injection E' as -> ->.
    destruct (value_inv _ _ _ _ _ _ _ _ _ Hx HP HA V) as (y0 & H3 & H9 & _).
    rewrite H9.
    + apply (IH _ _ E1 _ _ H3). destruct (mask_of m1 p) eqn:Q; auto. rewrite (proj2 (Hm p) (or_introl Q)) in M. discriminate.
    + intros o Ho. rewrite (proj2 (Hm p)) in M by eauto. discriminate.
Qed.
(** the value is affine in a common value of the unknowns *)
Lemma total_const {A} (c : R) (l : list A) (f : A -> R) : (forall x, In x l -> f x = c) -> total (map f l) = (INR (List.length l) * c)%R.
Proof.
  induction l as [|x l IH]; intros H; cbn [map total fold_right List.length]; [cbn; lra|].
  change (fold_right Rplus 0%R (map f l)) with (total (map f l)). rewrite IH by (intros; apply H; now right). rewrite H by now left. rewrite S_INR. lra.
Qed.
Lemma affine x sh : legal x sh -> all_unknown x -> forall a m, extract_obs_data x = Val (a, m) ->
  exists A K : list nat -> R, (forall p, (0 <= K p)%R /\ (mask_of m p = true -> (0 < K p)%R)) /\
  forall c y, value (fun _ _ => c) x y -> forall p, nelt y p = (A p + K p * c)%R.
Proof.
  induction 1 as [a0 N|a0 N|set x w dsh js sh osh Hx IH HP HA]; intros U a m E.
  - cbn in E. injection E as <- <-. exists (nelt a0), (fun _ => 0%R). split; [intros p; cbn; split; [lra|discriminate]|].
    intros c y V p. inversion V; subst. lra.
  - cbn in E. injection E as <- <-. exists (nelt a0), (fun _ => 0%R). split; [intros p; cbn; split; [lra|discriminate]|].
    intros c y V p. inversion V; subst. lra.
  - destruct U as (U & v & ->). destruct (extract_legal x sh Hx) as (a1 & m1 & E1 & Ea & _).
    destruct (extract_step set x (Unknown v) dsh js sh osh a1 m1 Hx HP HA E1 Ea) as (m' & E' & Hm). rewrite E in E'. injection E' as -> ->.
    destruct (IH U _ _ E1) as (A & K & HK & HV). pose proof (legal_nonempty _ _ Hx) as Ne.
    destruct (writes_ok js sh osh dsh Ne HP HA) as (ts & Hts).
    set (W := fun p => writers ts osh p).
    exists (fun p => if set then match W p with [] => A p | _ => 0%R end else A p),
           (fun p => if set then match W p with [] => K p | _ => 1%R end else (K p + INR (List.length (W p)))%R).
    assert (HW : forall p o, In o (W p) <-> targets js sh osh o p). { intros p o. unfold W. now rewrite writers_in, Hts. }
    split.
    + intros p. destruct (HK p) as (K0 & K1). specialize (HW p). destruct (W p) as [|o os] eqn:Ew.
      * assert (M : mask_of m' p = true -> (0 < K p)%R). { intros Q. apply Hm in Q as [Q|(o & Ho)]; auto. apply HW in Ho. easy. }
        destruct set; cbn; [auto|]. split; [lra|]. intros Q. apply M in Q. lra.
      * destruct set; [split; [lra|intros; lra]|]. change (List.length (o :: os)) with (S (List.length os)). rewrite S_INR. pose proof (pos_INR (List.length os)). split; intros; lra.
    + intros c y V p. destruct (value_inv _ _ _ _ _ _ _ _ _ Hx HP HA V) as (y0 & H3 & H9 & H10).
      destruct (W p) as [|o os] eqn:Ew.
      * rewrite H9 by (intros o Ho; apply HW in Ho; rewrite Ew in Ho; easy). rewrite (HV c y0 H3 p). destruct set; cbn; lra.
      * assert (Ho : exists o, targets js sh osh o p). { exists o. apply HW. rewrite Ew. now left. }
        specialize (H10 p Ho). destruct set.
        -- destruct H10 as (o' & c' & _ & _ & ->). cbn. lra.
        -- destruct H10 as (os' & cs & Nd & Hos & F & ->). rewrite (HV c y0 H3 p).
           rewrite (total_const c) by reflexivity. rewrite <- (F2_len _ _ _ F).
           assert (P : Permutation os' (o :: os)). { apply NoDup_Permutation; auto. rewrite <- Ew. apply writers_nodup. intros q. rewrite Hos, <- Ew. symmetry. apply HW. }
           rewrite (Permutation_length P). lra.
Qed.
Lemma masked_varies x sh : legal x sh -> all_unknown x -> forall a m, extract_obs_data x = Val (a, m) -> forall p, mask_of m p = true ->
  forall c c' y y', c <> c' -> value (fun _ _ => c) x y -> value (fun _ _ => c') x y' -> nelt y p <> nelt y' p.
Proof.
  intros L U a m E p M c c' y y' D V V'. destruct (affine x sh L U a m E) as (A & K & HK & HV).
  rewrite (HV c y V p), (HV c' y' V' p). destruct (HK p) as (_ & H). specialize (H M). intros Q. apply D.
  apply (Rmult_eq_reg_l (K p)); lra.
Qed.
(** every legal expression has a value *)
Lemma value_exists x sh : legal x sh -> forall env, exists y, value env x y.
Proof.
  induction 1 as [a0 N|a0 N|set x w dsh js sh osh Hx IH HP HA]; intros env; [exists a0; constructor|exists a0; constructor|].
  destruct (IH env) as (y0 & V0). pose proof (value_shape _ _ _ V0 _ Hx) as Sy. pose proof (legal_nonempty _ _ Hx) as Ne.
  destruct (writes_ok js sh osh dsh Ne HP HA) as (ts & Hts).
  set (W := fun p => writers ts osh p).
  assert (HW : forall p o, In o (W p) <-> targets js sh osh o p). { intros p o. unfold W. now rewrite writers_in, Hts. }
  exists {| nshp := sh; nelt := fun p => if set then match W p with [] => nelt y0 p | o :: _ => insert env w (align dsh o) end
                                         else (nelt y0 p + total (map (fun o => insert env w (align dsh o)) (W p)))%R |}.
  apply (v_inc env set x w dsh js y0 _ osh); rewrite ?Sy; auto; cbn [nelt nshp].
  - intros p Hp. destruct (W p) as [|o os] eqn:Ew; [destruct set; cbn; auto; lra|]. exfalso. apply (Hp o). apply HW. rewrite Ew. now left.
  - intros p (o1 & Ho1). destruct set.
    + destruct (W p) as [|o os] eqn:Ew; [apply HW in Ho1; rewrite Ew in Ho1; easy|]. exists o, (align dsh o).
      assert (T : targets js sh osh o p) by (apply HW; rewrite Ew; now left). split; auto. split; auto.
      apply aligned_iff; auto. eapply target_len; eauto.
    + exists (W p), (map (align dsh) (W p)). split; [apply writers_nodup|]. split; [apply HW|]. split.
      * assert (G : forall o, In o (W p) -> aligned dsh o (align dsh o)).
        { intros o Ho. apply HW in Ho. apply aligned_iff; auto. eapply target_len; eauto. }
        induction (W p) as [|o os IHo]; cbn; constructor; auto. { apply G. now left. } apply IHo. intros; apply G; now right.
      * now rewrite map_map.
Qed.
Lemma unreadable_raises x : unreadable x -> extract_obs_data x = Raise.
Proof.
  induction 1 as [|set x w dsh ix H IH|set x w dsh ix H]; cbn; auto.
  - now rewrite IH.
  - destruct (extract_obs_data x); cbn; auto. now rewrite all_none.
Qed.
