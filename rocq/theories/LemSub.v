(** Proofs for index reconstruction and assignment. *)
From Coq Require Import Reals List Arith ZArith Bool Lia.
From Verif Require Import XR ModelVec ModelIdx SpecIdx LemIdx LemIdx2 ModelMix SpecMix LemMix ModelSub SpecSub.
Import ListNotations.
Open Scope nat_scope.

Lemma convert_ok {V} (e : rent V) : written e -> forall r, convert_indices (variables e ++ r) (template e) = (e, r).
Proof.
  induction 1; intros r; cbn; auto. rewrite <- !app_assoc, IHwritten1, IHwritten2, IHwritten3. reflexivity.
Qed.
Lemma convert_split {V} (t : ient) : forall (l : list V) e r, convert_indices l t = (e, r) -> l = variables e ++ r.
Proof.
  induction t; intros l e r H; cbn in H.
  - destruct l; injection H as <- <-; reflexivity.
  - now injection H as <- <-.
  - now injection H as <- <-.
  - destruct (convert_indices l t1) as [a r1] eqn:E1. destruct (convert_indices r1 t2) as [b r2] eqn:E2.
    destruct (convert_indices r2 t3) as [c r3] eqn:E3. injection H as <- <-. cbn.
    rewrite <- !app_assoc, <- (IHt3 _ _ _ E3), <- (IHt2 _ _ _ E2). now apply IHt1.
Qed.
Lemma convert_iff {V} (e : rent V) l : written e -> (fst (convert_indices l (template e)) = e <-> exists r, l = variables e ++ r).
Proof.
  intros W. split.
  - destruct (convert_indices l (template e)) as [e' r] eqn:E. cbn. intros <-. exists r. eapply convert_split; eauto.
  - intros (r & ->). now rewrite convert_ok.
Qed.
Lemma map_fix {A} (f : A -> A) l : map f l = l <-> List.Forall (fun x => f x = x) l.
Proof.
  induction l as [|x l IH]; cbn; split; intros H; auto.
  - injection H as H1 H2. constructor; auto. now apply IH.
  - inversion H; subst. f_equal; auto. now apply IH.
Qed.
Lemma reconstruct_iff {V} (ix : list (rent V)) : List.Forall written ix -> ix <> [] ->
  (indices_from_subtensor (Some (map template ix)) (flat_map variables ix) = ix <->
   List.Forall (fun e => exists r, flat_map variables ix = variables e ++ r) ix).
Proof.
  intros W N.
  assert (E : forall l : list V, indices_from_subtensor (Some (map template ix)) l = map (fun e => fst (convert_indices l (template e))) ix).
  { intros l. unfold indices_from_subtensor. destruct ix as [|e ix]; [easy|]. change (map template (e :: ix)) with (template e :: map template ix).
    cbn [map]. now rewrite map_map. }
  rewrite E, map_fix. rewrite !Forall_forall. rewrite Forall_forall in W. split; intros H e He; specialize (H e He); specialize (W e He).
  - now apply convert_iff in H.
  - now apply convert_iff.
Qed.
Lemma one_symbolic_cons {V} (e : rent V) ix : one_symbolic (e :: ix) -> one_symbolic ix.
Proof. intros H i j a b Hi Hj Va Vb. specialize (H (S i) (S j) a b Hi Hj Va Vb). lia. Qed.
Lemma one_symbolic_prefix {V} (ix : list (rent V)) : one_symbolic ix -> List.Forall (fun e => variables e = [] \/ flat_map variables ix = variables e) ix.
Proof.
  induction ix as [|e ix IH]; intros H; constructor.
  - destruct (variables e) as [|v vs] eqn:E; [now left|right]. cbn. rewrite E.
    assert (Z : flat_map variables ix = []).
    { clear IH. assert (forall x, In x ix -> variables x = []).
      { intros x Hx. destruct (variables x) eqn:Ex; auto. apply In_nth_error in Hx as (k & Hk).
        specialize (H 0 (S k) e x eq_refl Hk). rewrite E, Ex in H. specialize (H ltac:(easy) ltac:(easy)). discriminate. }
      clear H. induction ix as [|x ix IH]; cbn; auto. rewrite H0 by now left. apply IH. intros; apply H0; now right. }
    rewrite Z, app_nil_r. reflexivity.
  - destruct (variables e) as [|v vs] eqn:E.
    + cbn. rewrite E. cbn. apply IH. eapply one_symbolic_cons; eauto.
    + apply Forall_forall. intros x Hx. left. destruct (variables x) eqn:Ex; auto. apply In_nth_error in Hx as (k & Hk).
      specialize (H 0 (S k) e x eq_refl Hk). rewrite E, Ex in H. specialize (H ltac:(easy) ltac:(easy)). discriminate.
Qed.
Lemma reconstruct_one {V} (ix : list (rent V)) : List.Forall written ix -> one_symbolic ix -> ix <> [] ->
  indices_from_subtensor (Some (map template ix)) (flat_map variables ix) = ix.
Proof.
  intros W H N. apply reconstruct_iff; auto. apply one_symbolic_prefix in H. eapply Forall_impl; [|exact H].
  intros e [E|E].
  - exists (flat_map variables ix). now rewrite E.
  - exists []. now rewrite app_nil_r.
Qed.

(** ** Assignment *)
Lemma as_index_ok e i : denotes_index e i -> as_index e = Val i.
Proof.
  destruct 1; auto. cbn. repeat match goal with H : denotes_part _ _ |- _ => destruct H; cbn end; reflexivity.
Qed.
Lemma all_val_map {A B} (f : A -> res B) l l' : Forall2 (fun a b => f a = Val b) l l' -> all_val (map f l) = Val l'.
Proof. induction 1; cbn; auto. rewrite H, IHForall2. reflexivity. Qed.
Lemma positions_in sh p : In p (positions sh) <-> inside sh p.
Proof.
  revert p. induction sh as [|n sh IH]; intros p; cbn.
  - split; [intros [<-|[]]; constructor|]. intros H; inversion H; auto.
  - rewrite in_flat_map. split.
    + intros (k & Hk & Hp). apply in_map_iff in Hp as (q & <- & Hq). apply in_seq in Hk. constructor; [lia|]. now apply IH.
    + intros H; inversion H; subst. exists x. split; [apply in_seq; lia|]. apply in_map. now apply IH.
Qed.
Lemma pos_eqb_true a b : pos_eqb a b = true <-> a = b.
Proof. unfold pos_eqb. destruct list_eq_dec; split; auto; discriminate. Qed.
Lemma pos_eqb_refl a : pos_eqb a a = true. Proof. now apply pos_eqb_true. Qed.
Lemma fold_write_other {A} (d : list nat -> A) pairs : forall y p, (forall t c, In (t, c) pairs -> t <> p) ->
  fold_left (fun y (tc : list nat * list nat) p => if pos_eqb p (fst tc) then d (snd tc) else y p) pairs y p = y p.
Proof.
  induction pairs as [|[t c] l IH]; intros y p H; cbn; auto. rewrite IH by (intros; eapply H; right; eauto).
  cbn. destruct (pos_eqb p t) eqn:E; auto. apply pos_eqb_true in E. exfalso. eapply H; [left; reflexivity|auto].
Qed.
Lemma fold_write_hit {A} (d : list nat -> A) v pairs : forall y p, (forall c, In (p, c) pairs -> d c = v) -> (y p = v \/ exists c, In (p, c) pairs) ->
  fold_left (fun y (tc : list nat * list nat) p => if pos_eqb p (fst tc) then d (snd tc) else y p) pairs y p = v.
Proof.
  induction pairs as [|[t c] l IH]; intros y p H Hc; cbn.
  - destruct Hc as [|(c & [])]; auto.
  - apply IH; [intros; apply H; now right|]. cbn. destruct (pos_eqb p t) eqn:E.
    + apply pos_eqb_true in E. subst t. left. apply H. now left.
    + destruct Hc as [Hc|(c' & [Hc|Hc])]; auto.
      * injection Hc as -> ->. rewrite pos_eqb_refl in E. discriminate.
      * right. eauto.
Qed.
Lemma Forall2_combine {A B} (R : A -> B -> Prop) l l' : Forall2 R l l' -> forall b a, In (b, a) (combine l' l) -> R a b.
Proof. induction 1; cbn; [easy|]. intros b a [E|Hin]; auto. now injection E as -> ->. Qed.
Lemma Forall2_combine' {A B} (R : A -> B -> Prop) l l' : Forall2 R l l' -> forall a, In a l -> exists b, In (b, a) (combine l' l).
Proof. induction 1; cbn; [easy|]. intros a [<-|Ha]; [eauto|]. destruct (IHForall2 a Ha) as (b & Hb). eauto. Qed.
Lemma exists_list {A B} (R : A -> B -> Prop) l : (forall a, In a l -> exists b, R a b) -> exists l', Forall2 R l l'.
Proof.
  induction l as [|a l IH]; intros H; [exists []; constructor|]. destruct (H a) as (b & Hb); [now left|].
  destruct IH as (l' & Hl); [intros; apply H; now right|]. exists (b :: l'). now constructor.
Qed.

Lemma F2_len {A B} (R : A -> B -> Prop) l l' : Forall2 R l l' -> length l = length l'.
Proof. induction 1; cbn; auto. Qed.

Section SetSpec.
Variables (A : Type) (sh : list nat) (y : list nat -> A) (ix : list index) (osh dsh : list nat) (d : list nat -> A).
Hypotheses (Hsh : sh <> []) (HP : positive_steps ix) (HA : assignable ix sh osh dsh).
Lemma np_set_ok : exists z, np_set sh y ix dsh d = Val z /\
  (forall p, (forall o, ~ targets ix sh osh o p) -> z p = y p) /\
  (forall p v, (forall o c, targets ix sh osh o p -> aligned dsh o c -> d c = v) -> (exists o, targets ix sh osh o p) -> z p = v).
Proof.
  destruct HA as (HS & HB & HT).
  destruct (proj1 (expand_indices_spec ix sh Hsh HP) osh HS) as (advs & E & L & F & HE).
  assert (Ho : match advs with a :: _ => shp a | [] => [] end = osh).
  { destruct advs as [|a advs]; [cbn in L; destruct sh; [easy|discriminate]|]. now apply Forall_inv in F. }
  assert (HR : forall o p, inside osh o -> resolve_all sh (map (fun a => get a o) advs) = Val p <-> np_element ix sh o p).
  { intros o p Hin. rewrite (HE o p Hin). rewrite <- resolve_all_spec by now rewrite map_length.
    clear -L. assert (G : forall (sh0 : list nat) (advs : list arr) p, length advs = length sh0 ->
      Forall2 (fun (nz : nat * Z) x => wraps (fst nz) (snd nz) x) (combine sh0 (map (fun a => get a o) advs)) p <->
      Forall2 (fun (na : nat * arr) x => wraps (fst na) (get (snd na) o) x) (combine sh0 advs) p).
    { intros sh0; induction sh0 as [|n sh' IH]; intros [|a l] q HL; try discriminate; cbn.
      - split; intros X; inversion X; constructor.
      - split; intros X; inversion X; subst; constructor; auto; apply IH; auto. }
    apply G. auto. }
  destruct (exists_list (fun o p => resolve_all sh (map (fun a => get a o) advs) = Val p) (positions osh)) as (ts & Hts).
  { intros o Ho'. apply positions_in in Ho'. destruct (HT o Ho') as (p & _ & Hp). exists p. now apply HR. }
  assert (Hpair : forall p o, In (p, o) (combine ts (positions osh)) -> targets ix sh osh o p).
  { intros p o Hin. pose proof (Forall2_combine _ _ _ Hts _ _ Hin) as Hr. cbn in Hr.
    assert (inside osh o) by (apply positions_in; eapply in_combine_r; eauto). split; auto. now apply HR. }
  assert (Hall : forall o p, targets ix sh osh o p -> In (p, o) (combine ts (positions osh))).
  { intros o p (Hin & He). destruct (Forall2_combine' _ _ _ Hts o) as (p' & Hp'); [now apply positions_in|].
    pose proof (Forall2_combine _ _ _ Hts _ _ Hp') as Hr. cbn in Hr. apply HR in He; auto. rewrite Hr in He. injection He as ->. auto. }
  eexists. split.
  - unfold np_set. rewrite E. cbn [bind]. rewrite Ho, (proj2 (bcast_all_spec _ _) HB). cbn [bind]. rewrite pos_eqb_refl.
    rewrite (all_val_map _ _ _ Hts). cbn [bind]. reflexivity.
  - split.
    + intros p Hp. rewrite (fold_write_other (fun c => d (align dsh c))); auto. intros t c Hin ->. exact (Hp _ (Hpair _ _ Hin)).
    + intros p v Hv (o & Ht). apply (fold_write_hit (fun c => d (align dsh c))).
      * intros c Hin. pose proof (Hpair _ _ Hin) as Ht'. apply (Hv c); auto. apply aligned_iff; auto.
        destruct HB as (HB & _). specialize (HB dsh (or_introl eq_refl)). destruct Ht' as (Hin' & _). red in Hin'.
        pose proof (F2_len _ _ _ Hin'). lia.
      * right. exists o. now apply Hall.
Qed.
End SetSpec.
Lemma node_score (n : inc_node) ix osh y : all_val (map as_index (indices_from_subtensor (idx_list n) (inputs n))) = Val ix ->
  cshp (base n) <> [] -> positive_steps ix -> assignable ix (cshp (base n)) osh (dshape n) ->
  exists f, incsubtensor_logprob n y = Val f /\
    (forall p, (forall o, ~ targets ix (cshp (base n)) osh o p) -> f p = clp (base n) p (y p)) /\
    (forall p v, (forall o c, targets ix (cshp (base n)) osh o p -> aligned (dshape n) o c -> data n c = v) ->
                 (exists o, targets ix (cshp (base n)) osh o p) -> f p = clp (base n) p v).
Proof.
  intros E Hsh HP HA. destruct (np_set_ok _ _ y ix osh (dshape n) (data n) Hsh HP HA) as (z & Ez & H1 & H2).
  exists (fun p => clp (base n) p (z p)). unfold incsubtensor_logprob. rewrite E. cbn [bind]. rewrite Ez. cbn [bind].
  split; [reflexivity|]. split; [intros p Hp; now rewrite H1|intros p v Hv Hp; now rewrite (H2 p v)].
Qed.
Lemma denotes_all wx ix : Forall2 denotes_index wx ix -> all_val (map as_index wx) = Val ix.
Proof. intros H. apply all_val_map. induction H; constructor; auto. now apply as_index_ok. Qed.
Lemma node_basic (n : inc_node) wx ix : List.Forall written wx -> one_symbolic wx -> wx <> [] -> Forall2 denotes_index wx ix ->
  idx_list n = Some (map template wx) -> inputs n = flat_map variables wx ->
  all_val (map as_index (indices_from_subtensor (idx_list n) (inputs n))) = Val ix.
Proof. intros W O N D -> ->. rewrite reconstruct_one by auto. now apply denotes_all. Qed.
Lemma node_adv (n : inc_node) : idx_list n = None -> all_val (map as_index (indices_from_subtensor (idx_list n) (inputs n))) = Val (inputs n).
Proof. intros ->. cbn. rewrite map_map. cbn. induction (inputs n) as [|i l IH]; cbn; auto. now rewrite IH. Qed.
Lemma inc_basic_ok (n : inc_node) wx ix osh y : List.Forall written wx -> one_symbolic wx -> wx <> [] -> Forall2 denotes_index wx ix ->
  idx_list n = Some (map template wx) -> inputs n = flat_map variables wx ->
  cshp (base n) <> [] -> positive_steps ix -> assignable ix (cshp (base n)) osh (dshape n) ->
  exists f, incsubtensor_logprob n y = Val f /\
    (forall p, (forall o, ~ targets ix (cshp (base n)) osh o p) -> f p = clp (base n) p (y p)) /\
    (forall p v, (forall o c, targets ix (cshp (base n)) osh o p -> aligned (dshape n) o c -> data n c = v) ->
                 (exists o, targets ix (cshp (base n)) osh o p) -> f p = clp (base n) p v).
Proof. intros. apply node_score; auto. eapply node_basic; eauto. Qed.
Lemma inc_adv_ok (n : inc_node) osh y : idx_list n = None ->
  cshp (base n) <> [] -> positive_steps (inputs n) -> assignable (inputs n) (cshp (base n)) osh (dshape n) ->
  exists f, incsubtensor_logprob n y = Val f /\
    (forall p, (forall o, ~ targets (inputs n) (cshp (base n)) osh o p) -> f p = clp (base n) p (y p)) /\
    (forall p v, (forall o c, targets (inputs n) (cshp (base n)) osh o p -> aligned (dshape n) o c -> data n c = v) ->
                 (exists o, targets (inputs n) (cshp (base n)) osh o p) -> f p = clp (base n) p v).
Proof. intros. apply node_score; auto. now apply node_adv. Qed.
(** assignability and targets can be read off [expand_indices] *)
Lemma targets_iff ix sh osh advs o p : sh <> [] -> positive_steps ix -> np_shape ix sh osh -> expand_indices ix sh = Val advs -> inside osh o ->
  (targets ix sh osh o p <-> Forall2 (fun na x => wraps (fst na) (get (snd na) o) x) (combine sh advs) p).
Proof.
  intros Hsh HP HS E Hin. destruct (proj1 (expand_indices_spec ix sh Hsh HP) osh HS) as (advs' & E' & _ & _ & H).
  rewrite E in E'. injection E' as <-. unfold targets. rewrite <- (H o p Hin). tauto.
Qed.
