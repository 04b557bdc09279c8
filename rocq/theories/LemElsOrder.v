(** Lemmas for C99. *)
From Coq Require Import Reals List Arith Bool Lia.
From Verif Require Import XR ModelVec ModelJoint ModelTen ModelElem ModelNest ModelEls ModelElsV SpecElsV LemSys ModelElsOrder.
Import ListNotations.
Open Scope nat_scope.

(** [B] is [A] with more rewrites applied *)
Definition le (A B : vann) : Prop :=
  v_rand A = v_rand B /\ v_val A = v_val B /\ (forall m, v_m A = Some m -> v_m B = Some m) /\ (v_rand B = false -> v_m B = None).
Lemma le_con c : le (v_con c) (v_con c).
Proof. split; [reflexivity|]. split; [reflexivity|]. split; [discriminate|reflexivity]. Qed.
Lemma le_rands l l' : Forall2 le l l' -> existsb v_rand l = existsb v_rand l'.
Proof. induction 1 as [|a b l l' (E & _) F IH]; [reflexivity|]. cbn. now rewrite E, IH. Qed.
Lemma le_vals l l' : Forall2 le l l' -> map v_val l = map v_val l'.
Proof. induction 1 as [|a b l l' (_ & E & _) F IH]; [reflexivity|]. cbn. now rewrite E, IH. Qed.
Lemma le_map (go go' : nat -> vann) l : (forall a, In a l -> le (go a) (go' a)) -> Forall2 le (map go l) (map go' l).
Proof. induction l as [|a l IH]; intros H; constructor; [apply H; now left|]. apply IH. intros b I. apply H. now right. Qed.
Lemma le_none l l' : Forall2 le l l' -> v_measurable l = [] -> existsb v_rand (v_others l) = false ->
  v_measurable l' = [] /\ map v_val (v_others l') = map v_val (v_others l) /\ existsb v_rand (v_others l') = false.
Proof.
  induction 1 as [|a b l l' (E1 & E2 & E3 & E4) F IH]; [auto|]. unfold v_measurable, v_others in *. cbn [flat_map filter]. destruct (v_m a); [discriminate|]. cbn [app existsb map]. intros M X.
  apply orb_false_iff in X as [Xa X]. destruct (IH M X) as (I1 & I2 & I3). rewrite E1 in Xa. rewrite (E4 Xa). cbn [app existsb map]. rewrite Xa, I3, I2, E2. auto.
Qed.
Lemma le_one l l' W : Forall2 le l l' -> v_measurable l = [W] -> existsb v_rand (v_others l) = false ->
  v_measurable l' = [W] /\ map v_val (v_others l') = map v_val (v_others l) /\ existsb v_rand (v_others l') = false.
Proof.
  induction 1 as [|a b l l' (E1 & E2 & E3 & E4) F IH]; [discriminate|]. unfold v_measurable, v_others in *. cbn [flat_map filter]. destruct (v_m a) as [m|] eqn:Ea.
  - cbn [app]. intros M X. injection M as -> M. destruct (le_none l l' F M X) as (I1 & I2 & I3). unfold v_measurable, v_others in *. rewrite (E3 W eq_refl). cbn [app]. rewrite I1. auto.
  - cbn [app existsb map]. intros M X. apply orb_false_iff in X as [Xa X]. destruct (IH M X) as (I1 & I2 & I3). rewrite E1 in Xa. rewrite (E4 Xa). cbn [app existsb map]. rewrite Xa, I3, I2, E2. auto.
Qed.
Lemma none_measurable l : List.Forall (fun a => v_rand a = false -> v_m a = None) l -> existsb v_rand l = false -> v_measurable l = [].
Proof.
  induction 1 as [|a l E F IH]; [reflexivity|]. cbn [existsb]. intros X. apply orb_false_iff in X as [Xa X]. unfold v_measurable in *. cbn [flat_map]. rewrite (E Xa). exact (IH X).
Qed.
Lemma le_right l l' : Forall2 le l l' -> List.Forall (fun a => v_rand a = false -> v_m a = None) l'.
Proof. induction 1 as [|a b l l' (_ & _ & _ & E) F IH]; constructor; auto. Qed.

Section Mono.
Variable ddt : nat -> dtype.
Variable afs : nat -> list (nd xr) -> nd xr.
Variable h : list vnode.
Lemma construct_mono l l' mk m : Forall2 le l l' -> v_construct ddt h l mk = Some m -> v_construct ddt h l' mk = Some m.
Proof.
  intros F. unfold v_construct. destruct (v_measurable l) as [|W [|? ?]] eqn:E; try discriminate. destruct (v_starts_int ddt h W) eqn:I; [discriminate|]. destruct (existsb v_rand (v_others l)) eqn:O; [discriminate|].
  destruct (le_one l l' W F E O) as (-> & -> & ->). now rewrite I.
Qed.
Lemma construct_none l mk : List.Forall (fun a => v_rand a = false -> v_m a = None) l -> existsb v_rand l = false -> v_construct ddt h l mk = None.
Proof. intros F X. unfold v_construct. now rewrite (none_measurable l F X). Qed.
Lemma unary_mono u a b : le a b -> le (v_rw_unary ddt h u a) (v_rw_unary ddt h u b).
Proof.
  intros L. assert (F : Forall2 le [a] [b]) by (constructor; [exact L|constructor]). destruct L as (E1 & E2 & _ & E4). unfold v_rw_unary. split; [exact E1|]. split; [cbn; now rewrite E2|]. split; cbn [v_m v_rand].
  - intros m. now apply construct_mono.
  - intros X. apply construct_none; [constructor; auto|]. cbn. now rewrite X.
Qed.
Lemma nary_mono n l l' : Forall2 le l l' -> le (v_rw_nary ddt h n l) (v_rw_nary ddt h n l').
Proof.
  intros F. unfold v_rw_nary. split; [exact (le_rands _ _ F)|]. split; [cbn; now rewrite (le_vals _ _ F)|]. split; cbn [v_m v_rand].
  - intros m. now apply construct_mono.
  - apply construct_none. exact (le_right _ _ F).
Qed.
Lemma all_mono l l' ms : Forall2 le l l' -> v_all l = Some ms -> v_all l' = Some ms.
Proof.
  intros F. revert ms. induction F as [|a b l l' (_ & _ & E & _) F IH]; intros ms; [auto|]. cbn. destruct (v_m a) as [m|]; [|discriminate]. rewrite (E m eq_refl). destruct (v_all l) as [ms'|]; [|discriminate].
  rewrite (IH ms' eq_refl). auto.
Qed.
Lemma all_none l : l <> [] -> List.Forall (fun a => v_rand a = false -> v_m a = None) l -> existsb v_rand l = false -> v_all l = None.
Proof. intros N F X. destruct F as [|a l E F]; [easy|]. cbn in *. apply orb_false_iff in X as [Xa X]. now rewrite (E Xa). Qed.
Lemma existsb_map {A B} (f : A -> B) (p : B -> bool) l : existsb p (map f l) = existsb (fun a => p (f a)) l.
Proof. induction l as [|a l IH]; [reflexivity|]. cbn. now rewrite IH. Qed.
Hypothesis NE : no_empty h.
Lemma node_mono go go' v : (forall nd a, nth_error h v = Some nd -> In a (vinputs nd) -> le (go a) (go' a)) -> le (v_node ddt afs h go v) (v_node ddt afs h go' v).
Proof.
  intros H. unfold v_node. pose proof (fun nd => NE v nd) as N. destruct (nth_error h v) as [nd|]; [|apply le_con]. specialize (H nd). specialize (N nd eq_refl).
  assert (H' : forall a, In a (vinputs nd) -> le (go a) (go' a)) by (intros a I; exact (H a eq_refl I)). clear H. rename H' into H.
  destruct nd as [c|d s ps|u a|n l|a c|a c|k l|l|axis l|o a|axis a|xs t a]; cbn [vinputs] in H.
  - apply le_con.
  - split; [reflexivity|]. split; [reflexivity|]. split; [auto|discriminate].
  - apply unary_mono. apply H. now left.
  - apply nary_mono. now apply le_map.
  - unfold v_rw_sub. apply nary_mono. constructor; [apply H; now left|]. constructor; [|constructor]. apply nary_mono. constructor; [apply le_con|]. constructor; [apply H; right; now left|constructor].
  - unfold v_rw_div. apply nary_mono. constructor; [apply H; now left|]. constructor; [|constructor]. apply unary_mono. apply H. right. now left.
  - pose proof (le_map go go' l H) as F. split; [|split; [|split; [discriminate|reflexivity]]]; cbn [v_rand v_val].
    + rewrite <- (existsb_map go v_rand l), <- (existsb_map go' v_rand l). exact (le_rands _ _ F).
    + f_equal. rewrite <- (map_map go v_val l), <- (map_map go' v_val l). f_equal. exact (le_vals _ _ F).
  - pose proof (le_map go go' l H) as F. split; [|split; [|split]]; cbn [v_rand v_val v_m].
    + rewrite <- (existsb_map go v_rand l), <- (existsb_map go' v_rand l). exact (le_rands _ _ F).
    + rewrite <- (map_map go v_val l), <- (map_map go' v_val l). now rewrite (le_vals _ _ F).
    + intros m. destruct (v_all (map go l)) as [ms|] eqn:E; [|discriminate]. now rewrite (all_mono _ _ ms F E).
    + rewrite <- (existsb_map go' v_rand l). intros X. rewrite all_none; [reflexivity| |exact (le_right _ _ F)|exact X]. destruct l; [easy|discriminate].
  - pose proof (le_map go go' l H) as F.
    assert (SH : map (fun a => v_shape (go a)) l = map (fun a => v_shape (go' a)) l) by (apply map_ext_in; intros a I; unfold v_shape; now rewrite (proj1 (proj2 (H a I)))).
    split; [|split; [|split]]; cbn [v_rand v_val v_m].
    + rewrite <- (existsb_map go v_rand l), <- (existsb_map go' v_rand l). exact (le_rands _ _ F).
    + rewrite <- (map_map go v_val l), <- (map_map go' v_val l). now rewrite (le_vals _ _ F).
    + intros m. destruct (v_all (map go l)) as [ms|] eqn:E; [|discriminate]. rewrite (all_mono _ _ ms F E). cbn. now rewrite SH.
    + rewrite <- (existsb_map go' v_rand l). intros X. rewrite all_none; [reflexivity| |exact (le_right _ _ F)|exact X]. destruct l; [easy|discriminate].
  - destruct (H a (or_introl eq_refl)) as (E1 & E2 & E3 & E4). unfold v_shape. rewrite E2. split; [exact E1|]. split; [reflexivity|]. split; cbn [v_m v_rand].
    + intros m. destruct (v_m (go a)) as [W|] eqn:E; [|discriminate]. now rewrite (E3 W eq_refl).
    + intros X. now rewrite (E4 X).
  - destruct (H a (or_introl eq_refl)) as (E1 & E2 & E3 & E4). rewrite E2. split; [exact E1|]. split; [reflexivity|]. split; cbn [v_m v_rand].
    + intros m. destruct (v_m (go a)) as [W|] eqn:E; [|discriminate]. now rewrite (E3 W eq_refl).
    + intros X. now rewrite (E4 X).
  - destruct (H a (or_introl eq_refl)) as (E1 & E2 & E3 & E4). rewrite E2. split; [exact E1|]. split; [reflexivity|]. split; cbn [v_m v_rand].
    + intros m. destruct (v_m (go a)) as [W|] eqn:E; [|discriminate]. now rewrite (E3 W eq_refl).
    + intros X. now rewrite (E4 X).
Qed.
(** the annotation of a node depends on those of its inputs only *)
Lemma node_ext go go' v : (forall nd a, nth_error h v = Some nd -> In a (vinputs nd) -> go a = go' a) -> v_node ddt afs h go v = v_node ddt afs h go' v.
Proof.
  intros H. unfold v_node. destruct (nth_error h v) as [nd|]; [|reflexivity].
  assert (H' : forall a, In a (vinputs nd) -> go a = go' a) by (intros a I; exact (H nd a eq_refl I)). clear H. rename H' into H.
  destruct nd as [c|d s ps|u a|n l|a c|a c|k l|l|axis l|o a|axis a|xs t a]; cbn [vinputs] in H; try reflexivity; try (rewrite (H a) by (now left)); try (rewrite (H c) by (right; now left)); try reflexivity.
  - now rewrite (map_ext_in go go' l H).
  - assert (E : forall B (f : vann -> B), map (fun a => f (go a)) l = map (fun a => f (go' a)) l) by (intros B f; apply map_ext_in; intros a I; now rewrite (H a I)).
    f_equal; [|now rewrite E]. rewrite <- (existsb_map go v_rand l), <- (existsb_map go' v_rand l). now rewrite (map_ext_in go go' l H).
  - assert (E : forall B (f : vann -> B), map (fun a => f (go a)) l = map (fun a => f (go' a)) l) by (intros B f; apply map_ext_in; intros a I; now rewrite (H a I)).
    rewrite (map_ext_in go go' l H), E. f_equal. rewrite <- (existsb_map go v_rand l), <- (existsb_map go' v_rand l). now rewrite (map_ext_in go go' l H).
  - assert (E : forall B (f : vann -> B), map (fun a => f (go a)) l = map (fun a => f (go' a)) l) by (intros B f; apply map_ext_in; intros a I; now rewrite (H a I)).
    rewrite (map_ext_in go go' l H), !E. f_equal. rewrite <- (existsb_map go v_rand l), <- (existsb_map go' v_rand l). now rewrite (map_ext_in go go' l H).
Qed.
(** a node is random when one of its inputs is *)
Lemma node_rand go v nd : nth_error h v = Some nd -> (forall d s ps, nd <> VRv d s ps) -> v_rand (v_node ddt afs h go v) = existsb (fun a => v_rand (go a)) (vinputs nd).
Proof.
  intros E N. unfold v_node. rewrite E. destruct nd as [c|d s ps|u a|n l|a c|a c|k l|l|axis l|o a|axis a|xs t a]; cbn; rewrite ?orb_false_r; try reflexivity.
  - now destruct (N d s ps).
  - apply existsb_map.
Qed.

Variable dlp : nat -> list xr -> xr -> res xr.
Variable req : list nat.
Variable y : nat -> nd xr.
Hypothesis Ac : vacyclic h.
Notation unf := (v_unfold ddt afs h req y).
Notation top := (v_top ddt afs h req y).
Lemma in_range v nd : nth_error h v = Some nd -> v < length h.
Proof. intros E. apply nth_error_Some. congruence. Qed.
Lemma unf_fuel : forall f1 f2 v, v < f1 -> v < f2 -> unf f1 v = unf f2 v.
Proof.
  induction f1 as [|f1 IH]; intros f2 v L1 L2; [lia|]. destruct f2 as [|f2]; [lia|]. cbn [v_unfold]. destruct (mem v req); [reflexivity|]. apply node_ext. intros nd a E I. pose proof (Ac v nd a E I). apply IH; lia.
Qed.
Lemma unf_top v : v < length h -> ~ In v req -> unf (length h) v = top v.
Proof.
  intros L N. unfold v_top. rewrite (unf_fuel (length h) (S (length h)) v) by lia. cbn [v_unfold]. now rewrite (proj2 (mem_not _ _) N).
Qed.
Lemma unf_self : forall F v, le (unf F v) (unf F v).
Proof. induction F as [|F IH]; intros v; cbn [v_unfold]; [apply le_con|]. destruct (mem v req); [apply le_con|]. apply node_mono. intros. apply IH. Qed.
Lemma top_self v : le (top v) (top v).
Proof. unfold v_top. apply node_mono. intros. apply unf_self. Qed.

Notation sn := (seen ddt afs h req y).
Notation rl := (rule ddt afs h req y).
Notation stp := (step ddt afs h req y).
Notation rn := (run ddt afs h req y).
(** what has been found so far is what is found in the end *)
Definition sound (st : progress) : Prop := (forall v m, st v = Some m -> v < length h /\ v_m (top v) = Some m) /\ forall v d s ps, nth_error h v = Some (VRv d s ps) -> st v = Some (WBase v).
Lemma start_sound : sound (start h).
Proof.
  split.
  - intros v m. unfold start, v_top, v_node. destruct (nth_error h v) as [[]|] eqn:E; try discriminate. intros X. split; [exact (in_range _ _ E)|exact X].
  - intros v d s ps E. unfold start. now rewrite E.
Qed.
Lemma reach_eq st : sound st -> forall F v, v < F -> v < length h -> reaches h req F st v = v_rand (unf (length h) v).
Proof.
  intros [S1 S2]. induction F as [|F IH]; intros v L1 L2; [lia|]. cbn [reaches]. rewrite (unf_fuel (length h) (S (length h)) v) by lia. cbn [v_unfold]. destruct (mem v req) eqn:M; [reflexivity|]. change (v_node ddt afs h (unf (length h)) v) with (top v).
  destruct (st v) as [m|] eqn:E.
  - symmetry. apply not_false_is_true. intros X. destruct (S1 v m E) as [_ Em]. rewrite (proj2 (proj2 (proj2 (top_self v))) X) in Em. discriminate.
  - destruct (nth_error h v) as [nd|] eqn:En; [|apply nth_error_None in En; lia]. unfold v_top. rewrite (node_rand _ v nd En).
    + pose proof (fun a I => Ac v nd a En I) as L. clear En. revert L. generalize (vinputs nd) as l. induction l as [|a l IHl]; intros L; [reflexivity|]. cbn. rewrite IHl by (intros b I; apply L; now right).
      pose proof (L a (or_introl eq_refl)). rewrite (IH a) by lia. reflexivity.
    + intros d s ps ->. rewrite (S2 v d s ps En) in E. discriminate.
Qed.
Lemma seen_le st v : sound st -> v < length h -> le (sn st v) (unf (length h) v).
Proof.
  intros S L. unfold seen. destruct (mem v req) eqn:M.
  - rewrite (unf_fuel (length h) (Datatypes.S (length h)) v) by lia. cbn [v_unfold]. rewrite M. apply le_con.
  - apply mem_not in M. destruct (unf_self (length h) v) as (_ & _ & _ & U). split; [|split; [reflexivity|split; [|exact U]]]; cbn [v_rand v_m].
    + apply (reach_eq st S); lia.
    + intros m E. rewrite (unf_top v L M). exact (proj2 (proj1 S v m E)).
Qed.
Lemma rule_sound st v m : sound st -> v < length h -> rl st v = Some m -> v_m (top v) = Some m.
Proof.
  intros S L E. unfold rule in E. assert (X : le (v_node ddt afs h (sn st) v) (top v)); [|exact (proj1 (proj2 (proj2 X)) m E)].
  apply node_mono. intros nd a En I. apply seen_le; [exact S|]. pose proof (Ac v nd a En I). lia.
Qed.
Lemma step_sound st st' : sound st -> stp st st' -> sound st'.
Proof.
  intros S T. destruct T as [st v m L N E]. pose proof (rule_sound st v m S L E) as X. split.
  - intros w m'. unfold put. destruct (Nat.eqb_spec w v) as [->|D]; [|apply (proj1 S)]. intros Q. injection Q as <-. auto.
  - intros w d s ps Ew. unfold put. destruct (Nat.eqb_spec w v) as [->|D]; [|eapply (proj2 S); eauto]. rewrite (proj2 S v d s ps Ew) in N. discriminate.
Qed.
Lemma run_sound n st st' : rn n st st' -> sound st -> sound st'.
Proof. induction 1; auto. intros S. apply IHrun. eapply step_sound; eauto. Qed.
Lemma complete_rule st v : complete ddt afs h req y st -> v < length h -> st v = None -> rl st v = None.
Proof. intros C L N. destruct (rl st v) as [m|] eqn:E; [|reflexivity]. exfalso. exact (C _ (st_node _ _ _ _ _ st v m L N E)). Qed.
Lemma complete_top st : sound st -> complete ddt afs h req y st -> forall v, v < length h -> st v = v_m (top v).
Proof.
  intros S C. induction v as [v IH] using lt_wf_ind. intros L. destruct (st v) as [m|] eqn:E; [symmetry; exact (proj2 (proj1 S v m E))|].
  pose proof (complete_rule st v C L E) as R. unfold rule in R. rewrite <- R. f_equal. unfold v_top. apply node_ext. intros nd a En I. pose proof (Ac v nd a En I) as La.
  assert (La' : a < length h) by lia. pose proof (seen_le st a S La') as (E1 & E2 & _). unfold seen in *. destruct (mem a req) eqn:M.
  - rewrite (unf_fuel (length h) (Datatypes.S (length h)) a) by lia. cbn [v_unfold]. now rewrite M.
  - apply mem_not in M. cbn [v_rand v_val] in *. rewrite E1, (IH a La La'). rewrite <- (unf_top a La' M). now destruct (unf (length h) a).
Qed.
(** number of nodes that are not measurable *)
Definition rest (st : progress) : nat := length (filter (fun v => match st v with None => true | Some _ => false end) (seq 0 (length h))).
Lemma put_rest st v m : v < length h -> st v = None -> rest (put st v m) < rest st.
Proof.
  intros L N. unfold rest. assert (I : In v (seq 0 (length h))) by (apply in_seq; lia). revert I. generalize (seq 0 (length h)) as l.
  assert (W : forall l, length (filter (fun w => match put st v m w with None => true | Some _ => false end) l) <= length (filter (fun w => match st w with None => true | Some _ => false end) l)).
  { induction l as [|w l IH]; [cbn; lia|]. cbn. unfold put at 1. destruct (Nat.eqb_spec w v) as [->|D]; [rewrite N; cbn; lia|]. destruct (st w); cbn; lia. }
  induction l as [|w l IH]; intros I; [destruct I|]. cbn. unfold put at 1. destruct (Nat.eqb_spec w v) as [->|D].
  - rewrite N. cbn. specialize (W l). lia.
  - destruct I as [X|I]; [congruence|]. specialize (IH I). destruct (st w); cbn; lia.
Qed.
Lemma run_rest n st st' : rn n st st' -> n + rest st' <= rest st.
Proof. induction 1 as [st|n a b c T R IH]; [lia|]. destruct T as [st v m L N E]. pose proof (put_rest st v m L N). lia. Qed.
Lemma filter_short {A} (p : A -> bool) l : length (filter p l) <= length l.
Proof. induction l as [|a l IH]; [cbn; lia|]. cbn. destruct (p a); cbn; lia. Qed.
Lemma rest_bound st : rest st <= length h.
Proof. unfold rest. etransitivity; [apply filter_short|]. now rewrite seq_length. Qed.
Lemma v_order_bound n st : rn n (start h) st -> n <= length h.
Proof. intros R. apply run_rest in R. pose proof (rest_bound (start h)). lia. Qed.
Lemma decide_step st : (exists v m, v < length h /\ st v = None /\ rl st v = Some m) \/ complete ddt afs h req y st.
Proof.
  destruct (existsb (fun v => match st v, rl st v with None, Some _ => true | _, _ => false end) (seq 0 (length h))) eqn:X.
  - left. apply existsb_exists in X as (v & I & X). apply in_seq in I. destruct (st v) eqn:E; [discriminate|]. destruct (rl st v) as [m|] eqn:Er; [|discriminate]. exists v, m. repeat split; auto. lia.
  - right. intros st' T. destruct T as [st v m L N E]. apply not_true_iff_false in X. apply X. apply existsb_exists. exists v. split; [apply in_seq; lia|]. now rewrite N, E.
Qed.
Lemma v_order_extends : forall k st, rest st <= k -> exists n st', rn n st st' /\ complete ddt afs h req y st'.
Proof.
  induction k as [|k IH]; intros st L; (destruct (decide_step st) as [(v & m & Lv & N & E)|C]; [|exists 0, st; split; [constructor|exact C]]); pose proof (put_rest st v m Lv N) as P; [lia|].
  destruct (IH (put st v m) ltac:(lia)) as (n & st' & R & C). exists (S n), st'. split; [|exact C]. econstructor; [|exact R]. constructor; auto.
Qed.
Lemma v_order_form n st : rn n (start h) st -> complete ddt afs h req y st -> forall v, v < length h -> st v = v_m (top v).
Proof. intros R C. apply complete_top; [exact (run_sound _ _ _ R start_sound)|exact C]. Qed.
Lemma v_order_stable n st v m : rn n (start h) st -> st v = Some m -> v_m (top v) = Some m.
Proof. intros R E. exact (proj2 (proj1 (run_sound _ _ _ R start_sound) v m E)). Qed.
Lemma v_order_joint n st : rn n (start h) st -> complete ddt afs h req y st -> (forall v, In v req -> v < length h) -> found_joint ddt afs dlp h req y st = v_joint ddt afs dlp h req y.
Proof.
  intros R C L. unfold found_joint, v_joint. assert (X : forall l, incl l req -> found_conditionals ddt afs dlp h req y st l = v_conditionals ddt afs dlp h req y l).
  { induction l as [|v l IH]; intros I; [reflexivity|]. cbn. unfold found_conditional, v_conditional. rewrite (v_order_form n st R C v) by (apply L, I; now left). rewrite IH by (intros x X; apply I; now right). reflexivity. }
  now rewrite (X req (fun x X => X)).
Qed.
End Mono.
Lemma v_order_final ddt afs h req y n st k st' v m : no_empty h -> vacyclic h ->
  run ddt afs h req y n (start h) st -> st v = Some m -> run ddt afs h req y k (start h) st' -> complete ddt afs h req y st' -> st' v = Some m.
Proof.
  intros NE Ac R E R' C'. pose proof (run_sound ddt afs h NE req y Ac n _ _ R (start_sound ddt afs h req y)) as [S _]. destruct (S v m E) as [L T].
  rewrite (v_order_form ddt afs h NE req y Ac k st' R' C' v L). exact T.
Qed.
