(** Lemmas on models with mixtures and entries of stacks: every reference to a
    mixture is redirected to the selected component and every reference to an
    entry of a stack to the element; [LemSysGiven] applies to the result. *)
From Coq Require Import Reals Lra Lia List Arith Bool ZArith.
From Coquelicot Require Import Coquelicot.
From Verif Require Import XR XTac SpecDist ModelDist LemDist ModelVec SpecVec LemDisc ModelJoint LemJoint ModelTrans ModelNest SpecNest LemNest LemNest2 RMx
  ModelMix LemMix ModelGuard ModelSys SpecSys LemSys LemSys2 LemSys3 ModelStack SpecStack LemStack LemStack2 LemSysGiven ModelMixSys SpecMixSys.
Import ListNotations.
Open Scope nat_scope.

Definition renode (s : nat -> nat) (nd : snode) : snode :=
  match nd with
  | SCon c => SCon c
  | SRv d l => SRv d (map s l)
  | SOne u a => SOne u (s a)
  | SMany n l => SMany n (map s l)
  | SSub a b => SSub (s a) (s b)
  | SDiv a b => SDiv (s a) (s b)
  | SOther k l => SOther k (map s l)
  end.
Lemma renode_inputs s nd : node_inputs (renode s nd) = map s (node_inputs nd).
Proof. destruct nd; reflexivity. Qed.
Lemma expand_renode s h go go' v : (forall nd a, nth_error h v = Some nd -> In a (node_inputs nd) -> go' (s a) = go a) ->
  expand (map (renode s) h) go' v = expand h go v.
Proof.
  intros H. unfold expand. rewrite nth_error_map. destruct (nth_error h v) as [nd|]; [|reflexivity]. specialize (H nd).
  destruct nd as [c|d ps|u a|n l|a b|a b|k l]; cbn in H |- *; try reflexivity.
  - f_equal. auto. - f_equal. rewrite map_map. apply map_ext_in. auto. - f_equal; auto. - f_equal; auto. - f_equal. rewrite map_map. apply map_ext_in. auto.
Qed.
Lemma unfold_ext h req y y' : (forall v, In v req -> y v = y' v) -> forall fuel v, unfold h req y fuel v = unfold h req y' fuel v.
Proof.
  intros H. induction fuel as [|fuel IH]; intros v; [reflexivity|]. cbn [unfold]. destruct (mem v req) eqn:M.
  - apply mem_In in M. now rewrite H. - apply expand_ext. auto.
Qed.
Lemma top_ext h req y y' v : (forall v, In v req -> y v = y' v) -> top h req y v = top h req y' v.
Proof. intros H. apply expand_ext. intros. now apply unfold_ext. Qed.
Lemma leads_needs h M v b : leads h M v b -> b = v \/ needs h M v b /\ ~ (In b M).
Proof.
  induction 1 as [v d ps E|v u a b E N H IH|v n l a r b E N H IH Kl Kr NE|v a c b E N H IH K|v a c b E K N H IH|v a c b E N H IH K|v a c b E K N H IH]; [now left|..]; right.
  all: destruct IH as [->|[IH R]]; [split; [eapply n_in; [exact E|]|exact N]|split; [eapply n_step; [exact E| |exact N|exact IH]|exact R]].
  all: cbn; auto; apply in_or_app; cbn; auto.
Qed.
Lemma needs_tr h M v a b : needs h M v a -> ~ In a M -> needs h M a b -> needs h M v b.
Proof. intros N R N2. induction N as [v nd a E I|v nd c a E I Rc N IH]; [now apply (n_step h M v nd a)|]. apply (n_step h M v nd c); auto. Qed.

Section Divert.
Variable kind : nat -> role.
Variable fs : nat -> list xr -> xr.
Variable h : list snode.
Variable qs : list request.
Variable M : list nat.
Variable pick : nat -> nat.
Variable s : nat -> nat.
Hypothesis Ac : acyclic h.
Notation vars := (q_vars qs).
Hypothesis Gn : given_nodes kind h qs M.
Hypothesis Ro : roles_ok kind fs.
(** the redirection *)
Hypothesis S_req : forall a, In a (q_req qs) -> s a = pick a.
Hypothesis S_entry : forall a e, ~ In a (q_req qs) -> entry_of kind h qs a e -> s a = e.
Hypothesis S_id : forall a, ~ In a M -> s a = a.
Hypothesis P_elem : forall a, In a (q_elems qs) -> pick a = a.
Hypothesis Disj : forall a, In a (q_elems qs) -> ~ In a M.
Hypothesis P_req : forall v, In v (q_req qs) -> pick v = v \/
  exists idx comps i, mixture_node kind h v idx comps /\ nth_error comps i = Some (pick v) /\ ~ In (pick v) M.
Notation h' := (map (renode s) h).
Notation req' := (map pick vars).

Lemma M_cases a : In a M -> In a (q_req qs) /\ s a = pick a \/ ~ In a (q_req qs) /\ exists e, entry_of kind h qs a e /\ s a = e.
Proof.
  intros H. destruct (in_dec Nat.eq_dec a (q_req qs)) as [R|R]; [left; auto|right]. split; [exact R|].
  apply Gn in H as [H|(e & H)]; [tauto|]. exists e. split; [exact H|]. now apply S_entry.
Qed.
Lemma entry_elem a e : entry_of kind h qs a e -> In e (q_elems qs).
Proof. intros (k & l & xs & i & _ & _ & Q & N). unfold q_elems. apply in_flat_map. exists (QStack l xs). split; [exact Q|]. exact (nth_error_In _ _ N). Qed.
Lemma s_req' a : In a M -> In (s a) req'.
Proof.
  intros H. apply M_cases in H as [[R ->]|(_ & e & E & ->)].
  - apply in_map, q_vars_in. now left.
  - apply entry_elem in E. rewrite <- (P_elem e E). apply in_map, q_vars_in. now right.
Qed.
Lemma s_le a : s a = a \/ s a < a.
Proof.
  destruct (in_dec Nat.eq_dec a M) as [H|H]; [|left; auto]. apply M_cases in H as [[R ->]|(_ & e & E & ->)].
  - destruct (P_req a R) as [->|(idx & comps & i & (k & N & _) & C & _)]; [now left|right]. apply (Ac a _ _ N). cbn. right. exact (nth_error_In _ _ C).
  - right. destruct E as (k & l & xs & i & N & _ & _ & C). apply (Ac a _ _ N). exact (nth_error_In _ _ C).
Qed.
Lemma h'_nth v : nth_error h' v = option_map (renode s) (nth_error h v). Proof. apply nth_error_map. Qed.
Lemma h'_inv v nd : nth_error h' v = Some nd -> exists nd0, nth_error h v = Some nd0 /\ nd = renode s nd0.
Proof. rewrite h'_nth. destruct (nth_error h v) as [n|]; [|discriminate]. cbn. intros H. injection H as <-. eauto. Qed.
Lemma h'_acyclic : acyclic h'.
Proof.
  intros v nd a E I. apply h'_inv in E as (nd0 & E & ->). rewrite renode_inputs in I. apply in_map_iff in I as (b & <- & B).
  pose proof (Ac v nd0 b E B). destruct (s_le b); lia.
Qed.
Lemma h'_dtype ddt i : rv_dtype ddt h' i = rv_dtype ddt h i.
Proof. unfold rv_dtype. rewrite h'_nth. now destruct (nth_error h i) as [[]|]. Qed.

(** values *)
Definition steady (r : nat -> R) : Prop := forall v idx comps, In v (q_req qs) -> mixture_node kind h v idx comps -> pick v <> v ->
  exists x i, svalue fs h r idx x /\ (Rabs (x - INR i) < / 2)%R /\ nth_error comps i = Some (pick v).
Lemma Forall2_nth {A B} (P : A -> B -> Prop) l m i a : Forall2 P l m -> nth_error l i = Some a -> exists b, nth_error m i = Some b /\ P a b.
Proof. intros F. revert i. induction F as [|x z l m X F IH]; intros [|i]; cbn; intros E; try discriminate; [injection E as ->; eauto|auto]. Qed.
Lemma s_value r a x : steady r -> svalue fs h r a x -> svalue fs h r (s a) x.
Proof.
  intros St V. destruct (in_dec Nat.eq_dec a M) as [H|H]; [|rewrite S_id; auto]. apply M_cases in H as [[R ->]|(_ & e & E & ->)].
  - destruct (P_req a R) as [->|(idx & comps & i0 & Mx & C0 & NM)]; [exact V|].
    assert (Ne : pick a <> a) by (intros Q; rewrite Q in NM; apply NM, Gn; now left).
    destruct (St a idx comps R Mx Ne) as (z & i & Vi & Ci & Cp). destruct Mx as (k & N & K).
    inversion V as [? c N'|? d ps N'|? b t N' A|? b t N' A P|? b t N' A P|? l rs N' F|? l rs N' F|? b c t t' N' A B|? b c t t' N' A B P|? k' l rs ? N' F Kf]; subst; rewrite N in N'; try discriminate.
    injection N' as <- <-. inversion F as [|? z' ? rs' Vz Fr]; subst. assert (z' = z) as -> by (eapply svalue_fun; eassumption).
    destruct (Forall2_nth _ _ _ _ _ Fr Cp) as (w & Nw & Vw). rewrite (proj1 Ro k K z i rs' w Ci Nw) in Kf. injection Kf as <-. exact Vw.
  - destruct E as (k & l & xs & i & N & K & _ & C).
    inversion V as [? c N'|? d ps N'|? b t N' A|? b t N' A P|? b t N' A P|? l' rs N' F|? l' rs N' F|? b c t t' N' A B|? b c t t' N' A B P|? k' l' rs ? N' F Kf]; subst; rewrite N in N'; try discriminate.
    injection N' as <- <-. destruct (Forall2_nth _ _ _ _ _ F C) as (w & Nw & Vw). rewrite (proj2 Ro k i K rs w Nw) in Kf. injection Kf as <-. exact Vw.
Qed.
Lemma value_h' r : steady r -> forall v x, svalue fs h r v x -> svalue fs h' r v x.
Proof.
  intros St v. induction v as [v IH] using lt_wf_ind. intros x V.
  assert (L : forall nd a z, nth_error h v = Some nd -> In a (node_inputs nd) -> svalue fs h r a z -> svalue fs h' r (s a) z).
  { intros nd a z E I A. pose proof (Ac v nd a E I). destruct (s_le a) as [Q|Q]; [rewrite Q; apply IH; auto|]. apply IH; [lia|]. now apply s_value. }
  assert (L2 : forall nd l rs, nth_error h v = Some nd -> incl l (node_inputs nd) -> Forall2 (svalue fs h r) l rs -> Forall2 (svalue fs h' r) (map s l) rs).
  { intros nd l rs E I F. apply Forall2_map_l. revert F. apply Forall2_imp2. intros a z A. apply (L nd a z E). now apply I. }
  inversion V as [? c E|? d ps E|? a t E A|? a t E A P|? a t E A P|? l rs E F|? l rs E F|? a c t t' E A B|? a c t t' E A B P|? k l rs ? E F Kf]; subst.
  all: assert (E0 : nth_error h' v = Some (renode s _)) by (rewrite h'_nth, E; reflexivity); cbn [renode] in E0.
  - exact (v_con fs h' r v _ E0).
  - exact (v_rv fs h' r v _ _ E0).
  - apply (v_exp _ _ _ _ _ t E0). apply (L _ _ _ E); cbn; auto.
  - apply (v_log _ _ _ _ _ t E0); [|exact P]. apply (L _ _ _ E); cbn; auto.
  - apply (v_recip _ _ _ _ _ t E0); [|exact P]. apply (L _ _ _ E); cbn; auto.
  - apply (v_add _ _ _ _ _ rs E0). apply (L2 _ _ _ E); [apply incl_refl|exact F].
  - apply (v_mul _ _ _ _ _ rs E0). apply (L2 _ _ _ E); [apply incl_refl|exact F].
  - apply (v_sub _ _ _ _ _ _ t t' E0); apply (L _ _ _ E); cbn; auto.
  - apply (v_div _ _ _ _ _ _ t t' E0); [apply (L _ _ _ E); cbn; auto|apply (L _ _ _ E); cbn; auto|exact P].
  - apply (v_other _ _ _ _ k _ rs x E0); [|exact Kf]. apply (L2 _ _ _ E); [apply incl_refl|exact F].
Qed.
Lemma sval_h' r a x : steady r -> svalue fs h r a x -> svalue fs h' r (s a) x.
Proof. intros St V. apply value_h'; [exact St|]. now apply s_value. Qed.
Lemma svals_h' r l rs : steady r -> Forall2 (svalue fs h r) l rs -> Forall2 (svalue fs h' r) (map s l) rs.
Proof. intros St F. apply Forall2_map_l. revert F. apply Forall2_imp2. intros a x _. now apply sval_h'. Qed.

(** the nodes that only the redirection reaches *)
Definition hidden (x : nat) : Prop := In x req' /\ ~ In x (q_req qs).
Definition clear_of (a : nat) : Prop := forall x, hidden x -> ~ needs h M a x.
Lemma req'_not a : ~ In a M -> ~ hidden a -> ~ In a req'.
Proof. intros NM NH I. apply NH. split; [exact I|]. intros R. apply NM, Gn. now left. Qed.
Lemma clear_input a nd b : clear_of a -> nth_error h a = Some nd -> In b (node_inputs nd) -> ~ hidden b /\ (~ In b M -> clear_of b).
Proof.
  intros C E I. split; [intros H; apply (C b H); exact (n_in h M a nd b E I)|]. intros NM x X N. apply (C x X). exact (n_step h M a nd b x E I NM N).
Qed.
Lemma known_h' : forall a, ~ hidden a -> (In a M \/ clear_of a) -> known h M a -> known h' req' (s a).
Proof.
  intros a. induction a as [a IH] using lt_wf_ind. intros NH CM K. destruct (in_dec Nat.eq_dec a M) as [H|H]; [apply k_req; now apply s_req'|].
  destruct CM as [CM|C]; [tauto|]. inversion K as [? R|? nd E N F]; subst; [tauto|]. rewrite S_id by exact H.
  apply (k_det h' req' a (renode s nd)); [now rewrite h'_nth, E|destruct nd; try discriminate; now destruct (N d ps)|].
  rewrite renode_inputs. rewrite List.Forall_forall in F |- *. intros b B. apply in_map_iff in B as (b0 & <- & B). destruct (clear_input a nd b0 C E B) as [NHb Cb].
  apply IH; [exact (Ac a nd b0 E B)|exact NHb| |auto]. destruct (in_dec Nat.eq_dec b0 M); auto.
Qed.
Lemma step_known v nd b : clear_of v -> nth_error h v = Some nd -> In b (node_inputs nd) -> known h M b -> known h' req' (s b).
Proof.
  intros C E I K. destruct (clear_input v nd b C E I) as [NH Cb]. apply known_h'; auto. destruct (in_dec Nat.eq_dec b M); auto.
Qed.
Lemma step_knowns v nd l : clear_of v -> nth_error h v = Some nd -> incl l (node_inputs nd) -> List.Forall (known h M) l -> List.Forall (known h' req') (map s l).
Proof. intros C E I F. rewrite List.Forall_forall in F |- *. intros b B. apply in_map_iff in B as (b0 & <- & B). apply (step_known v nd); auto. Qed.
Lemma step_free v nd b : clear_of v -> nth_error h v = Some nd -> In b (node_inputs nd) -> ~ In b M -> s b = b /\ ~ In b req' /\ clear_of b.
Proof. intros C E I N. destruct (clear_input v nd b C E I) as [NH Cb]. split; [auto|]. split; [now apply req'_not|auto]. Qed.
Lemma smooth_h' r v b : steady r -> clear_of v -> smooth fs h M r v b -> smooth fs h' req' r v b.
Proof.
  intros St C H.
  induction H as [v d ps E|v u a b x E N H IH V P|v l a r0 b E N H IH Kl Kr NE|v l a r0 b ls rs E N H IH Kl Kr NE Vl Vr NZ|v a c b E N H IH K|v a c b E K N H IH|v a c b E N H IH K|v a c b x z E K N H IH Va Nr Vc Ps].
  all: assert (E0 : nth_error h' v = Some (renode s _)) by (rewrite h'_nth, E; reflexivity); cbn [renode] in E0.
  - exact (s_rv fs h' req' r v d _ E0).
  - destruct (step_free v _ a C E) as (Sa & Na & Ca); [cbn; auto|exact N|]. rewrite Sa in E0. apply (s_one fs h' req' r v u a b x E0 Na (IH Ca)); [|exact P]. rewrite <- Sa. now apply sval_h'.
  - destruct (step_free v _ a C E) as (Sa & Na & Ca); [cbn; apply in_or_app; cbn; auto|exact N|]. rewrite map_app in E0. cbn [map] in E0. rewrite Sa in E0.
    apply (s_add fs h' req' r v _ a _ b E0 Na (IH Ca)).
    + apply (step_knowns v _ l C E); [|exact Kl]. intros z Z. cbn. apply in_or_app. auto.
    + apply (step_knowns v _ r0 C E); [|exact Kr]. intros z Z. cbn. apply in_or_app. cbn. auto.
    + rewrite <- map_app. destruct (l ++ r0); [easy|discriminate].
  - destruct (step_free v _ a C E) as (Sa & Na & Ca); [cbn; apply in_or_app; cbn; auto|exact N|]. rewrite map_app in E0. cbn [map] in E0. rewrite Sa in E0.
    apply (s_mul fs h' req' r v _ a _ b ls rs E0 Na (IH Ca)).
    + apply (step_knowns v _ l C E); [|exact Kl]. intros z Z. cbn. apply in_or_app. auto.
    + apply (step_knowns v _ r0 C E); [|exact Kr]. intros z Z. cbn. apply in_or_app. cbn. auto.
    + rewrite <- map_app. destruct (l ++ r0); [easy|discriminate].
    + now apply svals_h'.
    + now apply svals_h'.
    + exact NZ.
  - destruct (step_free v _ a C E) as (Sa & Na & Ca); [cbn; auto|exact N|]. rewrite Sa in E0. apply (s_sub_l fs h' req' r v a _ b E0 Na (IH Ca)). apply (step_known v _ c C E); cbn; auto.
  - destruct (step_free v _ c C E) as (Sa & Na & Ca); [cbn; auto|exact N|]. rewrite Sa in E0. apply (s_sub_r fs h' req' r v _ c b E0); [|exact Na|exact (IH Ca)]. apply (step_known v _ a C E); cbn; auto.
  - destruct (step_free v _ a C E) as (Sa & Na & Ca); [cbn; auto|exact N|]. rewrite Sa in E0. apply (s_div_l fs h' req' r v a _ b E0 Na (IH Ca)). apply (step_known v _ c C E); cbn; auto.
  - destruct (step_free v _ c C E) as (Sa & Na & Ca); [cbn; auto|exact N|]. rewrite Sa in E0. apply (s_div_r fs h' req' r v _ c b x z E0); [|exact Na|exact (IH Ca)| |exact Nr| |exact Ps].
    + apply (step_known v _ a C E); cbn; auto.
    + now apply sval_h'.
    + rewrite <- Sa. now apply sval_h'.
Qed.
Lemma leads_h' v b : clear_of v -> leads h M v b -> leads h' req' v b.
Proof.
  intros C H.
  induction H as [v d ps E|v u a b E N H IH|v n l a r0 b E N H IH Kl Kr NE|v a c b E N H IH K|v a c b E K N H IH|v a c b E N H IH K|v a c b E K N H IH].
  all: assert (E0 : nth_error h' v = Some (renode s _)) by (rewrite h'_nth, E; reflexivity); cbn [renode] in E0.
  - exact (d_rv h' req' v d _ E0).
  - destruct (step_free v _ a C E) as (Sa & Na & Ca); [cbn; auto|exact N|]. rewrite Sa in E0. exact (d_one h' req' v u a b E0 Na (IH Ca)).
  - destruct (step_free v _ a C E) as (Sa & Na & Ca); [cbn; apply in_or_app; cbn; auto|exact N|]. rewrite map_app in E0. cbn [map] in E0. rewrite Sa in E0.
    apply (d_many h' req' v n _ a _ b E0 Na (IH Ca)).
    + apply (step_knowns v _ l C E); [|exact Kl]. intros z Z. cbn. apply in_or_app. auto.
    + apply (step_knowns v _ r0 C E); [|exact Kr]. intros z Z. cbn. apply in_or_app. cbn. auto.
    + rewrite <- map_app. destruct (l ++ r0); [easy|discriminate].
  - destruct (step_free v _ a C E) as (Sa & Na & Ca); [cbn; auto|exact N|]. rewrite Sa in E0. apply (d_sub_l h' req' v a _ b E0 Na (IH Ca)). apply (step_known v _ c C E); cbn; auto.
  - destruct (step_free v _ c C E) as (Sa & Na & Ca); [cbn; auto|exact N|]. rewrite Sa in E0. apply (d_sub_r h' req' v _ c b E0); [|exact Na|exact (IH Ca)]. apply (step_known v _ a C E); cbn; auto.
  - destruct (step_free v _ a C E) as (Sa & Na & Ca); [cbn; auto|exact N|]. rewrite Sa in E0. apply (d_div_l h' req' v a _ b E0 Na (IH Ca)). apply (step_known v _ c C E); cbn; auto.
  - destruct (step_free v _ c C E) as (Sa & Na & Ca); [cbn; auto|exact N|]. rewrite Sa in E0. apply (d_div_r h' req' v _ c b E0); [|exact Na|exact (IH Ca)]. apply (step_known v _ a C E); cbn; auto.
Qed.
Lemma needs_h' v b : clear_of v -> needs h' req' v b -> In b req' \/ needs h M v b.
Proof.
  intros C N. induction N as [v nd b E I|v nd a b E I R N IH]; apply h'_inv in E as (nd0 & E & ->); rewrite renode_inputs in I; apply in_map_iff in I as (c & <- & I).
  - destruct (in_dec Nat.eq_dec c M) as [H|H]; [left; now apply s_req'|right]. rewrite S_id by exact H. exact (n_in h M v nd0 c E I).
  - assert (H : ~ In c M) by (intros H; apply R; now apply s_req'). destruct (step_free v nd0 c C E I H) as (Sc & _ & Cc). rewrite Sc in *.
    destruct (IH Cc) as [Q|Q]; [now left|right]. exact (n_step h M v nd0 c b E I H Q).
Qed.

(** trees *)
Variable y y' : nat -> R.
Hypothesis Y_pick : forall v, In v vars -> y' (pick v) = y v.
Variable mY : nat -> R.
Hypothesis mY_req : forall v, In v (q_req qs) -> mY v = y v.
Hypothesis mY_entry : forall a e, ~ In a (q_req qs) -> entry_of kind h qs a e -> mY a = y e.
Notation fin f := (fun v : nat => Fin (f v : R)).
Lemma mY_s a : In a M -> y' (s a) = mY a.
Proof.
  intros H. destruct (M_cases a H) as [[R ->]|(R & e & E & ->)].
  - rewrite mY_req by exact R. apply Y_pick, q_vars_in. now left.
  - rewrite (mY_entry a e R E). pose proof (entry_elem a e E) as Q. rewrite <- (P_elem e Q) at 1. apply Y_pick, q_vars_in. now right.
Qed.
Lemma unf_h' : forall fuel a, (In a M \/ ~ hidden a /\ clear_of a) -> unfold h' req' (fin y') fuel (s a) = unfold h M (fin mY) fuel a.
Proof.
  induction fuel as [|fuel IH]; intros a Q; [reflexivity|]. cbn [unfold]. destruct (in_dec Nat.eq_dec a M) as [H|H].
  - rewrite (proj2 (mem_In a M) H), (proj2 (mem_In (s a) req') (s_req' a H)). now rewrite mY_s.
  - destruct Q as [Q|[NH C]]; [tauto|]. rewrite (proj2 (mem_not a M) H), S_id by exact H. rewrite (proj2 (mem_not a req') (req'_not a H NH)).
    apply expand_renode. intros nd b E I. apply IH. destruct (in_dec Nat.eq_dec b M) as [B|B]; [now left|right]. destruct (clear_input a nd b C E I). auto.
Qed.
Lemma inputs_h' v nd a fuel : clear_of v -> nth_error h v = Some nd -> In a (node_inputs nd) -> unfold h' req' (fin y') fuel (s a) = unfold h M (fin mY) fuel a.
Proof. intros C E I. apply unf_h'. destruct (in_dec Nat.eq_dec a M) as [B|B]; [now left|right]. destruct (clear_input v nd a C E I). auto. Qed.
Lemma top_h' v : clear_of v -> top h' req' (fin y') v = top h M (fin mY) v.
Proof. intros C. unfold top. rewrite map_length. apply expand_renode. intros nd a E I. now apply (inputs_h' v nd). Qed.

(** log-probabilities *)
Variable ddt : nat -> dtype.
Variable dlp : nat -> list xr -> xr -> res xr.
Variable rho0 : nat -> xr.
Lemma rv_h' i x : clear_of i -> u_rv_logprob ddt fs dlp h' (fin y') rho0 (map QVar req') i x = u_rv_logprob ddt fs dlp h (fin mY) rho0 (map QVar M) i x.
Proof.
  intros C. unfold u_rv_logprob. rewrite h'_nth. destruct (nth_error h i) as [[| d ps | | | | |]|] eqn:E; try reflexivity. cbn [option_map renode].
  f_equal. rewrite map_map. apply map_ext_in. intros p P. unfold u_node. rewrite !q_req_vars, map_length, (inputs_h' i _ p _ C E P). f_equal. apply annotate_dt. intros j _. apply h'_dtype.
Qed.
Lemma measure_h' v x : clear_of v ->
  match a_m (annotate (rv_dtype ddt h') fs (top h' req' (fin y') v)) with None => None | Some m => Some (nested_logprob (u_rv_logprob ddt fs dlp h' (fin y') rho0 (map QVar req')) m x) end =
  match a_m (annotate (rv_dtype ddt h) fs (top h M (fin mY) v)) with None => None | Some m => Some (nested_logprob (u_rv_logprob ddt fs dlp h (fin mY) rho0 (map QVar M)) m x) end.
Proof.
  intros C. rewrite top_h' by exact C. rewrite (annotate_dt (rv_dtype ddt h') (rv_dtype ddt h)) by (intros i _; apply h'_dtype).
  destruct (a_m _) as [m|] eqn:E; [|reflexivity]. f_equal. apply nested_ext. intros z. apply rv_h'.
  destruct (accepted_chain _ _ _ _ E) as [Ch _]. pose proof (top_occs h (map QVar M) (fin mY) v (mbase m)) as O. rewrite q_req_vars in O.
  rewrite (chain_occs _ _ Ch) in O. destruct (O (or_introl eq_refl)) as [->|[N R]]; [exact C|]. intros w W Nw. apply (C w W). exact (needs_tr h M v _ w N R Nw).
Qed.
End Divert.
