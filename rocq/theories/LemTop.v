(** Proofs for transformed operations. *)
From Coq Require Import Reals List Arith Bool String Lia.
From Verif Require Import XR ModelVec ModelTop SpecTop.
Import ListNotations.
Open Scope nat_scope.

Definition good (s : tstate) : Prop :=
  (forall c k b, nth_error (classes s) c = Some k -> c_base k = Some b -> b < c) /\
  (forall c i, In (c, i) (lp_reg s) -> c < List.length (classes s) /\ match i with IBase _ => True | ITrans o => o_cls o < c end) /\
  (forall c n, In (c, n) (dt_reg s) -> c < List.length (classes s) /\ n < List.length (classes s)).
Lemma create_inv s o t n d s' o' : create s o t n d = Some (s', o') -> exists k, nth_error (classes s) (o_cls o) = Some k /\
  o' = {| o_cls := List.length (classes s); o_attrs := o_attrs o |} /\ exists nm,
  classes s' = classes s ++ [{| c_base := Some (o_cls o); c_type := ("Transformed" ++ c_type k)%string; c_name := nm; c_transform := Some t |}] /\
  lp_reg s' = (List.length (classes s), ITrans o) :: lp_reg s /\
  dt_reg s' = (if d then o_cls o else List.length (classes s), List.length (classes s)) :: dt_reg s /\
  nm = match c_name k with Some ""%string => Some ""%string | Some m => Some (m ++ "_" ++ match n with Some n => n | None => "transformed" end)%string | None => None end.
Proof.
  unfold create. destruct (nth_error (classes s) (o_cls o)) as [k|] eqn:E; [|discriminate]. intros H. injection H as <- <-.
  exists k. split; auto. split; auto. eexists. split; [reflexivity|]. split; [reflexivity|]. split; reflexivity.
Qed.
Lemma lt_class s c k : nth_error (classes s) c = Some k -> c < List.length (classes s).
Proof. intros H. apply nth_error_Some. congruence. Qed.
Lemma reachable_good s : reachable s -> good s.
Proof.
  induction 1 as [s (F1 & F2 & F3)|s o t n d s' o' R (G1 & G2 & G3) H].
  - split; [|split].
    + intros c k b Hc Hb. destruct (F1 c k Hc) as (_ & H). auto.
    + intros c i Hi. destruct (F2 c i Hi) as (Hc & k & ->). auto.
    + rewrite F3. easy.
  - destruct (create_inv _ _ _ _ _ _ _ H) as (k & Hk & -> & nm & E1 & E2 & E3 & _). pose proof (lt_class _ _ _ Hk) as Lo. split; [|split].
    + intros c k' b. rewrite E1. intros Hc Hb. destruct (lt_dec c (List.length (classes s))) as [L|L].
      * rewrite nth_error_app1 in Hc by auto. eauto.
      * rewrite nth_error_app2 in Hc by lia. destruct (c - List.length (classes s)) as [|j] eqn:Ej; cbn in Hc; [|now destruct j].
        injection Hc as <-. cbn in Hb. injection Hb as <-. lia.
    + rewrite E1, E2. intros c i [Q|Q]; rewrite app_length; cbn.
      * injection Q as <- <-. split; [lia|auto].
      * destruct (G2 c i Q). split; [lia|auto].
    + rewrite E1, E3. intros c m [Q|Q]; rewrite app_length; cbn.
      * injection Q as <- <-. split; [destruct d; lia|lia].
      * destruct (G3 c m Q). lia.
Qed.
Lemma chain_fuel cs (H : forall c k b, nth_error cs c = Some k -> c_base k = Some b -> b < c) : forall f c f', c < f -> c < f' -> chain cs f c = chain cs f' c.
Proof.
  induction f as [|f IH]; intros c f' L L'; [lia|]. destruct f' as [|f']; [lia|]. cbn. destruct (nth_error cs c) as [k|] eqn:E; auto.
  destruct (c_base k) as [b|] eqn:Eb; auto. f_equal. specialize (H c k b E Eb). apply IH; lia.
Qed.
Lemma chain_app cs x (H : forall c k b, nth_error cs c = Some k -> c_base k = Some b -> b < c) : forall f c, c < List.length cs -> chain (cs ++ [x]) f c = chain cs f c.
Proof.
  induction f as [|f IH]; intros c L; auto. cbn. rewrite nth_error_app1 by auto. destruct (nth_error cs c) as [k|] eqn:E; auto.
  destruct (c_base k) as [b|] eqn:Eb; auto. f_equal. apply IH. specialize (H c k b E Eb). lia.
Qed.
Lemma chain_in cs : forall f c a, In a (chain cs f c) -> (forall c k b, nth_error cs c = Some k -> c_base k = Some b -> b < c) -> a <= c /\ a < List.length cs.
Proof.
  induction f as [|f IH]; intros c a Hin H; cbn in Hin; [easy|]. destruct (nth_error cs c) as [k|] eqn:E; [|easy]. destruct Hin as [<-|Hin].
  - split; [lia|]. apply nth_error_Some. congruence.
  - destruct (c_base k) as [b|] eqn:Eb; [|easy]. specialize (H c k b E Eb) as Hb. destruct (IH b a Hin H). lia.
Qed.
Lemma mro_step s c k : good s -> nth_error (classes s) c = Some k -> mro s c = c :: match c_base k with Some b => mro s b | None => [] end.
Proof.
  intros (G & _) E. unfold mro. cbn. rewrite E. f_equal. destruct (c_base k) as [b|] eqn:Eb; auto. specialize (G c k b E Eb) as Hb.
  apply (chain_fuel (classes s) G c b (S b)); lia.
Qed.
Lemma first_ext {A} (f g : nat -> option A) l : (forall c, In c l -> f c = g c) -> first_of f l = first_of g l.
Proof. induction l as [|c l IH]; cbn; auto. intros H. rewrite (H c) by now left. destruct (g c); auto. Qed.
Section Step.
Variables (s s' : tstate) (o o' : opi) (t : nat) (n : option string) (d : bool).
Hypothesis (R : reachable s) (C : create s o t n d = Some (s', o')).
Let G : good s. Proof. now apply reachable_good. Qed.
Let G' : good s'. Proof. apply reachable_good. eapply r_create; eauto. Qed.
Lemma old_mro c : c < List.length (classes s) -> mro s' c = mro s c.
Proof.
  destruct (create_inv _ _ _ _ _ _ _ C) as (k & Hk & _ & nm & E1 & _). intros L. unfold mro. rewrite E1. apply chain_app; auto. apply G.
Qed.
Lemma old_in c a : In a (mro s c) -> a < List.length (classes s).
Proof. intros H. apply (chain_in (classes s) _ _ _ H). apply G. Qed.
Lemma old_impl c : c < List.length (classes s) -> logprob_impl s' c = logprob_impl s c.
Proof.
  intros L. unfold logprob_impl. rewrite old_mro by auto. apply first_ext. intros a Ha. apply old_in in Ha.
  destruct (create_inv _ _ _ _ _ _ _ C) as (k & Hk & _ & nm & _ & E2 & _). rewrite E2. cbn. replace (a =? List.length (classes s)) with false; auto. symmetry. apply Nat.eqb_neq. lia.
Qed.
Lemma old_attr {A} (f : cls -> option A) c : c < List.length (classes s) ->
  first_of (fun c => match nth_error (classes s') c with Some k => f k | None => None end) (mro s' c) =
  first_of (fun c => match nth_error (classes s) c with Some k => f k | None => None end) (mro s c).
Proof.
  intros L. rewrite old_mro by auto. apply first_ext. intros a Ha. apply old_in in Ha.
  destruct (create_inv _ _ _ _ _ _ _ C) as (k & Hk & _ & nm & E1 & _). rewrite E1, nth_error_app1 by auto. reflexivity.
Qed.
Lemma new_class : exists k nm, nth_error (classes s') (List.length (classes s)) = Some {| c_base := Some (o_cls o); c_type := k; c_name := nm; c_transform := Some t |}.
Proof.
  destruct (create_inv _ _ _ _ _ _ _ C) as (k & Hk & _ & nm & E1 & _). exists ("Transformed" ++ c_type k)%string, nm. rewrite E1, nth_error_app2, Nat.sub_diag by auto. reflexivity.
Qed.
Lemma new_impl : logprob_impl s' (List.length (classes s)) = Some (ITrans o).
Proof.
  destruct new_class as (k & nm & E). unfold logprob_impl. rewrite (mro_step _ _ _ G' E). cbn [first_of].
  destruct (create_inv _ _ _ _ _ _ _ C) as (k' & Hk & _ & nm' & _ & E2 & _). rewrite E2. cbn. now rewrite Nat.eqb_refl.
Qed.
Lemma new_transform : transform_attr s' (List.length (classes s)) = Some t.
Proof. destruct new_class as (k & nm & E). unfold transform_attr. rewrite (mro_step _ _ _ G' E). cbn [first_of]. now rewrite E. Qed.
End Step.
Lemma impl_bound s c o : good s -> logprob_impl s c = Some (ITrans o) -> o_cls o < c.
Proof.
  intros G H. unfold logprob_impl in H.
  assert (K : forall l, first_of (fun c => look c (lp_reg s)) l = Some (ITrans o) -> exists a, In a l /\ In (a, ITrans o) (lp_reg s)).
  { induction l as [|a l IH]; cbn; [discriminate|]. destruct (look a (lp_reg s)) as [i|] eqn:E.
    - intros Q. injection Q as ->. exists a. split; [now left|]. clear -E. induction (lp_reg s) as [|[k i] r IH]; cbn in *; [discriminate|].
      destruct (a =? k) eqn:Ek; [apply Nat.eqb_eq in Ek; subst; injection E as ->; now left|right; auto].
    - intros Q. destruct (IH Q) as (b & Hb & Hi). exists b. split; [now right|auto]. }
  apply K in H as (a & Ha & Hi). destruct G as (G1 & G2 & _). destruct (G2 _ _ Hi) as (_ & L). destruct (chain_in _ _ _ _ Ha G1). lia.
Qed.
Section Lp.
Variable dlp : nat -> nat -> xr -> res xr.
Variable jac : nat -> xr -> res xr.
Lemma logprob_fuel s : good s -> forall f f' uj o v, o_cls o < f -> o_cls o < f' -> logprob_op dlp jac s f uj o v = logprob_op dlp jac s f' uj o v.
Proof.
  intros G. induction f as [|f IH]; intros f' uj o v L L'; [lia|]. destruct f' as [|f']; [lia|]. cbn [logprob_op].
  destruct (logprob_impl s (o_cls o)) as [[k|rv]|] eqn:E; [reflexivity| |reflexivity]. destruct v as [x|b x]; [reflexivity|].
  apply impl_bound in E; auto. rewrite (IH f' true rv b) by lia. reflexivity.
Qed.
Lemma logprob_old s o t n d s' o' : reachable s -> create s o t n d = Some (s', o') -> forall f uj o1 v, o_cls o1 < List.length (classes s) ->
  logprob_op dlp jac s' f uj o1 v = logprob_op dlp jac s f uj o1 v.
Proof.
  intros R C. induction f as [|f IH]; intros uj o1 v L; [reflexivity|]. cbn [logprob_op]. rewrite (old_impl s s' o o' t n d R C) by auto.
  destruct (logprob_impl s (o_cls o1)) as [[k|rv]|] eqn:E; [reflexivity| |reflexivity]. destruct v as [x|b x]; [reflexivity|].
  apply impl_bound in E; [|now apply reachable_good]. rewrite IH by lia.
  unfold transform_attr. rewrite (old_attr s s' o o' t n d R C c_transform) by auto. reflexivity.
Qed.
Lemma op_old s o t n d s' o' : reachable s -> create s o t n d = Some (s', o') -> forall uj o1 v, exists_class s (o_cls o1) ->
  op_logprob dlp jac s' uj o1 v = op_logprob dlp jac s uj o1 v.
Proof.
  intros R C uj o1 v L. unfold op_logprob. rewrite (logprob_old s o t n d s' o' R C) by exact L.
  apply logprob_fuel; [now apply reachable_good| |unfold exists_class in L; lia].
  destruct (create_inv _ _ _ _ _ _ _ C) as (k & Hk & _ & nm & E1 & _). rewrite E1, app_length. unfold exists_class in L. lia.
Qed.
Lemma op_new s o t n d s' o' : reachable s -> create s o t n d = Some (s', o') -> forall a b x,
  op_logprob dlp jac s' true {| o_cls := o_cls o'; o_attrs := a |} (TPair b x) = plus (op_logprob dlp jac s true o b) (jac t x) /\
  op_logprob dlp jac s' false {| o_cls := o_cls o'; o_attrs := a |} (TPair b x) = op_logprob dlp jac s true o b /\
  forall uj, op_logprob dlp jac s' uj {| o_cls := o_cls o'; o_attrs := a |} (TPlain x) = Raise.
Proof.
  intros R C a b x. destruct (create_inv _ _ _ _ _ _ _ C) as (k & Hk & -> & _). cbn [o_cls].
  pose proof (lt_class _ _ _ Hk) as L.
  assert (K : logprob_op dlp jac s' (List.length (classes s')) true o b = op_logprob dlp jac s true o b).
  { rewrite (logprob_old s o t n d s' _ R C) by auto. apply logprob_fuel; [now apply reachable_good| |lia].
    destruct (create_inv _ _ _ _ _ _ _ C) as (k' & _ & _ & nm & E1 & _). rewrite E1, app_length. cbn. lia. }
  split; [|split].
  - unfold op_logprob at 1. cbn [logprob_op o_cls]. rewrite (new_impl s s' o _ t n d R C), (new_transform s s' o _ t n d R C), K.
    destruct (op_logprob dlp jac s true o b); cbn; auto; destruct (jac t x); reflexivity.
  - unfold op_logprob at 1. cbn [logprob_op o_cls]. rewrite (new_impl s s' o _ t n d R C), K. now destruct (op_logprob dlp jac s true o b).
  - intros uj. unfold op_logprob. cbn [logprob_op o_cls]. now rewrite (new_impl s s' o _ t n d R C).
Qed.
End Lp.
(** ** Attributes and defaults *)
Lemma attrs_old s o t n d s' o' : reachable s -> create s o t n d = Some (s', o') -> forall c, exists_class s c ->
  name_attr s' c = name_attr s c /\ transform_attr s' c = transform_attr s c.
Proof. intros R C c L. split; [apply (old_attr s s' o o' t n d R C c_name); auto|apply (old_attr s s' o o' t n d R C c_transform); auto]. Qed.
Lemma attrs_new s o t n d s' o' : reachable s -> create s o t n d = Some (s', o') -> transform_attr s' (o_cls o') = Some t /\ o_attrs o' = o_attrs o /\
  ancestor s' (o_cls o') (o_cls o) /\ ~ exists_class s (o_cls o').
Proof.
  intros R C. destruct (create_inv _ _ _ _ _ _ _ C) as (k & Hk & -> & nm & E1 & _). cbn [o_cls o_attrs]. split; [eapply (new_transform s s' o _ t n d R C)|]. split; auto. split.
  - destruct (new_class s s' o _ t n d C) as (ty & nm' & E). apply (an_base s' _ _ (o_cls o) _ E eq_refl).
    apply (an_self s' _ k). rewrite E1, nth_error_app1; auto. now apply lt_class in Hk.
  - unfold exists_class. lia.
Qed.
Definition dclass (s : tstate) (c : nat) : option nat := first_of (fun c => look c (dt_reg s)) (mro s c).
Lemma look_none {A} c (l : list (nat * A)) : (forall a, ~ In (c, a) l) -> look c l = None.
Proof. induction l as [|[k a] l IH]; cbn; auto. intros H. destruct (c =? k) eqn:E; [apply Nat.eqb_eq in E; subst; exfalso; eapply H; now left|]. apply IH. intros b Hb. eapply H. right. eauto. Qed.
Lemma default_other s o t n s' o' : reachable s -> create s o t n false = Some (s', o') -> forall o1, exists_class s (o_cls o1) ->
  default_transformed s' o1 = default_transformed s o1.
Proof.
  intros R C o1 L. unfold default_transformed. f_equal. rewrite (old_mro s s' o o' t n false R C) by auto. apply first_ext. intros a Ha. apply (old_in s R) in Ha.
  destruct (create_inv _ _ _ _ _ _ _ C) as (k & Hk & _ & nm & _ & _ & E3 & _). rewrite E3. cbn. replace (a =? List.length (classes s)) with false; auto. symmetry. apply Nat.eqb_neq. lia.
Qed.
Lemma nearest_first s P c a : good s -> nearest s P c a -> forall {A} (f : nat -> option A), (forall x, P x <-> f x <> None) -> first_of f (mro s c) = f a.
Proof.
  intros G H. induction H as [c k E Pc|c k b a E N Eb H IH]; intros A f Hf; rewrite (mro_step _ _ _ G E); cbn [first_of].
  - apply Hf in Pc. now destruct (f c).
  - destruct (f c) eqn:Ec; [exfalso; apply N; apply Hf; congruence|]. rewrite Eb. now apply IH.
Qed.
Lemma default_set s o t n s' o' : reachable s -> create s o t n true = Some (s', o') -> forall o1 a,
  nearest s (fun c => c = o_cls o \/ exists m, In (c, m) (dt_reg s)) (o_cls o1) a ->
  (a = o_cls o -> default_transformed s' o1 = Some {| o_cls := o_cls o'; o_attrs := 0 |}) /\
  (a <> o_cls o -> default_transformed s' o1 = default_transformed s o1).
Proof.
  intros R C o1 a N. pose proof (reachable_good s R) as G.
  destruct (create_inv _ _ _ _ _ _ _ C) as (k & Hk & -> & nm & E1 & _ & E3 & _). cbn [o_cls].
  assert (L : o_cls o1 < List.length (classes s)). { inversion N; subst; eapply lt_class; eauto. }
  assert (M : mro s' (o_cls o1) = mro s (o_cls o1)) by (eapply (old_mro s s' o _ t n true R C); auto).
  assert (Hin : forall c (l : list (nat * nat)), look c l <> None <-> exists m, In (c, m) l).
  { intros c l. induction l as [|[k' m] l IH]; cbn; [split; [easy|intros (m & [])]|]. destruct (c =? k') eqn:E.
    - apply Nat.eqb_eq in E. subst. split; [eauto|easy].
    - apply Nat.eqb_neq in E. rewrite IH. split; intros (m' & Q); [exists m'; auto|destruct Q as [Q|Q]; [congruence|eauto]]. }
  assert (F : first_of (fun c => look c (dt_reg s')) (mro s (o_cls o1)) = look a (dt_reg s')).
  { apply (nearest_first s _ _ _ G N). intros x. rewrite Hin, E3. cbn. split.
    - intros [->|(m & Q)]; eauto.
    - intros (m & [Q|Q]); [injection Q as -> _; now left|right; eauto]. }
  unfold default_transformed. rewrite M, F. split; intros Q.
  - subst a. rewrite E3. cbn [look]. now rewrite Nat.eqb_refl.
  - rewrite E3. cbn [look]. replace (a =? o_cls o) with false by (symmetry; now apply Nat.eqb_neq). f_equal. symmetry.
    clear F M. revert L N Q. generalize (o_cls o1) as c1. intros c1 L N. induction N as [c k' E [Pc|Pc]|c k' b a E Np Eb N IH]; intros Q; rewrite (mro_step _ _ _ G E); cbn [first_of]; auto.
    + easy.
    + apply Hin in Pc. now destruct (look c (dt_reg s)).
    + destruct (look c (dt_reg s)) eqn:Ec; [exfalso; apply Np; right; apply Hin; congruence|]. rewrite Eb. apply IH; auto.
      pose proof (proj1 G c k' b E Eb). lia.
Qed.
Lemma mro_ancestor s : good s -> forall c a, In a (mro s c) -> ancestor s c a.
Proof.
  intros G c. induction c as [c IH] using lt_wf_ind. intros a Ha. destruct (nth_error (classes s) c) as [k|] eqn:E.
  - rewrite (mro_step _ _ _ G E) in Ha. destruct Ha as [<-|Ha]; [eapply an_self; eauto|]. destruct (c_base k) as [b|] eqn:Eb; [|easy].
    eapply an_base; eauto. apply IH; auto. eapply (proj1 G); eauto.
  - unfold mro in Ha. cbn in Ha. rewrite E in Ha. easy.
Qed.
Lemma default_none s o t n s' o' : reachable s -> create s o t n true = Some (s', o') -> forall o1, exists_class s (o_cls o1) ->
  ~ ancestor s (o_cls o1) (o_cls o) -> default_transformed s' o1 = default_transformed s o1.
Proof.
  intros R C o1 L N. pose proof (reachable_good s R) as G. unfold default_transformed. f_equal. rewrite (old_mro s s' o o' t n true R C) by auto.
  apply first_ext. intros a Ha. destruct (create_inv _ _ _ _ _ _ _ C) as (k & Hk & _ & nm & _ & _ & E3 & _). rewrite E3. cbn.
  destruct (a =? o_cls o) eqn:E; auto. apply Nat.eqb_eq in E. subst a. exfalso. apply N. clear N.
  now apply mro_ancestor.
Qed.
Lemma default_self s o t n d s' o' : reachable s -> create s o t n d = Some (s', o') -> default_transformed s' o' = Some {| o_cls := o_cls o'; o_attrs := 0 |}.
Proof.
  intros R C. assert (G' : good s') by (apply reachable_good; eapply r_create; eauto). destruct (new_class s s' o o' t n d C) as (ty & nm & E).
  destruct (create_inv _ _ _ _ _ _ _ C) as (k & Hk & -> & nm' & E1 & _ & E3 & _). cbn [o_cls]. unfold default_transformed. cbn [o_cls].
  rewrite (mro_step _ _ _ G' E). cbn [first_of c_base]. rewrite E3. cbn [look]. destruct d.
  - assert (Hk' : nth_error (classes s') (o_cls o) = Some k). { rewrite E1, nth_error_app1; auto. eapply lt_class; eauto. }
    replace (List.length (classes s) =? o_cls o) with false by (symmetry; apply Nat.eqb_neq; apply lt_class in Hk; lia).
    assert (Z : look (List.length (classes s)) (dt_reg s) = None).
    { apply look_none. intros a Ha. destruct (reachable_good s R) as (_ & _ & G3). destruct (G3 _ _ Ha). lia. }
    rewrite Z, (mro_step _ _ _ G' Hk'). cbn [first_of]. now rewrite Nat.eqb_refl.
  - now rewrite Nat.eqb_refl.
Qed.
Lemma name_new s o t n d s' o' k : reachable s -> create s o t n d = Some (s', o') -> nth_error (classes s) (o_cls o) = Some k ->
  (forall m, c_name k = Some m -> m <> ""%string -> name_attr s' (o_cls o') = Some (m ++ "_" ++ match n with Some n => n | None => "transformed" end)%string) /\
  (c_name k = None -> name_attr s' (o_cls o') = name_attr s (o_cls o)).
Proof.
  intros R C Hk. assert (G' : good s') by (apply reachable_good; eapply r_create; eauto).
  destruct (create_inv _ _ _ _ _ _ _ C) as (k' & Hk' & -> & nm & E1 & _ & _ & En). rewrite Hk in Hk'. injection Hk' as <-. cbn [o_cls].
  assert (E : nth_error (classes s') (List.length (classes s)) = Some {| c_base := Some (o_cls o); c_type := ("Transformed" ++ c_type k)%string; c_name := nm; c_transform := Some t |}).
  { rewrite E1, nth_error_app2, Nat.sub_diag by auto. reflexivity. }
  unfold name_attr. rewrite (mro_step _ _ _ G' E). cbn [first_of]. rewrite E. cbn [c_name c_base]. split.
  - intros m Em N. rewrite Em in En. destruct m; [easy|]. now rewrite En.
  - intros Em. rewrite Em in En. rewrite En. apply (old_attr s s' o _ t n d R C c_name). eapply lt_class; eauto.
Qed.
(** the origin of a default *)
Section Origin.
Variable dlp : nat -> nat -> xr -> res xr.
Variable jac : nat -> xr -> res xr.
Lemma ancestor_mono s o t n d s' o' : create s o t n d = Some (s', o') -> forall c a, ancestor s c a -> ancestor s' c a.
Proof.
  intros C c a H. destruct (create_inv _ _ _ _ _ _ _ C) as (k & Hk & _ & nm & E1 & _).
  assert (K : forall c k, nth_error (classes s) c = Some k -> nth_error (classes s') c = Some k). { intros c' k' Q. rewrite E1, nth_error_app1; auto. eapply lt_class; eauto. }
  induction H; [eapply an_self|eapply an_base]; eauto.
Qed.
Lemma reg_origin s : reachable s -> forall c m, In (c, m) (dt_reg s) -> exists rv t, (forall a b x,
  op_logprob dlp jac s true {| o_cls := m; o_attrs := a |} (TPair b x) = plus (op_logprob dlp jac s true rv b) (jac t x)) /\
  transform_attr s m = Some t /\ ancestor s c (o_cls rv) /\ m < List.length (classes s) /\ o_cls rv < List.length (classes s).
Proof.
  induction 1 as [s (F1 & F2 & F3)|s o t n d s' o' R IH C]; intros c m Hin.
  - now rewrite F3 in Hin.
  - pose proof C as C0. destruct (create_inv _ _ _ _ _ _ _ C) as (k & Hk & Eo & nm & E1 & E2 & E3 & _). pose proof (lt_class _ _ _ Hk) as L. rewrite E3 in Hin. destruct Hin as [Q|Q].
    + injection Q as <- <-. exists o, t. split; [|split; [|split; [|split]]].
      * intros a b x. rewrite (op_old dlp jac s o t n d s' o' R C true o b L). pose proof (op_new dlp jac s o t n d s' o' R C a b x) as (Hp & _). rewrite Eo in Hp. exact Hp.
      * now apply (new_transform s s' o o' t n d).
      * destruct (attrs_new s o t n d s' o' R C) as (_ & _ & A & _). destruct d; [|now rewrite Eo in A]. apply (an_self s' _ k). rewrite E1, nth_error_app1; auto.
      * rewrite E1, app_length. cbn. lia.
      * rewrite E1, app_length. cbn. lia.
    + destruct (IH c m Q) as (rv & t' & H1 & H2 & H3 & H4 & H5). exists rv, t'. split; [|split; [|split; [|split]]].
      * intros a b x. rewrite (op_old dlp jac s o t n d s' o' R C true rv b H5), (op_old dlp jac s o t n d s' o' R C true {| o_cls := m; o_attrs := a |} _ H4). apply H1.
      * now rewrite (proj2 (attrs_old s o t n d s' o' R C m H4)).
      * eapply ancestor_mono; eauto.
      * rewrite E1, app_length. lia.
      * rewrite E1, app_length. lia.
Qed.
Lemma ancestor_trans s c b a : ancestor s c b -> ancestor s b a -> ancestor s c a.
Proof. induction 1; auto. intros Q. eapply an_base; eauto. Qed.
Lemma default_origin s o o'' : reachable s -> default_transformed s o = Some o'' -> exists rv t, (forall b x,
  op_logprob dlp jac s true o'' (TPair b x) = plus (op_logprob dlp jac s true rv b) (jac t x)) /\ transform_attr s (o_cls o'') = Some t /\ ancestor s (o_cls o) (o_cls rv).
Proof.
  intros R H. unfold default_transformed in H.
  assert (K : forall l m, first_of (fun c => look c (dt_reg s)) l = Some m -> exists c, In c l /\ In (c, m) (dt_reg s)).
  { induction l as [|a l IH]; intros m; cbn; [discriminate|]. destruct (look a (dt_reg s)) as [i|] eqn:E.
    - intros Q. injection Q as ->. exists a. split; [now left|]. clear -E. induction (dt_reg s) as [|[k i] r IH]; cbn in *; [discriminate|].
      destruct (a =? k) eqn:Ek; [apply Nat.eqb_eq in Ek; subst; injection E as ->; now left|right; auto].
    - intros Q. destruct (IH m Q) as (b & Hb & Hi). exists b. split; [now right|auto]. }
  destruct (first_of _ _) as [m|] eqn:E; [|discriminate]. cbn in H. injection H as <-. apply K in E as (c & Hc & Hi).
  destruct (reg_origin s R c m Hi) as (rv & t & H1 & H2 & H3 & _). exists rv, t. split; [intros; apply H1|]. split; [exact H2|].
  eapply ancestor_trans; [|exact H3]. apply mro_ancestor; auto. now apply reachable_good.
Qed.
End Origin.
Lemma op_new_any dlp jac s o t n d s' o' : reachable s -> create s o t n d = Some (s', o') -> forall b x,
  op_logprob dlp jac s' true o' (TPair b x) = plus (op_logprob dlp jac s true o b) (jac t x) /\
  op_logprob dlp jac s' false o' (TPair b x) = op_logprob dlp jac s true o b /\
  forall uj, op_logprob dlp jac s' uj o' (TPlain x) = Raise.
Proof. intros R C b x. pose proof (op_new dlp jac s o t n d s' o' R C (o_attrs o') b x) as H. now destruct o'. Qed.
Lemma default_all s o t n d s' o' : reachable s -> create s o t n d = Some (s', o') ->
  default_transformed s' o' = Some {| o_cls := o_cls o'; o_attrs := 0 |} /\
  forall o1, exists_class s (o_cls o1) ->
  (d = false -> default_transformed s' o1 = default_transformed s o1) /\
  (~ ancestor s (o_cls o1) (o_cls o) -> default_transformed s' o1 = default_transformed s o1) /\
  (d = true -> forall a, nearest s (fun c => c = o_cls o \/ exists m, In (c, m) (dt_reg s)) (o_cls o1) a ->
     (a = o_cls o -> default_transformed s' o1 = Some {| o_cls := o_cls o'; o_attrs := 0 |}) /\
     (a <> o_cls o -> default_transformed s' o1 = default_transformed s o1)).
Proof.
  intros R C. split; [now apply (default_self s o t n d)|]. intros o1 L. split; [|split].
  - intros ->. now apply (default_other s o t n s' o').
  - intros N. destruct d; [now apply (default_none s o t n s' o')|now apply (default_other s o t n s' o')].
  - intros -> a N. now apply (default_set s o t n s' o').
Qed.
Lemma default_factor dlp jac s o t n s' o' : reachable s -> create s o t n true = Some (s', o') -> exists o'',
  default_transformed s' o = Some o'' /\ transform_attr s' (o_cls o'') = Some t /\
  forall b x, op_logprob dlp jac s' true o'' (TPair b x) = plus (op_logprob dlp jac s' true o b) (jac t x).
Proof.
  intros R C. destruct (create_inv _ _ _ _ _ _ _ C) as (k & Hk & _). exists {| o_cls := o_cls o'; o_attrs := 0 |}. split; [|split].
  - apply (proj1 (default_set s o t n s' o' R C o (o_cls o) ltac:(eapply ne_self; [exact Hk|now left])) eq_refl).
  - apply (attrs_new s o t n true s' o' R C).
  - intros b x. rewrite (op_old dlp jac s o t n true s' o' R C true o b ltac:(eapply lt_class; exact Hk)). apply (op_new dlp jac s o t n true s' o' R C 0 b x).
Qed.
