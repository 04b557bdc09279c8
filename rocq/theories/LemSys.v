(** Lemmas on whole models. *)
From Coq Require Import Reals Lra Lia List Arith Bool.
From Coquelicot Require Import Coquelicot.
From Verif Require Import XR SpecDist ModelDist ModelVec SpecVec LemDisc ModelJoint ModelNest SpecNest LemNest LemNest2 RMx ModelSys SpecSys.
Import ListNotations.
Open Scope nat_scope.

Lemma mem_In v l : mem v l = true <-> In v l.
Proof. unfold mem. rewrite existsb_exists. split; [intros (x & I & E); apply Nat.eqb_eq in E; now subst|intros I; exists v; split; [exact I|apply Nat.eqb_refl]]. Qed.
Lemma mem_not v l : mem v l = false <-> ~ In v l.
Proof. rewrite <- mem_In. destruct (mem v l); split; congruence. Qed.

Section Graph.
Variable fs : nat -> list xr -> xr.
Variable h : list snode.
Variable req : list nat.
Variable y : nat -> R.
Hypothesis Ac : acyclic h.
Notation unf := (unfold h req (fun v => Fin (y v))).
Notation tp := (top h req (fun v => Fin (y v))).
Notation sval := (svalue fs h).
Notation occn := (known h req).

Lemma in_range v nd a : nth_error h v = Some nd -> In a (node_inputs nd) -> a < v /\ v < length h.
Proof. intros E I. split; [exact (Ac v nd a E I)|]. apply nth_error_Some. congruence. Qed.
Lemma Forall2_imp2 {A B} (P Q : A -> B -> Prop) l m : (forall a b, In a l -> P a b -> Q a b) -> Forall2 P l m -> Forall2 Q l m.
Proof. intros H F. induction F; constructor; [apply H; cbn; auto|]. apply IHF. intros a b I. apply H. now right. Qed.
Lemma Forall2_map_l {A B C} (P : B -> C -> Prop) (f : A -> B) l m : Forall2 (fun a c => P (f a) c) l m -> Forall2 P (map f l) m.
Proof. induction 1; cbn; constructor; auto. Qed.

Lemma expand_means rho go v r : (forall nd a s, nth_error h v = Some nd -> In a (node_inputs nd) -> sval rho a s -> means fs rho (go a) s) ->
  sval rho v r -> means fs rho (expand h go v) r.
Proof.
  intros G V. unfold expand. inversion V as [? c E|? d ps E|? a s E A|? a s E A P|? a s E A P|? l rs E F|? l rs E F|? a b s s' E A B|? a b s s' E A B P|? k l rs ? E F K]; subst; rewrite E.
  - apply m_con.
  - apply m_rv.
  - apply m_exp, (G _ _ _ E); cbn; auto.
  - apply m_log; [apply (G _ _ _ E); cbn; auto|exact P].
  - apply m_recip; [apply (G _ _ _ E); cbn; auto|exact P].
  - apply m_add, Forall2_map_l. revert F. apply Forall2_imp2. intros a b I. exact (G _ _ _ E I).
  - apply m_mul, Forall2_map_l. revert F. apply Forall2_imp2. intros a b I. exact (G _ _ _ E I).
  - apply m_sub; apply (G _ _ _ E); cbn; auto.
  - apply m_div; [apply (G _ _ _ E); cbn; auto|apply (G _ _ _ E); cbn; auto|exact P].
  - apply (m_other _ _ _ _ rs); [|exact K]. apply Forall2_map_l. revert F. apply Forall2_imp2. intros a b I. exact (G _ _ _ E I).
Qed.
Lemma svalue_fun rho : forall v r s, sval rho v r -> sval rho v s -> r = s.
Proof.
  intros v. induction v as [v IH] using lt_wf_ind. intros r s A B.
  assert (L : forall nd, nth_error h v = Some nd -> forall l rs ss, incl l (node_inputs nd) -> Forall2 (sval rho) l rs -> Forall2 (sval rho) l ss -> rs = ss).
  { intros nd E. induction l as [|a l IHl]; intros rs ss I F G; inversion F; inversion G; subst; [reflexivity|]. f_equal.
    - apply (IH a); auto. apply (Ac v nd a E), I. now left.
    - apply IHl; auto. intros x X. apply I. now right. }
  inversion A as [? c E|? d ps E|? a r' E A1|? a r' E A1 P|? a r' E A1 P|? l rs E F|? l rs E F|? a b r1 r2 E A1 A2|? a b r1 r2 E A1 A2 P|? k l rs ? E F K]; subst;
  inversion B as [? c' E'|? d' ps' E'|? a' s' E' B1|? a' s' E' B1 P'|? a' s' E' B1 P'|? l' ss E' F'|? l' ss E' F'|? a' b' s1 s2 E' B1 B2|? a' b' s1 s2 E' B1 B2 P'|? k' l' ss ? E' F' K']; subst;
  pose proof (eq_trans (eq_sym E) E') as Q; try discriminate Q; injection Q; intros; subst; try reflexivity.
  - f_equal. eapply IH; [|eassumption|eassumption]. apply (Ac _ _ _ E). now left.
  - f_equal. eapply IH; [|eassumption|eassumption]. apply (Ac _ _ _ E). now left.
  - f_equal. eapply IH; [|eassumption|eassumption]. apply (Ac _ _ _ E). now left.
  - f_equal. exact (L _ E _ rs ss (incl_refl _) F F').
  - f_equal. exact (L _ E _ rs ss (incl_refl _) F F').
  - f_equal; (eapply IH; [|eassumption|eassumption]); apply (Ac _ _ _ E); cbn; auto.
  - f_equal; (eapply IH; [|eassumption|eassumption]); apply (Ac _ _ _ E); cbn; auto.
  - assert (rs = ss) as -> by exact (L _ E _ rs ss (incl_refl _) F F'). congruence.
Qed.
Lemma unfold_means rho N : (forall q, In q req -> q < N -> sval rho q (y q)) ->
  forall fuel v r, v < fuel -> v < N -> sval rho v r -> means fs rho (unf fuel v) r.
Proof.
  intros Q. induction fuel as [|fuel IH]; intros v r L LN V; [lia|]. cbn [unfold]. destruct (mem v req) eqn:M.
  - apply mem_In in M. rewrite (svalue_fun rho v r (y v) V (Q v M LN)). apply m_con.
  - apply expand_means; [|exact V]. intros nd a s E I A. pose proof (in_range v nd a E I). apply IH; [lia|lia|exact A].
Qed.
Lemma top_means rho v r : (forall q, In q req -> q < v -> sval rho q (y q)) -> sval rho v r -> means fs rho (tp v) r.
Proof.
  intros Q V. apply expand_means; [|exact V]. intros nd a s E I A. pose proof (in_range v nd a E I). apply (unfold_means rho v Q); [lia|lia|exact A].
Qed.

(** ** known nodes *)
Lemma flat_occs (go : nat -> nexpr) (l : list nat) : List.Forall (fun a => occs (go a) = []) l <-> flat_map occs (map go l) = [].
Proof. induction l as [|a l IH]; cbn; [split; auto|]. split.
  - intros H. inversion H; subst. rewrite H2. now apply IH.
  - intros H. apply app_eq_nil in H as [A B]. constructor; [exact A|now apply IH].
Qed.
Lemma expand_occs go v nd : nth_error h v = Some nd -> (forall d ps, nd <> SRv d ps) ->
  (occs (expand h go v) = [] <-> List.Forall (fun a => occs (go a) = []) (node_inputs nd)).
Proof.
  intros E N. unfold expand. rewrite E. destruct nd as [c|d ps|u a|n l|a b|a b|k l]; cbn [node_inputs occs].
  - split; auto.
  - now destruct (N d ps).
  - split; [intros H; constructor; auto|intros H; now inversion H].
  - symmetry. apply flat_occs.
  - split; [intros H; apply app_eq_nil in H as [A B]; auto|intros H; inversion H as [|? ? A B]; subst; inversion B; subst; now rewrite A].
  - split; [intros H; apply app_eq_nil in H as [A B]; auto|intros H; inversion H as [|? ? A B]; subst; inversion B; subst; now rewrite A].
  - symmetry. apply flat_occs.
Qed.
Lemma known_occs : forall fuel v, v < fuel -> v < length h -> (occn v <-> occs (unf fuel v) = []).
Proof.
  induction fuel as [|fuel IH]; intros v L LN; [lia|]. cbn [unfold]. destruct (mem v req) eqn:M.
  - split; [reflexivity|]. intros _. apply k_req. now apply mem_In.
  - apply mem_not in M. destruct (nth_error h v) as [nd|] eqn:E; [|apply nth_error_Some in LN; congruence].
    assert (Fa : List.Forall occn (node_inputs nd) <-> List.Forall (fun a => occs (unf fuel a) = []) (node_inputs nd)).
    { rewrite !List.Forall_forall. split; intros H a I; pose proof (in_range v nd a E I); apply (IH a); try lia; auto. }
    split.
    + intros K. inversion K as [? R|? nd' E' N F]; subst; [now destruct M|]. rewrite E in E'. injection E' as <-.
      apply (expand_occs _ v nd E N). now apply Fa.
    + intros O. assert (N : forall d ps, nd <> SRv d ps). { intros d ps ->. unfold expand in O. rewrite E in O. discriminate. }
      apply (k_det h req v nd E N). apply Fa. now apply (expand_occs _ v nd E N).
Qed.
Lemma knowns_occs v nd l : nth_error h v = Some nd -> incl l (node_inputs nd) -> (List.Forall occn l <-> flat_map occs (map (unf (length h)) l) = []).
Proof.
  intros E I. rewrite <- flat_occs, !List.Forall_forall. split; intros H a A; pose proof (in_range v nd a E (I a A)); apply (known_occs (length h) a); auto; lia.
Qed.
Lemma fuel_enough : forall f1 f2 v, v < f1 -> v < f2 -> v < length h -> unf f1 v = unf f2 v.
Proof.
  induction f1 as [|f1 IH]; intros f2 v L1 L2 LN; [lia|]. destruct f2 as [|f2]; [lia|]. cbn [unfold]. destruct (mem v req); [reflexivity|].
  unfold expand. destruct (nth_error h v) as [nd|] eqn:E; [|reflexivity].
  assert (G : forall a, In a (node_inputs nd) -> unf f1 a = unf f2 a). { intros a I. pose proof (in_range v nd a E I). apply IH; lia. }
  destruct nd as [c|d ps|u a|n l|a b|a b|k l]; cbn in G; try reflexivity.
  - f_equal. auto. - f_equal. now apply map_ext_in. - f_equal; auto. - f_equal; auto. - f_equal. now apply map_ext_in.
Qed.
Lemma unfold_top a : ~ In a req -> a < length h -> unf (length h) a = tp a.
Proof.
  intros N L. rewrite (fuel_enough (length h) (S (length h)) a) by lia. cbn [unfold]. apply mem_not in N. now rewrite N.
Qed.

(** ** chains *)
Lemma leads_chain v b : leads h req v b <-> chain b (tp v) /\ v < length h.
Proof.
  split.
  - intros H. split; [|inversion H; subst; apply nth_error_Some; congruence].
    induction H as [v d ps E|v u a b E N H IH|v n l a r b E N H IH Kl Kr NE|v a c b E N H IH K|v a c b E K N H IH|v a c b E N H IH K|v a c b E K N H IH];
      unfold top, expand; rewrite E.
    + apply c_rv.
    + destruct (in_range v _ a E) as [L1 L2]; [cbn; auto|]. rewrite unfold_top by (auto; lia). now apply c_one.
    + destruct (in_range v _ a E) as [L1 L2]; [cbn; apply in_or_app; cbn; auto|]. rewrite map_app. cbn [map]. rewrite unfold_top by (auto; lia). apply c_many; auto.
      * cbn. apply (knowns_occs v _ l E); [|exact Kl]. intros x X. cbn. apply in_or_app. auto.
      * cbn. apply (knowns_occs v _ r E); [|exact Kr]. intros x X. cbn. apply in_or_app. cbn. auto.
      * rewrite <- map_app. destruct (l ++ r); [easy|discriminate].
    + destruct (in_range v _ a E) as [L1 L2]; [cbn; auto|]. destruct (in_range v _ c E) as [L3 _]; [cbn; auto|]. rewrite (unfold_top a) by (auto; lia). apply c_sub_l; [exact IH|]. apply (known_occs (length h) c); auto; lia.
    + destruct (in_range v _ a E) as [L1 L2]; [cbn; auto|]. destruct (in_range v _ c E) as [L3 _]; [cbn; auto|]. rewrite (unfold_top c) by (auto; lia). apply c_sub_r; [exact IH|]. apply (known_occs (length h) a); auto; lia.
    + destruct (in_range v _ a E) as [L1 L2]; [cbn; auto|]. destruct (in_range v _ c E) as [L3 _]; [cbn; auto|]. rewrite (unfold_top a) by (auto; lia). apply c_div_l; [exact IH|]. apply (known_occs (length h) c); auto; lia.
    + destruct (in_range v _ a E) as [L1 L2]; [cbn; auto|]. destruct (in_range v _ c E) as [L3 _]; [cbn; auto|]. rewrite (unfold_top c) by (auto; lia). apply c_div_r; [exact IH|]. apply (known_occs (length h) a); auto; lia.
  - induction v as [v IH] using lt_wf_ind. intros [C LN].
    assert (Sub : forall nd a, nth_error h v = Some nd -> In a (node_inputs nd) -> chain b (unf (length h) a) -> ~ In a req /\ leads h req a b).
    { intros nd a E I Ca. pose proof (in_range v nd a E I). destruct (mem a req) eqn:M.
      - exfalso. destruct (length h) as [|n] eqn:EL; [lia|]. cbn [unfold] in Ca. rewrite M in Ca. inversion Ca.
      - apply mem_not in M. split; [exact M|]. apply IH; [lia|]. split; [|lia]. now rewrite <- unfold_top by (auto; lia). }
    unfold top, expand in C. destruct (nth_error h v) as [nd|] eqn:E; [|inversion C].
    destruct nd as [c|d ps|u a|n l|a c|a c|k l].
    + inversion C.
    + inversion C; subst. exact (d_rv _ _ v d ps E).
    + inversion C as [|? ? C1 U| | | | |]; subst. destruct (Sub _ a eq_refl) as [N H]; [cbn; auto|exact C1|]. exact (d_one _ _ v u a b E N H).
    + remember (map (unf (length h)) l) as ml eqn:U. inversion C as [| |? l1 e r1 C1 Ol Or NE EN| | | |]; clear C. subst n0. rewrite U in H. clear ml U. rename H into U. symmetry in U. apply map_eq_app in U as (l1' & l2' & -> & <- & U2).
      apply map_eq_cons in U2 as (a & r' & -> & <- & <-). destruct (Sub _ a eq_refl) as [N H]; [cbn; apply in_or_app; cbn; auto|exact C1|].
      apply (d_many _ _ v n l1' a r' b E N H).
      * apply (knowns_occs v _ l1' E); [|exact Ol]. intros x X. cbn. apply in_or_app. auto.
      * apply (knowns_occs v _ r' E); [|exact Or]. intros x X. cbn. apply in_or_app. cbn. auto.
      * rewrite <- map_app in NE. intros Z. now rewrite Z in NE.
    + inversion C as [| | |? ? C1 O|? ? C1 O| |]; subst.
      * destruct (Sub _ a eq_refl) as [N H]; [cbn; auto|exact C1|]. apply (d_sub_l _ _ v a c b E N H). destruct (in_range v _ c E) as [L3 _]; [cbn; auto|]. apply (known_occs (length h) c); auto; lia.
      * destruct (Sub _ c eq_refl) as [N H]; [cbn; auto|exact C1|]. apply (d_sub_r _ _ v a c b E); auto. destruct (in_range v _ a E) as [L3 _]; [cbn; auto|]. apply (known_occs (length h) a); auto; lia.
    + inversion C as [| | | | |? ? C1 O|? ? C1 O]; subst.
      * destruct (Sub _ a eq_refl) as [N H]; [cbn; auto|exact C1|]. apply (d_div_l _ _ v a c b E N H). destruct (in_range v _ c E) as [L3 _]; [cbn; auto|]. apply (known_occs (length h) c); auto; lia.
      * destruct (Sub _ c eq_refl) as [N H]; [cbn; auto|exact C1|]. apply (d_div_r _ _ v a c b E); auto. destruct (in_range v _ a E) as [L3 _]; [cbn; auto|]. apply (known_occs (length h) a); auto; lia.
    + inversion C.
Qed.
End Graph.
