(** Lemmas on whole models: values, dependence on draws, the joint density. *)
From Coq Require Import Reals Lra Lia List Arith Bool.
From Coquelicot Require Import Coquelicot.
From Verif Require Import XR SpecDist ModelDist ModelVec SpecVec LemDisc ModelJoint ModelNest SpecNest LemNest LemNest2 LemScan RMx LemMvn2 LemDet ModelSys SpecSys LemSys.
Import ListNotations.
Open Scope nat_scope.

Section Graph.
Variable fs : nat -> list xr -> xr.
Variable h : list snode.
Variable req : list nat.
Variable y : nat -> R.
Hypothesis Ac : acyclic h.
Notation unf := (unfold h req (fun v => Fin (y v))).
Notation tp := (top h req (fun v => Fin (y v))).
Notation sval := (svalue fs h).
Notation occn := (known h req).

Lemma svals_means rho v nd l rs : (forall q, In q req -> q < v -> sval rho q (y q)) -> nth_error h v = Some nd -> incl l (node_inputs nd) ->
  Forall2 (sval rho) l rs -> Forall2 (means fs rho) (map (unf (length h)) l) rs.
Proof.
  intros Q E I F. apply Forall2_map_l. revert F. apply Forall2_imp2. intros a b A V. pose proof (in_range h Ac v nd a E (I a A)).
  apply (unfold_means fs h req y Ac rho v Q); [lia|lia|exact V].
Qed.
Lemma smooth_regular rho v b : smooth fs h req rho v b -> (forall q, In q req -> q < v -> sval rho q (y q)) -> regular fs rho b (tp v).
Proof.
  intros H. induction H as [v d ps E|v u a b r E N H IH V P|v l a r b E N H IH Kl Kr NE|v l a r b ls rs E N H IH Kl Kr NE Vl Vr NZ|v a c b E N H IH K|v a c b E K N H IH|v a c b E N H IH K|v a c b r s E K N H IH Va Nr Vc Ps];
    intros Q; assert (QA : forall x, x < v -> forall q, In q req -> q < x -> sval rho q (y q)) by (intros x X q I L; apply Q; [exact I|lia]);
    unfold top, expand; rewrite E.
  - apply g_rv.
  - destruct (in_range h Ac v _ a E) as [L1 L2]; [cbn; auto|]. rewrite unfold_top by (auto; lia). apply (g_one _ _ _ _ _ r); [apply IH, QA; lia| |exact P].
    apply top_means; auto. apply QA; lia.
  - destruct (in_range h Ac v _ a E) as [L1 L2]; [cbn; apply in_or_app; cbn; auto|]. rewrite map_app. cbn [map]. rewrite unfold_top by (auto; lia). apply g_add; [apply IH, QA; lia| | |].
    + cbn. apply (knowns_occs h req y Ac v _ l E); [|exact Kl]. intros x X. cbn. apply in_or_app. auto.
    + cbn. apply (knowns_occs h req y Ac v _ r E); [|exact Kr]. intros x X. cbn. apply in_or_app. cbn. auto.
    + rewrite <- map_app. destruct (l ++ r); [easy|discriminate].
  - destruct (in_range h Ac v _ a E) as [L1 L2]; [cbn; apply in_or_app; cbn; auto|]. rewrite map_app. cbn [map]. rewrite unfold_top by (auto; lia).
    assert (Il : incl l (node_inputs (SMany NMul (l ++ a :: r)))) by (intros x X; cbn; apply in_or_app; auto).
    assert (Ir : incl r (node_inputs (SMany NMul (l ++ a :: r)))) by (intros x X; cbn; apply in_or_app; cbn; auto).
    apply (g_mul _ _ _ _ _ _ ls rs); [apply IH, QA; lia| | | | | |exact NZ].
    + cbn. now apply (knowns_occs h req y Ac v _ l E).
    + cbn. now apply (knowns_occs h req y Ac v _ r E).
    + rewrite <- map_app. destruct (l ++ r); [easy|discriminate].
    + exact (svals_means rho v _ l ls Q E Il Vl).
    + exact (svals_means rho v _ r rs Q E Ir Vr).
  - destruct (in_range h Ac v _ a E) as [L1 L2]; [cbn; auto|]. destruct (in_range h Ac v _ c E) as [L3 _]; [cbn; auto|]. rewrite (unfold_top h req y Ac a) by (auto; lia).
    apply g_sub_l; [apply IH, QA; lia|]. apply (known_occs h req y Ac (length h) c); auto; lia.
  - destruct (in_range h Ac v _ a E) as [L1 L2]; [cbn; auto|]. destruct (in_range h Ac v _ c E) as [L3 _]; [cbn; auto|]. rewrite (unfold_top h req y Ac c) by (auto; lia).
    apply g_sub_r; [apply IH, QA; lia|]. apply (known_occs h req y Ac (length h) a); auto; lia.
  - destruct (in_range h Ac v _ a E) as [L1 L2]; [cbn; auto|]. destruct (in_range h Ac v _ c E) as [L3 _]; [cbn; auto|]. rewrite (unfold_top h req y Ac a) by (auto; lia).
    apply g_div_l; [apply IH, QA; lia|]. apply (known_occs h req y Ac (length h) c); auto; lia.
  - destruct (in_range h Ac v _ a E) as [L1 L2]; [cbn; auto|]. destruct (in_range h Ac v _ c E) as [L3 _]; [cbn; auto|]. rewrite (unfold_top h req y Ac c) by (auto; lia).
    apply (g_div_r _ _ _ _ _ r s); [apply IH, QA; lia| | |exact Nr| |exact Ps].
    + apply (known_occs h req y Ac (length h) a); auto; lia.
    + apply (unfold_means fs h req y Ac rho v Q); auto; lia.
    + apply top_means; auto. apply QA; lia.
Qed.
Lemma smooth_leads rho v b : smooth fs h req rho v b -> leads h req v b.
Proof.
  induction 1 as [v d ps E|v u a b r E N H IH V P|v l a r b E N H IH Kl Kr NE|v l a r b ls rs E N H IH Kl Kr NE Vl Vr NZ|v a c b E N H IH K|v a c b E K N H IH|v a c b E N H IH K|v a c b r s E K N H IH Va Nr Vc Ps].
  - exact (d_rv _ _ v d ps E). - exact (d_one _ _ v u a b E N IH). - exact (d_many _ _ v NAdd l a r b E N IH Kl Kr NE). - exact (d_many _ _ v NMul l a r b E N IH Kl Kr NE).
  - exact (d_sub_l _ _ v a c b E N IH K). - exact (d_sub_r _ _ v a c b E K N IH). - exact (d_div_l _ _ v a c b E N IH K). - exact (d_div_r _ _ v a c b E K N IH).
Qed.
Lemma leads_rv v b : leads h req v b -> exists d ps, nth_error h b = Some (SRv d ps).
Proof. induction 1; eauto. Qed.

(** ** dependence on draws *)
Inductive deps (b : nat) : nat -> Prop :=
| dp_rv d ps : nth_error h b = Some (SRv d ps) -> deps b b
| dp_in v nd a : nth_error h v = Some nd -> (forall d ps, nd <> SRv d ps) -> In a (node_inputs nd) -> deps b a -> deps b v.
Lemma svalue_indep rho b t : forall v r, ~ deps b v -> sval rho v r -> sval (upd rho b t) v r.
Proof.
  intros v. induction v as [v IH] using lt_wf_ind. intros r D V.
  assert (L : forall nd a s, nth_error h v = Some nd -> (forall d ps, nd <> SRv d ps) -> In a (node_inputs nd) -> sval rho a s -> sval (upd rho b t) a s).
  { intros nd a s E N I A. apply IH; [exact (Ac v nd a E I)| |exact A]. intros Da. apply D. exact (dp_in b v nd a E N I Da). }
  inversion V as [? c E|? d ps E|? a s E A|? a s E A P|? a s E A P|? l rs E F|? l rs E F|? a c s s' E A B|? a c s s' E A B P|? k l rs ? E F K]; subst;
    try (assert (N : forall d ps, match nth_error h v with Some nd => nd <> SRv d ps | None => True end) by (intros; rewrite E; discriminate); rewrite E in N).
  - now apply v_con.
  - replace (rho v) with (upd rho b t v); [exact (v_rv fs h _ v d ps E)|]. unfold upd. destruct (Nat.eqb_spec v b); [|reflexivity]. subst v. destruct D. exact (dp_rv b d ps E).
  - apply (v_exp _ _ _ _ a s E). apply (L _ _ _ E N); cbn; auto.
  - apply (v_log _ _ _ _ a s E); [|exact P]. apply (L _ _ _ E N); cbn; auto.
  - apply (v_recip _ _ _ _ a s E); [|exact P]. apply (L _ _ _ E N); cbn; auto.
  - apply (v_add _ _ _ _ l rs E). revert F. apply Forall2_imp2. intros a s I. exact (L _ a s E N I).
  - apply (v_mul _ _ _ _ l rs E). revert F. apply Forall2_imp2. intros a s I. exact (L _ a s E N I).
  - apply (v_sub _ _ _ _ a c s s' E); apply (L _ _ _ E N); cbn; auto.
  - apply (v_div _ _ _ _ a c s s' E); [apply (L _ _ _ E N); cbn; auto|apply (L _ _ _ E N); cbn; auto|exact P].
  - apply (v_other _ _ _ _ k l rs r E); [|exact K]. revert F. apply Forall2_imp2. intros a s I. exact (L _ a s E N I).
Qed.
Lemma occs_input go v nd a b : nth_error h v = Some nd -> (forall d ps, nd <> SRv d ps) -> In a (node_inputs nd) -> In b (occs (go a)) -> In b (occs (expand h go v)).
Proof.
  intros E N I B. unfold expand. rewrite E. destruct nd as [c|d ps|u x|n l|x z|x z|k l]; cbn [node_inputs occs] in *.
  - destruct I. - now destruct (N d ps). - destruct I as [<-|[]]. exact B.
  - apply in_flat_map. exists (go a). split; [now apply in_map|exact B].
  - apply in_or_app. destruct I as [<-|[<-|[]]]; auto.
  - apply in_or_app. destruct I as [<-|[<-|[]]]; auto.
  - apply in_flat_map. exists (go a). split; [now apply in_map|exact B].
Qed.
Lemma deps_cases b v : deps b v -> In b (occs (tp v)) \/ exists q, In q req /\ q < v /\ deps b q.
Proof.
  induction 1 as [d ps E|v nd a E N I D IH].
  - left. unfold top, expand. rewrite E. cbn. auto.
  - destruct (in_range h Ac v nd a E I) as [L1 L2]. destruct (mem a req) eqn:M.
    + apply mem_In in M. right. exists a. auto.
    + apply mem_not in M. destruct IH as [O|(q & Q & L & Dq)]; [left|right; exists q; repeat split; auto; lia].
      apply (occs_input _ v nd a b E N I). now rewrite unfold_top by (auto; lia).
Qed.

Variable base : nat -> nat.
Hypothesis Lead : forall v, In v req -> leads h req v (base v).
Hypothesis Inj : forall v w, In v req -> In w req -> base v = base w -> v = w.
Lemma deps_order w : In w req -> forall v, In v req -> deps (base w) v -> v = w \/ w < v.
Proof.
  intros W v. induction v as [v IH] using lt_wf_ind. intros V D. destruct (deps_cases _ _ D) as [O|(q & Q & L & Dq)].
  - destruct (proj1 (leads_chain h req y Ac v (base v)) (Lead v V)) as [C _]. rewrite (chain_occs _ _ C) in O. destruct O as [O|[]]. left. now apply Inj.
  - destruct (IH q L Q Dq); right; lia.
Qed.

(** ** factors *)
Variable ddt : nat -> dtype.
Variable dlp : nat -> list xr -> xr -> res xr.
Variable rho : nat -> R.
Hypothesis Val : forall v, In v req -> sval rho v (y v).
Notation cond := (conditional ddt fs dlp h req (fun v => Fin (y v))).
Lemma params_values b d ps rs : nth_error h b = Some (SRv d ps) -> List.Forall occn ps -> Forall2 (sval rho) ps rs ->
  rv_logprob ddt fs dlp h req (fun v => Fin (y v)) b (Fin (rho b)) = dlp d (map Fin rs) (Fin (rho b)).
Proof.
  intros E K V. unfold rv_logprob. rewrite E. f_equal. rewrite <- (vals_plain (rv_dtype ddt h) fs rho (map (unf (length h)) ps) rs).
  - rewrite !map_map. reflexivity.
  - now apply (knowns_occs h req y Ac b _ ps E (incl_refl _)).
  - apply (svals_means rho b (SRv d ps)); auto. apply incl_refl.
Qed.
Lemma partial_fun v b D D' : partial fs h rho v b D -> partial fs h rho v b D' -> D = D'.
Proof.
  intros (g & L & G) (g' & L' & G'). assert (EQ : locally (rho b) (fun t => g t = g' t)).
  { generalize (filter_and _ _ L L'). apply filter_imp. intros t [A B]. exact (svalue_fun fs h Ac _ v _ _ A B). }
  pose proof (is_derive_ext_loc g g' (rho b) D EQ G) as G2. apply is_derive_unique in G2. apply is_derive_unique in G'. congruence.
Qed.
Lemma partial_zero v w : In v req -> In w req -> v <> w -> ~ w < v -> forall D, partial fs h rho v (base w) D -> D = 0%R.
Proof.
  intros V W N L D P. assert (ND : ~ deps (base w) v). { intros X. destruct (deps_order w W v V X); auto. }
  apply (partial_fun v (base w)); [exact P|]. exists (fun _ => y v). split; [|apply (is_derive_const (K := R_AbsRing) (V := R_NormedModule))].
  apply filter_forall. intros t. apply svalue_indep; auto.
Qed.
Definition float_base (v : nat) : Prop := rv_dtype ddt h (base v) <> DInt \/ base v = v.
Lemma factor_ok v D p : In v req -> smooth fs h req rho v (base v) -> float_base v ->
  denotes (rv_logprob ddt fs dlp h req (fun v => Fin (y v)) (base v) (Fin (rho (base v)))) p ->
  partial fs h rho v (base v) D -> D <> 0%R /\ exists r, cond v = Some r /\ denotes r (p / Rabs D).
Proof.
  intros V Sm Fb Lp Pa. unfold conditional.
  destruct Fb as [Fb|Fb].
  - destruct (nested_density (rv_dtype ddt h) fs rho (base v) (rv_logprob ddt fs dlp h req (fun v => Fin (y v))) (fun _ => p) (tp v) (y v) Fb Lp) as (m & d & E & (g & g' & Lg & Eg & Dg & Ng & ->) & Den).
    + apply smooth_regular; auto.
    + apply top_means; auto.
    + destruct Pa as (G & LG & DG). assert (EQ : locally (rho (base v)) (fun t => G t = g t)).
      { generalize (filter_and _ _ LG Lg). apply filter_imp. intros t [A B]. apply (means_fun fs (upd rho (base v) t) (tp v)); [|exact B].
        apply top_means; auto. intros q Q L. apply svalue_indep; auto. intros X. destruct (deps_order v V q Q X); lia. }
      pose proof (is_derive_ext_loc G g _ D EQ DG) as G2. apply is_derive_unique in G2. apply is_derive_unique in Dg. assert (D = g') as -> by congruence.
      split; [exact Ng|]. rewrite E. eexists. split; [reflexivity|exact Den].
  - destruct (leads_rv _ _ (Lead v V)) as (d & ps & Eb). rewrite Fb in *.
    assert (D = 1%R) as ->. { apply (partial_fun v v); [exact Pa|]. exists (fun t => t). split; [|apply (is_derive_id (K := R_AbsRing))].
      apply filter_forall. intros t. pose proof (v_rv fs h (upd rho v t) v d ps Eb) as X. now rewrite upd_rv in X. }
    split; [lra|]. unfold top, expand. rewrite Eb. cbn [annotate a_m nested_logprob]. eexists. split; [reflexivity|]. rewrite Rabs_R1. replace (p / 1)%R with p by field.
    assert (y v = rho v) as ->; [|exact Lp]. apply (svalue_fun fs h Ac rho v); auto. exact (v_rv fs h rho v d ps Eb).
Qed.
End Graph.
