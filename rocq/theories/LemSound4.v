(** Joint log-probabilities at any values: a result that denotes a density is
    the density at draws that give these values. *)
From Coq Require Import Reals Lra Lia List Arith Bool.
From Coquelicot Require Import Coquelicot.
From Verif Require Import XR XTac SpecDist ModelDist LemDist ModelVec SpecVec LemDisc ModelJoint ModelTrans ModelNest SpecNest LemNest LemNest2 RMx ModelSys SpecSys LemSys LemSys2 LemSys3
  LemSound ModelStack SpecStack LemStack LemStack2 SpecSound LemSound3.
Import ListNotations.
Open Scope nat_scope.

Lemma means_occs fs rho rho' e r : (forall i, In i (occs e) -> rho i = rho' i) -> means fs rho e r -> means fs rho' e r.
Proof.
  revert r.
  assert (L : forall es, List.Forall (fun e => forall r, (forall i, In i (occs e) -> rho i = rho' i) -> means fs rho e r -> means fs rho' e r) es -> forall rs,
     (forall i, In i (flat_map occs es) -> rho i = rho' i) -> Forall2 (means fs rho) es rs -> Forall2 (means fs rho') es rs).
  { induction es as [|e0 es IH]; intros H rs O F; inversion F as [|? r ? rs' A B]; subst; [constructor|].
    constructor; [apply (Forall_inv H); auto; intros i I; apply O; cbn; apply in_or_app; auto|]. apply IH; auto; [exact (Forall_inv_tail H)|]. intros i I. apply O. cbn. apply in_or_app. auto. }
  induction e as [i|c|u e IH|n es IH|a b IHa IHb|a b IHa IHb|k es IH] using nexpr_ind'; intros y O M; inversion M as [| |? r M1|? r M1 Q|? r M1 Q|? rs M1|? rs M1|? ? r s M1 M2|? ? r s M1 M2 Q|? ? rs ? M1 Q]; subst; cbn in O.
  1: rewrite (O i) by auto; apply m_rv.
  all: try (econstructor; eauto; fail).
  - constructor; [apply IHa|apply IHb]; auto; intros i I; apply O, in_or_app; auto.
  - constructor; [apply IHa|apply IHb|exact Q]; auto; intros i I; apply O, in_or_app; auto.
Qed.

Section Back.
Variable fs : nat -> list xr -> xr.
Variable h : list snode.
Variable req : list nat.
Variable y : nat -> R.
Hypothesis Ac : acyclic h.
Notation unf := (unfold h req (fun v => Fin (y v))).
Notation tp := (top h req (fun v => Fin (y v))).
Notation sval := (svalue fs h).
Lemma Forall2_map_inv {A B C} (P : B -> C -> Prop) (f : A -> B) l m : Forall2 P (map f l) m -> Forall2 (fun a c => P (f a) c) l m.
Proof. revert m. induction l as [|a l IH]; intros m F; inversion F; subst; constructor; auto. Qed.
Lemma expand_sval rho go v r : (forall nd a s, nth_error h v = Some nd -> In a (node_inputs nd) -> means fs rho (go a) s -> sval rho a s) ->
  means fs rho (expand h go v) r -> sval rho v r.
Proof.
  intros G. unfold expand. destruct (nth_error h v) as [nd|] eqn:E; [|intros M; inversion M]. specialize (G nd).
  assert (GL : forall l rs, incl l (node_inputs nd) -> Forall2 (means fs rho) (map go l) rs -> Forall2 (sval rho) l rs).
  { intros l rs I F. apply Forall2_map_inv in F. revert F. apply Forall2_imp2. intros a s Ia. apply G; auto. }
  destruct nd as [c|d ps|u a|n l|a b|a b|k l]; intros M; inversion M as [| |? s M1|? s M1 Q|? s M1 Q|? rs M1|? rs M1|? ? s t M1 M2|? ? s t M1 M2 Q|? ? rs ? M1 Q]; subst.
  - now apply v_con.
  - exact (v_rv fs h rho v d ps E).
  - apply (v_exp fs h rho v a s E). apply G; cbn; auto.
  - apply (v_log fs h rho v a s E); auto. apply G; cbn; auto.
  - apply (v_recip fs h rho v a s E); auto. apply G; cbn; auto.
  - apply (v_add fs h rho v l rs E). apply GL; [apply incl_refl|auto].
  - apply (v_mul fs h rho v l rs E). apply GL; [apply incl_refl|auto].
  - apply (v_sub fs h rho v a b s t E); apply G; cbn; auto.
  - apply (v_div fs h rho v a b s t E); auto; apply G; cbn; auto.
  - apply (v_other fs h rho v k l rs r E); auto. apply GL; [apply incl_refl|auto].
Qed.
Lemma unfold_sval rho N : (forall q, In q req -> q < N -> sval rho q (y q)) ->
  forall fuel v r, v < N -> means fs rho (unf fuel v) r -> sval rho v r.
Proof.
  intros Q. induction fuel as [|fuel IH]; intros v r LN M; [inversion M|]. cbn [unfold] in M. destruct (mem v req) eqn:E.
  - apply mem_In in E. inversion M; subst. now apply Q.
  - revert M. apply expand_sval. intros nd a s En I. pose proof (in_range h Ac v nd a En I). apply IH. lia.
Qed.
Lemma top_sval rho v r : (forall q, In q req -> q < v -> sval rho q (y q)) -> means fs rho (tp v) r -> sval rho v r.
Proof. intros Q. apply expand_sval. intros nd a s En I. pose proof (in_range h Ac v nd a En I). apply (unfold_sval rho v Q). lia. Qed.

(** the model with the other variables fixed unfolds to the same tree *)
Lemma unfold_fixed g v : others_fixed h req y v g -> forall fuel a, a < v -> v < length h -> unfold g req (fun v => Fin (y v)) fuel a = unf fuel a.
Proof.
  intros (Lg & G). induction fuel as [|fuel IH]; intros a L LV; [reflexivity|]. cbn [unfold]. destruct (mem a req) eqn:M; [reflexivity|]. apply mem_not in M.
  unfold expand. rewrite (proj2 (G a ltac:(lia)) (or_introl M)). destruct (nth_error h a) as [nd|] eqn:E; [|reflexivity].
  assert (Q : forall b, In b (node_inputs nd) -> unfold g req (fun v => Fin (y v)) fuel b = unf fuel b) by (intros b I; pose proof (in_range h Ac a nd b E I); apply IH; lia).
  destruct nd; cbn in Q; try reflexivity; f_equal; auto; apply map_ext_in; auto.
Qed.
Lemma top_fixed g v : others_fixed h req y v g -> v < length h -> top g req (fun v => Fin (y v)) v = tp v.
Proof.
  intros F LV. pose proof F as (Lg & G). unfold top, expand. rewrite Lg, (proj2 (G v LV) (or_intror eq_refl)). destruct (nth_error h v) as [nd|] eqn:E; [|reflexivity].
  assert (Q : forall b, In b (node_inputs nd) -> unfold g req (fun v => Fin (y v)) (length h) b = unf (length h) b) by (intros b I; pose proof (in_range h Ac v nd b E I); apply (unfold_fixed g v F); lia).
  destruct nd; cbn in Q; try reflexivity; f_equal; auto; apply map_ext_in; auto.
Qed.
Lemma sensible_means v : sensible fs h req y v -> v < length h -> exists rho x, means fs rho (tp v) x.
Proof.
  intros (g & rho & x & F & V) LV. exists rho, x. rewrite <- (top_fixed g v F LV). pose proof F as (Lg & G).
  assert (Ag : acyclic g).
  { intros i nd a E I. assert (Li : i < length h) by (rewrite <- Lg; apply nth_error_Some; congruence). destruct (in_dec Nat.eq_dec i req) as [R|R].
    - destruct (Nat.eq_dec i v) as [Q|Q]; [rewrite (proj2 (G i Li)) in E by auto; exact (Ac i nd a E I)|]. rewrite (proj1 (G i Li)) in E by auto. injection E as <-. destruct I.
    - rewrite (proj2 (G i Li)) in E by auto. exact (Ac i nd a E I). }
  apply (top_means fs g req y Ag); [|exact V]. intros q Rq Lq. apply v_con. apply G; [lia|]. split; [exact Rq|lia].
Qed.
End Back.

Lemma sys_attained ddt fs dlp h req y base r d : acyclic h ->
  (forall v, In v req -> leads h req v (base v)) ->
  (forall v w, In v req -> In w req -> base v = base w -> v = w) ->
  (forall v, In v req -> sensible fs h req y v) ->
  joint ddt fs dlp h req (fun v => Fin (y v)) = Some r -> denotes r d ->
  exists rho, forall v, In v req -> svalue fs h rho v (y v).
Proof.
  intros Ac Ld Inj Se Ej Dr. unfold joint in Ej. destruct (conditionals _ _ _ _ _ _ req) as [rs|] eqn:Ec; [|discriminate]. injection Ej as <-.
  assert (Mb : forall v m, In v req -> a_m (annotate (rv_dtype ddt h) fs (top h req (fun v => Fin (y v)) v)) = Some m -> mbase m = base v).
  { intros v m V E. destruct (accepted_chain _ _ _ _ E) as [C _]. destruct (proj1 (leads_chain h req y Ac v (base v)) (Ld v V)) as [C' _]. apply chain_occs in C, C'. congruence. }
  assert (Oc : forall v, In v req -> occs (top h req (fun v => Fin (y v)) v) = [base v]).
  { intros v V. destruct (proj1 (leads_chain h req y Ac v (base v)) (Ld v V)) as [C' _]. now apply chain_occs. }
  assert (Each : forall v, In v req -> exists x, forall rho, rho (base v) = x -> means fs rho (top h req (fun v => Fin (y v)) v) (y v)).
  { intros v V. destruct (conds_inv fs h req y ddt dlp req rs d Ec Dr v V) as (r & dv & E & D). unfold conditional in E.
    destruct (a_m (annotate (rv_dtype ddt h) fs (top h req (fun v => Fin (y v)) v))) as [m|] eqn:Em; [|discriminate]. injection E as <-.
    destruct (sensible_means fs h req y Ac v (Se v V)) as (rho & x0 & M); [apply (leads_chain h req y Ac v (base v)), Ld, V|].
    destruct (nested_attained _ fs rho _ _ m x0 (y v) dv Em M D) as [x X]. exists x. intros rho' Q. revert X. apply means_occs. rewrite (Oc v V), (Mb v m V Em). intros i [<-|[]]. now rewrite upd_same. }
  assert (All : forall l, incl l req -> exists rho, forall v, In v l -> forall rho', rho' (base v) = rho (base v) -> means fs rho' (top h req (fun v => Fin (y v)) v) (y v)).
  { induction l as [|v l IH]; intros I; [exists (fun _ => 0%R); intros v []|]. destruct IH as [rho H]; [intros z Z; apply I; now right|].
    destruct (Each v (I v (or_introl eq_refl))) as [x X]. exists (upd rho (base v) x). intros w [<-|W] rho' Q; [apply X; now rewrite Q, upd_same|].
    destruct (Nat.eq_dec (base w) (base v)) as [B|B].
    - assert (w = v) as -> by (apply Inj; auto; apply I; [now right|now left]). apply X. now rewrite Q, upd_same.
    - apply H; auto. rewrite Q. unfold upd. now apply Nat.eqb_neq in B as ->. }
  destruct (All req (incl_refl _)) as [rho H]. exists rho. intros v. induction v as [v IH] using lt_wf_ind. intros V.
  apply (top_sval fs h req y Ac rho v); [intros q Q L; now apply IH|]. now apply H.
Qed.
(** the draws are determined by the values, and nothing on the chains is multiplied by zero or the reciprocal of a negative number *)
Lemma sys_points ddt fs dlp h req y base rho r d : acyclic h ->
  (forall v, In v req -> leads h req v (base v)) ->
  (forall v, In v req -> svalue fs h rho v (y v)) ->
  joint ddt fs dlp h req (fun v => Fin (y v)) = Some r -> denotes r d ->
  forall v, In v req -> smooth fs h req rho v (base v) /\ forall rho', (forall w, In w req -> svalue fs h rho' w (y w)) -> rho' (base v) = rho (base v).
Proof.
  intros Ac Ld Val Ej Dr v V. unfold joint in Ej. destruct (conditionals _ _ _ _ _ _ req) as [rs|] eqn:Ec; [|discriminate]. injection Ej as <-.
  destruct (conds_inv fs h req y ddt dlp req rs d Ec Dr v V) as (r & dv & E & D).
  pose proof (cond_smooth fs h req y Ac ddt dlp rho v (base v) r dv Val V (Ld v V) E D) as S. split; [exact S|]. intros rho' Val'.
  pose proof (smooth_regular fs h req y Ac rho v (base v) S ltac:(auto)) as G.
  assert (M : forall rho, (forall w, In w req -> svalue fs h rho w (y w)) -> means fs rho (top h req (fun v => Fin (y v)) v) (y v)) by (intros r0 H; apply (top_means fs h req y Ac r0 v); auto).
  assert (O : occs (top h req (fun v => Fin (y v)) v) = [base v]) by (apply chain_occs, (leads_chain h req y Ac v (base v)), Ld, V).
  assert (U : upd rho (base v) (rho (base v)) = rho) by (apply FunctionalExtensionality.functional_extensionality; intros j; unfold upd; destruct (Nat.eqb_spec j (base v)); congruence).
  apply (nested_inj fs rho (base v) (rho' (base v)) (rho (base v)) (top h req (fun v => Fin (y v)) v) (y v)).
  - now rewrite U. - apply (means_occs fs rho'); [|now apply M]. rewrite O. intros i [<-|[]]. now rewrite upd_same. - rewrite U. now apply M.
Qed.
Lemma sys_reached ddt fs dlp h req y base r d : acyclic h ->
  (forall v, In v req -> leads h req v (base v)) ->
  (forall v w, In v req -> In w req -> base v = base w -> v = w) ->
  (forall v, In v req -> sensible fs h req y v) ->
  joint ddt fs dlp h req (fun v => Fin (y v)) = Some r -> denotes r d ->
  exists rho, (forall v, In v req -> svalue fs h rho v (y v)) /\ (forall v, In v req -> smooth fs h req rho v (base v)) /\
    forall rho', (forall w, In w req -> svalue fs h rho' w (y w)) -> forall v, In v req -> rho' (base v) = rho (base v).
Proof.
  intros Ac Ld Inj Se Ej Dr. destruct (sys_attained ddt fs dlp h req y base r d Ac Ld Inj Se Ej Dr) as [rho Val].
  pose proof (sys_points ddt fs dlp h req y base rho r d Ac Ld Val Ej Dr) as P. exists rho. split; [exact Val|]. split; [intros v V; now apply P|]. intros rho' Val' v V. now apply P.
Qed.
