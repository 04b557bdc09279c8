(** Requested mixtures as random variables of their own. *)
From Coq Require Import Reals Lra Lia ZArith List Arith Bool Permutation Sorted FunctionalExtensionality.
From Coquelicot Require Import Coquelicot.
From Verif Require Import XR SpecDist ModelDist ModelVec SpecCens LemInt ModelCens ModelJoint ModelMix LemMix ModelNest ModelGuard ModelCensSys SpecCensSys LemCensSys LemCensSys2 ModelMixCens SpecMixExp.
Import ListNotations.
Open Scope R_scope.

Lemma cut_map {A B} (f : A -> B) ls : forall xs, cut ls (map f xs) = map (map f) (cut ls xs).
Proof. induction ls as [|n ls IH]; intros xs; cbn [cut map]; auto. now rewrite firstn_map, skipn_map, IH. Qed.
Lemma cut_concat {A} (l : list (list A)) : cut (map (@length A) l) (concat l) = l.
Proof.
  induction l as [|a l IH]; cbn [map cut concat]; auto. rewrite firstn_app, firstn_all, Nat.sub_diag, skipn_app, skipn_all, Nat.sub_diag. cbn [firstn skipn app]. now rewrite app_nil_r, IH.
Qed.
Lemma nth_seq_combine {A} (l : list A) : forall s v, nth_error (combine (seq s (length l)) l) v = option_map (fun a => (s + v, a)%nat) (nth_error l v).
Proof. induction l as [|a l IH]; intros s [|v]; cbn; auto; [now rewrite Nat.add_0_r|]. rewrite IH. now rewrite Nat.add_succ_r. Qed.
Lemma mem_in v l : mem v l = true <-> In v l.
Proof. unfold mem. rewrite existsb_exists. split; [intros (x & I & E); apply Nat.eqb_eq in E as ->; auto|]. intros I. exists v. split; auto. apply Nat.eqb_refl. Qed.

Section Merged.
Variable sel : nat -> bool.
Variable h : list cnode.
Variable req : list nat.
Variable D : nat.
Notation h' := (merged sel h req D).
Notation mixture := (mixture sel h).
Lemma merged_nth v : nth_error h' v = option_map (merge sel h req D v) (nth_error h v).
Proof. unfold merged. rewrite nth_error_map, nth_seq_combine. destruct (nth_error h v); reflexivity. Qed.
Lemma merged_len : length h' = length h.
Proof. unfold merged. rewrite map_length, combine_length, seq_length. apply Nat.min_id. Qed.
Definition mixed (v : nat) : Prop := In v req /\ exists idx comps, mixture v idx comps.
Lemma merge_cases v n : nth_error h v = Some n -> (exists idx comps, In v req /\ mixture v idx comps /\ merge sel h req D v n = CRv (D + v) (idx :: flat_map (rv_params h) comps)) \/ (~ mixed v /\ merge sel h req D v n = n).
Proof.
  intros N. destruct n as [c|d ps|u a|n l|a b|a b|d a lo hi|op a|k l]; try (right; split; [intros (I & idx & comps & k' & N' & _); congruence|reflexivity]).
  destruct l as [|idx comps]; [right; split; [intros (I & idx & comps & k' & N' & _); congruence|reflexivity]|]. cbn [merge]. destruct (sel k) eqn:S; cbn [andb].
  - destruct (mem v req) eqn:M.
    + left. exists idx, comps. apply mem_in in M. split; auto. split; [exists k; auto|reflexivity].
    + right. split; auto. intros (I & _). apply mem_in in I. congruence.
  - right. split; auto. intros (I & idx' & comps' & k' & N' & S'). congruence.
Qed.
Lemma merged_mix v idx comps : In v req -> mixture v idx comps -> nth_error h' v = Some (CRv (D + v) (idx :: flat_map (rv_params h) comps)).
Proof. intros I (k & N & S). rewrite merged_nth, N. cbn [option_map merge]. apply mem_in in I. now rewrite S, I. Qed.
Lemma merged_same v : ~ mixed v -> nth_error h' v = nth_error h v.
Proof. intros NM. rewrite merged_nth. destruct (nth_error h v) as [n|] eqn:N; auto. cbn [option_map]. destruct (merge_cases v n N) as [(idx & comps & I & Mx & _)|(_ & ->)]; auto. destruct NM. split; eauto. Qed.
Lemma mixture_fun v idx comps idx' comps' : mixture v idx comps -> mixture v idx' comps' -> idx' = idx /\ comps' = comps.
Proof. intros (k & N & _) (k' & N' & _). split; congruence. Qed.
Lemma mixed_not_rv v d ps : nth_error h v = Some (CRv d ps) -> ~ mixed v.
Proof. intros N (_ & idx & comps & k & N' & _). congruence. Qed.
Lemma merged_rv v d ps : nth_error h v = Some (CRv d ps) -> nth_error h' v = Some (CRv d ps).
Proof. intros N. rewrite merged_same; auto. eapply mixed_not_rv; eauto. Qed.
Lemma mixed_dec v : {mixed v} + {~ mixed v}.
Proof.
  destruct (in_dec Nat.eq_dec v req) as [I|I]; [|right; intros [Q _]; easy]. destruct (nth_error h v) as [n|] eqn:N; [|right; intros (_ & idx & comps & k & Q & _); congruence].
  destruct n as [c|d ps|u a|n l|a b|a b|d a lo hi|op a|k l]; try (right; intros (_ & idx & comps & k' & Q & _); congruence).
  destruct l as [|idx comps]; [right; intros (_ & idx & comps & k' & Q & _); congruence|]. destruct (sel k) eqn:S; [left; split; auto; exists idx, comps, k; auto|right; intros (_ & idx' & comps' & k' & Q & S'); congruence].
Qed.

Variable cont : nat -> bool.
Hypothesis PM : plain_mixtures sel h req cont.
Hypothesis AC : cacyclic h.
Lemma merged_acyclic : cacyclic h'.
Proof.
  intros v n a N Ia. rewrite merged_nth in N. destruct (nth_error h v) as [n0|] eqn:N0; [|discriminate]. cbn in N. injection N as <-.
  destruct (merge_cases v n0 N0) as [(idx & comps & I & Mx & E)|(_ & E)]; rewrite E in Ia; [|eapply AC; eauto]. cbn [cinputs] in Ia. destruct Mx as (k & N & S). destruct Ia as [<-|Ia]; [apply (AC v _ idx N); cbn; auto|].
  apply in_flat_map in Ia as (b & Ib & Ia). assert (b < v)%nat by (apply (AC v _ b N); cbn; auto). unfold rv_params in Ia. destruct (nth_error h b) as [[]|] eqn:Nb; try easy. assert (a < b)%nat by (eapply AC; eauto). lia.
Qed.

(** ** the log-probabilities *)
Variable ddt : nat -> dtype.
Variable fs : nat -> list xr -> xr.
Variable dlp dlc : nat -> list xr -> xr -> res xr.
Hypothesis NB : numbered h D.
Definition m_ddt (d : nat) : dtype := if (d <? D)%nat then ddt d else DFloat.
Definition m_dlp (d : nat) (xs : list xr) (z : xr) : res xr :=
  if (d <? D)%nat then dlp d xs z else match xs with i :: xs => mixture_scalar (map (fun p => dlp (fst p) (snd p)) (parts sel h req (d - D) xs)) (index_of i) z | [] => Raise end.

Lemma dtype_same : c_dtype m_ddt h' = c_dtype ddt h.
Proof.
  apply functional_extensionality. intros i. unfold c_dtype. rewrite merged_nth. destruct (nth_error h i) as [n|] eqn:N; [|reflexivity]. cbn [option_map].
  destruct (merge_cases i n N) as [(idx & comps & I & (k & Nk & _) & ->)|(_ & ->)].
  - assert (n = COther k (idx :: comps)) as -> by congruence. unfold m_ddt. now destruct (Nat.ltb_spec (D + i) D); [lia|].
  - destruct n; auto. unfold m_ddt. apply NB in N. now destruct (Nat.ltb_spec d D); [|lia].
Qed.
Section At.
Variable y : nat -> xr.
Variable rho : nat -> xr.
Lemma unfold_same n : forall v, c_unfold h' req y n v = c_unfold h req y n v.
Proof.
  induction n as [|n IH]; intros v; [reflexivity|]. cbn [c_unfold]. destruct (mem v req) eqn:M; auto. unfold c_expand. rewrite merged_same by (intros [I _]; apply mem_in in I; congruence).
  assert (E : c_unfold h' req y n = c_unfold h req y n) by now apply functional_extensionality. now rewrite E.
Qed.
Lemma unfold_eq n : c_unfold h' req y n = c_unfold h req y n.
Proof. apply functional_extensionality, unfold_same. Qed.
Lemma top_same v : ~ mixed v -> c_top h' req y v = c_top h req y v.
Proof. intros NM. unfold c_top, c_expand. now rewrite merged_same, merged_len, unfold_eq. Qed.
Lemma rvs_same i : ~ mixed i -> c_rvs h' req y i = c_rvs h req y i.
Proof. intros NM. unfold c_rvs. now rewrite merged_same, merged_len, unfold_eq. Qed.
(** random variables in an expression *)
Fixpoint rvs_in (e : gexpr) : list nat :=
  match e with
  | GRv i => [i] | GCon _ | GIn _ | GSelf => []
  | GOne _ e | GRound _ e => rvs_in e
  | GMany _ es | GOther _ es => flat_map rvs_in es
  | GSub a b | GDiv a b => rvs_in a ++ rvs_in b
  | GClip _ e lo hi => rvs_in e ++ rvs_in lo ++ rvs_in hi
  end.
Fixpoint gm_base (m : gm) : nat := match m with GB i => i | GE _ m => gm_base m | GC _ m _ _ => gm_base m | GR _ m => gm_base m end.
Lemma construct_base l mk m : gconstruct (c_dtype ddt h) l mk = Some m -> exists a m', In a l /\ g_m a = Some m' /\ gm_base m = gm_base m'.
Proof.
  unfold gconstruct. destruct (gmeasurable l) as [|m0 [|? ?]] eqn:G; try discriminate. assert (I0 : In m0 (gmeasurable l)) by (rewrite G; now left).
  unfold gmeasurable in I0. apply in_flat_map in I0 as (a & Ia & I0). destruct (g_m a) as [m1|] eqn:A; [|easy]. destruct I0 as [->|[]].
  destruct (is_int _); [discriminate|]. destruct (existsb _ _); [discriminate|]. destruct (mk _); [|discriminate]. injection 1 as <-. exists a, m0. auto.
Qed.
Lemma nary_base n l m : g_m (g_nary (c_dtype ddt h) n l) = Some m -> exists a m', In a l /\ g_m a = Some m' /\ gm_base m = gm_base m'.
Proof. cbn [g_nary g_m]. apply construct_base. Qed.
Lemma base_in : forall e m, g_m (gannotate (c_dtype ddt h) fs rho e) = Some m -> In (gm_base m) (rvs_in e).
Proof.
  fix IH 1. intros [i|c|c| |u e|n es|a b|a b|d e lo hi|op e|k es] m; cbn [gannotate rvs_in].
  - injection 1 as <-. now left.
  - discriminate.
  - discriminate.
  - discriminate.
  - cbn [g_unary g_m]. intros H. apply construct_base in H as (a & m' & [<-|[]] & A & ->). now apply IH.
  - intros H. apply nary_base in H as (a & m' & Ia & A & ->). revert Ia A. induction es as [|e es IHl]; [intros []|]. cbn [map flat_map]. intros [<-|Ia] A; apply in_or_app; [left; now apply IH|right; now apply IHl].
  - unfold g_sub. intros H. apply nary_base in H as (q & m' & [<-|[<-|[]]] & A & ->); apply in_or_app; [left; now apply IH|]. apply nary_base in A as (q & m2 & [<-|[<-|[]]] & A & ->); [discriminate A|right; now apply IH].
  - unfold g_div. intros H. apply nary_base in H as (q & m' & [<-|[<-|[]]] & A & ->); apply in_or_app; [left; now apply IH|]. apply construct_base in A as (q & m2 & [<-|[]] & A & ->). right; now apply IH.
  - cbn [g_clip g_m]. destruct (g_m (gannotate (c_dtype ddt h) fs rho e)) as [m1|] eqn:E; [|discriminate]. injection 1 as <-. cbn [gm_base]. apply in_or_app. left. now apply IH.
  - cbn [g_round g_m]. destruct (g_m (gannotate (c_dtype ddt h) fs rho e)) as [m1|] eqn:E; [|discriminate]. destruct (is_float _); [|discriminate]. injection 1 as <-. cbn [gm_base]. now apply IH.
  - discriminate.
Qed.
Lemma expand_rvs (go : nat -> gexpr) v : (forall a i, In i (rvs_in (go a)) -> ~ mixed i) -> forall i, In i (rvs_in (c_expand h go v)) -> ~ mixed i.
Proof.
  intros G i. unfold c_expand. destruct (nth_error h v) as [[c|d ps|u a|n l|a b|a b|d a lo hi|op a|k l]|] eqn:N; cbn [rvs_in]; try (intros []; fail); eauto.
  - intros [<-|[]]. eapply mixed_not_rv; eauto.
  - intros I. apply in_flat_map in I as (e & Ie & I). apply in_map_iff in Ie as (a & <- & _). eauto.
  - intros I. apply in_app_or in I as [I|I]; eauto.
  - intros I. apply in_app_or in I as [I|I]; eauto.
  - intros I. apply in_app_or in I as [I|I]; [eauto|]. apply in_app_or in I as [I|I]; [destruct (lo =? a)%nat|destruct (hi =? a)%nat]; try (destruct I; fail); eauto.
  - intros I. apply in_flat_map in I as (e & Ie & I). apply in_map_iff in Ie as (a & <- & _). eauto.
Qed.
Lemma unfold_rvs n : forall v i, In i (rvs_in (c_unfold h req y n v)) -> ~ mixed i.
Proof. induction n as [|n IH]; intros v i; cbn [c_unfold]; [intros []|]. destruct (mem v req); [intros []|]. now apply expand_rvs. Qed.

Notation crv := (c_rvs h req y).
Notation crv' := (c_rvs h' req y).
Notation cdt := (c_dtype ddt h).
Lemma small i : ~ mixed i -> (fst (crv i) < D)%nat \/ crv i = (0%nat, []).
Proof. intros _. unfold c_rvs. destruct (nth_error h i) as [[]|] eqn:N; auto. left. cbn. eapply NB; eauto. Qed.
Hypothesis DP : (0 < D)%nat.
Lemma glp_same m : ~ mixed (gm_base m) -> forall b, glogprob cdt fs rho crv' m_dlp dlc b m = glogprob cdt fs rho crv dlp dlc b m.
Proof.
  induction m as [i|t m IH|d m IH lo hi|op m IH]; cbn [gm_base glogprob]; intros NM b.
  - unfold params. rewrite rvs_same by auto. unfold m_dlp. apply functional_extensionality. intros z. destruct (Nat.ltb_spec (fst (crv i)) D) as [|L]; auto. destruct (small i NM) as [Q|Q]; [lia|]. rewrite Q in L. cbn in L. lia.
  - now rewrite IH.
  - rewrite IH by auto. f_equal. destruct m; auto. cbn [glogcdf gm_base] in *. unfold params. now rewrite rvs_same.
  - destruct b; auto. f_equal. destruct m; auto. cbn [glogcdf gm_base] in *. unfold params. now rewrite rvs_same.
Qed.
Lemma cond_same v : ~ mixed v -> c_conditional m_ddt fs m_dlp dlc h' req y rho v = c_conditional ddt fs dlp dlc h req y rho v.
Proof.
  intros NM. unfold c_conditional, derived. rewrite dtype_same, top_same by auto. destruct (g_m (gannotate cdt fs rho (c_top h req y v))) as [m|] eqn:G; auto. apply base_in in G. f_equal.
  rewrite glp_same; auto. revert G. unfold c_top. apply expand_rvs. intros a i. apply unfold_rvs.
Qed.
Lemma cond_mixture v idx comps : In v req -> mixture v idx comps ->
  c_conditional m_ddt fs m_dlp dlc h' req y rho v = derived_mix cdt fs rho crv dlp dlc (c_unfold h req y (length h) idx) (map (c_unfold h req y (length h)) comps) (y v).
Proof.
  intros Iv Mx. destruct (PM v idx comps Iv Mx) as (Ne & c & HC). pose proof (merged_mix v idx comps Iv Mx) as Nv.
  unfold c_conditional. rewrite dtype_same. unfold c_top, c_expand. rewrite Nv. unfold derived. cbn [gannotate g_m glogprob]. unfold derived_mix.
  assert (TP : forall b, In b comps -> c_unfold h req y (length h) b = GRv b).
  { intros b Ib. destruct (HC b Ib) as (Nr & d & ps & Nb & _). assert (b < length h)%nat by (apply nth_error_Some; congruence). destruct (length h) as [|n]; [lia|]. cbn [c_unfold]. destruct (mem b req) eqn:M; [apply mem_in in M; easy|]. unfold c_expand. now rewrite Nb. }
  assert (AM : all_measurable (map (gannotate cdt fs rho) (map (c_unfold h req y (length h)) comps)) = Some (map GB comps)).
  { clear - TP. induction comps as [|b l IH]; [reflexivity|]. cbn [map all_measurable]. rewrite (TP b) by now left. cbn [gannotate g_m]. rewrite IH; auto. intros c Ic. apply TP. now right. }
  rewrite AM. f_equal. unfold params, c_rvs at 1 2. rewrite Nv. cbn [fst snd map]. rewrite merged_len, unfold_eq. unfold m_dlp. destruct (Nat.ltb_spec (D + v) D) as [|_]; [lia|]. replace (D + v - D)%nat with v by lia. f_equal.
  destruct Mx as (k & N & S). unfold parts. rewrite N, S. cbn [andb]. rewrite (proj2 (mem_in v req) Iv).
  assert (E : map (fun p => g_val (gannotate cdt fs rho p)) (map (c_unfold h req y (length h)) (flat_map (rv_params h) comps)) =
    concat (map (fun b => map (fun p => g_val (gannotate cdt fs rho p)) (map (c_unfold h req y (length h)) (rv_params h b))) comps)).
  { clear. induction comps as [|b l IH]; [reflexivity|]. cbn [flat_map map concat]. now rewrite !map_app, IH. }
  rewrite E. assert (L : map (fun b => length (rv_params h b)) comps = map (@length xr) (map (fun b => map (fun p => g_val (gannotate cdt fs rho p)) (map (c_unfold h req y (length h)) (rv_params h b))) comps)).
  { rewrite map_map. apply map_ext. intros b. now rewrite !map_length. }
  rewrite L, cut_concat. clear - HC. induction comps as [|b l IH]; [reflexivity|]. cbn [map combine]. f_equal; [|apply IH; intros b' Ib; apply HC; now right].
  cbn [glogprob fst snd]. destruct (HC b ltac:(now left)) as (_ & d & ps & Nb & _). unfold params, c_rvs, rv_dist, rv_params. now rewrite Nb.
Qed.
Lemma mc_same v : In v req -> mc_conditional sel ddt fs dlp dlc h req y rho v = c_conditional m_ddt fs m_dlp dlc h' req y rho v.
Proof.
  intros Iv. unfold mc_conditional. destruct (mixed_dec v) as [(_ & idx & comps & k & N & S)|NM].
  - rewrite N, S. symmetry. apply cond_mixture; auto. exists k; auto.
  - rewrite cond_same by auto. destruct (nth_error h v) as [[c|d ps|u a|n l|a b|a b|d a lo hi|op a|k [|idx comps]]|] eqn:N; auto. destruct (sel k) eqn:S; auto. destruct NM. split; auto. exists idx, comps, k. auto.
Qed.
Lemma mc_joint_same : mc_joint sel ddt fs dlp dlc h req y rho = c_joint m_ddt fs m_dlp dlc h' req y rho.
Proof.
  unfold mc_joint, c_joint. assert (A : forall l, incl l req -> mc_conditionals sel ddt fs dlp dlc h req y rho l = c_conditionals m_ddt fs m_dlp dlc h' req y rho l).
  { induction l as [|v l IH]; intros I; [reflexivity|]. cbn [mc_conditionals c_conditionals]. rewrite mc_same by (apply I; now left). rewrite IH; auto. intros w W. apply I. now right. }
  now rewrite A by apply incl_refl.
Qed.
End At.
End Merged.
