(** Censored variables under transforms; random bounds and indices. *)
From Coq Require Import Reals Lra Lia ZArith List Bool.
From Coquelicot Require Import Coquelicot.
From Verif Require Import XR XTac SpecDist ModelDist LemDist ModelVec SpecVec ModelTrans ModelCens SpecCens LemCdf LemCens ModelMix ModelNest SpecNest LemNest LemNest2 ModelGuard SpecOrder LemOrder SpecGuard LemGuard.
Import ListNotations.
Open Scope R_scope.

Lemma params_value dt fs rho rvs i : params dt fs rho rvs i = map (value fs rho) (snd (rvs i)).
Proof. unfold params. apply map_ext. intros p. apply annot_value. Qed.
Lemma bound_lo dt fs rho e a : bound_is fs rho m_infty e a -> rbar (bval (g_bound NInf e (gannotate dt fs rho e))) = Some a.
Proof. unfold bound_is. pose proof (annot_value dt fs rho e) as V. destruct e; cbn [g_bound bval]; intros B; rewrite ?V; try exact B. subst. reflexivity. Qed.
Lemma bound_hi dt fs rho e a : bound_is fs rho p_infty e a -> rbar (bval (g_bound PInf e (gannotate dt fs rho e))) = Some a.
Proof. unfold bound_is. pose proof (annot_value dt fs rho e) as V. destruct e; cbn [g_bound bval]; intros B; rewrite ?V; try exact B. subst. reflexivity. Qed.
Lemma clip_transforms dt fs rho rvs dlp dlc i d lo hi a b f F e (r : nat -> R) y :
  dt i = DFloat -> d <> DInt -> cont_law f F ->
  computes_law (dlp (fst (rvs i)) (map (value fs rho) (snd (rvs i)))) (dlc (fst (rvs i)) (map (value fs rho) (snd (rvs i)))) f F ->
  bound_is fs rho m_infty lo a -> bound_is fs rho p_infty hi b -> Rbar_lt a b ->
  regular fs r i e -> e <> NRv i -> means fs r e y ->
  exists l z, derived dt fs rho rvs dlp dlc (plug (fun _ => GClip d (GRv i) lo hi) e) (Fin y) = Some l /\
    density_of fs r e i (clip_density f F a b) (r i) y z /\ denotes l z.
Proof.
  intros Di Dd Law Comp Ea Eb Lt G NE M. rewrite <- (params_value dt) in Comp. apply (bound_lo dt) in Ea. apply (bound_hi dt) in Eb.
  destruct (plug_density dt fs rho (fun _ => GClip d (GRv i) lo hi) (fun _ => GC d (GB i) (g_bound NInf lo (gannotate dt fs rho lo)) (g_bound PInf hi (gannotate dt fs rho hi)))
    ltac:(reflexivity) ltac:(reflexivity) rvs dlp dlc e i r y (clip_density f F a b (r i)) Dd NE G M) as (l & z & E & De & Den).
  - cbn [glogprob gdt]. rewrite Di. cbn [is_int glogcdf]. now apply clip_ok.
  - exists l, z. auto.
Qed.
Lemma clip_inside dt fs rho rvs dlp dlc i d lo hi a b f F e (r : nat -> R) y :
  dt i = DFloat -> d <> DInt -> cont_law f F ->
  computes_law (dlp (fst (rvs i)) (map (value fs rho) (snd (rvs i)))) (dlc (fst (rvs i)) (map (value fs rho) (snd (rvs i)))) f F ->
  bound_is fs rho m_infty lo a -> bound_is fs rho p_infty hi b ->
  Rbar_lt a (r i) -> Rbar_lt (r i) b ->
  regular fs r i e -> e <> NRv i -> means fs r e y ->
  exists l z, derived dt fs rho rvs dlp dlc (plug (fun _ => GClip d (GRv i) lo hi) e) (Fin y) = Some l /\
    density_of fs r e i f (r i) y z /\ denotes l z.
Proof.
  intros Di Dd Law Comp Ea Eb La Lb G NE M.
  destruct (clip_transforms dt fs rho rvs dlp dlc i d lo hi a b f F e r y) as (l & z & E & (g & g' & H1 & H2 & H3 & H4 & ->) & Den); auto.
  { eapply Rbar_lt_trans; eassumption. }
  exists l, (clip_density f F a b (r i) / Rabs g'). split; [exact E|]. split; [|exact Den]. exists g, g'. repeat (split; [assumption|]). f_equal.
  unfold clip_density. destruct (Rbar_lt_dec (r i) a) as [Q|_]; [exfalso; pose proof (Rbar_lt_trans _ _ _ La Q) as X; destruct a; cbn in X; lra|].
  destruct (Rbar_eq_dec (r i) a) as [Q|_]; [exfalso; rewrite <- Q in La; cbn in La; lra|]. destruct (Rbar_lt_dec (r i) b); [reflexivity|easy].
Qed.
Definition no_fs : nat -> list xr -> xr := fun _ _ => NaN.
(** distribution 0 is normal, distribution 1 half-normal *)
Definition n_lp (d : nat) (ps : list xr) (x : xr) : res xr :=
  match d, ps with 0%nat, [m; s] => normal_logprob m s x | 1%nat, [m; s] => halfnormal_logprob m s x | _, _ => Raise end.
Definition n_lc (d : nat) (ps : list xr) (x : xr) : res xr := match d, ps with 0%nat, [m; s] => normal_logcdf m s x | _, _ => Raise end.
Definition std_rvs (i : nat) : nat * list gexpr := (match i with 1%nat => 1%nat | _ => 0%nat end, [GCon (Fin 0); GCon (Fin 1)]).

(** ** rounding and clipping of derived variables *)
Lemma construct_form dt l mk m : gconstruct dt l mk = Some m -> exists a m' t, In a l /\ g_m a = Some m' /\ m = GE t m'.
Proof.
  unfold gconstruct. destruct (gmeasurable l) as [|m' [|? ?]] eqn:E; try discriminate. destruct (is_int _); [discriminate|]. destruct (existsb _ _); [discriminate|]. destruct (mk _) as [t|]; [|discriminate].
  injection 1 as <-. assert (I : In m' (gmeasurable l)) by (rewrite E; now left). unfold gmeasurable in I. apply in_flat_map in I as (a & Ia & Im). destruct (g_m a) as [q|] eqn:Ea; [|destruct Im].
  destruct Im as [->|[]]. exists a, m', t. auto.
Qed.
Lemma elem_raise t lp v : (forall v, lp v = Raise) -> elemwise_logprob t lp v = Raise.
Proof. intros H. unfold elemwise_logprob. destruct (backward t v); cbn [bind]; [now rewrite H|reflexivity]. Qed.
Lemma round_transform dt fs rho rvs dlp dlc op i e l v : (forall j, e <> NRv j) ->
  derived dt fs rho rvs dlp dlc (plug (fun _ => GRound op (GRv i)) e) v = Some l -> l = Raise.
Proof.
  assert (H : forall e m v, g_m (gannotate dt fs rho (plug (fun _ => GRound op (GRv i)) e)) = Some m -> glogprob dt fs rho rvs dlp dlc true m v = Raise).
  { induction e0 as [j|c|u e0 IH|n es IH|a b IHa IHb|a b IHa IHb|k es IH] using nexpr_ind'; intros m w E; cbn [plug gannotate] in E; try discriminate E.
    - cbn [g_round g_m] in E. destruct (is_float _); [|discriminate]. injection E as <-. reflexivity.
    - destruct (construct_form _ _ _ _ E) as (x & m' & t & [<-|[]] & Em & ->). apply elem_raise. intros z. now apply IH.
    - destruct (construct_form _ _ _ _ E) as (x & m' & t & I & Em & ->). apply elem_raise. intros z. rewrite map_map in I. apply in_map_iff in I as (e' & <- & I). rewrite List.Forall_forall in IH. now apply (IH e').
    - destruct (construct_form _ _ _ _ E) as (x & m' & t & [<-|[<-|[]]] & Em & ->); apply elem_raise; intros z; [now apply IHa|].
      destruct (construct_form _ _ _ _ Em) as (x' & m'' & t' & [<-|[<-|[]]] & Em' & ->); [discriminate Em'|]. apply elem_raise. intros z'. now apply IHb.
    - destruct (construct_form _ _ _ _ E) as (x & m' & t & [<-|[<-|[]]] & Em & ->); apply elem_raise; intros z; [now apply IHa|].
      destruct (construct_form _ _ _ _ Em) as (x' & m'' & t' & [<-|[]] & Em' & ->). apply elem_raise. intros z'. now apply IHb. }
  intros NE. unfold derived. destruct (g_m _) as [m|] eqn:E; [|discriminate]. injection 1 as <-. specialize (H e m v E).
  destruct e as [j|c|u e|n es|a b|a b|k es]; cbn [plug gannotate] in E; try discriminate E; [now destruct (NE j)| | | |];
    destruct (construct_form _ _ _ _ E) as (x & m' & t & _ & _ & ->); exact H.
Qed.
Lemma derived_not_base dt fs rho e i : (forall i, e <> GRv i) -> g_m (gannotate dt fs rho e) <> Some (GB i).
Proof.
  intros NE E. destruct e as [j|c|c| |u e|n es|a b|a b|d e lo hi|op e|k es]; cbn [gannotate] in E; try discriminate E; [now destruct (NE j)| | | | | |];
    try (destruct (construct_form _ _ _ _ E) as (x & m' & t & _ & _ & ?); discriminate).
  - cbn [g_clip g_m] in E. destruct (g_m _); discriminate.
  - cbn [g_round g_m] in E. destruct (g_m _); [destruct (is_float _)|]; discriminate.
Qed.
Lemma censor_derived dt fs rho rvs dlp dlc d e lo hi l v : (forall i, e <> GRv i) ->
  (derived dt fs rho rvs dlp dlc (GClip d e lo hi) v = Some l -> l = Raise) /\
  (forall op, derived dt fs rho rvs dlp dlc (GRound op e) v = Some l -> l = Raise).
Proof.
  intros NE. pose proof (fun i => derived_not_base dt fs rho e i NE) as NB. unfold derived. cbn [gannotate g_clip g_round g_m].
  destruct (g_m (gannotate dt fs rho e)) as [m|]; [|split; [discriminate|intros; discriminate]].
  assert (C : forall w, glogcdf dt fs rho rvs dlc m w = Raise) by (intros w; destruct m as [i| | |]; [now destruct (NB i)|reflexivity|reflexivity|reflexivity]).
  split.
  - injection 1 as <-. cbn [glogprob]. unfold clip_logprob. destruct (glogprob _ _ _ _ _ _ _ _ _); cbn [bind]; [now rewrite C|reflexivity].
  - intros op. destruct (is_float _); [|discriminate]. injection 1 as <-. cbn [glogprob]. unfold round_logprob. destruct op; now rewrite C.
Qed.

(** ** counterexamples *)
Lemma scaled_atom : exists e l,
  (forall x, value no_fs (fun _ => Fin x) e = Fin (2 * clip_fun 0 1 x)) /\
  (forall x, 2 * clip_fun 0 1 x = 2 <-> 1 <= x) /\ 0 < 1 - normal_cdf 0 1 1 /\
  derived (fun _ => DFloat) no_fs (fun _ => NaN) std_rvs n_lp n_lc e (Fin 2) = Some l /\
  denotes l ((1 - normal_cdf 0 1 1) / 2).
Proof.
  set (e := NMany NMul [NCon (Fin 2); NRv 0]). set (c := GClip DFloat (GRv 0) (GCon (Fin 0)) (GCon (Fin 1))).
  assert (Mn : forall t, means no_fs (fun _ => t) e (2 * t)).
  { intros t. replace (2 * t) with (rprod [2; t]) by (unfold rprod; cbn; ring). apply m_mul. constructor; [apply m_con|]. constructor; [apply (m_rv no_fs (fun _ => t) 0)|constructor]. }
  destruct (clip_transforms (fun _ => DFloat) no_fs (fun _ => NaN) std_rvs n_lp n_lc 0 DFloat (GCon (Fin 0)) (GCon (Fin 1)) 0 1 (normal_pdf 0 1) (normal_cdf 0 1) e (fun _ => 1) 2) as (l & z & E & (g & g' & L & G1 & G2 & G3 & ->) & Den);
    try reflexivity; try discriminate.
  - apply normal_law; lra.
  - apply normal_computes; lra.
  - cbn. lra.
  - apply (g_mul no_fs _ 0 [NCon (Fin 2)] (NRv 0) [] [2] []); try reflexivity; try discriminate; [apply g_rv|constructor; [apply m_con|constructor]|constructor|unfold rprod; cbn; lra].
  - pose proof (Mn 1) as M1. rewrite Rmult_1_r in M1. exact M1.
  - exists (plug (fun _ => c) e), l. split; [|split; [|split; [|split; [exact E|]]]].
    + intros x. cbn. unfold clip_fun, xgt. cbn. unfold Rltb. destruct (Rlt_dec x 0); cbn [xlt]; unfold Rltb; try destruct (Rlt_dec 1 x); cbn; f_equal; unfold Rmax, Rmin; repeat (match goal with |- context [Rle_dec ?a ?b] => destruct (Rle_dec a b) | _ : context [Rle_dec ?a ?b] |- _ => destruct (Rle_dec a b) end); lra.
    + intros x. unfold clip_fun, Rmax, Rmin. repeat (match goal with |- context [Rle_dec ?a ?b] => destruct (Rle_dec a b) | _ : context [Rle_dec ?a ?b] |- _ => destruct (Rle_dec a b) end); lra.
    + unfold normal_cdf. pose proof (Phi_range ((1 - 0) / 1)). lra.
    + replace ((1 - normal_cdf 0 1 1) / 2) with (clip_density (normal_pdf 0 1) (normal_cdf 0 1) 0 1 1 / Rabs g'); [exact Den|].
      assert (g' = 2) as ->.
      { assert (Q : is_derive (fun t => 2 * t) 1 2) by (auto_derive; [auto|ring]). apply is_derive_unique in Q. rewrite <- Q. symmetry. apply is_derive_unique.
        apply (is_derive_ext_loc g); [|exact G2]. revert L. apply filter_imp. intros t Mt. apply (means_fun no_fs (upd (fun _ => 1) 0 t) e); [exact Mt|].
        replace (2 * t) with (rprod [2; t]) by (unfold rprod; cbn; ring). apply m_mul. constructor; [apply m_con|]. constructor; [apply (m_rv no_fs (upd (fun _ => 1) 0 t) 0)|constructor]. }
      rewrite (Rabs_pos_eq 2) by lra. f_equal. unfold clip_density.
      destruct (Rbar_lt_dec 1 0) as [Q|_]; [cbn in Q; lra|]. destruct (Rbar_eq_dec 1 0) as [Q|_]; [injection Q; intros; lra|].
      destruct (Rbar_lt_dec 1 1) as [Q|_]; [cbn in Q; lra|]. destruct (Rbar_eq_dec 1 1) as [_|Q]; [reflexivity|now destruct Q].
Qed.
Lemma den_pos_fin r d : denotes r d -> 0 < d -> exists x, r = Val (Fin x).
Proof. destruct r as [[x| | |]|]; cbn; intros D P; try easy; [eauto|]. lra. Qed.
Lemma std_fin x : exists l, normal_logprob (Fin 0) (Fin 1) (Fin x) = Val (Fin l).
Proof.
  apply (den_pos_fin _ (normal_pdf 0 1 x)); [apply normal_ok; lra|]. unfold normal_pdf. pose proof PI_RGT_0. pose proof (sqrt_lt_R0 (2 * PI) ltac:(lra)). apply Rmult_lt_0_compat; [apply Rinv_0_lt_compat; lra|apply exp_pos].
Qed.
Lemma random_bound : exists e v rho rho' x, boccs e = [1%nat] /\
  derived (fun _ => DFloat) no_fs rho std_rvs n_lp n_lc e v = Some (Val (Fin x)) /\
  derived (fun _ => DFloat) no_fs rho' std_rvs n_lp n_lc e v = Some (Val NInf).
Proof.
  destruct (std_fin (1/2)) as [l El]. exists (GClip DFloat (GRv 0) (GRv 1) GSelf), (Fin (1/2)), (fun _ => Fin 0), (fun _ => Fin 1), l. split; [reflexivity|].
  assert (E : forall c, derived (fun _ => DFloat) no_fs (fun _ => Fin c) std_rvs n_lp n_lc (GClip DFloat (GRv 0) (GRv 1) GSelf) (Fin (1/2)) =
    Some (clip_logprob false (normal_logprob (Fin 0) (Fin 1)) (normal_logcdf (Fin 0) (Fin 1)) (BSym (Fin c)) (BConst PInf) (Fin (1/2)))) by reflexivity.
  rewrite !E. unfold clip_logprob. rewrite El, normal_logcdf_val by lra. cbn [bind upper_unbounded lower_unbounded bval andb negb].
  split; f_equal; f_equal; (xrun; reflexivity).
Qed.
Lemma random_index : exists idx es v rho rho' x, goccs idx = [2%nat] /\
  derived_mix (fun _ => DFloat) no_fs rho std_rvs n_lp n_lc idx es v = Some (Val (Fin x)) /\
  derived_mix (fun _ => DFloat) no_fs rho' std_rvs n_lp n_lc idx es v = Some (Val NInf).
Proof.
  destruct (std_fin (-1)) as [l El]. exists (GRv 2), [GRv 0; GRv 1], (Fin (-1)), (fun _ => Fin 0), (fun _ => Fin 1), (0 + l + 0). split; [reflexivity|].
  assert (E : forall c, derived_mix (fun _ => DFloat) no_fs (fun _ => Fin c) std_rvs n_lp n_lc (GRv 2) [GRv 0; GRv 1] (Fin (-1)) =
    Some (mixture_scalar [normal_logprob (Fin 0) (Fin 1); halfnormal_logprob (Fin 0) (Fin 1)] (Int_part c) (Fin (-1)))) by reflexivity.
  assert (I : forall n, Int_part (IZR n) = n) by (intros n; apply Int_part_IZR).
  rewrite (E 0), (E 1), (I 0%Z), (I 1%Z). unfold mixture_scalar. cbn [mix_scalar Z.eqb Z.of_nat bind]. split.
  - now rewrite El.
  - assert (H : halfnormal_logprob (Fin 0) (Fin 1) (Fin (-1)) = Val NInf) by (unfold halfnormal_logprob; xrun; reflexivity). rewrite H. reflexivity.
Qed.
Lemma round_derived dt fs rho rvs dlp dlc i op f F k l u : dt i = DFloat -> cont_law f F ->
  computes_law (dlp (fst (rvs i)) (map (value fs rho) (snd (rvs i)))) (dlc (fst (rvs i)) (map (value fs rho) (snd (rvs i)))) f F ->
  preimage (rnd_of op) k l u -> 0 < F u -> exists r, derived dt fs rho rvs dlp dlc (GRound op (GRv i)) (Fin (IZR k)) = Some r /\
    is_RInt f l u (F u - F l) /\ denotes r (F u - F l).
Proof.
  rewrite <- (params_value dt). intros D CL (_ & HC) PI FU. unfold derived. cbn [gannotate g_round g_m gdt]. rewrite D. cbn [is_float glogprob]. eexists. split; [reflexivity|].
  cbn [glogcdf]. eapply round_ok; eauto.
Qed.
Lemma discrete_refused dt fs rho rvs dlp dlc i v :
  (dt i <> DFloat -> forall op, derived dt fs rho rvs dlp dlc (GRound op (GRv i)) v = None) /\
  (dt i = DInt -> (forall u, derived dt fs rho rvs dlp dlc (GOne u (GRv i)) v = None) /\
     forall n es, In (GRv i) es -> derived dt fs rho rvs dlp dlc (GMany n es) v = None).
Proof.
  split; [|intros D; split].
  - intros D op. unfold derived. cbn [gannotate g_round g_m gdt]. destruct (dt i); try reflexivity. congruence.
  - intros u. unfold derived. cbn. now rewrite D.
  - intros n es I. unfold derived. cbn [gannotate g_nary g_m]. unfold gconstruct.
    assert (J : In (GB i) (gmeasurable (map (gannotate dt fs rho) es))).
    { unfold gmeasurable. apply in_flat_map. exists (gannotate dt fs rho (GRv i)). split; [now apply in_map|]. cbn. auto. }
    destruct (gmeasurable _) as [|m [|m' l]]; [easy| |reflexivity]. destruct J as [->|[]]. cbn [gdt]. now rewrite D.
Qed.
