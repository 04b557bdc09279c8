(** Lemmas on measurable expressions with censoring. *)
From Coq Require Import Reals Lra Lia ZArith List Bool.
From Coquelicot Require Import Coquelicot.
From Verif Require Import XR XTac SpecDist ModelDist LemDist ModelVec SpecVec ModelTrans ModelCens ModelMix ModelNest SpecNest LemNest LemNest2 ModelGuard SpecGuard.
Import ListNotations.
Open Scope R_scope.

Section Ind.
Variable P : gexpr -> Prop.
Hypothesis Hrv : forall i, P (GRv i).
Hypothesis Hcon : forall c, P (GCon c).
Hypothesis Hin : forall c, P (GIn c).
Hypothesis Hself : P GSelf.
Hypothesis Hone : forall u e, P e -> P (GOne u e).
Hypothesis Hmany : forall n es, List.Forall P es -> P (GMany n es).
Hypothesis Hsub : forall a b, P a -> P b -> P (GSub a b).
Hypothesis Hdiv : forall a b, P a -> P b -> P (GDiv a b).
Hypothesis Hclip : forall d e lo hi, P e -> P lo -> P hi -> P (GClip d e lo hi).
Hypothesis Hround : forall op e, P e -> P (GRound op e).
Hypothesis Hother : forall k es, List.Forall P es -> P (GOther k es).
Fixpoint gexpr_ind2 (e : gexpr) : P e :=
  let all := fix all (es : list gexpr) : List.Forall P es := match es with [] => List.Forall_nil _ | e :: es => List.Forall_cons _ (gexpr_ind2 e) (all es) end in
  match e with
  | GRv i => Hrv i | GCon c => Hcon c | GIn c => Hin c | GSelf => Hself
  | GOne u e => Hone u e (gexpr_ind2 e)
  | GMany n es => Hmany n es (all es)
  | GSub a b => Hsub a b (gexpr_ind2 a) (gexpr_ind2 b)
  | GDiv a b => Hdiv a b (gexpr_ind2 a) (gexpr_ind2 b)
  | GClip d e lo hi => Hclip d e lo hi (gexpr_ind2 e) (gexpr_ind2 lo) (gexpr_ind2 hi)
  | GRound op e => Hround op e (gexpr_ind2 e)
  | GOther k es => Hother k es (all es)
  end.
End Ind.

(** ** transforms over any measurable variable *)
Section Plug.
Variable dt : nat -> dtype.
Variable fs : nat -> list xr -> xr.
Variable rho : nat -> xr.
Variable s : nat -> gexpr.
Variable mb : nat -> gm.
Hypothesis Sm : forall i, g_m (gannotate dt fs rho (s i)) = Some (mb i).
Hypothesis Sr : forall i, g_rand (gannotate dt fs rho (s i)) = true.
Notation dtn := (fun i => gdt dt (mb i)).
Fixpoint embed (m : mexpr) : gm := match m with MBase i => mb i | MElem t m => GE t (embed m) end.
Definition agrees (a : ann) (g : gann) : Prop :=
  g_m g = option_map embed (a_m a) /\ g_rand g = a_rand a /\ (a_rand a = false -> g_val g = a_val a).
Lemma embed_int m : is_int (gdt dt (embed m)) = starts_int dtn m.
Proof. destruct m; reflexivity. Qed.
Lemma agrees_rand l gl : Forall2 agrees l gl -> existsb g_rand gl = existsb a_rand l.
Proof. induction 1 as [|a g l gl (_ & E & _) F IH]; [reflexivity|]. cbn. now rewrite E, IH. Qed.
Lemma agrees_vals l gl : Forall2 agrees l gl -> existsb a_rand l = false -> map g_val gl = map a_val l.
Proof. induction 1 as [|a g l gl (_ & _ & E) F IH]; [reflexivity|]. cbn. intros R. apply orb_false_iff in R as [R1 R2]. now rewrite E, IH. Qed.
Lemma agrees_meas l gl : Forall2 agrees l gl -> gmeasurable gl = map embed (measurable_of l) /\ Forall2 agrees (others_of l) (gothers gl).
Proof.
  induction 1 as [|a g l gl A F [I1 I2]]; [split; [reflexivity|constructor]|]. pose proof A as (E & _ & _). unfold gmeasurable, gothers, measurable_of, others_of in *. cbn [flat_map filter].
  rewrite E. destruct (a_m a) as [m|]; cbn [option_map]; [split; [cbn; now rewrite I1|exact I2]|]. split; [exact I1|constructor; auto].
Qed.
Lemma agrees_construct l gl mk : Forall2 agrees l gl -> gconstruct dt gl mk = option_map embed (construct dtn l mk).
Proof.
  intros F. destruct (agrees_meas l gl F) as [I1 I2]. unfold gconstruct, construct. rewrite I1. destruct (measurable_of l) as [|m [|? ?]]; [reflexivity| |reflexivity].
  cbn [map]. rewrite embed_int. destruct (starts_int dtn m); [reflexivity|]. rewrite (agrees_rand _ _ I2). destruct (existsb a_rand (others_of l)) eqn:R; [reflexivity|].
  rewrite (agrees_vals _ _ I2 R). destruct (mk _); reflexivity.
Qed.
Lemma agrees_unary u a g : agrees a g -> agrees (rw_unary dtn u a) (g_unary dt u g).
Proof.
  intros A. pose proof A as (E1 & E2 & E3). unfold rw_unary, g_unary, agrees. cbn [g_m g_rand g_val a_m a_rand a_val]. split; [|split; [exact E2|intros R; now rewrite E3]].
  apply agrees_construct. repeat constructor; auto; apply A.
Qed.
Lemma agrees_nary n l gl : Forall2 agrees l gl -> agrees (rw_nary dtn n l) (g_nary dt n gl).
Proof.
  intros F. unfold rw_nary, g_nary, agrees. cbn [g_m g_rand g_val a_m a_rand a_val]. split; [now apply agrees_construct|]. split; [now apply agrees_rand|].
  intros R. now rewrite (agrees_vals _ _ F R).
Qed.
Lemma agrees_con c : agrees (con c) (gcon c). Proof. repeat split. Qed.
Lemma plug_agrees e : agrees (annotate dtn fs e) (gannotate dt fs rho (plug s e)).
Proof.
  assert (L : forall es, List.Forall (fun e => agrees (annotate dtn fs e) (gannotate dt fs rho (plug s e))) es -> Forall2 agrees (map (annotate dtn fs) es) (map (gannotate dt fs rho) (map (plug s) es))).
  { induction 1; cbn; constructor; auto. }
  induction e as [i|c|u e IH|n es IH|a b IHa IHb|a b IHa IHb|k es IH] using nexpr_ind'; cbn [annotate plug gannotate].
  - split; [apply Sm|]. split; [apply Sr|discriminate].
  - apply agrees_con.
  - now apply agrees_unary.
  - apply agrees_nary. now apply L.
  - unfold rw_sub, g_sub. apply agrees_nary. constructor; [exact IHa|]. constructor; [|constructor]. apply agrees_nary. constructor; [apply agrees_con|]. constructor; [exact IHb|constructor].
  - unfold rw_div, g_div. apply agrees_nary. constructor; [exact IHa|]. constructor; [|constructor]. now apply agrees_unary.
  - specialize (L _ IH). split; [reflexivity|]. split; [now apply agrees_rand|]. cbn [a_rand a_val g_val]. intros R. now rewrite (agrees_vals _ _ L R).
Qed.
Variable rvs : nat -> nat * list gexpr.
Variable dlp dlc : nat -> list xr -> xr -> res xr.
Notation glp := (glogprob dt fs rho rvs dlp dlc).
Lemma embed_logprob m v : glp true (embed m) v = nested_logprob (fun i => glp true (mb i)) m v.
Proof.
  revert v. induction m as [i|t m IH]; intros v; [reflexivity|]. cbn [embed glogprob nested_logprob]. unfold elemwise_logprob.
  destruct (backward t v); cbn [bind]; [now rewrite IH|reflexivity].
Qed.
Lemma plug_density e i r y p : gdt dt (mb i) <> DInt -> e <> NRv i -> regular fs r i e -> means fs r e y ->
  denotes (glp true (mb i) (Fin (r i))) p ->
  exists l d, derived dt fs rho rvs dlp dlc (plug s e) (Fin y) = Some l /\ density_of fs r e i (fun _ => p) (r i) y d /\ denotes l d.
Proof.
  intros Dt NE G M Dp. destruct (nested_density dtn fs r i (fun j => glp true (mb j)) (fun _ => p) e y Dt Dp G M) as (m & d & E & De & Den).
  destruct (plug_agrees e) as (Em & _ & _). rewrite E in Em. unfold derived. rewrite Em. cbn [option_map].
  exists (glp false (embed m) (Fin y)), d. split; [reflexivity|]. split; [exact De|].
  assert (X : glp false (embed m) (Fin y) = glp true (embed m) (Fin y)).
  { destruct m as [j|t m]; [|reflexivity]. exfalso. destruct (accepted_chain dtn fs e _ E) as [C _]. cbn [mbase] in C.
    assert (j = i) as -> by (pose proof (chain_occs _ _ C) as O; rewrite (chain_occs i e) in O; [now injection O|]; clear -G; induction G; econstructor; eauto).
    clear -G E NE. destruct G; try (now destruct NE); cbn [annotate] in E; unfold rw_sub, rw_div, rw_nary, rw_unary in E; cbn [a_m] in E; unfold construct in E;
      repeat match goal with H : context [match ?x with _ => _ end] |- _ => destruct x eqn:?; try discriminate H end. }
  rewrite X, embed_logprob. exact Den.
Qed.
End Plug.

(** ** dependence on draws *)
Section Closed.
Variable dt : nat -> dtype.
Variable fs : nat -> list xr -> xr.
Variable rho rho' : nat -> xr.
Notation A := (gannotate dt fs rho).
Notation B := (gannotate dt fs rho').
Definition same (a b : gann) : Prop := g_m a = g_m b /\ g_rand a = g_rand b /\ (g_rand a = false -> g_val a = g_val b).
Lemma same_rand l k : Forall2 same l k -> existsb g_rand l = existsb g_rand k.
Proof. induction 1 as [|a b l k (_ & E & _) F IH]; [reflexivity|]. cbn. now rewrite E, IH. Qed.
Lemma same_vals l k : Forall2 same l k -> existsb g_rand l = false -> map g_val l = map g_val k.
Proof. induction 1 as [|a b l k (_ & _ & E) F IH]; [reflexivity|]. cbn. intros R. apply orb_false_iff in R as [R1 R2]. now rewrite E, IH. Qed.
Lemma same_construct l k mk : Forall2 same l k -> gconstruct dt l mk = gconstruct dt k mk.
Proof.
  intros F. assert (M : gmeasurable l = gmeasurable k /\ Forall2 same (gothers l) (gothers k)).
  { induction F as [|a b l k S F [I1 I2]]; [split; [reflexivity|constructor]|]. pose proof S as (E & _ & _). unfold gmeasurable, gothers in *. cbn [flat_map filter]. rewrite <- E.
    destruct (g_m a); [split; [now rewrite I1|exact I2]|]. split; [exact I1|constructor; auto]. }
  destruct M as [M O]. unfold gconstruct. rewrite M. destruct (gmeasurable k) as [|m [|? ?]]; [reflexivity| |reflexivity]. destruct (is_int (gdt dt m)); [reflexivity|].
  rewrite <- (same_rand _ _ O). destruct (existsb g_rand (gothers l)) eqn:R; [reflexivity|]. now rewrite (same_vals _ _ O R).
Qed.
Lemma same_unary u a b : same a b -> same (g_unary dt u a) (g_unary dt u b).
Proof. intros S. pose proof S as (E1 & E2 & E3). split; [apply same_construct; repeat constructor; auto; apply S|]. split; [exact E2|]. cbn. intros R. now rewrite E3. Qed.
Lemma same_nary n l k : Forall2 same l k -> same (g_nary dt n l) (g_nary dt n k).
Proof. intros F. split; [now apply same_construct|]. split; [now apply same_rand|]. cbn. intros R. now rewrite (same_vals _ _ F R). Qed.
Lemma same_refl a : same a a. Proof. repeat split. Qed.
Lemma boccs_goccs e : goccs e = [] -> boccs e = [].
Proof.
  assert (L : forall es, List.Forall (fun e => goccs e = [] -> boccs e = []) es -> flat_map goccs es = [] -> flat_map boccs es = []).
  { induction 1 as [|x es H F IH]; cbn; [auto|]. intros E. apply app_eq_nil in E as [E1 E2]. now rewrite H, IH. }
  induction e using gexpr_ind2; cbn; auto; intros E.
  - apply app_eq_nil in E as [E1 E2]. now rewrite IHe1, IHe2 by auto.
  - apply app_eq_nil in E as [E1 E2]. now rewrite IHe1, IHe2 by auto.
  - apply app_eq_nil in E as [E1 E2]. apply app_eq_nil in E2 as [E2 E3]. now rewrite IHe1, E2, E3 by auto.
Qed.
Lemma rand_goccs r e : goccs e = [] -> g_rand (gannotate dt fs r e) = false.
Proof.
  assert (L : forall es, List.Forall (fun e => goccs e = [] -> g_rand (gannotate dt fs r e) = false) es -> flat_map goccs es = [] -> existsb g_rand (map (gannotate dt fs r) es) = false).
  { induction 1 as [|x es H F IH]; cbn; [auto|]. intros E. apply app_eq_nil in E as [E1 E2]. now rewrite H, IH. }
  induction e using gexpr_ind2; cbn; auto; intros E; try discriminate E.
  - apply app_eq_nil in E as [E1 E2]. now rewrite IHe1, IHe2 by auto.
  - apply app_eq_nil in E as [E1 E2]. now rewrite IHe1, IHe2 by auto.
  - apply app_eq_nil in E as [E1 E2]. apply app_eq_nil in E2 as [E2 E3]. now rewrite IHe1, IHe2, IHe3 by auto.
Qed.
Lemma closed_same e : boccs e = [] -> same (A e) (B e).
Proof.
  assert (L : forall es, List.Forall (fun e => boccs e = [] -> same (A e) (B e)) es -> flat_map boccs es = [] -> Forall2 same (map A es) (map B es)).
  { induction 1 as [|x es H F IH]; cbn; [constructor|]. intros E. apply app_eq_nil in E as [E1 E2]. constructor; auto. }
  induction e using gexpr_ind2; cbn [boccs gannotate]; intros E; try apply same_refl.
  - split; [reflexivity|]. split; [reflexivity|discriminate].
  - apply same_unary; auto.
  - apply same_nary; auto.
  - apply app_eq_nil in E as [E1 E2]. unfold g_sub. apply same_nary. constructor; [auto|]. constructor; [|constructor]. apply same_nary. constructor; [apply same_refl|]. constructor; [auto|constructor].
  - apply app_eq_nil in E as [E1 E2]. unfold g_div. apply same_nary. constructor; [auto|]. constructor; [|constructor]. apply same_unary; auto.
  - apply app_eq_nil in E as [E1 E2]. apply app_eq_nil in E2 as [E2 E3]. destruct (IHe1 E1) as (M1 & R1 & V1). destruct (IHe2 (boccs_goccs _ E2)) as (M2 & R2 & V2). destruct (IHe3 (boccs_goccs _ E3)) as (M3 & R3 & V3).
    specialize (V2 (rand_goccs _ _ E2)). specialize (V3 (rand_goccs _ _ E3)). unfold g_clip, same. cbn [g_m g_rand g_val].
    split; [|split; [now rewrite R1, R2, R3|]].
    + rewrite <- M1. unfold g_bound. rewrite V2, V3. reflexivity.
    + intros R. apply orb_false_iff in R as [R _]. apply orb_false_iff in R as [R _]. now rewrite V1, V2, V3.
  - destruct (IHe E) as (M & R & V). split; [cbn; now rewrite M|]. split; [exact R|]. cbn. intros N. now rewrite V.
  - specialize (L _ H E). split; [reflexivity|]. split; [now apply same_rand|]. cbn. intros R. now rewrite (same_vals _ _ L R).
Qed.
Variable rvs : nat -> nat * list gexpr.
Variable dlp dlc : nat -> list xr -> xr -> res xr.
Fixpoint gbase (m : gm) : nat := match m with GB i => i | GE _ m | GC _ m _ _ | GR _ m => gbase m end.
Lemma params_same i : List.Forall (fun p => goccs p = []) (snd (rvs i)) -> params dt fs rho rvs i = params dt fs rho' rvs i.
Proof.
  unfold params. intros F. apply map_ext_in. intros p I. apply (proj1 (List.Forall_forall _ _) F) in I.
  destruct (closed_same p (boccs_goccs _ I)) as (_ & _ & V). apply V. now apply rand_goccs.
Qed.
Lemma glogprob_same n m v : List.Forall (fun p => goccs p = []) (snd (rvs (gbase m))) -> glogprob dt fs rho rvs dlp dlc n m v = glogprob dt fs rho' rvs dlp dlc n m v.
Proof.
  assert (C : forall m, List.Forall (fun p => goccs p = []) (snd (rvs (gbase m))) -> glogcdf dt fs rho rvs dlc m = glogcdf dt fs rho' rvs dlc m).
  { intros [i| | |] F; try reflexivity. cbn [glogcdf]. now rewrite (params_same i F). }
  revert n v. induction m as [i|t m IH|d m IH lo hi|op m IH]; intros n v F; cbn [glogprob].
  - now rewrite (params_same i F).
  - unfold elemwise_logprob. destruct (backward t v); cbn [bind]; [now rewrite IH|reflexivity].
  - unfold clip_logprob. rewrite (IH true v F), (C m F). reflexivity.
  - destruct n; [reflexivity|]. now rewrite (C m F).
Qed.
Lemma construct_base l mk m : gconstruct dt l mk = Some m -> exists a m', In a l /\ g_m a = Some m' /\ gbase m = gbase m'.
Proof.
  unfold gconstruct. destruct (gmeasurable l) as [|m' [|? ?]] eqn:E; try discriminate. destruct (is_int _); [discriminate|]. destruct (existsb _ _); [discriminate|]. destruct (mk _); [|discriminate].
  injection 1 as <-. assert (I : In m' (gmeasurable l)) by (rewrite E; now left). unfold gmeasurable in I. apply in_flat_map in I as (a & Ia & Im). destruct (g_m a) as [q|] eqn:Ea; [|destruct Im].
  destruct Im as [->|[]]. exists a, m'. auto.
Qed.
Lemma base_occs r e : forall m, g_m (gannotate dt fs r e) = Some m -> In (gbase m) (goccs e).
Proof.
  induction e using gexpr_ind2; cbn [gannotate goccs]; intros m E; try discriminate E.
  - injection E as <-. cbn. auto.
  - destruct (construct_base _ _ _ E) as (a & m' & [<-|[]] & Em & ->). auto.
  - destruct (construct_base _ _ _ E) as (a & m' & I & Em & ->). apply in_map_iff in I as (e & <- & I). apply in_flat_map. exists e. split; [exact I|]. rewrite List.Forall_forall in H. now apply H.
  - destruct (construct_base _ _ _ E) as (a & m' & [<-|[<-|[]]] & Em & ->); apply in_or_app; [left; auto|right].
    destruct (construct_base _ _ _ Em) as (b & m'' & [<-|[<-|[]]] & Eb & ->); [discriminate Eb|auto].
  - destruct (construct_base _ _ _ E) as (a & m' & [<-|[<-|[]]] & Em & ->); apply in_or_app; [left; auto|right].
    destruct (construct_base _ _ _ Em) as (b & m'' & [<-|[]] & Eb & ->). auto.
  - cbn [g_clip g_m] in E. destruct (g_m (gannotate dt fs r e1)) as [m'|] eqn:Em; [|discriminate]. injection E as <-. cbn. apply in_or_app. auto.
  - cbn [g_round g_m] in E. destruct (g_m (gannotate dt fs r e)) as [m'|] eqn:Em; [|discriminate]. destruct (is_float _); [|discriminate]. injection E as <-. cbn. auto.
Qed.
Lemma derived_same e v : boccs e = [] -> (forall i, In i (goccs e) -> List.Forall (fun p => goccs p = []) (snd (rvs i))) ->
  derived dt fs rho rvs dlp dlc e v = derived dt fs rho' rvs dlp dlc e v.
Proof.
  intros Bo Pa. destruct (closed_same e Bo) as (M & _ & _). unfold derived. rewrite <- M. destruct (g_m (A e)) as [m|] eqn:E; [|reflexivity]. f_equal.
  apply glogprob_same. apply Pa. now apply (base_occs rho e).
Qed.
Lemma mix_same idx es v : goccs idx = [] -> flat_map boccs es = [] -> (forall i, In i (flat_map goccs es) -> List.Forall (fun p => goccs p = []) (snd (rvs i))) ->
  derived_mix dt fs rho rvs dlp dlc idx es v = derived_mix dt fs rho' rvs dlp dlc idx es v.
Proof.
  intros Oi Bo Pa. unfold derived_mix. destruct (closed_same idx (boccs_goccs _ Oi)) as (_ & _ & Vi). rewrite (Vi (rand_goccs _ _ Oi)).
  assert (Q : all_measurable (map A es) = all_measurable (map B es)).
  { clear Pa Vi Oi. induction es as [|e es IH]; [reflexivity|]. cbn in Bo. apply app_eq_nil in Bo as [B1 B2]. cbn [map all_measurable]. destruct (closed_same e B1) as (-> & _ & _). now rewrite IH. }
  rewrite <- Q. destruct (all_measurable (map A es)) as [ms|] eqn:E; [|reflexivity]. f_equal.
  assert (Hm : List.Forall (fun m => List.Forall (fun p => goccs p = []) (snd (rvs (gbase m)))) ms).
  { clear Q Bo. revert ms E Pa. induction es as [|e es IH]; intros ms E Pa; cbn in E; [injection E as <-; constructor|].
    destruct (g_m (A e)) as [m|] eqn:Em; [|discriminate]. destruct (all_measurable (map A es)) as [ms'|]; [|discriminate]. injection E as <-. constructor.
    - apply Pa. cbn. apply in_or_app. left. now apply (base_occs rho e).
    - apply IH; [reflexivity|]. intros i I. apply Pa. cbn. apply in_or_app. auto. }
  unfold mixture_scalar. generalize (Val (Fin 0)). generalize 0%nat. clear -Hm. induction Hm as [|m ms H F IH]; intros n acc; [reflexivity|]. cbn [map mix_scalar].
  rewrite (glogprob_same true m v H). apply IH.
Qed.
End Closed.
