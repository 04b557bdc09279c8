(** Lemmas on nested measurable expressions. *)
From Coq Require Import Reals Lra Lia ZArith List Bool.
From Coquelicot Require Import Coquelicot.
From Verif Require Import XR Special XTac SpecDist ModelDist ModelVec SpecVec ModelTrans LemTrans LemTrans2 ModelNest SpecNest.
Import ListNotations.
Open Scope R_scope.

Section Ind.
Variable P : nexpr -> Prop.
Hypothesis h_rv : forall i, P (NRv i).
Hypothesis h_con : forall c, P (NCon c).
Hypothesis h_one : forall u e, P e -> P (NOne u e).
Hypothesis h_many : forall n es, List.Forall P es -> P (NMany n es).
Hypothesis h_sub : forall a b, P a -> P b -> P (NSub a b).
Hypothesis h_div : forall a b, P a -> P b -> P (NDiv a b).
Hypothesis h_other : forall k es, List.Forall P es -> P (NOther k es).
Fixpoint nexpr_ind' (e : nexpr) : P e :=
  let go := fix go (l : list nexpr) : List.Forall P l :=
    match l with [] => List.Forall_nil P | x :: l => List.Forall_cons x (nexpr_ind' x) (go l) end in
  match e with
  | NRv i => h_rv i | NCon c => h_con c | NOne u e => h_one u e (nexpr_ind' e)
  | NMany n es => h_many n es (go es) | NSub a b => h_sub a b (nexpr_ind' a) (nexpr_ind' b)
  | NDiv a b => h_div a b (nexpr_ind' a) (nexpr_ind' b) | NOther k es => h_other k es (go es)
  end.
End Ind.

Section Nest.
Variable dt : nat -> dtype.
Variable fs : nat -> list xr -> xr.
Notation annotate := (annotate dt fs).
Notation means := (means fs).
Notation regular := (regular fs).

Lemma flat_nil (es : list nexpr) : flat_map occs es = [] <-> List.Forall (fun e => occs e = []) es.
Proof.
  induction es as [|e es IH]; cbn; [split; auto|]. split.
  - intros H. apply app_eq_nil in H. constructor; tauto.
  - intros H. inversion H as [|? ? A B]; subst. rewrite A. cbn. now apply IH.
Qed.

Definition nilb {A} (l : list A) : bool := match l with [] => true | _ => false end.
Lemma nilb_app {A} (l m : list A) : nilb (l ++ m) = nilb l && nilb m.
Proof. now destruct l. Qed.
Lemma rand_occs e : a_rand (annotate e) = negb (nilb (occs e)).
Proof.
  assert (L : forall es, List.Forall (fun e => a_rand (annotate e) = negb (nilb (occs e))) es ->
     existsb a_rand (map annotate es) = negb (nilb (flat_map occs es))).
  { induction es as [|e0 es IH]; [reflexivity|]. intros H. cbn [map existsb flat_map]. rewrite nilb_app, negb_andb.
    rewrite (Forall_inv H), IH by exact (Forall_inv_tail H). reflexivity. }
  induction e as [i|c|u e IH|n es IH|a b IHa IHb|a b IHa IHb|k es IH] using nexpr_ind'; cbn; auto.
  - rewrite nilb_app, negb_andb, IHa, IHb, !orb_false_r. reflexivity.
  - rewrite nilb_app, negb_andb, IHa, IHb, !orb_false_r. reflexivity.
Qed.

Definition plain (a : ann) : Prop := a_m a = None /\ a_rand a = false.
Lemma construct_plain l mk : List.Forall plain l -> construct dt l mk = None.
Proof.
  intros H. unfold construct. replace (measurable_of l) with (@nil mexpr); [reflexivity|].
  induction H as [|a l [A _] H IH]; [reflexivity|]. unfold measurable_of in *. cbn. now rewrite A, <- IH.
Qed.
Lemma ann_plain e : occs e = [] -> plain (annotate e).
Proof.
  intros O. split; [|now rewrite rand_occs, O]. revert O.
  assert (L : forall es, List.Forall (fun e => occs e = [] -> a_m (annotate e) = None) es -> flat_map occs es = [] -> List.Forall plain (map annotate es)).
  { induction es as [|e0 es IH]; intros H O; [constructor|]. cbn in O. apply app_eq_nil in O as [A B]. constructor; [|apply IH; auto; exact (Forall_inv_tail H)].
    split; [now apply (Forall_inv H)|now rewrite rand_occs, A]. }
  induction e as [i|c|u e IH|n es IH|a b IHa IHb|a b IHa IHb|k es IH] using nexpr_ind'; cbn; intros O; auto.
  - discriminate.
  - apply construct_plain. constructor; [|constructor]. split; [auto|now rewrite rand_occs, O].
  - apply construct_plain. now apply L.
  - apply app_eq_nil in O as [A B]. apply construct_plain. repeat constructor; cbn; auto; try now rewrite rand_occs, ?A, ?B.
    apply construct_plain. repeat constructor; auto. now rewrite rand_occs, B.
  - apply app_eq_nil in O as [A B]. apply construct_plain. repeat constructor; cbn; auto; try now rewrite rand_occs, ?A, ?B.
    apply construct_plain. repeat constructor; auto. now rewrite rand_occs, B.
Qed.

(** ** Values of the other inputs *)
Lemma xsum_fin rs : xsum (map Fin rs) = Fin (rtotal rs).
Proof. induction rs as [|r rs IH]; [reflexivity|]. unfold xsum in *. cbn [map fold_right]. rewrite IH. reflexivity. Qed.
Lemma xprod_fin_from rs a : fold_left xmul (map Fin rs) (Fin a) = Fin (a * rprod rs).
Proof.
  revert a. induction rs as [|r rs IH]; intros a; cbn [map fold_left]; [unfold rprod; cbn; f_equal; ring|].
  rewrite xmul_fin, IH. f_equal. unfold rprod. cbn [fold_right]. ring.
Qed.
Definition rfold (n : nary) (rs : list R) : R := match n with NAdd => rtotal rs | NMul => rprod rs end.
Lemma nary_fin n rs : nary_val n (map Fin rs) = Fin (rfold n rs).
Proof. destruct n; cbn [nary_val rfold]; [apply xsum_fin|]. rewrite xprod_fin_from. f_equal. ring. Qed.
Lemma fold_others_fin n rs : rs <> [] -> fold_others n (map Fin rs) = Some (Fin (rfold n rs)).
Proof.
  destruct rs as [|r [|s rs]]; [easy| |].
  - intros _. cbn. f_equal. f_equal. destruct n; unfold rfold, rtotal, rprod; cbn; ring.
  - intros _. change (Some (nary_val n (map Fin (r :: s :: rs))) = Some (Fin (rfold n (r :: s :: rs)))). now rewrite nary_fin.
Qed.
Lemma means_plain rho e r : occs e = [] -> means rho e r -> a_val (annotate e) = Fin r.
Proof.
  revert r.
  assert (L : forall es, List.Forall (fun e => forall r, occs e = [] -> means rho e r -> a_val (annotate e) = Fin r) es -> forall rs, flat_map occs es = [] ->
     Forall2 (means rho) es rs -> map a_val (map annotate es) = map Fin rs).
  { induction es as [|e0 es IH]; intros H rs O F; inversion F as [|? r ? rs' A B]; subst; [reflexivity|]. cbn in O. apply app_eq_nil in O as [O1 O2].
    cbn [map]. rewrite ((Forall_inv H) r O1 A). f_equal. apply IH; auto. exact (Forall_inv_tail H). }
  induction e as [i|c|u e IH|n es IH|a b IHa IHb|a b IHa IHb|k es IH] using nexpr_ind'; intros y O M; inversion M as [| |? r M1|? r M1 Q|? r M1 Q|? rs M1|? rs M1|? ? r s M1 M2|? ? r s M1 M2 Q|? ? rs ? M1 Q]; subst; cbn in O; cbn [ModelNest.annotate rw_unary rw_nary rw_sub rw_div a_val con map].
  - discriminate.
  - reflexivity.
  - rewrite (IH r O M1). reflexivity.
  - rewrite (IH r O M1). cbn [un_val]. now apply xlog_pos.
  - rewrite (IH r O M1). cbn [un_val]. now apply xrecip_fin.
  - rewrite (L es IH rs O M1). apply (nary_fin NAdd).
  - rewrite (L es IH rs O M1). apply (nary_fin NMul).
  - apply app_eq_nil in O as [O1 O2]. rewrite (IHa r O1 M1), (IHb s O2 M2).
    pose proof (nary_fin NMul [-1; s]) as E. cbn [map] in E. rewrite E. pose proof (nary_fin NAdd [r; rfold NMul [-1; s]]) as E2. cbn [map] in E2. rewrite E2.
    f_equal. unfold rfold, rtotal, rprod. cbn. ring.
  - apply app_eq_nil in O as [O1 O2]. rewrite (IHa r O1 M1), (IHb s O2 M2). cbn [un_val]. rewrite xrecip_fin by auto.
    pose proof (nary_fin NMul [r; / s]) as E. cbn [map] in E. rewrite E. f_equal. unfold rfold, rprod. cbn. field. auto.
  - rewrite (L es IH rs O M1). exact Q.
Qed.
Lemma vals_plain rho es rs : flat_map occs es = [] -> Forall2 (means rho) es rs -> map a_val (map annotate es) = map Fin rs.
Proof.
  revert rs. induction es as [|e es IH]; intros rs O F; inversion F as [|? r ? rs' A B]; subst; [reflexivity|]. cbn in O. apply app_eq_nil in O as [O1 O2].
  cbn [map]. rewrite (means_plain rho e r O1 A), (IH rs') by auto. reflexivity.
Qed.
(** an expression without random variables does not depend on the draws *)
Lemma means_indep rho rho' e r : occs e = [] -> means rho e r -> means rho' e r.
Proof.
  revert r.
  assert (L : forall es, List.Forall (fun e => forall r, occs e = [] -> means rho e r -> means rho' e r) es -> forall rs, flat_map occs es = [] ->
     Forall2 (means rho) es rs -> Forall2 (means rho') es rs).
  { induction es as [|e0 es IH]; intros H rs O F; inversion F as [|? r ? rs' A B]; subst; [constructor|]. cbn in O. apply app_eq_nil in O as [O1 O2].
    constructor; [now apply (Forall_inv H)|]. apply IH; auto. exact (Forall_inv_tail H). }
  induction e as [i|c|u e IH|n es IH|a b IHa IHb|a b IHa IHb|k es IH] using nexpr_ind'; intros y O M; inversion M as [| |? r M1|? r M1 Q|? r M1 Q|? rs M1|? rs M1|? ? r s M1 M2|? ? r s M1 M2 Q|? ? rs ? M1 Q]; subst; cbn in O; try discriminate; try (apply app_eq_nil in O as [O1 O2]); try (econstructor; eauto; fail).
Qed.
Lemma means_indeps rho rho' es rs : flat_map occs es = [] -> Forall2 (means rho) es rs -> Forall2 (means rho') es rs.
Proof.
  revert rs. induction es as [|e es IH]; intros rs O F; inversion F as [|? r ? rs' A B]; subst; [constructor|]. cbn in O. apply app_eq_nil in O as [O1 O2].
  constructor; [now apply (means_indep rho)|]. now apply IH.
Qed.
(** an expression denotes at most one number *)
Lemma means_fun rho e r s : means rho e r -> means rho e s -> r = s.
Proof.
  revert r s.
  assert (L : forall es, List.Forall (fun e => forall r s, means rho e r -> means rho e s -> r = s) es -> forall rs ss, Forall2 (means rho) es rs -> Forall2 (means rho) es ss -> rs = ss).
  { induction es as [|e0 es IH]; intros H rs ss F G; inversion F; inversion G; subst; [reflexivity|]. f_equal; [now apply (Forall_inv H)|]. apply IH; auto. exact (Forall_inv_tail H). }
  induction e as [i|c|u e IH|n es IH|a b IHa IHb|a b IHa IHb|k es IH] using nexpr_ind'; intros y z M N; inversion M; subst; inversion N; subst; try congruence.
  all: try (f_equal; eauto; fail).
  match goal with A : Forall2 _ es ?x, B : Forall2 _ es ?y |- _ => rewrite (L es IH x y A B) in * end. congruence.
Qed.

(** ** Which expressions are accepted *)
Lemma measurable_app l m : measurable_of (l ++ m) = measurable_of l ++ measurable_of m.
Proof. apply flat_map_app. Qed.
Lemma measurable_plain l : List.Forall plain l -> measurable_of l = [] /\ others_of l = l /\ existsb a_rand l = false.
Proof.
  induction 1 as [|a l [A B] H (IH1 & IH2 & IH3)]; [auto|]. unfold measurable_of, others_of in *. cbn. rewrite A, B. cbn. rewrite IH1, IH2. auto.
Qed.
Lemma construct_mid A a B m mk : List.Forall plain A -> List.Forall plain B -> a_m a = Some m -> starts_int dt m = false ->
  construct dt (A ++ a :: B) mk = match mk (map a_val (A ++ B)) with Some t => Some (MElem t m) | None => None end.
Proof.
  intros HA HB E I. destruct (measurable_plain A HA) as (A1 & A2 & A3). destruct (measurable_plain B HB) as (B1 & B2 & B3).
  unfold construct. rewrite measurable_app. change (measurable_of (a :: B)) with ((match a_m a with Some m => [m] | None => [] end) ++ measurable_of B).
  rewrite A1, E, B1. cbn [app]. rewrite I. unfold others_of in *. rewrite filter_app. cbn [filter]. rewrite E, A2, B2, existsb_app, A3, B3. reflexivity.
Qed.
Lemma construct_1 a m mk : a_m a = Some m -> starts_int dt m = false ->
  construct dt [a] mk = match mk [] with Some t => Some (MElem t m) | None => None end.
Proof. exact (fun E S => construct_mid [] a [] m mk (List.Forall_nil _) (List.Forall_nil _) E S). Qed.
Lemma construct_l a b m mk : plain b -> a_m a = Some m -> starts_int dt m = false ->
  construct dt [a; b] mk = match mk [a_val b] with Some t => Some (MElem t m) | None => None end.
Proof. exact (fun P E S => construct_mid [] a [b] m mk (List.Forall_nil _) (List.Forall_cons _ P (List.Forall_nil _)) E S). Qed.
Lemma construct_r a b m mk : plain a -> a_m b = Some m -> starts_int dt m = false ->
  construct dt [a; b] mk = match mk [a_val a] with Some t => Some (MElem t m) | None => None end.
Proof. exact (fun P E S => construct_mid [a] b [] m mk (List.Forall_cons _ P (List.Forall_nil _)) (List.Forall_nil _) E S). Qed.
Lemma plain_map es : flat_map occs es = [] -> List.Forall plain (map annotate es).
Proof.
  intros H. apply flat_nil in H. induction H as [|e es A H IH]; cbn; constructor; auto. now apply ann_plain.
Qed.
Lemma con_plain c : plain (con c). Proof. split; reflexivity. Qed.
Lemma fold_others_some n vs : vs <> [] -> exists c, fold_others n vs = Some c.
Proof. destruct vs as [|v [|w vs]]; cbn; [easy|eauto|eauto]. Qed.
Lemma tr_nary_some n vs : vs <> [] -> exists t, tr_nary n vs = Some t.
Proof. intros H. unfold tr_nary. destruct (fold_others_some n vs H) as [c ->]. eauto. Qed.

Lemma neg_plain b : occs b = [] -> plain (rw_nary dt NMul [con (Fin (-1)); annotate b]).
Proof.
  intros O. pose proof (ann_plain b O) as P. split; cbn [rw_nary a_m a_rand].
  - apply construct_plain. repeat constructor; apply P.
  - cbn. now rewrite rand_occs, O.
Qed.
Lemma inv_plain b : occs b = [] -> plain (rw_unary dt URecip (annotate b)).
Proof.
  intros O. pose proof (ann_plain b O) as P. split; cbn [rw_unary a_m a_rand].
  - apply construct_plain. repeat constructor; apply P.
  - now rewrite rand_occs, O.
Qed.
Lemma starts_base m i : mbase m = i -> dt i <> DInt -> starts_int dt m = false.
Proof. destruct m as [j|t m]; cbn; [|auto]. intros <-. now destruct (dt j). Qed.
Lemma chain_accepted i e : chain i e -> dt i <> DInt -> exists m, a_m (annotate e) = Some m /\ mbase m = i.
Proof.
  intros C D. induction C as [|u e C IH|n l e r C IH Ol Or N|a b C IH O|a b C IH O|a b C IH O|a b C IH O]; cbn [ModelNest.annotate rw_unary rw_nary rw_sub rw_div a_m].
  - eexists; split; reflexivity.
  - destruct IH as (m & E & B). rewrite (construct_1 _ m) by (auto; eapply starts_base; eauto). eexists; split; [reflexivity|exact B].
  - destruct IH as (m & E & B). cbn in Ol, Or. rewrite map_app. cbn [map].
    rewrite (construct_mid _ _ _ m) by (auto; try (now apply plain_map); eapply starts_base; eauto).
    destruct (tr_nary_some n (map a_val (map annotate l ++ map annotate r))) as [t ->]; [|eexists; split; [reflexivity|exact B]].
    rewrite <- map_app. intros Z. apply map_eq_nil, map_eq_nil in Z. auto.
  - destruct IH as (m & E & B). rewrite (construct_l _ _ m); auto; [|now apply neg_plain|eapply starts_base; eauto].
    eexists; split; [reflexivity|exact B].
  - destruct IH as (m & E & B). rewrite (construct_r _ _ (MElem (TScale (Fin (-1))) m)); auto; [|now apply ann_plain|].
    + eexists; split; [reflexivity|exact B].
    + cbn [rw_nary a_m]. rewrite (construct_r _ _ m); auto; [apply con_plain|eapply starts_base; eauto].
  - destruct IH as (m & E & B). rewrite (construct_l _ _ m); auto; [|now apply inv_plain|eapply starts_base; eauto].
    eexists; split; [reflexivity|exact B].
  - destruct IH as (m & E & B). rewrite (construct_r _ _ (MElem TRecip m)); auto; [|now apply ann_plain|].
    + eexists; split; [reflexivity|exact B].
    + cbn [rw_unary a_m]. rewrite (construct_1 _ m); auto. eapply starts_base; eauto.
Qed.

Lemma construct_inv l mk m : construct dt l mk = Some m -> exists A a B m' t, l = A ++ a :: B /\ a_m a = Some m' /\ starts_int dt m' = false /\
  List.Forall plain A /\ List.Forall plain B /\ mk (map a_val (A ++ B)) = Some t /\ m = MElem t m'.
Proof.
  unfold construct. destruct (measurable_of l) as [|m' [|]] eqn:M; try discriminate.
  destruct (starts_int dt m') eqn:I; [discriminate|]. destruct (existsb a_rand (others_of l)) eqn:R; [discriminate|].
  destruct (mk (map a_val (others_of l))) as [t|] eqn:K; [|discriminate]. intros E. injection E as <-.
  assert (S : exists A a B, l = A ++ a :: B /\ a_m a = Some m' /\ measurable_of A = [] /\ measurable_of B = []).
  { clear -M. induction l as [|a l IH]; [discriminate|]. unfold measurable_of in M. cbn in M. destruct (a_m a) as [x|] eqn:E.
    - cbn in M. injection M as -> M. exists [], a, l. auto.
    - destruct (IH M) as (A & b & B & -> & E1 & E2 & E3). exists (a :: A), b, B. repeat split; auto. unfold measurable_of. cbn. now rewrite E. }
  destruct S as (A & a & B & -> & E & MA & MB).
  assert (N : forall X, measurable_of X = [] -> others_of X = X /\ List.Forall (fun a => a_m a = None) X).
  { clear. induction X as [|a X IH]; [auto|]. unfold measurable_of, others_of in *. cbn. destruct (a_m a) eqn:E; [discriminate|]. cbn. intros H. destruct (IH H) as [-> ?]. auto. }
  destruct (N A MA) as [OA FA]. destruct (N B MB) as [OB FB].
  assert (O : others_of (A ++ a :: B) = A ++ B). { unfold others_of in *. rewrite filter_app. cbn. rewrite E. now rewrite OA, OB. }
  rewrite O in R, K. rewrite existsb_app in R. apply orb_false_iff in R as [RA RB].
  assert (Q : forall X, List.Forall (fun a => a_m a = None) X -> existsb a_rand X = false -> List.Forall plain X).
  { clear. induction 1 as [|a X E H IH]; [constructor|]. cbn. intros R. apply orb_false_iff in R as [R1 R2]. constructor; [split; auto|auto]. }
  exists A, a, B, m', t. repeat split; auto.
Qed.
Lemma plain_occs e : plain (annotate e) -> occs e = [].
Proof. intros [_ R]. rewrite rand_occs in R. now destruct (occs e). Qed.
Lemma plain_flat es : List.Forall plain (map annotate es) -> flat_map occs es = [].
Proof. intros H. apply flat_nil. induction es; cbn in H; constructor; inversion H; subst; auto. now apply plain_occs. Qed.
Definition int_ok (i : nat) (e : nexpr) : Prop := dt i <> DInt \/ e = NRv i.
Lemma base_ok i e m : int_ok i e -> a_m (annotate e) = Some m -> mbase m = i -> starts_int dt m = false -> dt i <> DInt.
Proof.
  intros [D| ->] E B S; [exact D|]. cbn in E. injection E as <-. cbn in S. now destruct (dt i).
Qed.
Lemma one_list {A} (X Y : list A) a b : [b] = X ++ a :: Y -> X = [] /\ Y = [] /\ a = b.
Proof. destruct X as [|x [|y X]]; cbn; intros E; injection E; [intros; subst; auto|intros H; discriminate H|intros H; destruct X; discriminate H]. Qed.
Lemma two_list {A} (X Y : list A) a b c : [b; c] = X ++ a :: Y -> (X = [] /\ Y = [c] /\ a = b) \/ (X = [b] /\ Y = [] /\ a = c).
Proof.
  destruct X as [|x [|y X]]; cbn; intros E.
  - injection E as <- <-. auto.
  - injection E as <- <- E. auto.
  - injection E as _ _ E. destruct X; discriminate E.
Qed.
Lemma accepted_chain e m : a_m (annotate e) = Some m -> chain (mbase m) e /\ int_ok (mbase m) e.
Proof.
  revert m. induction e as [i|c|u e IH|n es IH|a b IHa IHb|a b IHa IHb|k es IH] using nexpr_ind'; intros m0 E; cbn [ModelNest.annotate rw_unary rw_nary rw_sub rw_div a_m con] in E; try discriminate.
  - injection E as <-. split; [constructor|now right].
  - apply construct_inv in E as (A & a & B & m' & t & L & E & S & _ & _ & _ & ->).
    apply one_list in L as (-> & -> & ->). destruct (IH m' E) as [C I]. split; [now constructor|]. left. exact (base_ok _ _ _ I E eq_refl S).
  - apply construct_inv in E as (A & a & B & m' & t & L & E & S & PA & PB & K & ->).
    apply map_eq_app in L as (l1 & l2 & -> & <- & L2). destruct l2 as [|e l2]; [discriminate|]. cbn in L2. injection L2 as <- <-.
    apply Forall_app in IH as [_ IH]. destruct (Forall_inv IH m' E) as [C I].
    split; [|left; exact (base_ok _ _ _ I E eq_refl S)]. apply c_many; auto; cbn; try now apply plain_flat.
    intros Z. apply app_eq_nil in Z as [-> ->]. discriminate K.
  - apply construct_inv in E as (A & x & B & m' & t & L & E & S & PA & PB & K & ->). apply two_list in L as [(-> & -> & ->)|(-> & -> & ->)].
    + destruct (IHa m' E) as [C I]. split; [|left; exact (base_ok _ _ _ I E eq_refl S)]. apply c_sub_l; auto.
      apply Forall_inv in PB as [_ R]. cbn in R. rewrite orb_false_r, rand_occs in R. now destruct (occs b).
    + cbn [rw_nary a_m] in E. apply construct_inv in E as (A' & x & B' & m2 & t2 & L & E & S2 & PA' & PB' & K' & ->).
      apply two_list in L as [(-> & -> & ->)|(-> & -> & ->)]; [discriminate|]. destruct (IHb m2 E) as [C I].
      split; [|left; exact (base_ok _ _ _ I E eq_refl S2)]. apply c_sub_r; auto. apply plain_occs. exact (Forall_inv PA).
  - apply construct_inv in E as (A & x & B & m' & t & L & E & S & PA & PB & K & ->). apply two_list in L as [(-> & -> & ->)|(-> & -> & ->)].
    + destruct (IHa m' E) as [C I]. split; [|left; exact (base_ok _ _ _ I E eq_refl S)]. apply c_div_l; auto.
      apply Forall_inv in PB as [_ R]. cbn in R. rewrite rand_occs in R. now destruct (occs b).
    + cbn [rw_unary a_m] in E. apply construct_inv in E as (A' & x & B' & m2 & t2 & L & E & S2 & PA' & PB' & K' & ->).
      apply one_list in L as (-> & -> & ->). destruct (IHb m2 E) as [C I].
      split; [|left; exact (base_ok _ _ _ I E eq_refl S2)]. apply c_div_r; auto. apply plain_occs. exact (Forall_inv PA).
Qed.
Lemma accepted_iff e i : (exists m, a_m (annotate e) = Some m /\ mbase m = i) <-> chain i e /\ int_ok i e.
Proof.
  split.
  - intros (m & E & <-). now apply accepted_chain.
  - intros [C [D| ->]]; [now apply chain_accepted|]. now exists (MBase i).
Qed.
Lemma chain_occs i e : chain i e -> occs e = [i].
Proof.
  induction 1 as [|u e C IH|n l e r C IH Ol Or N|a b C IH O|a b C IH O|a b C IH O|a b C IH O]; cbn in *; auto.
  - rewrite flat_map_app, Ol. cbn. now rewrite IH, Or.
  - now rewrite IH, O. - now rewrite IH, O. - now rewrite IH, O. - now rewrite IH, O.
Qed.
End Nest.
