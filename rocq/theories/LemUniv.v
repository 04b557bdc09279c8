(** Proofs for the univariate variables on arrays. *)
From Coq Require Import Reals Lra Lia List Arith Bool Permutation Classical_Prop.
From Verif Require Import XR Special ModelDist ModelVec ModelIdx ModelTen ModelSub ModelBatch SpecIdx SpecElem SpecVec SpecDist
  LemIdx LemIdx2 LemSub LemDisc LemUtil LemElem LemBatch ModelUniv SpecUniv.
Import ListNotations.
Open Scope nat_scope.

(** ** one element *)
Fixpoint eval1 (x : nat -> xr) {A} (e : gx A) : res A :=
  match e with
  | GVar i => Val (x i)
  | GCon c => Val c
  | @G1 _ _ f a => rmap f (eval1 x a)
  | @G2 _ _ _ f a b => bind (eval1 x a) (fun a => bind (eval1 x b) (fun b => Val (f a b)))
  | GSw c a b => bind (eval1 x c) (fun c => bind (eval1 x a) (fun a => bind (eval1 x b) (fun b => Val (if c then a else b))))
  | GChk e c => bind (eval1 x e) (fun e => bind (eval1 x c) (fun c => check (Val e) [c]))
  end.
Lemma check2 {A} (v : A) a b : check (Val v) [a; b] = bind (check (Val v) [a]) (fun v => check (Val v) [b]).
Proof. destruct a, b; reflexivity. Qed.
Lemma check1 {A} (v : A) a : check (Val v) [a] = if a then Val v else Raise.
Proof. destruct a; reflexivity. Qed.
Lemma eval1_graph u x : eval1 x (graph u) = scalar u x.
Proof.
  destruct u; cbn [graph scalar]; try reflexivity;
  try (cbv [uniform_logcdf beta_logprob pareto_logprob gamma_logprob invgamma_logprob chisquare_logprob wald_logprob triangular_logprob binomial_logprob betabinomial_logprob bernoulli_logprob geometric_logprob geometric_logcdf]; rewrite check2; reflexivity).
  unfold nbinom_logprob. cbv zeta. rewrite check2. reflexivity.
Qed.

(** ** the inputs of a graph *)
Fixpoint gvars {A} (e : gx A) : list nat :=
  match e with
  | GVar i => [i]
  | GCon _ => []
  | @G1 _ _ _ a => gvars a
  | @G2 _ _ _ _ a b => gvars a ++ gvars b
  | GSw c a b => gvars c ++ gvars a ++ gvars b
  | GChk e _ => gvars e
  end.
(** and of its checks *)
Fixpoint allvars {A} (e : gx A) : list nat :=
  match e with
  | GVar i => [i]
  | GCon _ => []
  | @G1 _ _ _ a => allvars a
  | @G2 _ _ _ _ a b => allvars a ++ allvars b
  | GSw c a b => allvars c ++ allvars a ++ allvars b
  | GChk e c => allvars e ++ allvars c
  end.
Lemma gvars_all {A} (e : gx A) k : In k (gvars e) -> In k (allvars e).
Proof. induction e; cbn; rewrite ?in_app_iff; tauto. Qed.

(** ** every entry of a small array is read from some position of a larger one *)
Lemma reached c s p : broadcasts c s -> List.Forall (fun n => 0 < n) s -> inside c p -> exists i, inside s i /\ align c i = p.
Proof.
  intros B P I. pose proof (bc_len c s B) as Lc. pose proof (inside_length _ _ I) as Lp.
  set (n := length s - length c).
  exists (repeat 0 n ++ p). split; [|rewrite align_drop by lia; now apply align_self].
  rewrite <- (firstn_skipn n s) in B, P |- *.
  assert (L1 : length (firstn n s) = n) by (rewrite firstn_length; unfold n; lia).
  assert (L2 : length (skipn n s) = length c) by (rewrite skipn_length; unfold n; lia).
  revert B P L1 L2. generalize (firstn n s) as s1, (skipn n s) as s2. clear Lc. clearbody n. intros s1 s2 B P L1 L2.
  apply Forall2_app.
  - apply Forall_app in P. destruct P as [P _]. subst n. clear B. induction P; cbn; constructor; auto.
  - apply Forall_app in P. destruct P as [_ P].
    assert (E : forall k, k < length c -> nth k c 1 = 1 \/ nth k c 1 = nth k s2 1).
    { intros k Hk. destruct (bc_col _ _ c (length c - S k) B (or_introl eq_refl)) as [V|V];
        unfold rnth in V; rewrite rev_nth in V by lia; replace (length c - S (length c - S k)) with k in V by lia; [now left|].
      rewrite rev_app_distr, app_nth1 in V by (rewrite rev_length; lia). rewrite rev_nth in V by lia.
      replace (length s2 - S (length c - S k)) with k in V by lia. now right. }
    clear B Lp. revert s2 P L2 E. induction I as [|x d p c Hx I IH]; intros [|y s2] P L2 E; try discriminate; constructor.
    + inversion P; subst. destruct (E 0 ltac:(cbn; lia)) as [V|V]; cbn in V; lia.
    + inversion P; subst. cbn in L2. apply IH; [assumption|lia|]. intros k Hk. apply (E (S k)). cbn. lia.
Qed.

(** ** arrays *)
Section arrays.
Variable env : nat -> nd xr.
Variable vs : list nat.
Variable s : list nat.
Hypothesis Hs : is_broadcast (map (fun k => nshp (env k)) vs) s.
Definition sh (l : list nat) := map (fun k => nshp (env k)) l.
Definition at_ (i : list nat) : nat -> xr := fun k => nelt (env k) (align (nshp (env k)) i).

Lemma sh_in l x : incl l vs -> In x (sh l) -> In x (sh vs).
Proof. intros I H. apply in_map_iff in H. destruct H as (k & <- & H). apply in_map_iff. exists k. auto. Qed.
Lemma sh_bc l c : incl l vs -> is_broadcast (sh l) c -> broadcasts c s.
Proof.
  intros I H. destruct (bc_part (sh l) (sh vs) s Hs (fun x => sh_in l x I)) as (c' & H' & B). now rewrite (bc_unique _ _ _ H H').
Qed.
Lemma sh_ex l : incl l vs -> exists c, is_broadcast (sh l) c.
Proof. intros I. destruct (bc_part (sh l) (sh vs) s Hs (fun x => sh_in l x I)) as (c' & H' & B). eauto. Qed.
Lemma sh_app l m : sh (l ++ m) = sh l ++ sh m.
Proof. apply map_app. Qed.
(** broadcasting in two steps *)
Lemma bc_two l m a b o : incl l vs -> incl m vs -> is_broadcast (sh l) a -> is_broadcast (sh m) b -> is_broadcast [a; b] o -> is_broadcast (sh (l ++ m)) o.
Proof.
  intros I J H K B. destruct (sh_ex (l ++ m)) as (c & C); [now apply incl_app|]. rewrite sh_app in *.
  pose proof (bc_flat2 _ _ _ _ _ H K C) as B'. now rewrite (bc_unique _ _ _ B B').
Qed.
Lemma bc_cons a b c o : is_broadcast [a; b; c] o -> exists d, is_broadcast [b; c] d /\ is_broadcast [a; d] o.
Proof.
  intros H. destruct (bc_part [b; c] [a; b; c] o H) as (d & D & _); [cbn; tauto|]. exists d. split; [exact D|].
  assert (H' : is_broadcast ([b; c] ++ [a]) o) by (revert H; apply bc_ext; cbn; tauto).
  pose proof (bc_flat _ _ _ _ D H') as X. revert X. apply bc_ext. cbn. tauto.
Qed.
Lemma bc_three l m n a b c o : incl l vs -> incl m vs -> incl n vs -> is_broadcast (sh l) a -> is_broadcast (sh m) b -> is_broadcast (sh n) c ->
  is_broadcast [a; b; c] o -> is_broadcast (sh (l ++ m ++ n)) o.
Proof.
  intros I J N A B C H. destruct (bc_cons _ _ _ _ H) as (d & D & E).
  exact (bc_two l (m ++ n) a d o I (incl_app J N) A (bc_two m n b c d J N B C D) E).
Qed.
Lemma incl_l {l m n : list nat} : incl (l ++ m) n -> incl l n.
Proof. intros H x I. apply H, in_or_app. auto. Qed.
Lemma incl_r {l m n : list nat} : incl (l ++ m) n -> incl m n.
Proof. intros H x I. apply H, in_or_app. auto. Qed.
Lemma gincl {A} (e : gx A) : incl (allvars e) vs -> incl (gvars e) vs.
Proof. intros H x I. apply H, gvars_all, I. Qed.

(** an array, when there is one, is element by element the scalar function *)
Lemma eval_sound {A} (e : gx A) : incl (allvars e) vs -> forall a, eval_nd env e = Val a ->
  is_broadcast (sh (gvars e)) (nshp a) /\ forall i, inside s i -> eval1 (at_ i) e = Val (nelt a (align (nshp a) i)).
Proof.
  induction e as [i|c|A B f a IH|A B C f a IHa b IHb|c IHc a IHa b IHb|e IHe c IHc]; cbn [allvars gvars eval_nd eval1]; intros V r E.
  - injection E as <-. split; [|reflexivity]. apply bc_one.
  - injection E as <-. split; [|reflexivity]. apply bcast_all_spec. reflexivity.
  - destruct (eval_nd env a) as [x|]; [|discriminate]. injection E as <-. destruct (IH V x eq_refl) as (S & F). split; [exact S|].
    intros i I. rewrite (F i I). reflexivity.
  - destruct (eval_nd env a) as [x|]; [|discriminate]. destruct (eval_nd env b) as [y|]; [|discriminate]. cbn [bind] in E.
    destruct (IHa (incl_l V) x eq_refl) as (Sx & Fx). destruct (IHb (incl_r V) y eq_refl) as (Sy & Fy).
    destruct (bcast_all [nshp x; nshp y]) as [o|] eqn:Eo; [|unfold elem2 in E; rewrite Eo in E; discriminate].
    apply bcast_all_spec in Eo. destruct (elem2_ok f x y o Eo) as (r' & E' & S & F). rewrite E in E'. injection E' as <-.
    pose proof (bc_two _ _ _ _ _ (gincl _ (incl_l V)) (gincl _ (incl_r V)) Sx Sy Eo) as So.
    pose proof (incl_app (gincl _ (incl_l V)) (gincl _ (incl_r V))) as Vo.
    split; [now rewrite S|]. intros i I. rewrite (Fx i I), (Fy i I). cbn [bind]. rewrite F, S.
    pose proof (inside_length _ _ I) as L. pose proof (sh_bc _ _ Vo So) as Bo.
    rewrite !(align_align _ o s i) by (first [assumption|eapply bc_in; [exact Eo|cbn; auto]]). reflexivity.
  - destruct (eval_nd env c) as [z|]; [|discriminate]. destruct (eval_nd env a) as [x|]; [|discriminate]. destruct (eval_nd env b) as [y|]; [|discriminate]. cbn [bind] in E.
    destruct (IHc (incl_l V) z eq_refl) as (Sz & Fz). destruct (IHa (incl_l (incl_r V)) x eq_refl) as (Sx & Fx). destruct (IHb (incl_r (incl_r V)) y eq_refl) as (Sy & Fy).
    unfold switch3 in E. destruct (bcast_all [nshp z; nshp x; nshp y]) as [o|] eqn:Eo; [|discriminate]. cbn [bind] in E. injection E as <-. cbn [nshp nelt].
    apply bcast_all_spec in Eo.
    pose proof (bc_three _ _ _ _ _ _ _ (gincl _ (incl_l V)) (gincl _ (incl_l (incl_r V))) (gincl _ (incl_r (incl_r V))) Sz Sx Sy Eo) as So.
    pose proof (incl_app (gincl _ (incl_l V)) (incl_app (gincl _ (incl_l (incl_r V))) (gincl _ (incl_r (incl_r V))))) as Vo.
    split; [exact So|]. intros i I. rewrite (Fz i I), (Fx i I), (Fy i I). cbn [bind].
    pose proof (inside_length _ _ I) as L. pose proof (sh_bc _ _ Vo So) as Bo.
    rewrite !(align_align _ o s i) by (first [assumption|eapply bc_in; [exact Eo|cbn; auto]]). reflexivity.
  - destruct (eval_nd env e) as [x|]; [|discriminate]. destruct (eval_nd env c) as [z|]; [|discriminate]. cbn [bind check_nd forallb] in E.
    destruct (all_of z) eqn:Ez; [|discriminate]. injection E as <-. rewrite all_of_true in Ez.
    destruct (IHe (incl_l V) x eq_refl) as (Sx & Fx). destruct (IHc (incl_r V) z eq_refl) as (Sz & Fz). split; [exact Sx|].
    intros i I. rewrite (Fx i I), (Fz i I). cbn [bind]. rewrite Ez; [reflexivity|].
    exact (align_inside _ _ _ (sh_bc _ _ (gincl _ (incl_r V)) Sz) I).
Qed.
(** when no element raises, there is one *)
Lemma eval_complete {A} (e : gx A) : List.Forall (fun n => 0 < n) s -> incl (allvars e) vs ->
  (forall i, inside s i -> eval1 (at_ i) e <> Raise) -> exists a, eval_nd env e = Val a.
Proof.
  intros P. induction e as [i|c|A B f a IH|A B C f a IHa b IHb|c IHc a IHa b IHb|e IHe c IHc]; cbn [allvars eval_nd eval1]; intros V N.
  - eauto.
  - eauto.
  - destruct IH as (x & ->); [exact V| |cbn; eauto]. intros i I H. apply (N i I). now rewrite H.
  - destruct IHa as (x & Ex); [exact (incl_l V)|intros i I H; apply (N i I); now rewrite H|].
    destruct IHb as (y & Ey); [exact (incl_r V)|intros i I H; apply (N i I); rewrite H; now destruct (eval1 (at_ i) a)|].
    rewrite Ex, Ey. cbn [bind].
    destruct (eval_sound a (incl_l V) x Ex) as (Sx & _). destruct (eval_sound b (incl_r V) y Ey) as (Sy & _).
    destruct (sh_ex (gvars a ++ gvars b)) as (o & So); [exact (incl_app (gincl _ (incl_l V)) (gincl _ (incl_r V)))|]. rewrite sh_app in So.
    destruct (elem2_ok f x y o (bc_flat2 _ _ _ _ _ Sx Sy So)) as (r & E & _). eauto.
  - destruct IHc as (z & Ez); [exact (incl_l V)|intros i I H; apply (N i I); now rewrite H|].
    destruct IHa as (x & Ex); [exact (incl_l (incl_r V))|intros i I H; apply (N i I); rewrite H; now destruct (eval1 (at_ i) c)|].
    destruct IHb as (y & Ey); [exact (incl_r (incl_r V))|intros i I H; apply (N i I); rewrite H; destruct (eval1 (at_ i) c); [now destruct (eval1 (at_ i) a)|reflexivity]|].
    rewrite Ez, Ex, Ey. cbn [bind].
    destruct (eval_sound c (incl_l V) z Ez) as (Sz & _). destruct (eval_sound a (incl_l (incl_r V)) x Ex) as (Sx & _). destruct (eval_sound b (incl_r (incl_r V)) y Ey) as (Sy & _).
    assert (I2 : incl (gvars a ++ gvars b) vs) by (apply incl_app; [exact (gincl _ (incl_l (incl_r V)))|exact (gincl _ (incl_r (incl_r V)))]).
    destruct (sh_ex (gvars c ++ gvars a ++ gvars b)) as (o & So); [exact (incl_app (gincl _ (incl_l V)) I2)|]. rewrite !sh_app in So.
    unfold switch3. assert (B : is_broadcast [nshp z; nshp x; nshp y] o).
    { pose proof (bc_flat _ _ _ _ Sz So) as B1.
      assert (B2 : is_broadcast (sh (gvars a) ++ [nshp z] ++ sh (gvars b)) o) by (revert B1; apply bc_ext; intros q; cbn; rewrite !in_app_iff; cbn; tauto).
      pose proof (bc_flat _ _ _ _ Sx B2) as B3.
      assert (B4 : is_broadcast (sh (gvars b) ++ [nshp z; nshp x]) o) by (revert B3; apply bc_ext; intros q; cbn; rewrite !in_app_iff; cbn; tauto).
      pose proof (bc_flat _ _ _ _ Sy B4) as B5. revert B5. apply bc_ext. cbn. tauto. }
    apply bcast_all_spec in B. rewrite B. cbn [bind]. eauto.
  - destruct IHe as (x & Ex); [exact (incl_l V)|intros i I H; apply (N i I); now rewrite H|].
    destruct IHc as (z & Ez); [exact (incl_r V)|intros i I H; apply (N i I); rewrite H; now destruct (eval1 (at_ i) e)|].
    rewrite Ex, Ez. cbn [bind check_nd forallb]. exists x. replace (all_of z) with true; [reflexivity|]. symmetry. apply all_of_true. intros p Ip.
    destruct (eval_sound c (incl_r V) z Ez) as (Sz & Fz). destruct (eval_sound e (incl_l V) x Ex) as (_ & Fx).
    destruct (reached _ _ _ (sh_bc _ _ (gincl _ (incl_r V)) Sz) P Ip) as (i & I & <-).
    pose proof (N i I) as H. rewrite (Fx i I), (Fz i I) in H. cbn [bind] in H.
    destruct (nelt z (align (nshp z) i)); [reflexivity|]. now cbn in H.
Qed.
End arrays.

(** ** the families *)
Lemma graph_vars u : incl (allvars (graph u)) (seq 0 (S (params u))).
Proof. destruct u; intros k H; apply in_seq; lazy in H; cbn [params]; intuition lia. Qed.
Lemma graph_covers u k : k <= params u -> In k (gvars (graph u)).
Proof.
  intros H. assert (E : k = 0 \/ k = 1 \/ k = 2 \/ k = 3) by (destruct u; cbn [params] in H; lia).
  destruct u; cbn [params] in H; destruct E as [ -> |[ -> |[ -> | -> ]]]; try lia; lazy; tauto.
Qed.
Lemma graph_shapes u env s : common u env s <-> is_broadcast (sh env (gvars (graph u))) s.
Proof.
  unfold common, sh. assert (E : forall x, In x (map (fun k => nshp (env k)) (seq 0 (S (params u)))) <-> In x (map (fun k => nshp (env k)) (gvars (graph u)))).
  { intros x. rewrite !in_map_iff. split; intros (k & <- & H); exists k; (split; [reflexivity|]).
    - apply in_seq in H. apply graph_covers. lia.
    - apply (graph_vars u). now apply gvars_all. }
  split; apply bc_ext; intros x; [|symmetry]; apply E.
Qed.
Lemma eval1_ext {A} (e : gx A) x y : (forall k, In k (allvars e) -> x k = y k) -> eval1 x e = eval1 y e.
Proof.
  induction e; cbn [allvars eval1]; intros H.
  - f_equal. apply H. now left.
  - reflexivity.
  - now rewrite IHe by exact H.
  - rewrite IHe1, IHe2 by (intros; apply H, in_or_app; auto). reflexivity.
  - rewrite IHe1, IHe2, IHe3 by (intros; apply H; rewrite !in_app_iff; auto). reflexivity.
  - rewrite IHe1, IHe2 by (intros; apply H, in_or_app; auto). reflexivity.
Qed.
Lemma entries_at u env s i x : common u env s -> inside s i -> entries u env i x -> forall k, k <= params u -> x k = at_ env i k.
Proof.
  intros C I H k K. destruct (H k K) as (c & A & ->). unfold at_. f_equal. apply aligned_iff; [|exact A].
  rewrite (inside_length _ _ I). apply (proj1 C). apply in_map_iff. exists k. split; [reflexivity|]. apply in_seq. lia.
Qed.
Lemma entries_ex u env s i : common u env s -> inside s i -> entries u env i (at_ env i).
Proof.
  intros C I k K. exists (align (nshp (env k)) i). split; [|reflexivity]. apply aligned_iff; [|reflexivity].
  rewrite (inside_length _ _ I). apply (proj1 C). apply in_map_iff. exists k. split; [reflexivity|]. apply in_seq. lia.
Qed.
Lemma scalar_at u env s i x : common u env s -> inside s i -> entries u env i x -> scalar u x = eval1 (at_ env i) (graph u).
Proof.
  intros C I H. rewrite <- eval1_graph. apply eval1_ext. intros k K. apply (entries_at u env s i x C I H).
  apply graph_vars in K. apply in_seq in K. lia.
Qed.
Lemma univ_values u env s a : common u env s -> univ_nd u env = Val a ->
  nshp a = s /\ forall i x, inside s i -> entries u env i x -> scalar u x = Val (nelt a i).
Proof.
  intros C E. destruct (eval_sound env _ s C (graph u) (graph_vars u) a E) as (S & F).
  apply graph_shapes in S. assert (Es : nshp a = s) by exact (bc_unique _ _ _ S C). split; [exact Es|].
  intros i x I H. rewrite (scalar_at u env s i x C I H), (F i I), Es. now rewrite align_self.
Qed.
Lemma univ_defined u env s : common u env s -> List.Forall (fun n => 0 < n) s ->
  (forall i x, inside s i -> entries u env i x -> scalar u x <> Raise) -> exists a, univ_nd u env = Val a.
Proof.
  intros C P N. apply (eval_complete env _ s C (graph u) P (graph_vars u)). intros i I.
  rewrite <- (scalar_at u env s i _ C I (entries_ex u env s i C I)). apply (N i); [exact I|]. now apply (entries_ex u env s).
Qed.

(** ** shapes that do not broadcast *)
Lemma bc_join l m a b o : is_broadcast l a -> is_broadcast m b -> is_broadcast [a; b] o -> is_broadcast (l ++ m) o.
Proof.
  intros A B O. pose proof (proj1 O a (or_introl eq_refl)) as La. pose proof (proj1 O b (or_intror (or_introl eq_refl))) as Lb. split; [|split].
  - intros x I. apply in_app_or in I. destruct I as [I|I]; [pose proof (proj1 A x I)|pose proof (proj1 B x I)]; lia.
  - destruct o as [|n o]; [now left|]. right. destruct (proj1 (proj2 O)) as [E|(y & [<-|[<-|[]]] & L)]; [discriminate| |].
    + destruct (proj1 (proj2 A)) as [->|(x & I & Lx)]; [discriminate|]. exists x. split; [apply in_or_app; auto|congruence].
    + destruct (proj1 (proj2 B)) as [->|(x & I & Lx)]; [discriminate|]. exists x. split; [apply in_or_app; auto|congruence].
  - intros r _. split.
    + intros x I. apply in_app_or in I. destruct I as [I|I].
      * destruct (bc_col _ _ x r A I) as [V|V]; [now left|]. rewrite V. apply (bc_col _ _ a r O). now left.
      * destruct (bc_col _ _ x r B I) as [V|V]; [now left|]. rewrite V. apply (bc_col _ _ b r O). cbn. auto.
    + destruct (bc_got _ _ r O) as [V|(y & [<-|[<-|[]]] & V)]; [now left| |].
      * destruct (bc_got _ _ r A) as [W|(x & I & W)]; [left; congruence|]. right. exists x. split; [apply in_or_app; auto|congruence].
      * destruct (bc_got _ _ r B) as [W|(x & I & W)]; [left; congruence|]. right. exists x. split; [apply in_or_app; auto|congruence].
Qed.
Lemma eval_shape env {A} (e : gx A) : forall a, eval_nd env e = Val a -> is_broadcast (sh env (gvars e)) (nshp a).
Proof.
  induction e as [i|c|A B f a IH|A B C f a IHa b IHb|c IHc a IHa b IHb|e IHe c IHc]; cbn [gvars eval_nd]; intros r E.
  - injection E as <-. apply bc_one.
  - injection E as <-. apply bcast_all_spec. reflexivity.
  - destruct (eval_nd env a) as [x|]; [|discriminate]. injection E as <-. exact (IH x eq_refl).
  - destruct (eval_nd env a) as [x|]; [|discriminate]. destruct (eval_nd env b) as [y|]; [|discriminate]. cbn [bind] in E. unfold elem2 in E.
    destruct (bcast_all [nshp x; nshp y]) as [o|] eqn:Eo; [|discriminate]. injection E as <-. apply bcast_all_spec in Eo. rewrite (sh_app env).
    exact (bc_join _ _ _ _ _ (IHa x eq_refl) (IHb y eq_refl) Eo).
  - destruct (eval_nd env c) as [z|]; [|discriminate]. destruct (eval_nd env a) as [x|]; [|discriminate]. destruct (eval_nd env b) as [y|]; [|discriminate]. cbn [bind] in E.
    unfold switch3 in E. destruct (bcast_all [nshp z; nshp x; nshp y]) as [o|] eqn:Eo; [|discriminate]. injection E as <-. apply bcast_all_spec in Eo.
    destruct (bc_cons _ _ _ _ Eo) as (d & D & O). rewrite !(sh_app env).
    exact (bc_join _ _ _ _ _ (IHc z eq_refl) (bc_join _ _ _ _ _ (IHa x eq_refl) (IHb y eq_refl) D) O).
  - destruct (eval_nd env e) as [x|]; [|discriminate]. destruct (eval_nd env c) as [z|]; [|discriminate]. cbn [bind check_nd] in E.
    destruct (forallb _ _); [|discriminate]. injection E as <-. exact (IHe x eq_refl).
Qed.
Lemma univ_shapes u env : (forall s, ~ common u env s) -> univ_nd u env = Raise.
Proof.
  intros H. destruct (univ_nd u env) as [a|] eqn:E; [|reflexivity]. exfalso. apply (H (nshp a)). apply graph_shapes. exact (eval_shape env _ a E).
Qed.

(** ** sums *)


Lemma rprod_perm l m : Permutation l m -> rprod l = rprod m.
Proof. unfold rprod. induction 1; cbn; [reflexivity|now rewrite IHPermutation|ring|congruence]. Qed.
Lemma lists_perm s l : lists s l -> Permutation (positions s) l.
Proof.
  intros (N & H). apply NoDup_Permutation; [apply positions_nodup|exact N|]. intros i. now rewrite H, positions_in.
Qed.
Lemma univ_joint u env s d l : common u env s -> List.Forall (fun n => 0 < n) s -> lists s l ->
  (forall i x, inside s i -> entries u env i x -> denotes (scalar u x) (d i)) ->
  exists a, univ_nd u env = Val a /\ denotes (Val (nd_total a)) (rprod (map d l)).
Proof.
  intros C P L D. destruct (univ_defined u env s C P) as (a & E).
  { intros i x I H R. specialize (D i x I H). now rewrite R in D. }
  destruct (univ_values u env s a C E) as (S & F). exists a. split; [exact E|].
  rewrite <- (rprod_perm _ _ (Permutation_map d (lists_perm s l L))). unfold nd_total. rewrite S.
  assert (G : forall q, (forall i, In i q -> inside s i) -> denotes (Val (xsum (map (nelt a) q))) (rprod (map d q))).
  { induction q as [|i q IH]; intros Q; [cbn; apply exp_0|]. cbn [map]. unfold xsum, rprod in *. cbn [fold_right]. refine (den_add (nelt a i) _ (d i) _ _ _).
    - change (denotes (Val (nelt a i)) (d i)). pose proof (entries_ex u env s i C (Q i (or_introl eq_refl))) as X. rewrite <- (F i _ (Q i (or_introl eq_refl)) X).
      apply D; [apply Q; now left|exact X].
    - apply IH. intros k K. apply Q. now right. }
  apply G. intros i I. now apply positions_in.
Qed.
Lemma univ_raises u env s : common u env s -> List.Forall (fun n => 0 < n) s ->
  (univ_nd u env = Raise <-> exists i x, inside s i /\ entries u env i x /\ scalar u x = Raise).
Proof.
  intros C P. split.
  - intros E. apply Classical_Prop.NNPP. intros N. destruct (univ_defined u env s C P) as (a & A); [|congruence].
    intros i x I H R. apply N. eauto.
  - intros (i & x & I & H & R). destruct (univ_nd u env) as [a|] eqn:E; [|reflexivity].
    destruct (univ_values u env s a C E) as (_ & F). rewrite (F i x I H) in R. discriminate.
Qed.
