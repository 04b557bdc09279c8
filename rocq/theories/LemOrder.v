(** Lemmas for C75. *)
From Coq Require Import Reals List Bool Arith Lia Classical Lra.
From Verif Require Import XR ModelVec ModelTrans ModelCens ModelMix ModelNest ModelGuard ModelOrder SpecOrder.
Import ListNotations.
Open Scope R_scope.

(** arithmetic *)
Lemma o_xadd_comm x y : xadd x y = xadd y x.
Proof. destruct x, y; cbn; auto. now rewrite Rplus_comm. Qed.
Lemma o_xadd_assoc x y z : xadd x (xadd y z) = xadd (xadd x y) z.
Proof. destruct x, y, z; cbn; auto. now rewrite Rplus_assoc. Qed.
Lemma o_xadd_0 x : xadd x (Fin 0) = x.
Proof. destruct x; cbn; auto. now rewrite Rplus_0_r. Qed.
Lemma sgn_cases a : (0 < a /\ sgn_inf a = PInf) \/ (a = 0 /\ sgn_inf a = NaN) \/ (a < 0 /\ sgn_inf a = NInf).
Proof. unfold sgn_inf. destruct (Rlt_dec 0 a); [auto|]. destruct (Rlt_dec a 0); [auto|]. right. left. split; [lra|reflexivity]. Qed.
Ltac signs := repeat (match goal with
  | |- context [sgn_inf ?a] => let H := fresh in let E := fresh in destruct (sgn_cases a) as [(H & E)|[(H & E)|(H & E)]]; rewrite !E; clear E
  | |- context [Rle_dec ?a ?b] => destruct (Rle_dec a b)
  | |- context [Req_EM_T ?a ?b] => destruct (Req_EM_T a b) end; cbn); auto; try (subst; exfalso; nra); try (f_equal; nra);
  try (match goal with n : ?b <> 0 |- _ => exfalso; assert (1 / b * b = 1) by (field; exact n); nra end).
Lemma o_xmul_comm x y : xmul x y = xmul y x.
Proof. destruct x, y; cbn; auto. now rewrite Rmult_comm. Qed.
Lemma o_xmul_1 x : xmul x (Fin 1) = x.
Proof. destruct x; cbn; auto; [now rewrite Rmult_1_r| |]; signs. Qed.
Lemma o_xmul_assoc x y z : xmul x (xmul y z) = xmul (xmul x y) z.
Proof. destruct x as [a| | |], y as [b| | |], z as [c| | |]; cbn; auto; try (now rewrite Rmult_assoc); signs. Qed.
Lemma o_neg b : xmul (Fin (-1)) b = xneg b.
Proof. destruct b; cbn; auto; [f_equal; lra| |]; signs. Qed.
Lemma o_div a b : xmul a (xrecip b) = xdiv a b.
Proof. destruct a as [a| | |], b as [b| | |]; unfold xrecip; cbn; auto; signs. Qed.
Lemma nary_val_eq n vs : nary_val n vs = match n with NAdd => fold_right xadd (Fin 0) vs | NMul => fold_right xmul (Fin 1) vs end.
Proof.
  destruct n; [reflexivity|]. cbn. rewrite fold_symmetric; [reflexivity|intros; apply o_xmul_assoc|intros; apply o_xmul_comm].
Qed.
Definition nop n := match n with NAdd => xadd | NMul => xmul end.
Lemma nary_cons n v vs : nary_val n (v :: vs) = nop n v (nary_val n vs).
Proof. rewrite !nary_val_eq. now destruct n. Qed.
Lemma nop_comm n x y : nop n x y = nop n y x.
Proof. destruct n; [apply o_xadd_comm|apply o_xmul_comm]. Qed.
Lemma nop_assoc n x y z : nop n x (nop n y z) = nop n (nop n x y) z.
Proof. destruct n; [apply o_xadd_assoc|apply o_xmul_assoc]. Qed.
Lemma nary_one n v : nary_val n [v] = v.
Proof. rewrite nary_val_eq. destruct n; cbn [fold_right]; [apply o_xadd_0|apply o_xmul_1]. Qed.

Section Order.
Context (dt : nat -> dtype) (fs : nat -> list xr -> xr) (rho : nat -> xr).
Notation view := (view fs rho). Notation rule := (rule dt fs rho). Notation step := (step dt fs rho). Notation A := (gannotate dt fs rho).

(** a stage of the run on [e] *)
Inductive stage : gexpr -> xexpr -> Prop :=
| t_meas e m : g_m (A e) = Some m -> stage e (XMeas m)
| t_rv i : stage (GRv i) (XRv i)
| t_con c : stage (GCon c) (XCon c)
| t_in c : stage (GIn c) (XIn c)
| t_self : stage GSelf XSelf
| t_one u e s : stage e s -> stage (GOne u e) (XOne u s)
| t_many n es ss : Forall2 stage es ss -> stage (GMany n es) (XMany n ss)
| t_sub a b s t : stage a s -> stage b t -> stage (GSub a b) (XSub s t)
| t_div a b s t : stage a s -> stage b t -> stage (GDiv a b) (XDiv s t)
| t_clip d e lo hi s l h : stage e s -> stage lo l -> stage hi h -> stage (GClip d e lo hi) (XClip d s l h)
| t_round op e s : stage e s -> stage (GRound op e) (XRound op s)
| t_other k es ss : Forall2 stage es ss -> stage (GOther k es) (XOther k ss).

(** what a view may differ in from the final annotation *)
Definition early (v a : gann) : Prop := g_rand v = g_rand a /\ g_val v = g_val a /\ (forall m, g_m v = Some m -> g_m a = Some m).
Definition wellrand (a : gann) : Prop := forall m, g_m a = Some m -> g_rand a = true.

Lemma gmeas_cons a l : gmeasurable (a :: l) = match g_m a with Some m => m :: gmeasurable l | None => gmeasurable l end.
Proof. unfold gmeasurable. cbn. now destruct (g_m a). Qed.
Lemma gothers_cons a l : gothers (a :: l) = match g_m a with Some _ => gothers l | None => a :: gothers l end.
Proof. unfold gothers. cbn. now destruct (g_m a). Qed.
Lemma construct_rand l mk m : Forall wellrand l -> gconstruct dt l mk = Some m -> existsb g_rand l = true.
Proof.
  intros W H. unfold gconstruct in H. destruct (gmeasurable l) as [|m0 r] eqn:E; [discriminate|]. clear H.
  induction W as [|a l Wa W IH]; [discriminate|]. rewrite gmeas_cons in E. cbn. destruct (g_m a) as [m1|] eqn:Ea.
  - now rewrite (Wa _ Ea).
  - rewrite (IH E). apply orb_true_r.
Qed.
Lemma nary_wellrand n l : Forall wellrand l -> wellrand (g_nary dt n l).
Proof. intros W m H. exact (construct_rand l _ m W H). Qed.
Lemma unary_wellrand u a : wellrand a -> wellrand (g_unary dt u a).
Proof. intros W m H. assert (Q := construct_rand [a] _ m (Forall_cons _ W (Forall_nil _)) H). cbn in *. now rewrite orb_false_r in Q. Qed.
Lemma con_wellrand c : wellrand (gcon c).
Proof. intros m H. discriminate. Qed.
Lemma annot_wellrand : forall e, wellrand (A e).
Proof.
  fix IH 1. intros [i|c|c| |u e|n es|a b|a b|d e lo hi|op e|k es]; cbn [gannotate].
  - intros m _. reflexivity.
  - apply con_wellrand.
  - apply con_wellrand.
  - apply con_wellrand.
  - apply unary_wellrand, IH.
  - apply nary_wellrand. induction es as [|e es IHs]; constructor; [apply IH|exact IHs].
  - apply nary_wellrand. constructor; [apply IH|constructor; [|constructor]]. apply nary_wellrand. constructor; [apply con_wellrand|constructor; [apply IH|constructor]].
  - apply nary_wellrand. constructor; [apply IH|constructor; [|constructor]]. apply unary_wellrand, IH.
  - intros m H. cbn in *. destruct (g_m (A e)) as [m0|] eqn:E; [|discriminate]. now rewrite (IH e _ E).
  - intros m H. cbn in *. destruct (g_m (A e)) as [m0|] eqn:E; [|discriminate]. exact (IH e _ E).
  - intros m H. discriminate.
Qed.

(** a rewrite that applies early gives the final form *)
Lemma early_split : forall l l', Forall2 early l l' -> Forall wellrand l' ->
  existsb g_rand (gothers l) = false -> gmeasurable l = gmeasurable l' /\ map g_val (gothers l) = map g_val (gothers l') /\ existsb g_rand (gothers l') = false.
Proof.
  intros l l' F. induction F as [|v a l l' (E1 & E2 & E3) F IH]; intros W H; [auto|]. inversion W as [|? ? Wa Wl]; subst.
  rewrite !gmeas_cons, !gothers_cons in *. destruct (g_m v) as [m|] eqn:Ev.
  - rewrite (E3 m eq_refl). destruct (IH Wl H) as (I1 & I2 & I3). rewrite I1. auto.
  - cbn in H. apply orb_false_iff in H as (Hv & H). destruct (IH Wl H) as (I1 & I2 & I3).
    destruct (g_m a) as [m|] eqn:Ea; [rewrite E1, (Wa _ Ea) in Hv; discriminate|].
    cbn [map existsb]. rewrite I1, I2, E2, <- E1, Hv, I3. auto.
Qed.
Lemma construct_early l l' mk m : Forall2 early l l' -> Forall wellrand l' -> gconstruct dt l mk = Some m -> gconstruct dt l' mk = Some m.
Proof.
  intros F W H. unfold gconstruct in *. destruct (gmeasurable l) as [|m0 [|? ?]] eqn:E; try discriminate.
  destruct (is_int (gdt dt m0)) eqn:Ei; [discriminate|]. destruct (existsb g_rand (gothers l)) eqn:Er; [discriminate|].
  destruct (early_split l l' F W Er) as (I1 & I2 & I3). rewrite <- I1, E, Ei, I3, <- I2. exact H.
Qed.
Lemma early_refl a : early a a.
Proof. repeat split; auto. Qed.
Lemma early_nary n l l' : Forall2 early l l' -> Forall wellrand l' -> early (g_nary dt n l) (g_nary dt n l').
Proof.
  intros F W. split; [|split].
  - cbn. clear W. induction F as [|v a l l' (E1 & _) F IH]; [reflexivity|]. cbn. now rewrite E1, IH.
  - cbn. f_equal. clear W. induction F as [|v a l l' (_ & E2 & _) F IH]; [reflexivity|]. cbn. now rewrite E2, IH.
  - intros m H. exact (construct_early l l' _ m F W H).
Qed.
Lemma early_unary u v a : early v a -> wellrand a -> early (g_unary dt u v) (g_unary dt u a).
Proof.
  intros E W. split; [|split]; [apply E|cbn; f_equal; apply E|]. intros m H.
  exact (construct_early [v] [a] _ m (Forall2_cons _ _ E (Forall2_nil _)) (Forall_cons _ W (Forall_nil _)) H).
Qed.
Lemma early_sub v a w b : early v a -> early w b -> wellrand a -> wellrand b -> early (g_sub dt v w) (g_sub dt a b).
Proof.
  intros E1 E2 W1 W2. unfold g_sub.
  assert (Q : early (g_nary dt NMul [gcon (Fin (-1)); w]) (g_nary dt NMul [gcon (Fin (-1)); b])).
  { apply early_nary; [constructor; [apply early_refl|constructor; [exact E2|constructor]]|constructor; [apply con_wellrand|constructor; [exact W2|constructor]]]. }
  apply early_nary; [constructor; [exact E1|constructor; [exact Q|constructor]]|].
  constructor; [exact W1|constructor; [|constructor]]. apply nary_wellrand. constructor; [apply con_wellrand|constructor; [exact W2|constructor]].
Qed.
Lemma early_div v a w b : early v a -> early w b -> wellrand a -> wellrand b -> early (g_div dt v w) (g_div dt a b).
Proof.
  intros E1 E2 W1 W2. unfold g_div.
  apply early_nary; [constructor; [exact E1|constructor; [apply early_unary; auto|constructor]]|].
  constructor; [exact W1|constructor; [apply unary_wellrand, W2|constructor]].
Qed.
Lemma early_plain v a r x : early v a -> r = g_rand v -> x = g_val v -> early (plain r x) a.
Proof. intros (E1 & E2 & _) -> ->. split; [exact E1|]. split; [exact E2|]. intros m H. discriminate. Qed.

(** what the measurable forms compute *)
Notation comp := (computes rho).
Definition honest (a : gann) : Prop := forall m, g_m a = Some m -> comp m = g_val a.
Lemma all_none l : gmeasurable l = [] -> gothers l = l.
Proof.
  induction l as [|a l IH]; [reflexivity|]. rewrite gmeas_cons, gothers_cons. destruct (g_m a); [discriminate|]. intros H. now rewrite IH.
Qed.
Lemma one_measurable n l : forall m, Forall honest l -> gmeasurable l = [m] -> nary_val n (map g_val l) = nop n (comp m) (nary_val n (map g_val (gothers l))).
Proof.
  induction l as [|a l IH]; intros m Hl E; [discriminate|]. inversion Hl as [|? ? Ha Hl']; subst. rewrite gmeas_cons in E. rewrite gothers_cons. cbn [map]. rewrite nary_cons.
  destruct (g_m a) as [m0|] eqn:Ea.
  - injection E as -> E. rewrite (all_none l E), (Ha m Ea). reflexivity.
  - cbn [map]. rewrite nary_cons, (IH m Hl' E). rewrite !nop_assoc, (nop_comm n (g_val a)). reflexivity.
Qed.
Lemma nary_honest n l : Forall honest l -> honest (g_nary dt n l).
Proof.
  intros Hl m H. cbn [g_m g_nary g_val] in *. unfold gconstruct in H. destruct (gmeasurable l) as [|m0 [|? ?]] eqn:E; try discriminate.
  destruct (is_int (gdt dt m0)); [discriminate|]. destruct (existsb g_rand (gothers l)); [discriminate|]. rewrite (one_measurable n l m0 Hl E).
  unfold tr_nary, fold_others in H. destruct (map g_val (gothers l)) as [|v [|w r]]; [discriminate| |].
  - injection H as <-. rewrite nary_one. now destruct n.
  - injection H as <-. now destruct n.
Qed.
Lemma unary_honest u a : honest a -> honest (g_unary dt u a).
Proof.
  intros Ha m H. cbn [g_m g_unary g_val] in *. unfold gconstruct in H. rewrite gmeas_cons, gothers_cons in H. cbn in H.
  destruct (g_m a) as [m0|] eqn:E; [|discriminate]. destruct (is_int (gdt dt m0)); [discriminate|]. cbn in H. injection H as <-. rewrite <- (Ha m0 E). now destruct u.
Qed.
Lemma con_honest c : honest (gcon c).
Proof. intros m H. discriminate. Qed.
Lemma sub_honest a b : honest a -> honest b -> honest (g_sub dt a b).
Proof.
  intros Ha Hb. apply nary_honest. constructor; [exact Ha|constructor; [|constructor]]. apply nary_honest. constructor; [apply con_honest|constructor; [exact Hb|constructor]].
Qed.
Lemma div_honest a b : honest a -> honest b -> honest (g_div dt a b).
Proof. intros Ha Hb. apply nary_honest. constructor; [exact Ha|constructor; [apply unary_honest, Hb|constructor]]. Qed.
Lemma sub_val a b : g_val (g_sub dt a b) = xsub (g_val a) (g_val b).
Proof.
  cbn [g_sub g_nary g_val map]. rewrite nary_val_eq. cbn [fold_right]. rewrite nary_cons, nary_one. cbn [nop gcon g_val]. rewrite o_neg, o_xadd_0. reflexivity.
Qed.
Lemma div_val a b : g_val (g_div dt a b) = xdiv (g_val a) (g_val b).
Proof. cbn [g_div g_nary g_val map]. rewrite nary_cons, nary_one. cbn [nop g_unary g_val un_val]. apply o_div. Qed.
Lemma round_honest op a : honest a -> honest (g_round dt op a).
Proof.
  intros Ha m H. cbn in *. destruct (g_m a) as [m0|] eqn:E; [|discriminate]. destruct (is_float (gdt dt m0)); [|discriminate]. injection H as <-. cbn. now rewrite (Ha m0 E).
Qed.
Lemma clip_self_lo x h : xclip x x h = xclip x NInf h.
Proof. unfold xclip. destruct x; cbn; auto. unfold Rltb. destruct (Rlt_dec r r); [lra|reflexivity]. Qed.
Lemma clip_self_hi x l : xclip x l x = xclip x l PInf.
Proof. unfold xclip, xgt. destruct (xlt x l); [reflexivity|]. destruct x; cbn; auto. unfold Rltb. destruct (Rlt_dec r r); [lra|reflexivity]. Qed.
Lemma annot_honest : forall e, honest (A e).
Proof.
  fix IH 1. intros [i|c|c| |u e|n es|a b|a b|d e lo hi|op e|k es]; cbn [gannotate].
  - intros m [= <-]. reflexivity.
  - apply con_honest.
  - apply con_honest.
  - apply con_honest.
  - apply unary_honest, IH.
  - apply nary_honest. induction es as [|e es IHs]; constructor; [apply IH|exact IHs].
  - apply sub_honest; apply IH.
  - apply div_honest; apply IH.
  - intros m H. cbn [g_clip g_m g_val] in *. destruct (g_m (A e)) as [m0|] eqn:E; [|discriminate]. injection H as <-. cbn [computes]. rewrite (IH e m0 E).
    destruct lo, hi; cbn [g_bound bval]; rewrite <- ?clip_self_lo, <- ?clip_self_hi; reflexivity.
  - apply round_honest, IH.
  - intros m H. discriminate.
Qed.
(** the annotation's values are those of the expression *)
Lemma annot_value : forall e, g_val (A e) = value fs rho e.
Proof.
  fix IH 1. intros [i|c|c| |u e|n es|a b|a b|d e lo hi|op e|k es]; cbn [gannotate]; try reflexivity.
  - cbn. rewrite IH. now destruct u.
  - cbn [g_nary g_val]. rewrite nary_val_eq. assert (Q : map g_val (map A es) = map (value fs rho) es).
    { rewrite map_map. induction es as [|e es IHs]; [reflexivity|]. cbn [map]. f_equal; [apply IH|exact IHs]. }
    rewrite Q. now destruct n.
  - rewrite sub_val, (IH a), (IH b). reflexivity.
  - rewrite div_val, (IH a), (IH b). reflexivity.
  - cbn [g_clip g_val value]. rewrite (IH e). unfold xclip. assert (L := IH lo). assert (H := IH hi). destruct lo, hi; rewrite ?L, ?H; reflexivity.
  - cbn. rewrite IH. now destruct op.
  - cbn [g_val value]. f_equal. rewrite map_map. induction es as [|e es IHs]; [reflexivity|]. cbn [map]. f_equal; [apply IH|exact IHs].
Qed.

Lemma stage_self_l e s : stage e s -> (match e with GSelf => True | _ => False end <-> match s with XSelf => True | _ => False end).
Proof. intros H. inversion H as [e' m E|i|c|c| |u e' s' H'|n es ss H'|a b s' t' Ha Hb|a b s' t' Ha Hb|d e' lo hi s' l h H1 H2 H3|op e' s' H'|k es ss H']; subst; try easy. destruct e; easy. Qed.
Lemma stage_con e s : stage e s -> match e, s with GCon c, XCon c' => c = c' | GCon _, _ => False | _, XCon _ => False | _, _ => True end.
Proof. intros H. inversion H as [e' m E|i|c|c| |u e' s' H'|n es ss H'|a b s' t' Ha Hb|a b s' t' Ha Hb|d e' lo hi s' l h H1 H2 H3|op e' s' H'|k es ss H']; subst; try easy. destruct e; easy. Qed.


Lemma views ss es : (forall s, In s ss -> forall e, stage e s -> early (view s) (A e)) -> Forall2 stage es ss -> Forall2 early (map view ss) (map A es).
Proof.
  intros IH F. induction F as [|e s es ss H F IHF]; cbn [map]; constructor.
  - apply IH; [now left|exact H].
  - apply IHF. intros s' Hs'. apply IH. now right.
Qed.
Lemma wellrands es : Forall wellrand (map A es).
Proof. induction es; cbn; constructor; [apply annot_wellrand|assumption]. Qed.
Lemma early_rands l l' : Forall2 early l l' -> existsb g_rand l = existsb g_rand l' /\ map g_val l = map g_val l'.
Proof. intros F. induction F as [|v a l l' (E1 & E2 & _) F (I1 & I2)]; [auto|]. cbn. now rewrite E1, E2, I1, I2. Qed.

(** induction over stages with lists *)
Fixpoint xsize (s : xexpr) : nat :=
  match s with
  | XRv _ | XCon _ | XIn _ | XSelf | XMeas _ => 0
  | XOne _ e | XRound _ e => S (xsize e)
  | XMany _ es | XOther _ es => S (list_sum (map xsize es))
  | XSub a b | XDiv a b => S (xsize a + xsize b)
  | XClip _ e lo hi => S (xsize e + xsize lo + xsize hi)
  end.
Lemma xsize_in s ss : In s ss -> (xsize s <= list_sum (map xsize ss))%nat.
Proof. induction ss as [|a ss IH]; [intros []|]. intros [->|H]; cbn; [lia|specialize (IH H); unfold list_sum in *; lia]. Qed.

Lemma clip_vals e lo hi s l h : stage lo l -> stage hi h -> early (view s) (A e) -> early (view l) (A lo) -> early (view h) (A hi) ->
  self_val l (g_val (view s)) (g_val (view l)) = match lo with GSelf => g_val (A e) | _ => g_val (A lo) end /\
  self_val h (g_val (view s)) (g_val (view h)) = match hi with GSelf => g_val (A e) | _ => g_val (A hi) end.
Proof.
  intros Hl Hh (_ & Es & _) (_ & El & _) (_ & Eh & _). rewrite Es, El, Eh.
  assert (Ql := stage_self_l _ _ Hl). assert (Qh := stage_self_l _ _ Hh).
  split; [destruct lo, l|destruct hi, h]; cbn; tauto.
Qed.

Lemma stage_early_n : forall n s e, (xsize s < n)%nat -> stage e s -> early (view s) (A e).
Proof.
  induction n as [|n IH]; intros s e Hn H; [lia|].
  inversion H as [e' m E|i|c|c| |u e' s' H'|nn es ss H'|a b s' t' Ha Hb|a b s' t' Ha Hb|d e' lo hi s' l h H1 H2 H3|op e' s' H'|k es ss H']; subst e s; cbn [xsize] in Hn.
  - split; [|split]; cbn; [symmetry; exact (annot_wellrand e' m E)|exact (annot_honest e' m E)|intros m' [= <-]; exact E].
  - apply early_refl.
  - apply early_refl.
  - apply early_refl.
  - apply early_refl.
  - assert (Q := early_unary u _ _ (IH s' e' ltac:(lia) H') (annot_wellrand e')).
    cbn [ModelOrder.view gannotate]. now apply (early_plain _ _ _ _ Q).
  - assert (V : Forall2 early (map view ss) (map A es)).
    { apply views; [|exact H']. intros s Hs e Hse. apply IH; [|exact Hse]. pose proof (xsize_in s ss Hs). lia. }
    assert (Q := early_nary nn _ _ V (wellrands es)). cbn [ModelOrder.view gannotate]. now apply (early_plain _ _ _ _ Q).
  - assert (Q := early_sub _ _ _ _ (IH s' a ltac:(lia) Ha) (IH t' b ltac:(lia) Hb) (annot_wellrand a) (annot_wellrand b)).
    cbn [ModelOrder.view gannotate]. apply (early_plain _ _ _ _ Q); [|now rewrite sub_val]. cbn. now rewrite !orb_false_r.
  - assert (Q := early_div _ _ _ _ (IH s' a ltac:(lia) Ha) (IH t' b ltac:(lia) Hb) (annot_wellrand a) (annot_wellrand b)).
    cbn [ModelOrder.view gannotate]. apply (early_plain _ _ _ _ Q); [|now rewrite div_val]. cbn. now rewrite !orb_false_r.
  - assert (Q1 := IH s' e' ltac:(lia) H1). assert (Q2 := IH l lo ltac:(lia) H2). assert (Q3 := IH h hi ltac:(lia) H3).
    destruct (clip_vals e' lo hi s' l h H2 H3 Q1 Q2 Q3) as (V1 & V2). split; [|split]; cbn [ModelOrder.view gannotate plain g_rand g_val g_m g_clip].
    + destruct Q1 as (-> & _), Q2 as (-> & _), Q3 as (-> & _). reflexivity.
    + rewrite V1, V2. destruct Q1 as (_ & -> & _). reflexivity.
    + intros m Hm. discriminate.
  - destruct (IH s' e' ltac:(lia) H') as (R1 & R2 & _). split; [|split]; cbn; [exact R1|now rewrite R2|discriminate].
  - assert (V : Forall2 early (map view ss) (map A es)).
    { apply views; [|exact H']. intros s Hs e Hse. apply IH; [|exact Hse]. pose proof (xsize_in s ss Hs). lia. }
    destruct (early_rands _ _ V) as (R1 & R2). split; [|split]; cbn; [exact R1|now rewrite R2|discriminate].
Qed.
Lemma stage_early s e : stage e s -> early (view s) (A e).
Proof. exact (stage_early_n (S (xsize s)) s e (Nat.lt_succ_diag_r _)). Qed.
Lemma stages_early ss es : Forall2 stage es ss -> Forall2 early (map view ss) (map A es).
Proof. intros F. apply views; [|exact F]. intros s _ e. apply stage_early. Qed.

Lemma bounds_eq inf e s : stage e s -> x_bound fs rho inf s = g_bound inf e (A e).
Proof.
  intros H. destruct (stage_early _ _ H) as (_ & V & _). assert (C := stage_con _ _ H). assert (F := stage_self_l _ _ H).
  unfold x_bound, g_bound. destruct e, s; try tauto; try (now rewrite V); try (now rewrite C); try reflexivity.
Qed.
(** a rewrite that applies at some stage gives the final form *)
Lemma rule_sound s e m : stage e s -> rule s = Some m -> g_m (A e) = Some m.
Proof.
  intros H R.
  inversion H as [e' m' E|i|c|c| |u e' s' H'|nn es ss H'|a b s' t' Ha Hb|a b s' t' Ha Hb|d e' lo hi s' l h H1 H2 H3|op e' s' H'|k es ss H']; subst e s; cbn [ModelOrder.rule] in R; try discriminate; cbn [gannotate].
  - apply (early_unary u _ _ (stage_early _ _ H') (annot_wellrand e')), R.
  - apply (early_nary nn _ _ (stages_early _ _ H') (wellrands es)), R.
  - apply (early_sub _ _ _ _ (stage_early _ _ Ha) (stage_early _ _ Hb) (annot_wellrand a) (annot_wellrand b)), R.
  - apply (early_div _ _ _ _ (stage_early _ _ Ha) (stage_early _ _ Hb) (annot_wellrand a) (annot_wellrand b)), R.
  - rewrite (bounds_eq NInf lo l H2), (bounds_eq PInf hi h H3) in R. destruct (g_m (view s')) as [m0|] eqn:E; [|discriminate].
    destruct (stage_early _ _ H1) as (_ & _ & M). cbn. rewrite (M m0 E). exact R.
  - cbn in *. destruct (g_m (view s')) as [m0|] eqn:E; [|discriminate].
    destruct (stage_early _ _ H') as (_ & _ & M). rewrite (M m0 E). exact R.
Qed.
Lemma Forall2_split {X Y} (P : X -> Y -> Prop) es l a r : Forall2 P es (l ++ a :: r) ->
  exists el e er, es = el ++ e :: er /\ Forall2 P el l /\ P e a /\ Forall2 P er r.
Proof.
  intros F. apply Forall2_app_inv_r in F as (el & er0 & F1 & F2 & ->). inversion F2 as [|e ? er ? Pe F3]; subst. exists el, e, er. auto.
Qed.
Lemma stage_step s s' : step s s' -> forall e, stage e s -> stage e s'.
Proof.
  intros T. induction T as [s m R|u a b T IH|n l a b r T IH|a b c T IH|a b c T IH|a b c T IH|a b c T IH|d a b lo hi T IH|d e0 a b hi T IH|d e0 lo a b T IH|op a b T IH|k l a b r T IH]; intros e H.
  - constructor. exact (rule_sound s e m H R).
  - inversion H; subst. constructor. now apply IH.
  - inversion H as [| | | | | |? es ? F| | | | |]; subst. apply Forall2_split in F as (el & e & er & -> & F1 & F2 & F3). constructor. apply Forall2_app; [exact F1|]. constructor; [now apply IH|exact F3].
  - inversion H; subst. constructor; [now apply IH|assumption].
  - inversion H; subst. constructor; [assumption|now apply IH].
  - inversion H; subst. constructor; [now apply IH|assumption].
  - inversion H; subst. constructor; [assumption|now apply IH].
  - inversion H; subst. constructor; [now apply IH|assumption|assumption].
  - inversion H; subst. constructor; [assumption|now apply IH|assumption].
  - inversion H; subst. constructor; [assumption|assumption|now apply IH].
  - inversion H; subst. constructor. now apply IH.
  - inversion H as [| | | | | | | | | | |? es ? F]; subst. apply Forall2_split in F as (el & e & er & -> & F1 & F2 & F3). constructor. apply Forall2_app; [exact F1|]. constructor; [now apply IH|exact F3].
Qed.
Lemma stage_start : forall e, stage e (start e).
Proof.
  fix IH 1. intros [i|c|c| |u e|n es|a b|a b|d e lo hi|op e|k es]; cbn [start].
  - apply t_rv. - apply t_con. - apply t_in. - apply t_self.
  - apply t_one, IH.
  - apply t_many. induction es as [|e es IHs]; constructor; [apply IH|exact IHs].
  - apply t_sub; apply IH. - apply t_div; apply IH.
  - apply t_clip; apply IH. - apply t_round, IH.
  - apply t_other. induction es as [|e es IHs]; constructor; [apply IH|exact IHs].
Qed.
Lemma stage_run n s s' e : run dt fs rho n s s' -> stage e s -> stage e s'.
Proof. intros R. induction R as [s|n a b c T R IH]; [auto|]. intros H. apply IH, (stage_step a b T), H. Qed.

(** progress *)
Notation done := (complete dt fs rho).
Lemma done_in n l : done (XMany n l) -> forall s, In s l -> done s.
Proof. intros D s Hs s' T. apply in_split in Hs as (l1 & l2 & ->). exact (D _ (st_many dt fs rho n l1 s s' l2 T)). Qed.
Lemma done_in_o k l : done (XOther k l) -> forall s, In s l -> done s.
Proof. intros D s Hs s' T. apply in_split in Hs as (l1 & l2 & ->). exact (D _ (st_other dt fs rho k l1 s s' l2 T)). Qed.
Lemma ann_eq v a : early v a -> g_m v = g_m a -> v = a.
Proof. intros (E1 & E2 & _) E3. destruct v, a; cbn in *. congruence. Qed.
Lemma none_or {X} (o : option X) : (exists x, o = Some x) \/ o = None.
Proof. destruct o; eauto. Qed.
Lemma here_none s : done s -> rule s = None.
Proof. intros D. destruct (rule s) as [m|] eqn:R; [|reflexivity]. exfalso. exact (D _ (st_here dt fs rho s m R)). Qed.
Lemma done_form_n : forall n s e, (xsize s < n)%nat -> stage e s -> done s -> view s = A e.
Proof.
  induction n as [|n IH]; intros s e Hn H D; [lia|]. apply (ann_eq _ _ (stage_early s e H)).
  assert (N := here_none s D).
  inversion H as [e' m' E|i|c|c| |u e' s' H'|nn es ss H'|a b s' t' Ha Hb|a b s' t' Ha Hb|d e' lo hi s' l h H1 H2 H3|op e' s' H'|k es ss H']; subst e s; cbn [xsize] in Hn; cbn [ModelOrder.rule] in N; try reflexivity.
  - cbn. now rewrite E.
  - assert (Q : view s' = A e') by (apply IH; [lia|exact H'|]; intros x T; exact (D _ (st_one dt fs rho u s' x T))).
    cbn [gannotate]. rewrite <- Q, N. reflexivity.
  - assert (Q : map view ss = map A es).
    { assert (D' := done_in nn ss D). clear - IH H' D' Hn. assert (Hz : forall s, In s ss -> (xsize s < n)%nat) by (intros s Hs; pose proof (xsize_in s ss Hs); lia). clear Hn.
      induction H' as [|e s es ss Hs F IHF]; [reflexivity|]. cbn [map]. f_equal; [apply IH; [apply Hz; now left|exact Hs|apply D'; now left]|].
      apply IHF; [intros x Hx; apply D'; now right|intros x Hx; apply Hz; now right]. }
    cbn [gannotate]. rewrite <- Q, N. reflexivity.
  - assert (Q1 : view s' = A a) by (apply IH; [lia|exact Ha|]; intros x T; exact (D _ (st_sub_l dt fs rho s' x t' T))).
    assert (Q2 : view t' = A b) by (apply IH; [lia|exact Hb|]; intros x T; exact (D _ (st_sub_r dt fs rho t' x s' T))).
    cbn [gannotate]. rewrite <- Q1, <- Q2, N. reflexivity.
  - assert (Q1 : view s' = A a) by (apply IH; [lia|exact Ha|]; intros x T; exact (D _ (st_div_l dt fs rho s' x t' T))).
    assert (Q2 : view t' = A b) by (apply IH; [lia|exact Hb|]; intros x T; exact (D _ (st_div_r dt fs rho t' x s' T))).
    cbn [gannotate]. rewrite <- Q1, <- Q2, N. reflexivity.
  - assert (Q : view s' = A e') by (apply IH; [lia|exact H1|]; intros x T; exact (D _ (st_clip dt fs rho d s' x l h T))).
    cbn. rewrite <- Q. destruct (g_m (view s')); [discriminate|reflexivity].
  - assert (Q : view s' = A e') by (apply IH; [lia|exact H'|]; intros x T; exact (D _ (st_round dt fs rho op s' x T))).
    cbn [gannotate]. rewrite <- Q, N. reflexivity.
Qed.
Lemma done_form s e : stage e s -> done s -> form fs rho s = g_m (A e).
Proof. intros H D. unfold form. now rewrite (done_form_n _ s e (Nat.lt_succ_diag_r _) H D). Qed.

(** termination *)
Lemma rule_size s m : rule s = Some m -> (0 < xsize s)%nat.
Proof. destruct s; cbn [ModelOrder.rule xsize]; try discriminate; intros _; lia. Qed.
Lemma list_sum_app l r : list_sum (l ++ r) = (list_sum l + list_sum r)%nat.
Proof. induction l as [|a l IH]; [reflexivity|]. cbn in *. unfold list_sum in *. lia. Qed.
Lemma step_size s s' : step s s' -> (xsize s' < xsize s)%nat.
Proof.
  intros T. induction T; cbn [xsize]; try lia.
  - exact (rule_size s m H).
  - rewrite !map_app, !list_sum_app. cbn. unfold list_sum in *. lia.
  - rewrite !map_app, !list_sum_app. cbn. unfold list_sum in *. lia.
Qed.
Lemma run_size n s s' : run dt fs rho n s s' -> (n + xsize s' <= xsize s)%nat.
Proof. intros R. induction R as [s|n a b c T R IH]; [lia|]. pose proof (step_size a b T). lia. Qed.
Lemma start_size : forall e, xsize (start e) = ops e.
Proof.
  fix IH 1. intros [i|c|c| |u e|n es|a b|a b|d e lo hi|op e|k es]; cbn [start xsize ops]; try reflexivity; rewrite ?IH; try reflexivity.
  - do 2 f_equal. rewrite map_map. induction es as [|e es IHs]; [reflexivity|]. cbn [map]. f_equal; [apply IH|exact IHs].
  - do 2 f_equal. rewrite map_map. induction es as [|e es IHs]; [reflexivity|]. cbn [map]. f_equal; [apply IH|exact IHs].
Qed.
Lemma completes_n : forall k s, (xsize s < k)%nat -> exists n s', run dt fs rho n s s' /\ done s'.
Proof.
  induction k as [|k IH]; intros s Hk; [lia|]. destruct (classic (exists s', step s s')) as [(s' & T)|N].
  - destruct (IH s') as (n & s2 & R & D); [pose proof (step_size _ _ T); lia|]. exists (S n), s2. split; [exact (r_cons _ _ _ n s s' s2 T R)|exact D].
  - exists 0%nat, s. split; [constructor|]. intros s' T. apply N. eauto.
Qed.
Lemma order_bound e n s : run dt fs rho n (start e) s -> (n <= ops e)%nat.
Proof. intros R. pose proof (run_size _ _ _ R). rewrite start_size in *. lia. Qed.
Lemma order_extends e n s : run dt fs rho n (start e) s -> exists k s', run dt fs rho k s s' /\ done s'.
Proof. intros _. exact (completes_n (S (xsize s)) s (Nat.lt_succ_diag_r _)). Qed.
Lemma run_trans n s t k u : run dt fs rho n s t -> run dt fs rho k t u -> run dt fs rho (n + k) s u.
Proof. intros R. induction R as [s|n a b c T R IH]; [auto|]. intros Q. cbn. exact (r_cons _ _ _ _ _ _ _ T (IH Q)). Qed.
(** a form once found is the one every complete run ends with *)
Lemma order_stable e n s m k t : run dt fs rho n (start e) s -> form fs rho s = Some m -> run dt fs rho k (start e) t -> done t -> form fs rho t = Some m.
Proof.
  intros R F R' D. rewrite (done_form t e (stage_run _ _ _ e R' (stage_start e)) D).
  destruct (stage_early s e (stage_run _ _ _ e R (stage_start e))) as (_ & _ & M). exact (M m F).
Qed.
Lemma order_agree e n s k t : run dt fs rho n (start e) s -> done s -> run dt fs rho k (start e) t -> done t -> form fs rho s = form fs rho t.
Proof.
  intros R D R' D'. rewrite (done_form t e (stage_run _ _ _ e R' (stage_start e)) D'). exact (done_form s e (stage_run _ _ _ e R (stage_start e)) D).
Qed.
Lemma order_annot e n s : run dt fs rho n (start e) s -> done s -> form fs rho s = g_m (A e).
Proof. intros R D. exact (done_form s e (stage_run _ _ _ e R (stage_start e)) D). Qed.
(** the values of the variables do not change, forwards or backwards *)
Lemma view_honest s : honest (view s).
Proof. destruct s; intros m1 H; cbn in *; try discriminate; now injection H as <-. Qed.
Lemma rule_value s m : rule s = Some m -> comp m = g_val (view s).
Proof.
  destruct s as [i|c|c| |m0|u e|n es|a b|a b|d e lo hi|op e|k es]; cbn [ModelOrder.rule]; try discriminate; intros R; cbn [ModelOrder.view plain g_val].
  - exact (unary_honest u _ (view_honest e) m R).
  - assert (F : Forall honest (map view es)) by (clear R; induction es; cbn; constructor; [apply view_honest|assumption]). exact (nary_honest n _ F m R).
  - rewrite <- sub_val. exact (sub_honest _ _ (view_honest a) (view_honest b) m R).
  - rewrite <- div_val. exact (div_honest _ _ (view_honest a) (view_honest b) m R).
  - destruct (g_m (view e)) as [m0|] eqn:E; [|discriminate]. injection R as <-. cbn [computes]. rewrite (view_honest e m0 E).
    destruct lo, hi; cbn [x_bound bval self_val]; rewrite <- ?clip_self_lo, <- ?clip_self_hi; reflexivity.
  - exact (round_honest op _ (view_honest e) m R).
Qed.
Lemma self_val_step a b x : step a b -> self_val a x (g_val (view a)) = g_val (view a) /\ self_val b x (g_val (view b)) = g_val (view b).
Proof. intros T. inversion T; subst; cbn [self_val]; auto. destruct a; auto. discriminate. Qed.
Lemma step_value s s' : step s s' -> g_val (view s) = g_val (view s').
Proof.
  intros T. induction T as [s m R|u a b T IH|n l a b r T IH|a b c T IH|a b c T IH|a b c T IH|a b c T IH|d a b lo hi T IH|d e0 a b hi T IH|d e0 lo a b T IH|op a b T IH|k l a b r T IH]; cbn [ModelOrder.view plain g_val].
  - symmetry. exact (rule_value s m R).
  - now rewrite IH.
  - rewrite !map_app. cbn [map]. now rewrite IH.
  - now rewrite IH.
  - now rewrite IH.
  - now rewrite IH.
  - now rewrite IH.
  - destruct lo, hi; cbn [self_val]; now rewrite IH.
  - destruct (self_val_step a b (g_val (view e0)) T) as (Q1 & Q2). now rewrite Q1, Q2, IH.
  - destruct (self_val_step a b (g_val (view e0)) T) as (Q1 & Q2). now rewrite Q1, Q2, IH.
  - now rewrite IH.
  - rewrite !map_app. cbn [map]. now rewrite IH.
Qed.
Lemma order_values e s : back_and_forth dt fs rho (start e) s -> g_val (view s) = value fs rho e.
Proof.
  intros H. remember (start e) as s0 eqn:E0. induction H as [s|a b c H IH T|a b c H IH T].
  - subst. rewrite <- annot_value. exact (proj1 (proj2 (stage_early _ e (stage_start e)))).
  - rewrite <- (step_value b c T). now apply IH.
  - rewrite (step_value c b T). now apply IH.
Qed.
(** a measurable form computes the requested variable *)
Lemma order_form e n s m : run dt fs rho n (start e) s -> form fs rho s = Some m -> comp m = value fs rho e.
Proof.
  intros R F. assert (S := stage_run _ _ _ e R (stage_start e)). destruct (stage_early s e S) as (_ & _ & M). rewrite <- annot_value. exact (annot_honest e m (M m F)).
Qed.
Lemma order_logprob rvs dlp dlc e n s v : run dt fs rho n (start e) s -> done s ->
  match form fs rho s with Some m => Some (glogprob dt fs rho rvs dlp dlc false m v) | None => None end = derived dt fs rho rvs dlp dlc e v.
Proof. intros R D. unfold derived. now rewrite (order_annot e n s R D). Qed.
End Order.
