(** Improper integrals over open intervals through antiderivatives. *)
From Coq Require Import Reals Lra Lia Classical.
From Coquelicot Require Import Coquelicot.
Open Scope R_scope.

(** One-sided filters at the ends of an interval of the extended line. *)
Definition Fr (a : Rbar) : (R -> Prop) -> Prop :=
  match a with Finite r => at_right r | _ => Rbar_locally a end.
Definition Fl (b : Rbar) : (R -> Prop) -> Prop :=
  match b with Finite r => at_left r | _ => Rbar_locally b end.

Global Instance Fr_proper a : ProperFilter (Fr a).
Proof. destruct a; unfold Fr; [apply at_right_proper_filter| apply Rbar_locally_filter..]. Qed.
Global Instance Fl_proper a : ProperFilter (Fl a).
Proof. destruct a; unfold Fl; [apply at_left_proper_filter| apply Rbar_locally_filter..]. Qed.

Definition inside (a b : Rbar) (x : R) : Prop := Rbar_lt a x /\ Rbar_lt x b.

Lemma inside_ge a b x y z : inside a b x -> inside a b y -> Rmin x y <= z <= Rmax x y -> inside a b z.
Proof.
  intros [H1 H2] [H3 H4] Hz. split.
  - destruct a; simpl in *; auto. unfold Rmin in Hz; destruct (Rle_dec x y); lra.
  - destruct b; simpl in *; auto. unfold Rmax in Hz; destruct (Rle_dec x y); lra.
Qed.

Lemma Fr_inside_lt a (x : R) : Rbar_lt a x -> Fr a (fun y => Rbar_lt a y /\ y < x).
Proof.
  destruct a as [r| |]; simpl; intros H.
  - exists (mkposreal (x - r) ltac:(lra)). intros y Hy Hr. split; auto.
    unfold ball in Hy; simpl in Hy; unfold AbsRing_ball, abs, minus, plus, opp in Hy; simpl in Hy.
    apply Rabs_def2 in Hy; lra.
  - contradiction.
  - exists x. intros y Hy; split; auto; constructor.
Qed.
Lemma Fl_inside_lt b (x : R) : Rbar_lt x b -> Fl b (fun y => Rbar_lt y b /\ x < y).
Proof.
  destruct b as [r| |]; simpl; intros H.
  - exists (mkposreal (r - x) ltac:(lra)). intros y Hy Hr. split; auto.
    unfold ball in Hy; simpl in Hy; unfold AbsRing_ball, abs, minus, plus, opp in Hy; simpl in Hy.
    apply Rabs_def2 in Hy; lra.
  - exists x. intros y Hy; split; auto; constructor.
  - contradiction.
Qed.
Lemma inside_ex a b : Rbar_lt a b -> exists x, inside a b x.
Proof.
  destruct a as [a| |], b as [b| |]; unfold inside; simpl; intros H; try contradiction.
  - exists ((a+b)/2); lra.
  - exists (a+1); split; auto; lra.
  - exists (b-1); split; auto; lra.
  - exists 0; auto.
Qed.
Lemma inside_lt a b x : inside a b x -> Rbar_lt a b.
Proof. intros [H1 H2]. destruct a, b; simpl in *; auto; try contradiction. lra. Qed.
Lemma Fr_inside a b : Rbar_lt a b -> Fr a (inside a b).
Proof.
  intros H. destruct (inside_ex a b H) as [x Hx].
  eapply filter_imp; [|apply (Fr_inside_lt a x), Hx].
  intros y [H1 H2]. split; auto. destruct Hx as [_ Hx]. destruct b; simpl in *; auto; lra.
Qed.
Lemma Fl_inside a b : Rbar_lt a b -> Fl b (inside a b).
Proof.
  intros H. destruct (inside_ex a b H) as [x Hx].
  eapply filter_imp; [|apply (Fl_inside_lt b x), Hx].
  intros y [H1 H2]. split; auto. destruct Hx as [Hx _]. destruct a; simpl in *; auto; lra.
Qed.
Lemma inside_open a b x : inside a b x -> locally x (inside a b).
Proof.
  intros [H1 H2]. apply filter_and.
  - destruct a as [r| |]; simpl in *; try contradiction; [|apply filter_forall; auto].
    apply (open_gt r x H1).
  - destruct b as [r| |]; simpl in *; try contradiction; [|apply filter_forall; auto].
    apply (open_lt r x H2).
Qed.

(** Limits of real functions along filters. *)
Lemma lim_plus (FF : (R -> Prop) -> Prop) {HF : Filter FF} (f g : R -> R) (a b : R) :
  filterlim f FF (locally a) -> filterlim g FF (locally b) ->
  filterlim (fun x => f x + g x) FF (locally (a + b)).
Proof. intros H1 H2. eapply filterlim_comp_2; [exact H1|exact H2|apply (filterlim_plus a b)]. Qed.
Lemma lim_eq (a : R) {b : R} {T : Type} {FF : (T -> Prop) -> Prop} {f : T -> R} :
  a = b -> filterlim f FF (locally a) -> filterlim f FF (locally b).
Proof. now intros ->. Qed.
Lemma lim_opp (FF : (R -> Prop) -> Prop) {HF : Filter FF} (f : R -> R) (a : R) :
  filterlim f FF (locally a) -> filterlim (fun x => - f x) FF (locally (- a)).
Proof. intros H1. eapply filterlim_comp; [exact H1|apply (filterlim_opp a)]. Qed.
Lemma lim_minus (FF : (R -> Prop) -> Prop) {HF : Filter FF} (f g : R -> R) (a b : R) :
  filterlim f FF (locally a) -> filterlim g FF (locally b) ->
  filterlim (fun x => f x - g x) FF (locally (a - b)).
Proof. intros H1 H2. unfold Rminus. apply lim_plus; auto. now apply lim_opp. Qed.
Lemma lim_scal (FF : (R -> Prop) -> Prop) {HF : Filter FF} (f : R -> R) (k a : R) :
  filterlim f FF (locally a) -> filterlim (fun x => k * f x) FF (locally (k * a)).
Proof. intros H1. eapply filterlim_comp; [exact H1|apply (filterlim_scal_r k a)]. Qed.
Lemma lim_mult (FF : (R -> Prop) -> Prop) {HF : Filter FF} (f g : R -> R) (a b : R) :
  filterlim f FF (locally a) -> filterlim g FF (locally b) ->
  filterlim (fun x => f x * g x) FF (locally (a * b)).
Proof. intros H1 H2. eapply filterlim_comp_2; [exact H1|exact H2|apply (filterlim_mult a b)]. Qed.
Lemma lim_const (FF : (R -> Prop) -> Prop) {HF : Filter FF} (a : R) :
  filterlim (fun _ => a) FF (locally a).
Proof. apply filterlim_const. Qed.
Lemma lim_cont (FF : (R -> Prop) -> Prop) {HF : Filter FF} (f g : R -> R) (a : R) :
  filterlim f FF (locally a) -> continuous g a -> filterlim (fun x => g (f x)) FF (locally (g a)).
Proof. intros H1 H2. eapply filterlim_comp; [exact H1|exact H2]. Qed.

(** [f] is continuous on (a,b), has an antiderivative there, with limits at the ends differing by l. *)
Definition prim (f : R -> R) (a b : Rbar) (l : R) : Prop :=
  Rbar_lt a b /\
  exists (F : R -> R) (la lb : R),
    (forall x, inside a b x -> is_derive F x (f x) /\ continuous f x) /\
    filterlim F (Fr a) (locally la) /\ filterlim F (Fl b) (locally lb) /\ l = lb - la.

Ltac psplit := split; [ let x := fresh "x" in let Hx := fresh "Hx" in intros x Hx; split | split; [|split] ].

Lemma prim_RInt_gen f a b l : prim f a b l -> is_RInt_gen f (Fr a) (Fl b) l.
Proof.
  intros (Hab & F & la & lb & HF & Ha & Hb & ->) P HP.
  assert (HP': filter_prod (Fr a) (Fl b) (fun ab => P (F (snd ab) - F (fst ab)))).
  { unfold Rminus.
    eapply filterlim_comp_2.
    eapply filterlim_comp, Hb. apply filterlim_snd.
    eapply filterlim_comp, @filterlim_opp.
    eapply filterlim_comp, Ha. apply filterlim_fst.
    apply (filterlim_plus lb (- la)).
    exact HP. }
  assert (HI : filter_prod (Fr a) (Fl b) (fun ab => inside a b (fst ab) /\ inside a b (snd ab))).
  { exists (inside a b) (inside a b); [now apply Fr_inside|now apply Fl_inside|auto]. }
  unfold filtermapi. generalize (filter_and _ _ HI HP'). apply filter_imp.
  intros [x y] [[H1 H2] H3]; simpl in *.
  eexists; split; [|exact H3].
  apply (is_RInt_derive F f x y); intros z Hz; apply HF; now apply (inside_ge a b x y).
Qed.

Lemma prim_unique (f : R -> R) a b l l' : prim f a b l -> prim f a b l' -> l = l'.
Proof.
  intros H1 H2. apply prim_RInt_gen in H1. apply prim_RInt_gen in H2.
  assert (E1 := is_RInt_gen_unique (V:=R_CompleteNormedModule) f l H1).
  assert (E2 := is_RInt_gen_unique (V:=R_CompleteNormedModule) f l' H2). congruence.
Qed.

Lemma prim_lim (f F : R -> R) a b la lb : Rbar_lt a b ->
  (forall x, inside a b x -> is_derive F x (f x)) ->
  (forall x, inside a b x -> continuous f x) ->
  filterlim F (Fr a) (locally la) -> filterlim F (Fl b) (locally lb) -> prim f a b (lb - la).
Proof. intros. split; auto. exists F, la, lb; auto. Qed.

Lemma prim_cont (f : R -> R) a b l x : prim f a b l -> inside a b x -> continuous f x.
Proof. intros (_ & F & la & lb & H & _) Hx. now apply H. Qed.

Lemma continuous_ext_inside (f g : R -> R) a b x : (forall x, inside a b x -> f x = g x) -> inside a b x ->
  continuous f x -> continuous g x.
Proof.
  intros He Hx Hc. apply continuous_ext_loc with f; auto.
  generalize (inside_open a b x Hx). apply filter_imp. exact He.
Qed.

Lemma prim_ext (f g : R -> R) a b l : (forall x, inside a b x -> f x = g x) -> prim f a b l -> prim g a b l.
Proof.
  intros He (Hab & F & la & lb & H & H1 & H2 & H3). split; auto. exists F, la, lb; psplit; auto.
  - rewrite <- He by auto. now apply H.
  - refine (continuous_ext_inside f g a b x He Hx _). now apply H.
Qed.

Lemma prim_scal (f : R -> R) a b l k : prim f a b l -> prim (fun x => k * f x) a b (k * l).
Proof.
  intros (Hab & F & la & lb & H & H1 & H2 & ->). split; auto.
  exists (fun x => k * F x), (k * la), (k * lb). psplit.
  - apply is_derive_scal. now apply H.
  - apply (continuous_scal_r k f x). now apply H.
  - eapply filterlim_comp; [exact H1|]. apply (filterlim_scal_r k la).
  - eapply filterlim_comp; [exact H2|]. apply (filterlim_scal_r k lb).
  - ring.
Qed.

Lemma prim_plus (f g : R -> R) a b l m : prim f a b l -> prim g a b m -> prim (fun x => f x + g x) a b (l + m).
Proof.
  intros (Hab & F & la & lb & H & H1 & H2 & ->) (_ & G & ma & mb & H' & H1' & H2' & ->). split; auto.
  exists (fun x => F x + G x), (la + ma), (lb + mb). psplit.
  - apply @is_derive_plus; [apply H|apply H']; auto.
  - apply (continuous_plus f g); [apply H|apply H']; auto.
  - eapply filterlim_comp_2; [exact H1|exact H1'|]. apply (filterlim_plus la ma).
  - eapply filterlim_comp_2; [exact H2|exact H2'|]. apply (filterlim_plus lb mb).
  - ring.
Qed.

(** Substitution, increasing and decreasing. *)
Lemma prim_subst (f : R -> R) (phi dphi : R -> R) a b c d l : Rbar_lt c d ->
  prim f a b l ->
  (forall x, inside c d x -> inside a b (phi x)) ->
  (forall x, inside c d x -> is_derive phi x (dphi x) /\ continuous dphi x) ->
  filterlim phi (Fr c) (Fr a) -> filterlim phi (Fl d) (Fl b) ->
  prim (fun x => f (phi x) * dphi x) c d l.
Proof.
  intros Hcd (Hab & F & la & lb & H & H1 & H2 & ->) Hin Hd Hc Hdl. split; auto.
  exists (fun x => F (phi x)), la, lb. split; [|split;[|split]]; auto.
  - intros x Hx. destruct (Hd x Hx) as [D1 D2]. destruct (H (phi x) (Hin x Hx)) as [E1 E2]. split.
    + rewrite Rmult_comm. apply (is_derive_comp F phi x _ _ E1 D1).
    + apply (continuous_mult (fun x => f (phi x)) dphi); auto.
      apply continuous_comp; auto. apply (ex_derive_continuous phi x). eexists; exact D1.
  - eapply filterlim_comp; [exact Hc|exact H1].
  - eapply filterlim_comp; [exact Hdl|exact H2].
Qed.
Lemma prim_subst_dec (f : R -> R) (phi dphi : R -> R) a b c d l : Rbar_lt c d ->
  prim f a b l ->
  (forall x, inside c d x -> inside a b (phi x)) ->
  (forall x, inside c d x -> is_derive phi x (dphi x) /\ continuous dphi x) ->
  filterlim phi (Fr c) (Fl b) -> filterlim phi (Fl d) (Fr a) ->
  prim (fun x => f (phi x) * (- dphi x)) c d l.
Proof.
  intros Hcd (Hab & F & la & lb & H & H1 & H2 & ->) Hin Hd Hc Hdl. split; auto.
  exists (fun x => - F (phi x)), (- lb), (- la). split; [|split;[|split]].
  - intros x Hx. destruct (Hd x Hx) as [D1 D2]. destruct (H (phi x) (Hin x Hx)) as [E1 E2]. split.
    + replace (f (phi x) * - dphi x) with (opp (dphi x * f (phi x))) by (unfold opp; simpl; ring).
      apply @is_derive_opp. apply (is_derive_comp F phi x _ _ E1 D1).
    + apply (continuous_mult (fun x => f (phi x)) (fun x => - dphi x)).
      * apply continuous_comp; auto. apply (ex_derive_continuous phi x). eexists; exact D1.
      * apply (continuous_opp dphi); auto.
  - eapply filterlim_comp; [|apply (filterlim_opp lb)]. eapply filterlim_comp; [exact Hc|exact H2].
  - eapply filterlim_comp; [|apply (filterlim_opp la)]. eapply filterlim_comp; [exact Hdl|exact H1].
  - ring.
Qed.

(** Continuous functions have antiderivatives on (a,b). *)
Lemma cont_ex_RInt (f : R -> R) a b x y : (forall x, inside a b x -> continuous f x) ->
  inside a b x -> inside a b y -> ex_RInt f x y.
Proof.
  intros H Hx Hy. apply (ex_RInt_continuous (V:=R_CompleteNormedModule)). intros z Hz.
  apply H. now apply (inside_ge a b x y).
Qed.
Lemma cont_RInt_derive (f : R -> R) a b c x : (forall x, inside a b x -> continuous f x) ->
  inside a b c -> inside a b x -> is_derive (fun x : R => (RInt f c x : R)) x (f x : R).
Proof.
  intros H Hc Hx. apply (is_derive_RInt f (fun x => RInt f c x) c x); [|now apply H].
  generalize (inside_open a b x Hx). apply filter_imp. intros y Hy.
  apply (RInt_correct (V:=R_CompleteNormedModule)). now apply (cont_ex_RInt f a b).
Qed.

(** Two antiderivatives differ by a constant. *)
Lemma inside_const (F : R -> R) a b x y :
  (forall z, inside a b z -> is_derive F z 0) -> inside a b x -> inside a b y -> F x = F y.
Proof.
  intros H Hx Hy.
  assert (forall x y, x < y -> inside a b x -> inside a b y -> F x = F y) as Hlt.
  { clear x y Hx Hy. intros x y Hxy Hx Hy.
    destruct (MVT_gen F x y (fun _ => 0)) as (c & Hc & E).
    - intros z Hz. apply H. apply (inside_ge a b x y); auto; lra.
    - intros z Hz. apply continuity_pt_filterlim. apply (ex_derive_continuous F z).
      eexists. apply H. now apply (inside_ge a b x y).
    - lra. }
  destruct (Rtotal_order x y) as [|[->|]]; auto. symmetry; auto.
Qed.

(** Monotone bounded functions have limits at the ends. *)
Lemma mono_lim_Fl (F : R -> R) a b M : Rbar_lt a b ->
  (forall x y, inside a b x -> inside a b y -> x <= y -> F x <= F y) ->
  (forall x, inside a b x -> F x <= M) ->
  exists l, filterlim F (Fl b) (locally l) /\ l <= M /\ (forall x, inside a b x -> F x <= l).
Proof.
  intros Hab Hm HM.
  destruct (completeness (fun z => exists x, inside a b x /\ z = F x)) as [l [Hl1 Hl2]].
  - exists M. intros z (x & Hx & ->). auto.
  - destruct (inside_ex a b Hab) as [x Hx]. exists (F x); eauto.
  - exists l. split; [|split].
    + apply filterlim_locally. intros eps.
      destruct (classic (exists x, inside a b x /\ l - eps < F x)) as [(x & Hx & Hx2)|Hn].
      * generalize (filter_and _ _ (Fl_inside a b Hab) (Fl_inside_lt b x (proj2 Hx))). apply filter_imp.
        intros y [Hy [_ Hxy]].
        unfold ball; simpl; unfold AbsRing_ball, abs, minus, plus, opp; simpl.
        assert (F x <= F y) by (apply Hm; auto; lra).
        assert (F y <= l) by (apply Hl1; eauto).
        destruct eps as [e He]; simpl in *. apply Rabs_def1; lra.
      * exfalso. assert (l <= l - eps); [|destruct eps; simpl in *; lra].
        apply Hl2. intros z (x & Hx & ->). apply Rnot_lt_le. intros Hlt. apply Hn; eauto.
    + apply Hl2. intros z (x & Hx & ->). auto.
    + intros x Hx. apply Hl1; eauto.
Qed.
Lemma mono_lim_Fr (F : R -> R) a b m : Rbar_lt a b ->
  (forall x y, inside a b x -> inside a b y -> x <= y -> F x <= F y) ->
  (forall x, inside a b x -> m <= F x) ->
  exists l, filterlim F (Fr a) (locally l) /\ m <= l /\ (forall x, inside a b x -> l <= F x).
Proof.
  intros Hab Hm HM.
  destruct (completeness (fun z => exists x, inside a b x /\ z = - F x)) as [l [Hl1 Hl2]].
  - exists (- m). intros z (x & Hx & ->). specialize (HM x Hx); lra.
  - destruct (inside_ex a b Hab) as [x Hx]. exists (- F x); eauto.
  - exists (- l). split; [|split].
    + apply filterlim_locally. intros eps.
      destruct (classic (exists x, inside a b x /\ l - eps < - F x)) as [(x & Hx & Hx2)|Hn].
      * generalize (filter_and _ _ (Fr_inside a b Hab) (Fr_inside_lt a x (proj1 Hx))). apply filter_imp.
        intros y [Hy [_ Hxy]].
        unfold ball; simpl; unfold AbsRing_ball, abs, minus, plus, opp; simpl.
        assert (F y <= F x) by (apply Hm; auto; lra).
        assert (- F y <= l) by (apply Hl1; eauto).
        destruct eps as [e He]; simpl in *. apply Rabs_def1; lra.
      * exfalso. assert (l <= l - eps); [|destruct eps; simpl in *; lra].
        apply Hl2. intros z (x & Hx & ->). apply Rnot_lt_le. intros Hlt. apply Hn; eauto.
    + assert (l <= - m); [|lra]. apply Hl2. intros z (x & Hx & ->). specialize (HM x Hx); lra.
    + intros x Hx. assert (- F x <= l) by (apply Hl1; eauto). lra.
Qed.

Lemma deriv_mono (F f : R -> R) a b x y :
  (forall z, inside a b z -> is_derive F z (f z)) -> (forall z, inside a b z -> 0 <= f z) ->
  inside a b x -> inside a b y -> x <= y -> F x <= F y.
Proof.
  intros HF Hf Hx Hy [Hxy| ->]; [|lra].
  destruct (MVT_gen F x y f) as (c & Hc & E).
  - intros z Hz. apply HF. apply (inside_ge a b x y); auto; lra.
  - intros z Hz. apply continuity_pt_filterlim. apply (ex_derive_continuous F z).
    eexists. apply HF. now apply (inside_ge a b x y).
  - assert (0 <= f c) by (apply Hf, (inside_ge a b x y); auto).
    assert (0 <= f c * (y - x)) by (apply Rmult_le_pos; lra). lra.
Qed.
Lemma deriv_strict (F f : R -> R) a b x y :
  (forall z, inside a b z -> is_derive F z (f z)) -> (forall z, inside a b z -> 0 < f z) ->
  inside a b x -> inside a b y -> x < y -> F x < F y.
Proof.
  intros HF Hf Hx Hy Hxy.
  destruct (MVT_gen F x y f) as (c & Hc & E).
  - intros z Hz. apply HF. apply (inside_ge a b x y); auto; lra.
  - intros z Hz. apply continuity_pt_filterlim. apply (ex_derive_continuous F z).
    eexists. apply HF. now apply (inside_ge a b x y).
  - assert (0 < f c) by (apply Hf, (inside_ge a b x y); auto).
    assert (0 < f c * (y - x)) by (apply Rmult_lt_0_compat; lra). lra.
Qed.

(** Comparison: a non-negative continuous function below an integrable one is integrable. *)
Lemma prim_compare (f g : R -> R) a b m : prim g a b m ->
  (forall x, inside a b x -> continuous f x) ->
  (forall x, inside a b x -> 0 <= f x <= g x) ->
  exists l, prim f a b l /\ 0 <= l <= m.
Proof.
  intros (Hab & G & ga & gb & HG & Ga & Gb & ->) Hc Hle.
  destruct (inside_ex a b Hab) as [c Hcin].
  set (F := fun x : R => RInt f c x : R).
  assert (HF : forall x, inside a b x -> is_derive F x (f x)) by (intros; now apply (cont_RInt_derive f a b)).
  assert (Fm : forall x y, inside a b x -> inside a b y -> x <= y -> F x <= F y).
  { intros; apply (deriv_mono F f a b); auto. intros; now apply Hle. }
  assert (GFm : forall x y, inside a b x -> inside a b y -> x <= y -> G x - F x <= G y - F y).
  { intros; apply (deriv_mono (fun x => G x - F x) (fun x => g x - f x) a b); auto.
    - intros z Hz. apply @is_derive_minus; [now apply HG|auto].
    - intros z Hz. specialize (Hle z Hz); lra. }
  assert (Gm : forall x y, inside a b x -> inside a b y -> x <= y -> G x <= G y).
  { intros; apply (deriv_mono G g a b); auto. intros; now apply HG. intros z Hz; specialize (Hle z Hz); lra. }
  assert (HGb : forall x, inside a b x -> G x <= gb).
  { intros x Hx. apply (filterlim_le (F:=Fl b) (fun _ => G x) G (Finite (G x)) (Finite gb)).
    - generalize (filter_and _ _ (Fl_inside a b Hab) (Fl_inside_lt b x (proj2 Hx))). apply filter_imp.
      intros y [Hy [_ Hy2]]. apply Gm; auto; lra.
    - apply filterlim_const.
    - exact Gb. }
  assert (HGa : forall x, inside a b x -> ga <= G x).
  { intros x Hx. apply (filterlim_le (F:=Fr a) G (fun _ => G x) (Finite ga) (Finite (G x))).
    - generalize (filter_and _ _ (Fr_inside a b Hab) (Fr_inside_lt a x (proj1 Hx))). apply filter_imp.
      intros y [Hy [_ Hy2]]. apply Gm; auto; lra.
    - exact Ga.
    - apply filterlim_const. }
  assert (Fc : F c = 0) by (unfold F; apply (RInt_point (V:=R_CompleteNormedModule) c f)).
  destruct (mono_lim_Fl F a b (gb - ga)) as (lb & Lb & Lb1 & Lb2); auto.
  { intros x Hx. destruct (Rle_dec c x).
    - generalize (GFm c x Hcin Hx r) (HGb x Hx) (HGa c Hcin); lra.
    - generalize (Fm x c Hx Hcin ltac:(lra)) (HGb c Hcin) (HGa c Hcin); lra. }
  destruct (mono_lim_Fr F a b (- (gb - ga))) as (la & La & La1 & La2); auto.
  { intros x Hx. destruct (Rle_dec x c).
    - generalize (GFm x c Hx Hcin r) (HGb c Hcin) (HGa x Hx); lra.
    - generalize (Fm c x Hcin Hx ltac:(lra)) (HGb c Hcin) (HGa c Hcin); lra. }
  exists (lb - la). split; [|split].
  - split; auto. exists F, la, lb; psplit; auto.
  - generalize (Lb2 c Hcin) (La2 c Hcin); lra.
  - assert (filterlim (fun x => G x - F x) (Fl b) (locally (gb - lb))).
    { apply lim_minus; auto; apply Fl_proper. }
    assert (filterlim (fun x => G x - F x) (Fr a) (locally (ga - la))).
    { apply lim_minus; auto; apply Fr_proper. }
    assert (G c - F c <= gb - lb).
    { apply (filterlim_le (F:=Fl b) (fun _ => G c - F c) (fun x => G x - F x) (Finite (G c - F c)) (Finite (gb - lb))); auto.
      - generalize (filter_and _ _ (Fl_inside a b Hab) (Fl_inside_lt b c (proj2 Hcin))). apply filter_imp.
        intros y [Hy [_ Hy2]]. apply GFm; auto; lra.
      - apply filterlim_const. }
    assert (ga - la <= G c - F c).
    { apply (filterlim_le (F:=Fr a) (fun x => G x - F x) (fun _ => G c - F c) (Finite (ga - la)) (Finite (G c - F c))); auto.
      - generalize (filter_and _ _ (Fr_inside a b Hab) (Fr_inside_lt a c (proj1 Hcin))). apply filter_imp.
        intros y [Hy [_ Hy2]]. apply GFm; auto; lra.
      - apply filterlim_const. }
    lra.
Qed.

Lemma prim_nonneg (f : R -> R) a b l : prim f a b l -> (forall x, inside a b x -> 0 <= f x) -> 0 <= l.
Proof.
  intros H Hp. destruct (prim_compare f f a b l H) as (l' & H1 & H2).
  - intros; eapply prim_cont; eauto.
  - intros; split; [auto|lra].
  - rewrite (prim_unique _ _ _ _ _ H H1). lra.
Qed.
Lemma prim_le (f g : R -> R) a b l m : prim f a b l -> prim g a b m -> (forall x, inside a b x -> f x <= g x) -> l <= m.
Proof.
  intros Hf Hg Hle.
  assert (H : prim (fun x => g x + -1 * f x) a b (m + -1 * l)).
  { apply prim_plus; auto. apply prim_scal; auto. }
  apply prim_nonneg in H; [lra|]. intros x Hx; specialize (Hle x Hx); lra.
Qed.
(** strictly positive continuous integrand gives a positive integral *)
Lemma prim_pos (f : R -> R) a b l : prim f a b l -> (forall x, inside a b x -> 0 < f x) -> 0 < l.
Proof.
  intros (Hab & F & la & lb & HF & Ha & Hb & ->) Hp.
  destruct (inside_ex a b Hab) as [c Hc].
  assert (exists d, inside a b d /\ c < d) as (d & Hd & Hcd).
  { destruct (filter_ex (F:=Fl b) _ (filter_and _ _ (Fl_inside a b Hab) (Fl_inside_lt b c (proj2 Hc)))) as (d & H1 & _ & H2); eauto. }
  assert (F c < F d).
  { apply (deriv_strict F f a b); auto. intros; now apply HF. }
  assert (Fm : forall x y, inside a b x -> inside a b y -> x <= y -> F x <= F y).
  { intros; apply (deriv_mono F f a b); auto. intros; now apply HF. intros; now apply Rlt_le, Hp. }
  assert (la <= F c).
  { apply (filterlim_le (F:=Fr a) F (fun _ => F c) (Finite la) (Finite (F c))); auto.
    - generalize (filter_and _ _ (Fr_inside a b Hab) (Fr_inside_lt a c (proj1 Hc))). apply filter_imp.
      intros y [Hy [_ Hy2]]. apply Fm; auto; lra.
    - apply filterlim_const. }
  assert (F d <= lb).
  { apply (filterlim_le (F:=Fl b) (fun _ => F d) F (Finite (F d)) (Finite lb)); auto.
    - generalize (filter_and _ _ (Fl_inside a b Hab) (Fl_inside_lt b d (proj2 Hd))). apply filter_imp.
      intros y [Hy [_ Hy2]]. apply Fm; auto; lra.
    - apply filterlim_const. }
  lra.
Qed.

(** Splitting at an interior point of continuity. *)
Lemma at_left_lim (F : R -> R) (c l : R) : continuous F c -> filterlim F (at_left c) (locally l) -> F c = l.
Proof.
  intros H1 H2. apply (filterlim_locally_unique (F := at_left c) F); auto.
  eapply filterlim_filter_le_1; [|exact H1]. apply filter_le_within.
Qed.
Lemma at_right_lim (F : R -> R) (c l : R) : continuous F c -> filterlim F (at_right c) (locally l) -> F c = l.
Proof.
  intros H1 H2. apply (filterlim_locally_unique (F := at_right c) F); auto.
  eapply filterlim_filter_le_1; [|exact H1]. apply filter_le_within.
Qed.

Lemma inside_left a b (c : R) x : inside a b c -> inside a c x -> inside a b x.
Proof. intros [_ H] [H1 H2]. split; auto. destruct b; simpl in *; auto; lra. Qed.
Lemma inside_right a b (c : R) x : inside a b c -> inside c b x -> inside a b x.
Proof. intros [H _] [H1 H2]. split; auto. destruct a; simpl in *; auto; lra. Qed.

Lemma prim_split (f : R -> R) a b (c : R) l1 l2 : inside a b c ->
  continuous f c -> prim f a c l1 -> prim f c b l2 -> prim f a b (l1 + l2).
Proof.
  intros Hc Hcont (Hac & F & fa & fc & HF & Fa & Fc & ->) (Hcb & G & gc & gb & HG & Gc & Gb & ->).
  assert (Hall : forall x, inside a b x -> continuous f x).
  { intros x [Hx1 Hx2]. destruct (Rtotal_order x c) as [H|[->|H]]; auto.
    - apply HF. split; auto.
    - apply HG. split; auto. }
  set (I := fun x : R => RInt f c x : R).
  assert (HI : forall x, inside a b x -> is_derive I x (f x)) by (intros; now apply (cont_RInt_derive f a b)).
  assert (Ic : I c = 0) by (unfold I; apply (RInt_point (V:=R_CompleteNormedModule) c f)).
  assert (CI : continuous I c) by (apply (ex_derive_continuous I c); eexists; apply HI; auto).
  destruct (inside_ex a c Hac) as [x0 Hx0]. destruct (inside_ex c b Hcb) as [y0 Hy0].
  assert (E1 : forall x, inside a c x -> I x = F x - F x0 + I x0).
  { intros x Hx. assert (I x - F x = I x0 - F x0); [|lra].
    apply (inside_const (fun x => I x - F x) a c); auto. intros z Hz.
    rewrite <- (Rminus_eq_0 (f z)).
    apply @is_derive_minus; [apply HI, (inside_left a b c); auto|now apply HF]. }
  assert (E2 : forall x, inside c b x -> I x = G x - G y0 + I y0).
  { intros x Hx. assert (I x - G x = I y0 - G y0); [|lra].
    apply (inside_const (fun x => I x - G x) c b); auto. intros z Hz.
    rewrite <- (Rminus_eq_0 (f z)).
    apply @is_derive_minus; [apply HI, (inside_right a b c); auto|now apply HG]. }
  assert (L1 : forall (FF : (R -> Prop) -> Prop) l, ProperFilter FF -> FF (inside a c) -> filterlim F FF (locally l) ->
           filterlim I FF (locally (l - F x0 + I x0))).
  { intros FF l HFF Hin Hl.
    apply (filterlim_ext_loc (fun x => F x + (- F x0 + I x0))).
    - generalize Hin. apply filter_imp. intros x Hx. specialize (E1 x Hx).
      change (F x + (- F x0 + I x0) = I x :> R). lra.
    - replace (l - F x0 + I x0) with (l + (- F x0 + I x0)) by ring.
      apply lim_plus; auto. apply HFF. apply lim_const. apply HFF. }
  assert (L2 : forall (FF : (R -> Prop) -> Prop) l, ProperFilter FF -> FF (inside c b) -> filterlim G FF (locally l) ->
           filterlim I FF (locally (l - G y0 + I y0))).
  { intros FF l HFF Hin Hl.
    apply (filterlim_ext_loc (fun x => G x + (- G y0 + I y0))).
    - generalize Hin. apply filter_imp. intros x Hx. specialize (E2 x Hx).
      change (G x + (- G y0 + I y0) = I x :> R). lra.
    - replace (l - G y0 + I y0) with (l + (- G y0 + I y0)) by ring.
      apply lim_plus; auto. apply HFF. apply lim_const. apply HFF. }
  assert (A1 := L1 _ fa (Fr_proper a) (Fr_inside a c Hac) Fa).
  assert (A2 := L1 _ fc (Fl_proper c) (Fl_inside a c Hac) Fc).
  assert (A3 := L2 _ gc (Fr_proper c) (Fr_inside c b Hcb) Gc).
  assert (A4 := L2 _ gb (Fl_proper b) (Fl_inside c b Hcb) Gb).
  apply (at_left_lim I c) in A2; auto. apply (at_right_lim I c) in A3; auto.
  split; [eapply inside_lt; eauto|].
  exists I, (fa - F x0 + I x0), (gb - G y0 + I y0). psplit; auto.
  lra.
Qed.

(** Restriction of an integrable function to a sub-interval. *)
Lemma prim_restrict (f : R -> R) a b l (c : R) : prim f a b l -> inside a b c ->
  exists l1 l2, prim f a c l1 /\ prim f c b l2 /\ l = l1 + l2.
Proof.
  intros (Hab & F & la & lb & HF & Ha & Hb & ->) Hc.
  assert (CF : continuous F c) by (apply (ex_derive_continuous F c); eexists; apply HF; auto).
  exists (F c - la), (lb - F c). split; [|split].
  - split; [apply Hc|]. exists F, la, (F c). psplit; auto.
    + apply HF, (inside_left a b c); auto.
    + apply HF, (inside_left a b c); auto.
    + eapply filterlim_filter_le_1; [|exact CF]. apply filter_le_within.
  - split; [apply Hc|]. exists F, (F c), lb. psplit; auto.
    + apply HF, (inside_right a b c); auto.
    + apply HF, (inside_right a b c); auto.
    + eapply filterlim_filter_le_1; [|exact CF]. apply filter_le_within.
  - ring.
Qed.
