(** Requested variables computed from continuous ones by invertible
    element-wise operations. *)
From Coq Require Import Reals Lra Lia ZArith List Arith Bool.
From Coquelicot Require Import Coquelicot.
From Verif Require Import XR XTac SpecDist ModelDist ModelVec SpecVec SpecCens LemInt ModelCens ModelTrans LemTrans LemTrans2 ModelNest SpecNest LemNest LemNest2 LemNest3 LemSubst ModelGuard ModelCensSys SpecCensSys LemCensSys LemCensSys2 LemCensSys3.
Import ListNotations.
Open Scope R_scope.

(** ** the integral over the line of a function that is 0 outside of (s,t) *)
Lemma support_lims (K : R -> R) m s t : is_RInt_gen K (Rbar_locally m_infty) (Rbar_locally p_infty) m -> Rbar_lt s t -> (forall x : R, Rbar_lt x s \/ Rbar_lt t x -> K x = 0) ->
  exists ls lt, filterlim (anti K) (Fr s) (locally ls) /\ filterlim (anti K) (Fl t) (locally lt) /\ m = lt - ls.
Proof.
  intros I L Z. destruct (line_lims K m I) as (la & lb & La & Lb & ->). 
  assert (Z0 : forall x y, x <= y -> (forall w, x < w < y -> K w = 0) -> anti K y = anti K x).
  { intros x y Q H. pose proof (line_int K _ I x y) as V. assert (V' : is_RInt K x y 0).
    { apply (is_RInt_ext (fun _ => 0)); [intros w; rewrite Rmin_left, Rmax_right by lra; intros W; now rewrite H|]. pose proof (is_RInt_const (V := R_NormedModule) x y 0) as C. unfold scal in C; cbn in C; unfold mult in C; cbn in C. now rewrite Rmult_0_r in C. }
    pose proof (is_RInt_unique _ _ _ _ V) as U. pose proof (is_RInt_unique _ _ _ _ V') as U'. rewrite U in U'. lra. }
  assert (A : filterlim (anti K) (Fr s) (locally la)).
  { destruct s as [r| |]; [|destruct t; easy|exact La]. cbn [Fr]. assert (E : anti K r = la).
    { apply (filterlim_locally_unique (F := Rbar_locally m_infty) (anti K)); [|exact La]. apply (filterlim_ext_loc (fun _ => anti K r)); [|apply filterlim_const]. exists r. intros x Lx. apply Z0; [lra|]. intros w W. apply Z. left. cbn. lra. }
    rewrite <- E. intros P HP. exact (filter_le_within (F := locally r) (fun u => r < u) _ (anti_cont K _ I r P HP)). }
  assert (B : filterlim (anti K) (Fl t) (locally lb)).
  { destruct t as [r| |]; [|exact Lb|destruct s; easy]. cbn [Fl]. assert (E : anti K r = lb).
    { apply (filterlim_locally_unique (F := Rbar_locally p_infty) (anti K)); [|exact Lb]. apply (filterlim_ext_loc (fun _ => anti K r)); [|apply filterlim_const]. exists r. intros x Lx. symmetry. apply Z0; [lra|]. intros w W. apply Z. right. cbn. lra. }
    rewrite <- E. intros P HP. exact (filter_le_within (F := locally r) (fun u => u < r) _ (anti_cont K _ I r P HP)). }
  eauto.
Qed.

(** ** one measurable operand among others *)
Definition plain_ann (a : gann) : Prop := g_m a = None /\ g_rand a = false.
Lemma gm_plain l : List.Forall plain_ann l -> gmeasurable l = [] /\ gothers l = l /\ existsb g_rand l = false.
Proof.
  induction l as [|a l IH]; intros F; [auto|]. apply Forall_cons_iff in F as [[E1 E2] F]. destruct (IH F) as (I1 & I2 & I3). unfold gmeasurable, gothers in *. cbn. rewrite E1, E2, I1, I2, I3. auto.
Qed.
Lemma gc_mid dt A a B m mk : List.Forall plain_ann A -> List.Forall plain_ann B -> g_m a = Some m -> is_int (gdt dt m) = false ->
  gconstruct dt (A ++ a :: B) mk = match mk (map g_val (A ++ B)) with Some t => Some (GE t m) | None => None end.
Proof.
  intros FA FB E D. destruct (gm_plain A FA) as (A1 & A2 & A3), (gm_plain B FB) as (B1 & B2 & B3). unfold gconstruct.
  assert (Em : gmeasurable (A ++ a :: B) = [m]) by (unfold gmeasurable in *; rewrite flat_map_app; cbn; now rewrite A1, B1, E). rewrite Em, D.
  assert (Eo : gothers (A ++ a :: B) = A ++ B) by (unfold gothers in *; rewrite filter_app; cbn; now rewrite A2, B2, E). rewrite Eo, existsb_app, A3, B3. reflexivity.
Qed.

Section Chain.
Variable ddt : nat -> dtype.
Variable fs : nat -> list xr -> xr.
Variable dlp dlc : nat -> list xr -> xr -> res xr.
Variable h : list cnode.
Variable req : list nat.
Variable rhoM : nat -> xr.
Hypothesis AC : cacyclic h.
Notation cvalue := (cvalue fs h).
Notation drawn := (drawn h).
Notation valued := (valued req).
Notation cknown := (cknown h req).
Notation chained := (chained h req).
Notation cdt := (c_dtype ddt h).
Notation unf y := (c_unfold h req (fun w => Fin (y w))).
Notation G := (gannotate cdt fs rhoM).
Notation crv y := (c_rvs h req (fun w => Fin (y w))).
Notation glp y := (glogprob cdt fs rhoM (crv y) dlp dlc).

Lemma known_plain y n : forall p, cknown p -> (p < n)%nat -> plain_ann (G (unf y n p)).
Proof.
  induction n as [|n IH]; intros p K L; [lia|]. destruct (in_dec Nat.eq_dec p req) as [I|I]; [rewrite unf_in by (auto; lia); split; reflexivity|].
  rewrite unf_out by auto. assert (N : exists m, nth_error h p = Some m) by (destruct K as [p K|p m K _ _]; [easy|eauto]). destruct N as [m N]. destruct (cknown_out h req p m I N K) as [D KI].
  assert (IH' : forall a, In a (cinputs m) -> plain_ann (G (unf y n a))) by (intros a Ia; apply IH; auto; specialize (AC p m a N Ia); lia).
  assert (IHl : forall l, incl l (cinputs m) -> List.Forall plain_ann (map G (map (unf y n) l))).
  { intros l Il. apply List.Forall_forall. intros a Ia. apply in_map_iff in Ia as (e & <- & Ie). apply in_map_iff in Ie as (p' & <- & Ip). auto. }
  assert (NC : forall l mk, List.Forall plain_ann l -> gconstruct cdt l mk = None) by (intros l mk F; unfold gconstruct; now rewrite (proj1 (gm_plain l F))).
  unfold c_expand. rewrite N. clear IH N. destruct m as [c|d ps|u a|k l|a b|a b|d a lo hi|op a|k l]; cbn [cinputs] in *.
  - split; reflexivity.
  - now destruct (D d ps).
  - pose proof (IH' a ltac:(cbn; auto)) as [P1 P2]. split; cbn [gannotate g_unary g_m g_rand]; auto. apply NC. constructor; [split; auto|constructor].
  - pose proof (IHl l ltac:(apply incl_refl)) as P. split; cbn [gannotate g_nary g_m g_rand]; auto. now apply gm_plain.
  - pose proof (IH' a ltac:(cbn; auto)) as Pa. pose proof (IH' b ltac:(cbn; auto)) as Pb.
    assert (Pm : plain_ann (g_nary cdt NMul [gcon (Fin (-1)); G (unf y n b)])).
    { split; cbn [g_nary g_m g_rand existsb gcon]; [apply NC; constructor; [split; reflexivity|constructor; [auto|constructor]]|]. rewrite (proj2 Pb). reflexivity. }
    cbn [gannotate]. unfold g_sub. split; cbn [g_nary g_m g_rand]; [apply NC; constructor; [auto|constructor; [exact Pm|constructor]]|]. apply gm_plain. constructor; [auto|constructor; [exact Pm|constructor]].
  - pose proof (IH' a ltac:(cbn; auto)) as Pa. pose proof (IH' b ltac:(cbn; auto)) as Pb.
    assert (Pm : plain_ann (g_unary cdt URecip (G (unf y n b)))).
    { split; cbn [g_unary g_m g_rand]; [apply NC; constructor; [auto|constructor]|]. apply Pb. }
    cbn [gannotate]. unfold g_div. split; cbn [g_nary g_m g_rand]; [apply NC; constructor; [auto|constructor; [exact Pm|constructor]]|]. apply gm_plain. constructor; [auto|constructor; [exact Pm|constructor]].
  - destruct (IH' a ltac:(cbn; auto)) as [P1 P2]. destruct (IH' lo ltac:(cbn; auto)) as [_ Q1]. destruct (IH' hi ltac:(cbn; auto)) as [_ Q2].
    split; cbn [gannotate g_clip g_m g_rand]; [now rewrite P1|]. rewrite P2. destruct (lo =? a)%nat, (hi =? a)%nat; cbn [gannotate gcon g_rand]; rewrite ?Q1, ?Q2; reflexivity.
  - destruct (IH' a ltac:(cbn; auto)) as [P1 P2]. split; cbn [gannotate g_round g_m g_rand]; auto. now rewrite P1.
  - pose proof (IHl l ltac:(apply incl_refl)) as P. split; cbn [gannotate g_m g_rand]; auto. now apply gm_plain.
Qed.
Lemma known_plains y n l : (forall p, In p l -> cknown p /\ (p < n)%nat) -> List.Forall plain_ann (map G (map (unf y n) l)).
Proof. intros H. apply List.Forall_forall. intros a Ia. apply in_map_iff in Ia as (e & <- & Ie). apply in_map_iff in Ie as (p & <- & Ip). destruct (H p Ip). now apply known_plain. Qed.
Lemma known_vals y n l xs : (forall p, In p l -> (p < n)%nat) -> List.Forall2 (cvalue (valued y)) l xs -> map g_val (map G (map (unf y n) l)) = map Fin xs.
Proof.
  intros H F. induction F as [|a x l xs V F IH]; [reflexivity|]. cbn [map]. rewrite (unfold_val fs h req y rhoM AC cdt n a x) by (auto; apply H; now left). f_equal. apply IH. intros p Ip. apply H. now right.
Qed.

(** ** the state of a chain *)
Variable rho : nat -> R.
Variable v b d : nat.
Variable ps : list nat.
Variable xs : list R.
Variable f : R -> R.
Variable s t : Rbar.
Variable Ys : (nat -> R) -> Prop.
Notation at_ x := (drawn (upd rho b x)).
Hypothesis Nb : nth_error h b = Some (CRv d ps).
Hypothesis Db : ddt d <> DInt.
Hypothesis Lst : Rbar_lt s t.
Hypothesis T1 : forall y p r x, Ys y -> inside s t x -> cknown p -> (p < v)%nat -> cvalue (at_ x) p r -> cvalue (valued y) p r.
Hypothesis T2 : forall p r x x', cknown p -> (p < v)%nat -> cvalue (at_ x) p r -> cvalue (at_ x') p r.
Hypothesis PX : forall y, Ys y -> List.Forall2 (cvalue (valued y)) ps xs.
Hypothesis LP : forall x, denotes (dlp d (map Fin xs) (Fin x)) (f x).

Definition state (vals : R -> R -> Prop) (ms : (nat -> R) -> nat -> gm -> Prop) (thr : nat) : Prop :=
  exists (H k k' : R -> R) (c e : Rbar), maps H k k' s t c e /\ (forall x, inside s t x -> vals x (H x)) /\
  forall y n, Ys y -> (thr <= n)%nat -> exists m, ms y n m /\ is_int (gdt cdt m) = false /\ (forall nb w, glp y nb m w = glp y true m w) /\
    forall w, inside c e w -> denotes (glp y true m (Fin w)) (f (k w) * Rabs (k' w)).
Definition after (tr : tr) (ms : (nat -> R) -> nat -> gm -> Prop) (y : nat -> R) (n : nat) (m' : gm) : Prop := exists m, ms y n m /\ is_int (gdt cdt m) = false /\ m' = GE tr m.

Lemma state_step vals ms thr (vals' : R -> R -> Prop) tr hh : state vals ms thr ->
  (forall c e, Rbar_lt c e -> (forall w, inside c e w -> exists x, inside s t x /\ vals x w) ->
     exists k k' c' e', maps hh k k' c e c' e' /\ forall lp w u, inside c e w -> denotes (lp (Fin w)) u -> denotes (elemwise_logprob tr lp (Fin (hh w))) (u * Rabs (k' (hh w)))) ->
  (forall x w, inside s t x -> vals x w -> vals' x (hh w)) -> state vals' (after tr ms) thr.
Proof.
  intros (H & k & k' & c & e & Mp & V & M) Q W. destruct (inside_ex s t Lst) as [x0 X0]. pose proof Mp as (M1 & M2 & _). pose proof (inside_lt c e _ (proj1 (M1 x0 X0))) as L.
  destruct (Q c e L) as (l & l' & c' & e' & Mq & Dn).
  { intros w Iw. destruct (M2 w Iw) as (X & Ew & _). exists (k w). split; auto. rewrite <- Ew at 2. now apply V. }
  exists (fun x => hh (H x)), (fun w => k (l w)), (fun w => k' (l w) * l' w), c', e'. split; [now apply (maps_comp H k k' hh l l' s t c e)|]. split; [intros x X; apply W; auto|].
  intros y n Yy Ln. destruct (M y n Yy Ln) as (m & Em & Im & Nm & Dm). exists (GE tr m). split; [exists m; auto|]. split; [reflexivity|]. split; [reflexivity|].
  intros w Iw. pose proof Mq as (_ & M2' & _). destruct (M2' w Iw) as (Il & El & _). cbn [glogprob]. pose proof (Dn (glp y true m) (l w) _ Il (Dm (l w) Il)) as Z. rewrite El in Z. now rewrite Rabs_mult, <- Rmult_assoc.
Qed.
Lemma state_loc vals ms thr (vals' : R -> R -> Prop) c : state vals ms thr -> (forall x w, inside s t x -> vals x w -> vals' x (w + c)) -> state vals' (after (TLoc (Fin c)) ms) thr.
Proof.
  intros S W. apply (state_step vals ms thr vals' _ (fun w => w + c) S); auto. intros a e L _. do 4 eexists. split; [now apply loc_maps|].
  intros lp w u _ D. cbv beta. rewrite Rabs_R1, Rmult_1_r. exact (loc_den _ (fun _ => u) c w D).
Qed.
Lemma state_scale vals ms thr (vals' : R -> R -> Prop) c : c <> 0 -> state vals ms thr -> (forall x w, inside s t x -> vals x w -> vals' x (w * c)) -> state vals' (after (TScale (Fin c)) ms) thr.
Proof.
  intros N S W. apply (state_step vals ms thr vals' _ (fun w => w * c) S); auto. intros a e L _. destruct (scale_maps c a e N L) as (a' & e' & Mp). do 4 eexists. split; [exact Mp|].
  intros lp w u _ D. cbv beta. rewrite Rabs_inv. exact (scale_den _ (fun _ => u) c w N D).
Qed.
Lemma state_one vals ms thr (vals' : R -> R -> Prop) u : state vals ms thr -> (forall x w, inside s t x -> vals x w -> (u = ULog -> 0 < w) /\ (u = URecip -> 0 < w)) ->
  (forall x w, inside s t x -> vals x w -> vals' x (match u with UExp => exp w | ULog => ln w | URecip => / w end)) -> state vals' (after (tr_unary u) ms) thr.
Proof.
  intros S P W. assert (Pi : forall c e, (forall w, inside c e w -> exists x, inside s t x /\ vals x w) -> forall w, inside c e w -> (u = ULog -> 0 < w) /\ (u = URecip -> 0 < w)).
  { intros c e I w Iw. destruct (I w Iw) as (x & X & V). exact (P x w X V). }
  destruct u; cbn [tr_unary].
  - apply (state_step vals ms thr vals' TExp exp S); auto. intros a e L _. do 4 eexists. split; [now apply exp_maps|].
    intros lp w z _ D. cbv beta. pose proof (exp_pos w) as Pw. pose proof (Rinv_0_lt_compat _ Pw). rewrite Rabs_pos_eq by lra. now apply exp_den.
  - apply (state_step vals ms thr vals' TLog ln S); auto. intros a e L I. assert (Pp : forall w, inside a e w -> 0 < w) by (intros w Iw; exact (proj1 (Pi a e I w Iw) eq_refl)).
    destruct (log_maps a e L Pp) as (a' & e' & Mp). do 4 eexists. split; [exact Mp|]. intros lp w z Iw D. specialize (Pp w Iw). cbv beta. rewrite exp_ln, Rabs_pos_eq by lra. now apply log_den.
  - apply (state_step vals ms thr vals' TRecip Rinv S); auto. intros a e L I. assert (Pp : forall w, inside a e w -> 0 < w) by (intros w Iw; exact (proj2 (Pi a e I w Iw) eq_refl)).
    destruct (recip_maps a e L Pp) as (a' & e' & Mp). do 4 eexists. split; [exact Mp|]. intros lp w z Iw D. specialize (Pp w Iw).
    cbv beta. replace (- / (/ w * / w)) with (- (w * w)) by (field; lra). rewrite Rabs_Ropp, Rabs_pos_eq by nra. now apply (recip_den _ (fun _ => z)).
Qed.
Lemma state_mono vals (ms ms' : (nat -> R) -> nat -> gm -> Prop) thr thr' : (thr <= thr')%nat -> (forall y n m, Ys y -> (thr' <= n)%nat -> ms y n m -> is_int (gdt cdt m) = false -> ms' y n m) -> state vals ms thr -> state vals ms' thr'.
Proof.
  intros L I (H & k & k' & c & e & Mp & V & M). exists H, k, k', c, e. split; auto. split; auto. intros y n Yy Ln. destruct (M y n Yy ltac:(lia)) as (m & Em & Im & R0). exists m. split; auto.
Qed.

Notation valof a := (fun x w => cvalue (at_ x) a w).
Definition formof (a : nat) (y : nat -> R) (n : nat) (m : gm) : Prop := g_m (G (c_expand h (unf y n) a)) = Some m.
Definition inputof (a : nat) (y : nat -> R) (n : nat) (m : gm) : Prop := g_m (G (unf y n a)) = Some m.
Lemma form_input a : ~ In a req -> state (valof a) (formof a) a -> state (valof a) (inputof a) (S a).
Proof.
  intros I (H & k & k' & c & e & Mp & V & M). exists H, k, k', c, e. split; auto. split; auto. intros y n Yy Ln. destruct n as [|n]; [lia|]. destruct (M y n Yy ltac:(lia)) as (m & Em & R0). exists m. split; auto.
  unfold inputof. now rewrite unf_out.
Qed.
Lemma one_val x a w (u : unary) n : nth_error h n = Some (COne u a) -> cvalue (at_ x) a w -> (u = ULog -> 0 < w) -> (u = URecip -> 0 < w) -> cvalue (at_ x) n (match u with UExp => exp w | ULog => ln w | URecip => / w end).
Proof.
  intros N V P1 P2. eapply cval_mk; [now apply (drawn_other h _ n _ N)|exact N|]. destruct u; cbn [cmeans]; exists w; auto. split; auto. split; auto. specialize (P2 eq_refl). lra.
Qed.
Lemma t2s l zs x x' : (forall p, In p l -> cknown p /\ (p < v)%nat) -> List.Forall2 (cvalue (at_ x)) l zs -> List.Forall2 (cvalue (at_ x')) l zs.
Proof. intros H. apply f2_mono. intros a z Ia. destruct (H a Ia). now apply T2. Qed.
Lemma t1s y l zs x : Ys y -> inside s t x -> (forall p, In p l -> cknown p /\ (p < v)%nat) -> List.Forall2 (cvalue (at_ x)) l zs -> List.Forall2 (cvalue (valued y)) l zs.
Proof. intros Yy X H. apply f2_mono. intros a z Ia. destruct (H a Ia). eapply T1; eauto. Qed.

Lemma chain_state ws a : chained b ws a -> (a <= v)%nat -> (forall x, inside s t x -> exists z, cvalue (at_ x) a z) -> (forall x w, inside s t x -> In w ws -> safe fs h req (upd rho b x) w) ->
  state (valof a) (formof a) a.
Proof.
  destruct (inside_ex s t Lst) as [x0 X0]. revert a. induction ws as [|w ws IH]; intros a C La V S; inversion C as [|ws' a' v' u C' Na N Q1 Q2|ws' a' v' k l r C' Na N Ne Kn Q1 Q2|ws' a' v' c C' Na N Kn Q1 Q2|ws' a' v' c C' Na N Kn Q1 Q2|ws' a' v' c C' Na N Kn Q1 Q2|ws' a' v' c C' Na N Kn Q1 Q2]; subst.
  - exists (fun x => x), (fun y => y), (fun _ => 1), s, t. split; [apply maps_id|]. split; [intros x _; apply c_given; unfold SpecCensSys.drawn, upd; now rewrite Nb, Nat.eqb_refl|].
    intros y n Yy _. exists (GB a). split; [unfold formof, c_expand; now rewrite Nb|]. split; [cbn [gdt]; unfold c_dtype; rewrite Nb; destruct (ddt d); auto; easy|]. split; [reflexivity|].
    intros z _. rewrite Rabs_R1, Rmult_1_r. cbn [glogprob]. destruct (params_val ddt fs h req y rhoM AC a d ps xs Nb (PX y Yy)) as [-> ->]. apply LP.
  - rename a into w. assert (La' : (a' < w)%nat) by (apply (AC w _ a' N); cbn; auto). assert (D : forall x, at_ x w = None) by (intros x; now apply (drawn_other h _ w _ N)).
    assert (Vi : forall x, inside s t x -> exists z, cvalue (at_ x) a' z /\ (u = ULog -> 0 < z) /\ (u = URecip -> 0 < z)).
    { intros x X. destruct (V x X) as [z Vz]. apply (cval_inv fs h _ w _ _ (D x) N) in Vz. pose proof (S x w X (or_introl eq_refl)) as Sf. unfold safe in Sf. rewrite N in Sf.
      destruct u; cbn [cmeans] in Vz; [destruct Vz as (z' & Vz & _)|destruct Vz as (z' & Vz & Pz & _)|destruct Vz as (z' & Vz & _ & _)]; exists z'; (split; [exact Vz|]); split; try discriminate; auto. }
    assert (St : state (valof a') (formof a') a') by (apply IH; auto; [lia|intros x X; destruct (Vi x X) as (z & Vz & _); eauto|intros x w' X Iw'; apply S; auto; now right]).
    apply (form_input a' Na) in St. assert (Pw : forall x z, inside s t x -> cvalue (at_ x) a' z -> (u = ULog -> 0 < z) /\ (u = URecip -> 0 < z)).
    { intros x z X Vz. destruct (Vi x X) as (z' & Vz' & P'). now rewrite (cval_fun fs h AC _ (drawn_con h _) a' z z' Vz Vz'). }
    apply (state_one _ _ _ (valof w) u) in St; [|exact Pw|intros x z X Vz; destruct (Pw x z X Vz); eapply one_val; eauto].
    revert St. apply state_mono; [lia|]. intros y n m' Yy Ln (m & Em & Im & ->) _. unfold formof, c_expand. rewrite N. cbn [gannotate g_unary g_m].
    exact (gc_mid cdt [] (G (unf y n a')) [] m _ ltac:(constructor) ltac:(constructor) Em Im).
  - rename a into w. assert (La' : (a' < w)%nat) by (apply (AC w _ a' N); cbn; apply in_or_app; right; now left). assert (D : forall x, at_ x w = None) by (intros x; now apply (drawn_other h _ w _ N)).
    assert (Lk : forall p, In p (l ++ r) -> cknown p /\ (p < w)%nat).
    { intros p Ip. split; auto. apply (AC w _ p N). cbn. apply in_app_or in Ip as [Ip|Ip]; apply in_or_app; [auto|right; now right]. }
    assert (Lv : forall p, In p (l ++ r) -> cknown p /\ (p < v)%nat) by (intros p Ip; destruct (Lk p Ip); split; auto; lia).
    assert (Vi : forall x, inside s t x -> exists zl z zr, List.Forall2 (cvalue (at_ x)) l zl /\ cvalue (at_ x) a' z /\ List.Forall2 (cvalue (at_ x)) r zr).
    { intros x X. destruct (V x X) as [z Vz]. apply (cval_inv fs h _ w _ _ (D x) N) in Vz. assert (E : exists zs, List.Forall2 (cvalue (at_ x)) (l ++ a' :: r) zs) by (destruct k; destruct Vz as (zs & F & _); eauto).
      destruct E as [zs F]. apply Forall2_app_inv_l in F as (zl & zr' & Fl & Fr' & ->). inversion Fr' as [|? z1 ? zr Vz1 Fr]; subst. eauto 8. }
    destruct (Vi x0 X0) as (zl & z0 & zr & Fl & _ & Fr).
    assert (Fa : forall x, List.Forall2 (cvalue (at_ x)) l zl /\ List.Forall2 (cvalue (at_ x)) r zr).
    { intros x. split; eapply t2s; eauto; intros p Ip; apply Lv, in_or_app; auto. }
    assert (St : state (valof a') (formof a') a') by (apply IH; auto; [lia|intros x X; destruct (Vi x X) as (? & z & ? & _ & Vz & _); eauto|intros x w' X Iw'; apply S; auto; now right]).
    apply (form_input a' Na) in St.
    assert (Ez : zl ++ zr <> []) by (intros E; apply app_eq_nil in E as [-> ->]; inversion Fl; inversion Fr; subst; easy).
    assert (Mk : forall y n m, Ys y -> (w <= n)%nat -> inputof a' y n m -> is_int (gdt cdt m) = false -> g_m (G (c_expand h (unf y n) w)) = Some (GE (match k with NAdd => TLoc (Fin (rfold k (zl ++ zr))) | NMul => TScale (Fin (rfold k (zl ++ zr))) end) m)).
    { intros y n m Yy Ln Em Im. unfold c_expand. rewrite N. cbn [gannotate g_nary g_m]. rewrite !map_app. cbn [map].
      assert (Pl : List.Forall plain_ann (map G (map (unf y n) l))) by (apply known_plains; intros p Ip; destruct (Lk p ltac:(apply in_or_app; auto)); split; auto; lia).
      assert (Pr : List.Forall plain_ann (map G (map (unf y n) r))) by (apply known_plains; intros p Ip; destruct (Lk p ltac:(apply in_or_app; auto)); split; auto; lia).
      rewrite (gc_mid cdt _ _ _ m _ Pl Pr Em Im).
      rewrite map_app, (known_vals y n l zl), (known_vals y n r zr), <- map_app.
      - unfold tr_nary. rewrite fold_others_fin by exact Ez. destruct k; reflexivity.
      - intros p Ip. destruct (Lk p) as [K1 K2]; [apply in_or_app; auto|lia].
      - eapply t1s; eauto. intros p Ip. apply Lv, in_or_app; auto.
      - intros p Ip. destruct (Lk p) as [K1 K2]; [apply in_or_app; auto|lia].
      - eapply t1s; eauto. intros p Ip. apply Lv, in_or_app; auto. }
    destruct k; cbn [rfold] in Mk.
    + apply (state_loc _ _ _ (valof w) (rtotal (zl ++ zr))) in St.
      * revert St. apply state_mono; [lia|]. intros y n m' Yy Ln (m & Em & Im & ->) _. now apply Mk.
      * intros x z X Vz. eapply cval_mk; [apply D|exact N|]. cbn [cmeans]. exists (zl ++ z :: zr). destruct (Fa x). split; [apply Forall2_app; auto|]. symmetry. apply rtotal_mid.
    + apply (state_scale _ _ _ (valof w) (rprod (zl ++ zr))) in St.
      * revert St. apply state_mono; [lia|]. intros y n m' Yy Ln (m & Em & Im & ->) _. now apply Mk.
      * pose proof (S x0 w X0 (or_introl eq_refl)) as Sf. unfold safe in Sf. rewrite N in Sf.
        assert (NZ : forall q zs, incl q (l ++ r) -> List.Forall2 (cvalue (at_ x0)) q zs -> rprod zs <> 0).
        { intros q zs Iq F. induction F as [|p z q zs Vz F IHF]; [unfold rprod; cbn; lra|]. unfold rprod in *. cbn [fold_right]. apply Rmult_integral_contrapositive_currified.
          - assert (Ip : In p (l ++ r)) by (apply Iq; now left). apply (Sf p z); auto. apply in_app_or in Ip as [Ip|Ip]; apply in_or_app; [auto|right; now right].
          - apply IHF. intros p' Ip'. apply Iq. now right. }
        apply (NZ (l ++ r)); [apply incl_refl|]. apply Forall2_app; auto.
      * intros x z X Vz. eapply cval_mk; [apply D|exact N|]. cbn [cmeans]. exists (zl ++ z :: zr). destruct (Fa x). split; [apply Forall2_app; auto|]. change (z * rprod (zl ++ zr) = rprod (zl ++ z :: zr)). now rewrite rprod_mid, rprod_app.
  - rename a into w. assert (La' : (a' < w)%nat) by (apply (AC w _ a' N); cbn; auto). assert (Lc : (c < w)%nat) by (apply (AC w _ c N); cbn; auto). assert (D : forall x, at_ x w = None) by (intros x; now apply (drawn_other h _ w _ N)).
    assert (Vi : forall x, inside s t x -> exists z zc, cvalue (at_ x) a' z /\ cvalue (at_ x) c zc).
    { intros x X. destruct (V x X) as [z Vz]. apply (cval_inv fs h _ w _ _ (D x) N) in Vz. destruct Vz as (z1 & z2 & V1 & V2 & _). eauto. }
    destruct (Vi x0 X0) as (z0 & zc & _ & Vc). assert (Va : forall x, cvalue (at_ x) c zc) by (intros x; eapply T2; eauto; lia).
    assert (St : state (valof a') (formof a') a') by (apply IH; auto; [lia|intros x X; destruct (Vi x X) as (z & ? & Vz & _); eauto|intros x w' X Iw'; apply S; auto; now right]).
    apply (form_input a' Na), (state_loc _ _ _ (valof w) (- zc)) in St.
    + revert St. apply state_mono; [lia|]. intros y n m' Yy Ln (m & Em & Im & ->) _. unfold formof, c_expand. rewrite N. cbn [gannotate]. unfold g_sub. cbn [g_nary g_m].
      assert (Pc : plain_ann (G (unf y n c))) by (apply known_plain; auto; lia).
      assert (Ec : g_val (G (unf y n c)) = Fin zc) by (apply (unfold_val fs h req y rhoM AC); [lia|]; eapply (T1 y c zc x0); eauto; lia).
      assert (Pm : plain_ann (g_nary cdt NMul [gcon (Fin (-1)); G (unf y n c)])).
      { split; cbn [g_nary g_m g_rand existsb gcon]; [|now rewrite (proj2 Pc)]. unfold gconstruct. now rewrite (proj1 (gm_plain [gcon (Fin (-1)); G (unf y n c)] ltac:(constructor; [split; reflexivity|constructor; [auto|constructor]]))). }
      rewrite (gc_mid cdt [] _ [_] m _ ltac:(constructor) ltac:(constructor; [exact Pm|constructor]) Em Im). cbn [app map g_nary g_val gcon]. rewrite Ec.
      change [Fin (-1); Fin zc] with (map Fin [-1; zc]). rewrite nary_fin. unfold tr_nary. cbn [fold_others]. do 4 f_equal. unfold rfold, rprod. cbn. ring.
    + intros x z X Vz. eapply cval_mk; [apply D|exact N|]. cbn [cmeans]. exists z, zc. split; auto.
  - rename a into w. assert (La' : (a' < w)%nat) by (apply (AC w _ a' N); cbn; auto). assert (Lc : (c < w)%nat) by (apply (AC w _ c N); cbn; auto). assert (D : forall x, at_ x w = None) by (intros x; now apply (drawn_other h _ w _ N)).
    assert (Vi : forall x, inside s t x -> exists z zc, cvalue (at_ x) a' z /\ cvalue (at_ x) c zc).
    { intros x X. destruct (V x X) as [z Vz]. apply (cval_inv fs h _ w _ _ (D x) N) in Vz. destruct Vz as (z1 & z2 & V1 & V2 & _). eauto. }
    destruct (Vi x0 X0) as (z0 & zc & _ & Vc). assert (Va : forall x, cvalue (at_ x) c zc) by (intros x; eapply T2; eauto; lia).
    assert (St : state (valof a') (formof a') a') by (apply IH; auto; [lia|intros x X; destruct (Vi x X) as (z & ? & Vz & _); eauto|intros x w' X Iw'; apply S; auto; now right]).
    apply (form_input a' Na), (state_scale _ _ _ (fun x z' => exists z, cvalue (at_ x) a' z /\ z' = - z) (-1) ltac:(lra)) in St; [|intros x z X Vz; exists z; split; auto; ring].
    apply (state_loc _ _ _ (valof w) zc) in St.
    + revert St. apply state_mono; [lia|]. intros y n m' Yy Ln (m & (m1 & Em & Im1 & ->) & Im & ->) _. unfold formof, c_expand. rewrite N. cbn [gannotate]. unfold g_sub. cbn [g_nary g_m].
      assert (Pc : plain_ann (G (unf y n c))) by (apply known_plain; auto; lia).
      assert (Ec : g_val (G (unf y n c)) = Fin zc) by (apply (unfold_val fs h req y rhoM AC); [lia|]; eapply (T1 y c zc x0); eauto; lia).
      assert (Ei : g_m (g_nary cdt NMul [gcon (Fin (-1)); G (unf y n a')]) = Some (GE (TScale (Fin (-1))) m1)).
      { cbn [g_nary g_m]. exact (gc_mid cdt [gcon (Fin (-1))] _ [] m1 (tr_nary NMul) ltac:(constructor; [split; reflexivity|constructor]) ltac:(constructor) Em Im1). }
      rewrite (gc_mid cdt [_] _ [] _ _ ltac:(constructor; [exact Pc|constructor]) ltac:(constructor) Ei Im). cbn [app map]. rewrite Ec. reflexivity.
    + intros x z X (z1 & Vz & ->). eapply cval_mk; [apply D|exact N|]. cbn [cmeans]. exists zc, z1. split; auto. split; auto. ring.
  - rename a into w. assert (La' : (a' < w)%nat) by (apply (AC w _ a' N); cbn; auto). assert (Lc : (c < w)%nat) by (apply (AC w _ c N); cbn; auto). assert (D : forall x, at_ x w = None) by (intros x; now apply (drawn_other h _ w _ N)).
    assert (Vi : forall x, inside s t x -> exists z zc, cvalue (at_ x) a' z /\ cvalue (at_ x) c zc /\ zc <> 0).
    { intros x X. destruct (V x X) as [z Vz]. apply (cval_inv fs h _ w _ _ (D x) N) in Vz. destruct Vz as (z1 & z2 & V1 & V2 & Nz & _). eauto. }
    destruct (Vi x0 X0) as (z0 & zc & _ & Vc & Nz). assert (Va : forall x, cvalue (at_ x) c zc) by (intros x; eapply T2; eauto; lia).
    assert (St : state (valof a') (formof a') a') by (apply IH; auto; [lia|intros x X; destruct (Vi x X) as (z & ? & Vz & _); eauto|intros x w' X Iw'; apply S; auto; now right]).
    apply (form_input a' Na), (state_scale _ _ _ (valof w) (/ zc) ltac:(now apply Rinv_neq_0_compat)) in St.
    + revert St. apply state_mono; [lia|]. intros y n m' Yy Ln (m & Em & Im & ->) _. unfold formof, c_expand. rewrite N. cbn [gannotate]. unfold g_div. cbn [g_nary g_m].
      assert (Pc : plain_ann (G (unf y n c))) by (apply known_plain; auto; lia).
      assert (Ec : g_val (G (unf y n c)) = Fin zc) by (apply (unfold_val fs h req y rhoM AC); [lia|]; eapply (T1 y c zc x0); eauto; lia).
      assert (Pm : plain_ann (g_unary cdt URecip (G (unf y n c)))).
      { split; cbn [g_unary g_m g_rand]; [|apply Pc]. unfold gconstruct. now rewrite (proj1 (gm_plain [G (unf y n c)] ltac:(constructor; [auto|constructor]))). }
      rewrite (gc_mid cdt [] _ [_] m _ ltac:(constructor) ltac:(constructor; [exact Pm|constructor]) Em Im). cbn [app map g_unary g_val un_val]. rewrite Ec, xrecip_fin by auto. reflexivity.
    + intros x z X Vz. eapply cval_mk; [apply D|exact N|]. cbn [cmeans]. exists z, zc. auto.
  - rename a into w. assert (La' : (a' < w)%nat) by (apply (AC w _ a' N); cbn; auto). assert (Lc : (c < w)%nat) by (apply (AC w _ c N); cbn; auto). assert (D : forall x, at_ x w = None) by (intros x; now apply (drawn_other h _ w _ N)).
    assert (Nk : ~ cknown a') by (eapply chain_unknown; eauto).
    assert (Vi : forall x, inside s t x -> exists z zc, cvalue (at_ x) a' z /\ cvalue (at_ x) c zc /\ 0 < z /\ zc <> 0).
    { intros x X. destruct (V x X) as [z Vz]. apply (cval_inv fs h _ w _ _ (D x) N) in Vz. destruct Vz as (z1 & z2 & V1 & V2 & Nz & _). pose proof (S x w X (or_introl eq_refl)) as Sf. unfold safe in Sf. rewrite N in Sf. destruct Sf as [S1 S2].
      exists z2, z1. split; auto. }
    destruct (Vi x0 X0) as (z0 & zc & _ & Vc & _ & Nz). assert (Va : forall x, cvalue (at_ x) c zc) by (intros x; eapply T2; eauto; lia).
    assert (St : state (valof a') (formof a') a') by (apply IH; auto; [lia|intros x X; destruct (Vi x X) as (z & ? & Vz & _); eauto|intros x w' X Iw'; apply S; auto; now right]).
    assert (Pz : forall x z, inside s t x -> cvalue (at_ x) a' z -> 0 < z).
    { intros x z X Vz. destruct (Vi x X) as (z' & ? & Vz' & _ & Pz & _). now rewrite (cval_fun fs h AC _ (drawn_con h _) a' z z' Vz Vz'). }
    apply (form_input a' Na), (state_one _ _ _ (fun x z' => exists z, cvalue (at_ x) a' z /\ 0 < z /\ z' = / z) URecip) in St; [|intros x z X Vz; split; [discriminate|intros _; now apply (Pz x)]|intros x z X Vz; exists z; split; auto; split; auto; now apply (Pz x)].
    apply (state_scale _ _ _ (valof w) zc Nz) in St.
    + revert St. apply state_mono; [lia|]. intros y n m' Yy Ln (m & (m1 & Em & Im1 & ->) & Im & ->) _. unfold formof, c_expand. rewrite N. cbn [gannotate]. unfold g_div. cbn [g_nary g_m].
      assert (Pc : plain_ann (G (unf y n c))) by (apply known_plain; auto; lia).
      assert (Ec : g_val (G (unf y n c)) = Fin zc) by (apply (unfold_val fs h req y rhoM AC); [lia|]; eapply (T1 y c zc x0); eauto; lia).
      assert (Ei : g_m (g_unary cdt URecip (G (unf y n a'))) = Some (GE TRecip m1)).
      { cbn [g_unary g_m]. exact (gc_mid cdt [] _ [] m1 _ ltac:(constructor) ltac:(constructor) Em Im1). }
      rewrite (gc_mid cdt [_] _ [] _ _ ltac:(constructor; [exact Pc|constructor]) ltac:(constructor) Ei Im). cbn [app map]. rewrite Ec. reflexivity.
    + intros x z X (z1 & Vz & Pz1 & ->). eapply cval_mk; [apply D|exact N|]. cbn [cmeans]. exists zc, z1. split; auto. split; auto. split; [lra|]. unfold Rdiv. ring.
Qed.
(** the log-probability of a requested variable computed from [b] *)
Lemma chain_cond ws : chained b ws v -> (forall x, inside s t x -> exists z, cvalue (at_ x) v z) -> (forall x w, inside s t x -> In w ws -> safe fs h req (upd rho b x) w) ->
  exists H k k' c e, maps H k k' s t c e /\ (forall x, inside s t x -> cvalue (at_ x) v (H x)) /\
  forall y w, Ys y -> y v = w -> inside c e w -> exists r, c_conditional ddt fs dlp dlc h req (fun w => Fin (y w)) rhoM v = Some r /\ denotes r (f (k w) * Rabs (k' w)).
Proof.
  intros C V S. destruct (chain_state ws v C (le_n _) V S) as (H & k & k' & c & e & Mp & Vh & M). exists H, k, k', c, e. split; auto. split; auto.
  intros y w Yy Ev Iw. assert (Lv : (v <= length h)%nat).
  { destruct (inside_ex s t Lst) as [x0 X0]. destruct (V x0 X0) as [z Vz]. destruct (chain_inv h req b ws v C) as [(_ & ->)|(ws' & a' & n & _ & _ & _ & N & _)]; apply Nat.lt_le_incl, nth_error_Some; congruence. }
  destruct (M y (length h) Yy Lv) as (m & Em & Im & Nm & Dm). unfold c_conditional, derived, c_top. unfold formof in Em. rewrite Em. eexists. split; [reflexivity|]. rewrite Ev, Nm. now apply Dm.
Qed.
End Chain.
