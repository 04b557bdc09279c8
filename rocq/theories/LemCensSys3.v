(** Integrals with respect to the laws of clipped and rounded variables. *)
From Coq Require Import Reals Lra Lia ZArith List Arith Bool Classical.
From Coquelicot Require Import Coquelicot.
From Verif Require Import XR SpecDist SpecCens LemInt ModelCens LemCens SpecCensSys LemCensSys2.
Open Scope R_scope.

(** ** antiderivatives of functions with an integral over the line *)
Section Line.
Variable k : R -> R.
Variable m : R.
Hypothesis I : is_RInt_gen k (Rbar_locally m_infty) (Rbar_locally p_infty) m.
Definition anti (x : R) : R := RInt k 0 x.
Lemma near eps : 0 < eps -> exists M, forall x y, x < - M -> M < y -> exists v, is_RInt k x y v /\ Rabs (v - m) < eps.
Proof.
  intros P. specialize (I (ball m (mkposreal eps P)) (locally_ball m (mkposreal eps P))). destruct I as [Q1 Q2 [M1 H1] [M2 H2] H].
  exists (Rmax (- M1) M2). intros x y Hx Hy. pose proof (Rmax_l (- M1) M2). pose proof (Rmax_r (- M1) M2).
  destruct (H x y (H1 x ltac:(lra)) (H2 y ltac:(lra))) as (v & V & B). exists v. split; [exact V|exact B].
Qed.
Lemma line_ex x y : ex_RInt k x y.
Proof.
  destruct (near 1 Rlt_0_1) as [M HM].
  set (B := 1 + Rmax (Rabs M) (Rmax (Rabs x) (Rabs y))).
  assert (HB : Rabs M < B /\ Rabs x < B /\ Rabs y < B) by (unfold B; pose proof (Rmax_l (Rabs M) (Rmax (Rabs x) (Rabs y))); pose proof (Rmax_r (Rabs M) (Rmax (Rabs x) (Rabs y))); pose proof (Rmax_l (Rabs x) (Rabs y)); pose proof (Rmax_r (Rabs x) (Rabs y)); lra).
  destruct HB as (A1 & A2 & A3). apply Rabs_def2 in A1. apply Rabs_def2 in A2. apply Rabs_def2 in A3.
  destruct (HM (- B) B ltac:(lra) ltac:(lra)) as (v & V & _).
  assert (S : forall x y, - B < x <= y -> y < B -> ex_RInt k x y).
  { intros a b La Lb. apply (ex_RInt_Chasles_2 k (- B)); [lra|]. apply (ex_RInt_Chasles_1 k (- B) b B); [lra|]. now exists v. }
  destruct (Rle_dec x y) as [L|L]; [apply S; lra|]. apply ex_RInt_swap. apply S; lra.
Qed.
Lemma line_int x y : is_RInt k x y (anti y - anti x).
Proof.
  replace (anti y - anti x) with (RInt k x y); [apply (RInt_correct (V := R_CompleteNormedModule)); apply line_ex|].
  unfold anti. rewrite <- (RInt_Chasles (V := R_CompleteNormedModule) k 0 x y) by apply line_ex. unfold plus; cbn. ring.
Qed.
Lemma anti_cont x : continuous anti x.
Proof. apply (continuous_RInt_1 k 0 x anti). apply filter_forall. intros z. apply (RInt_correct (V := R_CompleteNormedModule)). apply line_ex. Qed.
Lemma int_val x y v : is_RInt k x y v -> v = anti y - anti x.
Proof. intros V. pose proof (line_int x y) as W. rewrite <- (is_RInt_unique k x y v V). now apply is_RInt_unique. Qed.
Lemma cauchy_lim (FF : (R -> Prop) -> Prop) {HF : ProperFilter FF} (G : R -> R) : (forall eps, 0 < eps -> FF (fun x => FF (fun z => Rabs (G x - G z) < eps))) -> exists l, filterlim G FF (locally l).
Proof.
  intros H. apply (proj1 (filterlim_locally_cauchy (U := R_CompleteSpace) G)). intros eps.
  destruct (filter_ex _ (H (eps / 2) ltac:(destruct eps; cbn; lra))) as [x0 H0]. exists (fun z => Rabs (G x0 - G z) < eps / 2). split; [exact H0|].
  intros u v Hu Hv. change (Rabs (G v - G u) < eps). replace (G v - G u) with ((G x0 - G u) - (G x0 - G v)) by ring. pose proof (Rabs_triang (G x0 - G u) (- (G x0 - G v))). rewrite Rabs_Ropp in H1. unfold Rminus at 1. lra.
Qed.
Lemma line_lims : exists la lb, filterlim anti (Rbar_locally m_infty) (locally la) /\ filterlim anti (Rbar_locally p_infty) (locally lb) /\ m = lb - la.
Proof.
  assert (N : forall eps, 0 < eps -> exists M, forall x y, x < - M -> M < y -> Rabs (anti y - anti x - m) < eps).
  { intros eps P. destruct (near eps P) as [M HM]. exists M. intros x y Hx Hy. destruct (HM x y Hx Hy) as (v & V & B). now rewrite <- (int_val x y v V). }
  destruct (cauchy_lim (Rbar_locally m_infty) anti) as [la La].
  { intros eps P. destruct (N (eps / 2) ltac:(lra)) as [M HM]. exists (- M). intros x Hx. exists (- M). intros z Hz.
    pose proof (HM x (M + 1) Hx ltac:(lra)) as B1. pose proof (HM z (M + 1) Hz ltac:(lra)) as B2. apply Rabs_def2 in B1. apply Rabs_def2 in B2. apply Rabs_def1; lra. }
  destruct (cauchy_lim (Rbar_locally p_infty) anti) as [lb Lb].
  { intros eps P. destruct (N (eps / 2) ltac:(lra)) as [M HM]. exists M. intros x Hx. exists M. intros z Hz.
    pose proof (HM (- M - 1) x ltac:(lra) Hx) as B1. pose proof (HM (- M - 1) z ltac:(lra) Hz) as B2. apply Rabs_def2 in B1. apply Rabs_def2 in B2. apply Rabs_def1; lra. }
  exists la, lb. split; [exact La|]. split; [exact Lb|].
  destruct (Req_dec m (lb - la)) as [E|E]; auto. exfalso. set (e := Rabs (m - (lb - la)) / 3). assert (P : 0 < e) by (unfold e; pose proof (Rabs_pos_lt (m - (lb - la)) ltac:(lra)); lra).
  destruct (N e P) as [M HM].
  destruct (La _ (locally_ball la (mkposreal e P))) as [M1 H1]. destruct (Lb _ (locally_ball lb (mkposreal e P))) as [M2 H2].
  specialize (H1 (Rmin M1 (- M) - 1) ltac:(pose proof (Rmin_l M1 (- M)); lra)). specialize (H2 (Rmax M2 M + 1) ltac:(pose proof (Rmax_l M2 M); lra)).
  specialize (HM (Rmin M1 (- M) - 1) (Rmax M2 M + 1) ltac:(pose proof (Rmin_r M1 (- M)); lra) ltac:(pose proof (Rmax_r M2 M); lra)).
  change (Rabs (anti (Rmin M1 (- M) - 1) - la) < e) in H1. change (Rabs (anti (Rmax M2 M + 1) - lb) < e) in H2.
  apply Rabs_def2 in H1. apply Rabs_def2 in H2. apply Rabs_def2 in HM. assert (Rabs (m - (lb - la)) < 3 * e) by (apply Rabs_def1; lra). unfold e in H. lra.
Qed.
End Line.

(** a law with a density gives the weight [c * F] where [g] is constant *)
Section Push.
Variable f F : R -> R.
Hypothesis L : cont_law f F.
Variable g : R -> R.
Variable m : R.
Hypothesis I : is_RInt_gen (fun x => f x * g x) (Rbar_locally m_infty) (Rbar_locally p_infty) m.
Notation G := (anti (fun x => f x * g x)).
Lemma piece a b c : a < b -> (forall x, a < x < b -> f x <> 0 -> g x = c) -> G b - G a = c * (F b - F a).
Proof.
  intros Lt E. symmetry. apply (int_val _ m I). apply (is_RInt_ext (fun x => scal c (f x))); [|apply (is_RInt_scal f a b c), (cl_int _ _ L); auto].
  intros x Hx. rewrite Rmin_left, Rmax_right in Hx by lra. cut (c * f x = f x * g x); [intros Q; exact Q|]. destruct (Req_dec (f x) 0) as [Z|Z]; [rewrite Z; ring|]. rewrite (E x); [ring|lra|auto].
Qed.
Lemma some_mass a b : a < b -> F b - F a <> 0 -> exists x, a < x < b /\ f x <> 0.
Proof.
  intros Lt N. apply NNPP. intros Q. apply N. pose proof (cl_int _ _ L a b Lt) as J.
  assert (Z : is_RInt f a b 0).
  { apply (is_RInt_ext (fun _ => 0)); [|pose proof (is_RInt_const (V := R_NormedModule) a b 0) as K; unfold scal in K; cbn in K; unfold mult in K; cbn in K; rewrite Rmult_0_r in K; exact K].
    intros x Hx. rewrite Rmin_left, Rmax_right in Hx by lra. symmetry. apply NNPP. intros Z. apply Q. exists x. split; [lra|auto]. }
  rewrite <- (is_RInt_unique f a b _ J). now apply is_RInt_unique.
Qed.
Lemma mass_below a : F a <> 0 -> exists x, x < a /\ f x <> 0.
Proof.
  intros N. apply NNPP. intros Q. apply N. assert (E : forall x, x < a -> F x = F a).
  { intros x Lx. destruct (Req_dec (F a - F x) 0); [lra|]. destruct (some_mass x a Lx H) as (z & Lz & Z). exfalso. apply Q. exists z. split; [lra|auto]. }
  apply (filterlim_locally_unique (F := Rbar_locally m_infty) F (F a) 0); [|apply (cl_m _ _ L)].
  apply (filterlim_ext_loc (fun _ => F a)); [exists a; intros x Lx; symmetry; now apply E|apply filterlim_const].
Qed.
Lemma mass_above a : 1 - F a <> 0 -> exists x, a < x /\ f x <> 0.
Proof.
  intros N. apply NNPP. intros Q. apply N. assert (E : forall x, a < x -> F x = F a).
  { intros x Lx. destruct (Req_dec (F x - F a) 0); [lra|]. destruct (some_mass a x Lx H) as (z & Lz & Z). exfalso. apply Q. exists z. split; [lra|auto]. }
  enough (F a = 1) by lra. apply (filterlim_locally_unique (F := Rbar_locally p_infty) F (F a) 1); [|apply (cl_p _ _ L)].
  apply (filterlim_ext_loc (fun _ => F a)); [exists a; intros x Lx; symmetry; now apply E|apply filterlim_const].
Qed.
Lemma left_lim a c la : (forall x, x < a -> f x <> 0 -> g x = c) -> filterlim G (Rbar_locally m_infty) (locally la) -> G a - la = c * F a.
Proof.
  intros E La. enough (la = G a - c * (F a - 0)) by lra. apply (filterlim_locally_unique (F := Rbar_locally m_infty) G); [exact La|].
  apply (filterlim_ext_loc (fun x => G a - c * (F a - F x))).
  - exists a. intros x Lx. rewrite <- (piece x a c Lx); [ring|]. intros z Lz. apply E. lra.
  - apply lim_minus; [typeclasses eauto|apply lim_const; typeclasses eauto|]. apply lim_scal; [typeclasses eauto|]. apply lim_minus; [typeclasses eauto|apply lim_const; typeclasses eauto|apply (cl_m _ _ L)].
Qed.
Lemma right_lim a c lb : (forall x, a < x -> f x <> 0 -> g x = c) -> filterlim G (Rbar_locally p_infty) (locally lb) -> lb - G a = c * (1 - F a).
Proof.
  intros E Lb. enough (lb = G a + c * (1 - F a)) by lra. apply (filterlim_locally_unique (F := Rbar_locally p_infty) G); [exact Lb|].
  apply (filterlim_ext_loc (fun x => G a + c * (F x - F a))).
  - exists a. intros x Lx. rewrite <- (piece a x c Lx); [ring|]. intros z Lz. apply E. lra.
  - apply lim_plus; [typeclasses eauto|apply lim_const; typeclasses eauto|]. apply lim_scal; [typeclasses eauto|]. apply lim_minus; [typeclasses eauto|apply (cl_p _ _ L)|apply lim_const; typeclasses eauto].
Qed.
Lemma gen_int (l u : Rbar) gl gu : Rbar_lt l u -> filterlim G (Fr l) (locally gl) -> filterlim G (Fl u) (locally gu) -> is_RInt_gen (fun x => f x * g x) (Fr l) (Fl u) (gu - gl).
Proof.
  intros Lt Hl Hu P HP. unfold filtermapi.
  assert (C : filterlim (fun xy : R * R => G (snd xy) - G (fst xy)) (filter_prod (Fr l) (Fl u)) (locally (gu - gl))).
  { apply (filterlim_comp_2 (G := locally gu) (H := locally (- gl)) (fun xy : R * R => G (snd xy)) (fun xy : R * R => - G (fst xy)) Rplus).
    - apply (filterlim_comp _ _ _ snd G _ (Fl u)); [apply filterlim_snd|exact Hu].
    - apply (filterlim_comp _ _ _ fst (fun x => - G x) _ (Fr l)); [apply filterlim_fst|]. apply lim_opp; [typeclasses eauto|exact Hl].
    - apply (filterlim_plus gu (- gl)). }
  assert (CP : filter_prod (Fr l) (Fl u) (fun xy : R * R => P (G (snd xy) - G (fst xy)))) by exact (C P HP).
  revert CP. apply filter_imp. intros [x z] H. exists (G z - G x). split; [apply (line_int _ m I)|exact H].
Qed.
(** the law of [clip] *)
Lemma clip_push (l u : Rbar) ca cb : Rbar_lt l u ->
  (forall a, l = Finite a -> forall x, x < a -> f x <> 0 -> g x = ca) -> (forall a, u = Finite a -> forall x, a < x -> f x <> 0 -> g x = cb) ->
  exists v, is_RInt_gen (fun x => f x * g x) (Fr l) (Fl u) v /\
    m = match l with Finite a => ca * F a | _ => 0 end + v + match u with Finite a => cb * (1 - F a) | _ => 0 end.
Proof.
  intros Lt Ea Eb. destruct (line_lims _ m I) as (la & lb & La & Lb & Em).
  assert (Hl : exists gl, filterlim G (Fr l) (locally gl) /\ gl - la = match l with Finite a => ca * F a | _ => 0 end).
  { destruct l as [a| |]; [|destruct u; easy|exists la; split; [exact La|ring]]. exists (G a). split; [|apply left_lim; [exact (Ea a eq_refl)|exact La]].
    intros P HP. pose proof (anti_cont _ m I a P HP) as Q. destruct Q as [e Q]. exists e. intros z B _. now apply Q. }
  assert (Hu : exists gu, filterlim G (Fl u) (locally gu) /\ lb - gu = match u with Finite a => cb * (1 - F a) | _ => 0 end).
  { destruct u as [a| |]; [|exists lb; split; [exact Lb|ring]|destruct l; easy]. exists (G a). split; [|apply right_lim; [exact (Eb a eq_refl)|exact Lb]].
    intros P HP. pose proof (anti_cont _ m I a P HP) as Q. destruct Q as [e Q]. exists e. intros z B _. now apply Q. }
  destruct Hl as (gl & Hl & El), Hu as (gu & Hu & Eu). exists (gu - gl). split; [now apply gen_int|]. rewrite <- El, <- Eu. lra.
Qed.
(** the law of a rounded variable *)
Lemma zseries_lims (H : Z -> R) (la lb : R) : is_lim_seq (fun n => H (- Z.of_nat n)%Z) la -> is_lim_seq (fun n => H (Z.of_nat n)) lb -> zseries (fun k => H k - H (k - 1)%Z) (lb - la).
Proof.
  intros H0 H1. exists (lb - H (-1)%Z), (H (-1)%Z - la). split; [|split; [|ring]].
  - apply is_series_sum. eapply is_lim_seq_ext; [intros; symmetry; apply telescope_up|].
    apply (is_lim_seq_minus' _ (fun _ => H (-1)%Z) lb (H (-1)%Z)); [exact H1|apply is_lim_seq_const].
  - apply is_series_sum. eapply is_lim_seq_ext; [intros; symmetry; apply telescope_down|].
    apply (is_lim_seq_minus' (fun _ => H (-1)%Z)); [apply is_lim_seq_const|].
    apply (is_lim_seq_ext (fun n => H (- Z.of_nat (n + 2))%Z)). { intros; f_equal; lia. }
    now apply is_lim_seq_incr_n with (u := fun n => H (- Z.of_nat n)%Z).
Qed.
Lemma round_push op : zseries (fun k => G (hi_of op k) - G (lo_of op k)) m.
Proof.
  destruct (line_lims _ m I) as (la & lb & La & Lb & ->). apply (zseries_ext (fun k => G (hi_of op k) - G (hi_of op (k - 1)%Z))).
  { intros k. f_equal. f_equal. destruct op; simpl; rewrite minus_IZR; lra. }
  assert (B : forall k, IZR k <= hi_of op k <= IZR k + 1) by (intros []; destruct op; simpl; lra).
  apply (zseries_lims (fun k => G (hi_of op k))).
  - apply (filterlim_comp _ _ _ (fun n => hi_of op (- Z.of_nat n)) G eventually (Rbar_locally m_infty)); [|exact La].
    intros P [M HM]. destruct (archimed (1 - M)) as [A _]. exists (Z.to_nat (up (1 - M))). intros n Hn. apply HM.
    specialize (B (- Z.of_nat n)%Z). assert (IZR (- Z.of_nat n) <= - IZR (up (1 - M))) by (rewrite <- opp_IZR; apply IZR_le; lia). lra.
  - apply (filterlim_comp _ _ _ (fun n => hi_of op (Z.of_nat n)) G eventually (Rbar_locally p_infty)); [|exact Lb].
    intros P [M HM]. destruct (archimed M) as [A _]. exists (Z.to_nat (up M)). intros n Hn. apply HM.
    specialize (B (Z.of_nat n)). assert (IZR (up M) <= IZR (Z.of_nat n)) by (apply IZR_le; lia). lra.
Qed.
End Push.

(** ** counting laws *)
Section Count.
Variable p : R -> R.
Variable F : Z -> R.
Hypothesis L : int_law (zmass p) F.
Notation q n := (p (INR n)).
Lemma zmass_nat n : zmass p (Z.of_nat n) = q n.
Proof. unfold zmass. destruct (Z.ltb_spec (Z.of_nat n) 0); [lia|]. now rewrite INR_IZR_INZ. Qed.
Lemma zmass_neg k : (k < 0)%Z -> zmass p k = 0.
Proof. intros H. unfold zmass. destruct (Z.ltb_spec k 0); [auto|lia]. Qed.
Lemma cum_neg k : (k < 0)%Z -> F k = 0.
Proof.
  intros H. assert (A : forall n, F (k - Z.of_nat n)%Z = F k).
  { induction n as [|n IH]; [f_equal; lia|]. pose proof (il_step _ _ L (k - Z.of_nat n)%Z) as St. rewrite zmass_neg in St by lia. rewrite <- IH, St. replace (k - Z.of_nat n - 1)%Z with (k - Z.of_nat (S n))%Z by lia. ring. }
  assert (B : is_lim_seq (fun n => F (k - Z.of_nat n)%Z) 0).
  { pose proof (il_m _ _ L) as M. apply (is_lim_seq_incr_n _ (Z.to_nat (- k)) 0) in M. eapply is_lim_seq_ext; [|exact M]. intros n. cbv beta. f_equal. lia. }
  pose proof (is_lim_seq_unique _ _ B) as U. rewrite (Lim_seq_ext _ _ A), Lim_seq_const in U. now injection U.
Qed.
Lemma cum_sum n : F (Z.of_nat n) = sum_n (fun n => q n) n.
Proof.
  induction n as [|n IH].
  - rewrite sum_O. pose proof (il_step _ _ L 0%Z) as St. rewrite (cum_neg (0 - 1)%Z) in St by lia. change (Z.of_nat 0) with 0%Z. rewrite St, <- (zmass_nat 0). change (Z.of_nat 0) with 0%Z. ring.
  - rewrite sum_Sn, <- IH. pose proof (il_step _ _ L (Z.of_nat (S n))) as St. rewrite zmass_nat in St. replace (Z.of_nat (S n) - 1)%Z with (Z.of_nat n) in St by lia. exact St.
Qed.
Lemma cut_sum (b : nat -> R) n i : sum_n (fun i => if (i <=? n)%nat then b i else 0) i = sum_n b (Nat.min n i).
Proof.
  induction i as [|i IH]; [rewrite Nat.min_0_r, !sum_O; reflexivity|]. rewrite sum_Sn, IH. destruct (Nat.leb_spec (S i) n) as [H|H].
  - rewrite (Nat.min_r n i), (Nat.min_r n (S i)) by lia. now rewrite sum_Sn.
  - rewrite (Nat.min_l n i), (Nat.min_l n (S i)) by lia. apply Rplus_0_r.
Qed.
Lemma lim_series (b : nat -> R) (s : R) : is_lim_seq (sum_n b) s -> is_series b s.
Proof. intros H. exact H. Qed.
Lemma null_series : is_series (fun _ : nat => 0) 0.
Proof. apply lim_series. apply (is_lim_seq_ext (fun _ => 0)); [intros n; rewrite sum_n_const; now rewrite Rmult_0_r|apply is_lim_seq_const]. Qed.
Lemma cut_series (b : nat -> R) n : is_series (fun i => if (i <=? n)%nat then b i else 0) (sum_n b n).
Proof.
  apply lim_series. apply (is_lim_seq_ext_loc (fun _ => sum_n b n)); [|apply is_lim_seq_const]. exists n. intros i Hi. rewrite cut_sum. now rewrite Nat.min_l by lia.
Qed.
(** the mass up to [a] and from [b] on *)
Lemma below_series a : is_series (fun n => if (Z.of_nat n <=? a)%Z then q n else 0) (F a).
Proof.
  destruct (Z.ltb_spec a 0) as [H|H].
  - rewrite cum_neg by auto. apply (is_series_ext (fun _ => 0)); [intros n; destruct (Z.leb_spec (Z.of_nat n) a); [lia|auto]|].
    apply null_series.
  - rewrite <- (Z2Nat.id a) by auto. rewrite cum_sum. apply (is_series_ext (fun i => if (i <=? Z.to_nat a)%nat then q i else 0)); [|apply cut_series].
    intros n. destruct (Nat.leb_spec n (Z.to_nat a)), (Z.leb_spec (Z.of_nat n) (Z.of_nat (Z.to_nat a))); auto; lia.
Qed.
Lemma whole_series : is_series (fun n => q n) 1.
Proof. apply lim_series. apply (is_lim_seq_ext (fun n => F (Z.of_nat n))); [intros; apply cum_sum|apply (il_p _ _ L)]. Qed.
Lemma above_series b : is_series (fun n => if (b <=? Z.of_nat n)%Z then q n else 0) (1 - F (b - 1)%Z).
Proof.
  pose proof (is_series_minus (V := R_NormedModule) _ _ _ _ whole_series (below_series (b - 1)%Z)) as M. revert M. apply is_series_ext. intros n. unfold minus, plus, opp; cbn. match goal with |- @eq _ ?a ?b => change (@eq R a b) end.
  destruct (Z.leb_spec (Z.of_nat n) (b - 1)), (Z.leb_spec b (Z.of_nat n)); try lia; ring.
Qed.
Lemma zero_series (a : nat -> R) s : (forall n, a n = 0) -> is_series a s -> s = 0.
Proof.
  intros Z S. rewrite <- (is_series_unique a s S). rewrite (Series_ext a (fun _ => 0) Z). apply is_series_unique. apply null_series.
Qed.
Lemma count_below a : F a <> 0 -> exists n, (Z.of_nat n <= a)%Z /\ q n <> 0.
Proof.
  intros N. apply NNPP. intros Q. apply N. refine (zero_series _ _ _ (below_series a)). intros n. cbv beta.
  destruct (Z.leb_spec (Z.of_nat n) a); auto. apply NNPP. intros Z. apply Q. eauto.
Qed.
Lemma count_above b : 1 - F (b - 1)%Z <> 0 -> exists n, (b <= Z.of_nat n)%Z /\ q n <> 0.
Proof.
  intros N. apply NNPP. intros Q. apply N. refine (zero_series _ _ _ (above_series b)). intros n. cbv beta.
  destruct (Z.leb_spec b (Z.of_nat n)); auto. apply NNPP. intros Z. apply Q. eauto.
Qed.
Definition strictly (l u : option Z) (k : Z) : bool :=
  (match l with Some a => (a <? k)%Z | None => true end && match u with Some b => (k <? b)%Z | None => true end)%bool.
Lemma icm_low a u : zbefore (Some a) u -> int_clip_mass F (Some a) u a = F a.
Proof.
  intros H. unfold int_clip_mass, int_clip_cdf, zbefore in *. destruct u as [b|];
    repeat match goal with |- context [(?x <=? ?y)%Z] => destruct (Z.leb_spec x y) | |- context [(?x <? ?y)%Z] => destruct (Z.ltb_spec x y) end; try lia; ring.
Qed.
Lemma icm_high l b : zbefore l (Some b) -> int_clip_mass F l (Some b) b = 1 - F (b - 1)%Z.
Proof.
  intros H. unfold int_clip_mass, int_clip_cdf, zbefore in *. destruct l as [a|];
    repeat match goal with |- context [(?x <=? ?y)%Z] => destruct (Z.leb_spec x y) | |- context [(?x <? ?y)%Z] => destruct (Z.ltb_spec x y) end; try lia; ring.
Qed.
Lemma icm_mid l u n : zbefore l u -> strictly l u (Z.of_nat n) = true -> int_clip_mass F l u (Z.of_nat n) = q n.
Proof.
  intros H S. rewrite <- zmass_nat. assert (E : zmass p (Z.of_nat n) = F (Z.of_nat n) - F (Z.of_nat n - 1)%Z) by (rewrite (il_step _ _ L (Z.of_nat n)); ring). rewrite E. unfold int_clip_mass, int_clip_cdf, zbefore, strictly in *. destruct l as [a|], u as [b|];
    repeat match goal with |- context [(?x <=? ?y)%Z] => destruct (Z.leb_spec x y) | |- context [(?x <? ?y)%Z] => destruct (Z.ltb_spec x y) end;
    repeat match type of S with context [(?x <? ?y)%Z] => destruct (Z.ltb_spec x y) end; cbn in S; try discriminate; try lia; ring.
Qed.
Variable g : R -> R.
Variable m : R.
Hypothesis I : is_series (fun n => q n * g (INR n)) m.
Lemma count_push l u ca cb : zbefore l u ->
  (forall a, l = Some a -> forall n, (Z.of_nat n <= a)%Z -> q n <> 0 -> g (INR n) = ca) -> (forall b, u = Some b -> forall n, (b <= Z.of_nat n)%Z -> q n <> 0 -> g (INR n) = cb) ->
  is_series (fun n => if strictly l u (Z.of_nat n) then q n * g (INR n) else 0)
    (m - match l with Some a => ca * F a | None => 0 end - match u with Some b => cb * (1 - F (b - 1)%Z) | None => 0 end).
Proof.
  intros Lt Ea Eb.
  pose proof null_series as Zs.
  assert (S1 : is_series (fun n => if match l with Some a => (Z.of_nat n <=? a)%Z | None => false end then q n * g (INR n) else 0) (match l with Some a => ca * F a | None => 0 end)).
  { destruct l as [a|]; [|exact Zs]. pose proof (is_series_scal (V := R_NormedModule) ca _ _ (below_series a)) as S. revert S. apply is_series_ext. intros n. unfold scal; cbn; unfold mult; cbn. match goal with |- @eq _ ?a ?b => change (@eq R a b) end.
    destruct (Z.leb_spec (Z.of_nat n) a) as [H|H]; [|ring]. destruct (Req_dec (q n) 0) as [Q|Q]; [rewrite Q; ring|]. rewrite (Ea a eq_refl n H Q). ring. }
  assert (S2 : is_series (fun n => if match u with Some b => (b <=? Z.of_nat n)%Z | None => false end then q n * g (INR n) else 0) (match u with Some b => cb * (1 - F (b - 1)%Z) | None => 0 end)).
  { destruct u as [b|]; [|exact Zs]. pose proof (is_series_scal (V := R_NormedModule) cb _ _ (above_series b)) as S. revert S. apply is_series_ext. intros n. unfold scal; cbn; unfold mult; cbn. match goal with |- @eq _ ?a ?b => change (@eq R a b) end.
    destruct (Z.leb_spec b (Z.of_nat n)) as [H|H]; [|ring]. destruct (Req_dec (q n) 0) as [Q|Q]; [rewrite Q; ring|]. rewrite (Eb b eq_refl n H Q). ring. }
  pose proof (is_series_minus (V := R_NormedModule) _ _ _ _ (is_series_minus (V := R_NormedModule) _ _ _ _ I S1) S2) as S. revert S. apply is_series_ext. intros n. unfold minus, plus, opp; cbn. match goal with |- @eq _ ?a ?b => change (@eq R a b) end.
  unfold strictly, zbefore in *. destruct l as [a|], u as [b|]; cbn [andb];
    repeat match goal with |- context [(?x <=? ?y)%Z] => destruct (Z.leb_spec x y) | |- context [(?x <? ?y)%Z] => destruct (Z.ltb_spec x y) end; cbn [andb]; try lia; ring.
Qed.
End Count.

Lemma between_strictly l u k : between (low_of l) (high_of u) (IZR k) <-> strictly l u k = true.
Proof.
  unfold between, strictly, low_of, high_of. destruct l as [a|], u as [b|]; cbn; rewrite ?andb_true_iff, ?Z.ltb_lt; intuition auto using IZR_lt, lt_IZR.
Qed.
Lemma before_lt l u : Rbar_lt (low_of l) (high_of u) -> zbefore l u.
Proof. destruct l, u; cbn; auto. apply lt_IZR. Qed.

(** ** integrals with respect to the measures of the specification *)
Definition okm (mu : measure) : Prop := match mu with Between l u | Steps l u | Open l u => Rbar_lt l u | _ => True end.
Lemma at_end_ext (g g' : R -> R) l u b : (forall x : R, Rbar_le l x -> Rbar_le x u -> g x = g' x) -> Rbar_lt l u -> b = l \/ b = u -> at_end g b = at_end g' b.
Proof. intros E Lt H. destruct b as [r| |]; cbn; auto. apply E; destruct H as [<-|<-]; try apply Rbar_le_refl; now apply Rbar_lt_le. Qed.
Lemma integral_ext mu g g' m : okm mu -> (forall x, charges mu x -> g x = g' x) -> integral mu g m -> integral mu g' m.
Proof.
  intros O E. destruct mu as [| | |l u|l u|l u]; cbn in *.
  - apply (is_RInt_gen_ext g g'). exists (fun _ => True) (fun _ => True); try (exists 0; auto). intros. auto.
  - apply is_series_ext. intros n. apply E. eauto.
  - apply zseries_ext. intros k. apply E. eauto.
  - intros (v & V & ->). exists v. split; [|assert (E' : forall x : R, Rbar_le l x -> Rbar_le x u -> g x = g' x) by (intros; apply E; auto);
      f_equal; [f_equal|]; apply (at_end_ext _ _ l u); auto].
    revert V. apply rint_gen_ext; auto. intros x [H1 H2]. apply E. split; [now apply Rbar_lt_le|exact (Rbar_lt_le _ _ H2)].
  - intros (v & (a & A & Ha) & ->). exists v. split.
    + exists a. split; auto. intros k. destruct (Ha k) as [H1 H2]. split; auto. intros B. rewrite H1 by auto. apply E. right. right. eauto.
    + f_equal; [f_equal|]; [destruct l as [r| |]|destruct u as [r| |]]; cbn; auto; apply E; auto.
  - apply rint_gen_ext; auto.
Qed.
Lemma zseries_unique g s s' : zseries g s -> zseries g s' -> s = s'.
Proof. intros (a & b & A & B & <-) (a' & b' & A' & B' & <-). rewrite <- (is_series_unique _ _ A), <- (is_series_unique _ _ A'), <- (is_series_unique _ _ B), <- (is_series_unique _ _ B'). reflexivity. Qed.
Lemma integral_unique mu g m m' : integral mu g m -> integral mu g m' -> m = m'.
Proof.
  destruct mu as [| | |l u|l u|l u]; cbn.
  - intros A B. rewrite <- (is_RInt_gen_unique g m A). apply (is_RInt_gen_unique g m' B).
  - intros A B. rewrite <- (is_series_unique _ _ A). now apply is_series_unique.
  - apply zseries_unique.
  - intros (v & V & ->) (v' & V' & ->). f_equal. f_equal. rewrite <- (is_RInt_gen_unique g v V). apply (is_RInt_gen_unique g v' V').
  - intros (v & (a & A & Ha) & ->) (v' & (a' & A' & Ha') & ->). f_equal. f_equal. rewrite <- (is_series_unique _ _ A), <- (is_series_unique _ _ A'). apply Series_ext. intros k.
    destruct (Ha k) as [H1 H2], (Ha' k) as [H3 H4]. destruct (classic (between l u (INR k))); [rewrite H1, H3|rewrite H2, H4]; auto.
  - intros A B. rewrite <- (is_RInt_gen_unique g m A). apply (is_RInt_gen_unique g m' B).
Qed.
Lemma zseries_scal c g s : zseries g s -> zseries (fun k => c * g k) (c * s).
Proof. intros (a & b & A & B & <-). exists (c * a), (c * b). split; [exact (is_series_scal (V := R_NormedModule) c _ _ A)|split; [exact (is_series_scal (V := R_NormedModule) c _ _ B)|ring]]. Qed.
Lemma integral_scal mu c g m : integral mu g m -> integral mu (fun x => c * g x) (c * m).
Proof.
  destruct mu as [| | |l u|l u|l u]; cbn.
  - intros A. exact (is_RInt_gen_scal (V := R_NormedModule) g c m A).
  - intros A. exact (is_series_scal (V := R_NormedModule) c _ _ A).
  - apply zseries_scal.
  - intros (v & V & ->). exists (c * v). split; [exact (is_RInt_gen_scal (V := R_NormedModule) g c v V)|]. destruct l, u; cbn; ring.
  - intros (v & (a & A & Ha) & ->). exists (c * v). split; [|destruct l, u; cbn; ring]. exists (fun k => c * a k). split; [exact (is_series_scal (V := R_NormedModule) c _ _ A)|].
    intros k. destruct (Ha k) as [H1 H2]. split; intros B; [now rewrite H1|rewrite H2 by auto; ring].
  - intros A. exact (is_RInt_gen_scal (V := R_NormedModule) g c m A).
Qed.
Lemma leb_unit f F : cont_law f F -> integral Leb f 1.
Proof. intros L. pose proof (law_int L m_infty p_infty ltac:(easy)) as H. cbn in H. now rewrite Rminus_0_r in H. Qed.
