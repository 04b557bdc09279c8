(** Lemmas for C17-C20. *)
From Coq Require Import Reals Lra Lia ZArith List Bool.
From Coquelicot Require Import Coquelicot.
From Verif Require Import XR Special LemInt LemLim LemGamma SpecDist SpecCdf XTac LemDist LemNorm LemNorm2 LemDisc LemCdf ModelDist ModelVec ModelCens SpecCens.
Import ListNotations.
Open Scope R_scope.

(** ** The specification's distribution functions are those of clip *)
Lemma clip_event lo hi (x y : R) : Rbar_lt lo hi ->
  (Rbar_lt y lo -> ~ clip_fun lo hi x <= y) /\
  (~ Rbar_lt y lo -> Rbar_lt y hi -> (clip_fun lo hi x <= y <-> x <= y)) /\
  (Rbar_le hi y -> clip_fun lo hi x <= y).
Proof.
  unfold clip_fun. destruct lo as [a| |], hi as [b| |]; simpl; try tauto; intros H;
  (split; [intros H1 H2|split; [intros H1 H2; split; intros H3|intros H1]]); try tauto;
  try (apply Rnot_lt_le in H1);
  revert H1; try revert H2; try revert H3; unfold Rmin, Rmax;
  repeat match goal with |- context [Rle_dec ?u ?v] => destruct (Rle_dec u v) | K : context [Rle_dec ?u ?v] |- _ => destruct (Rle_dec u v) end; intros; lra.
Qed.
Lemma zclip_event lo hi j k : zbefore lo hi ->
  (zclip lo hi j <= k)%Z <->
  (match lo with Some a => (k <? a)%Z | None => false end = false /\
   (match hi with Some b => (b <=? k)%Z | None => false end = true \/ (j <= k)%Z)).
Proof.
  unfold zclip, zbefore. destruct lo as [a|], hi as [b|]; intros H; rewrite ?Z.ltb_ge, ?Z.leb_le; lia.
Qed.

Lemma den_logaddexp a b d e : den a d -> den b e -> den (xlogaddexp a b) (d + e).
Proof.
  unfold den, denotes. destruct a as [a| | |], b as [b| | |]; simpl; try tauto; intros; subst; try lra.
  apply exp_ln. generalize (exp_pos a) (exp_pos b). lra.
Qed.
Lemma den_le1 v d : den v d -> d <= 1 -> den (xlog1mexp v) (1 - d).
Proof. intros. apply den_log1mexp; [assumption|lra]. Qed.

Section Law.
Context {f F : R -> R} (L : cont_law f F).
Lemma law_mono x y : x <= y -> F x <= F y.
Proof.
  intros [H| ->]; [|lra]. pose proof (cl_int _ _ L x y H) as I.
  assert (0 <= F y - F x); [|lra].
  apply (is_RInt_le (fun _ => 0) f x y); auto; try lra.
  - assert (E : is_RInt (fun _ : R => 0) x y (scal (y - x) 0)) by exact (is_RInt_const (V := R_NormedModule) x y 0).
    replace (scal (y - x) 0) with 0 in E by (unfold scal; simpl; unfold mult; simpl; ring). exact E.
  - intros. apply (cl_nonneg _ _ L).
Qed.
Lemma law_ge0 x : 0 <= F x.
Proof.
  apply Rnot_lt_le. intros H. destruct ((cl_m _ _ L) (fun z => F x < z)) as [M HM].
  - exists (mkposreal (- F x) ltac:(lra)). intros z Hz.
    unfold ball in Hz; simpl in Hz; unfold AbsRing_ball, abs, minus, plus, opp in Hz; simpl in Hz. apply Rabs_def2 in Hz; lra.
  - specialize (HM (Rmin (M - 1) x)). pose proof (Rmin_l (M - 1) x). pose proof (Rmin_r (M - 1) x).
    pose proof (law_mono _ _ H1). assert (F x < F (Rmin (M - 1) x)) by (apply HM; lra). lra.
Qed.
Lemma law_le1 x : F x <= 1.
Proof.
  apply Rnot_lt_le. intros H. destruct ((cl_p _ _ L) (fun z => z < F x)) as [M HM].
  - exists (mkposreal (F x - 1) ltac:(lra)). intros z Hz.
    unfold ball in Hz; simpl in Hz; unfold AbsRing_ball, abs, minus, plus, opp in Hz; simpl in Hz. apply Rabs_def2 in Hz; lra.
  - specialize (HM (Rmax (M + 1) x)). pose proof (Rmax_l (M + 1) x). pose proof (Rmax_r (M + 1) x).
    pose proof (law_mono _ _ H1). assert (F (Rmax (M + 1) x) < F x) by (apply HM; lra). lra.
Qed.
Definition Flo (b : Rbar) : R := match b with Finite r => F r | p_infty => 1 | m_infty => 0 end.
Lemma lim_Fr b : Rbar_lt b p_infty -> filterlim F (Fr b) (locally (Flo b)).
Proof. destruct b as [r| |]; simpl; try tauto; intros _. - apply cont_Fr; auto. apply (cl_cont _ _ L). - apply (cl_m _ _ L). Qed.
Lemma lim_Fl b : Rbar_lt m_infty b -> filterlim F (Fl b) (locally (Flo b)).
Proof. destruct b as [r| |]; simpl; try tauto; intros _. - apply cont_Fl; auto. apply (cl_cont _ _ L). - apply (cl_p _ _ L). Qed.
Lemma law_int lo hi : Rbar_lt lo hi -> is_RInt_gen f (Fr lo) (Fl hi) (Flo hi - Flo lo).
Proof.
  intros H P HP. unfold filtermapi.
  assert (C : filterlim (fun xy : R * R => F (snd xy) - F (fst xy)) (filter_prod (Fr lo) (Fl hi)) (locally (Flo hi - Flo lo))).
  { apply (filterlim_comp_2 (G := locally (Flo hi)) (H := locally (- Flo lo)) (fun xy : R * R => F (snd xy)) (fun xy : R * R => - F (fst xy)) Rplus).
    - apply (filterlim_comp _ _ _ snd F _ (Fl hi)); [apply filterlim_snd|]. apply lim_Fl. destruct lo, hi; simpl in *; tauto.
    - apply (filterlim_comp _ _ _ fst (fun x => - F x) _ (Fr lo)); [apply filterlim_fst|]. apply lim_opp; [typeclasses eauto|]. apply lim_Fr. destruct lo, hi; simpl in *; tauto.
    - apply (filterlim_plus (Flo hi) (- Flo lo)). }
  destruct (inside_ex _ _ H) as [c [C1 C2]].
  assert (HO : filter_prod (Fr lo) (Fl hi) (fun xy : R * R => fst xy < c /\ c < snd xy)).
  { exists (fun x : R => Rbar_lt lo x /\ x < c) (fun y : R => Rbar_lt y hi /\ c < y); [now apply Fr_inside_lt|now apply Fl_inside_lt|]. simpl. tauto. }
  assert (CP : filter_prod (Fr lo) (Fl hi) (fun xy : R * R => P (F (snd xy) - F (fst xy)))) by exact (C P HP).
  generalize (filter_and _ _ CP HO).
  apply filter_imp. intros [x y] [H1 [H2 H3]]; simpl in *.
  exists (F y - F x). split; auto. apply (cl_int _ _ L). lra.
Qed.
End Law.

Lemma rint_gen_ext (f g : R -> R) lo hi v : Rbar_lt lo hi -> (forall x, inside lo hi x -> f x = g x) ->
  is_RInt_gen f (Fr lo) (Fl hi) v -> is_RInt_gen g (Fr lo) (Fl hi) v.
Proof.
  intros H E. apply is_RInt_gen_ext.
  exists (inside lo hi) (inside lo hi); [now apply Fr_inside|now apply Fl_inside|].
  intros x y Hx Hy z Hz. apply E. apply (inside_ge lo hi x y); auto. simpl in Hz. lra.
Qed.

Ltac rb := repeat match goal with
  | |- context [Rbar_lt_dec ?a ?b] => destruct (Rbar_lt_dec a b)
  | |- context [Rbar_eq_dec ?a ?b] => destruct (Rbar_eq_dec a b)
  | H : Finite _ = Finite _ |- _ => injection H as H; subst end.

Lemma xle_NInf x : x <> NaN -> xle NInf x = true.
Proof. destruct x; auto; tauto. Qed.
Lemma xle_PInf x : x <> NaN -> xle x PInf = true.
Proof. destruct x; auto; tauto. Qed.

Lemma clip_ok lp lc f F lower upper lo hi y :
  cont_law f F -> computes_law lp lc f F -> rbar (bval lower) = Some lo -> rbar (bval upper) = Some hi -> Rbar_lt lo hi ->
  denotes (clip_logprob false lp lc lower upper (Fin y)) (clip_density f F lo hi y).
Proof.
  intros L [C1 C2] El Eu H. specialize (C1 y). specialize (C2 y). unfold clip_logprob.
  destruct (lp (Fin y)) as [vp|]; [|destruct C1]. destruct (lc (Fin y)) as [vc|]; [|destruct C2]. cbn [bind].
  assert (CC : den (xlog1mexp vc) (1 - F y)). { apply den_le1; auto. apply (law_le1 L). }
  assert (HC : xle (bval lower) (bval upper) = true).
  { destruct (bval lower) as [a| | |], (bval upper) as [b| | |]; simpl in El, Eu; inversion El; inversion Eu; subst; simpl in H; try tauto; auto.
    apply xle_true. lra. }
  match goal with |- denotes (if _ then check ?v _ else _) _ => assert (G : denotes v (clip_density f F lo hi y)) end.
  2:{ destruct (negb _ && negb _); auto. rewrite check_true; auto. cbn [forallb]. now rewrite HC. }
  clear HC. unfold clip_density.
  destruct lower as [[a| | |]|[a| | |]]; simpl in El; inversion El; subst lo; clear El;
  destruct upper as [[b| | |]|[b| | |]]; simpl in Eu; inversion Eu; subst hi; clear Eu; simpl in H; try tauto;
  cbn [lower_unbounded upper_unbounded bval xeq xgt xlt].
  all: repeat match goal with
   | |- context [Rbar_lt_dec ?u ?v] => destruct (Rbar_lt_dec u v)
   | |- context [Rbar_eq_dec ?u ?v] => destruct (Rbar_eq_dec u v) end.
  all: cbn [Rbar_lt] in *; try tauto; try discriminate.
  all: repeat match goal with
   | H : Finite ?a = Finite ?b |- _ => injection H as H
   | H : Finite ?a <> Finite ?b |- _ => assert (a <> b) by congruence; clear H end.
  all: unfold Reqb, Rltb; rcase; try reflexivity; try exact C1; try exact C2; try exact CC.
Qed.

Lemma clip_mixed f F lo hi : cont_law f F -> Rbar_lt lo hi ->
  mixed_cdf (clip_density f F lo hi) lo hi (clip_cdf F lo hi).
Proof.
  intros L H. set (m := clip_density f F lo hi).
  assert (Em : forall x, inside lo hi x -> f x = m x).
  { intros x [H1 H2]. unfold m, clip_density. rb; auto; destruct lo, hi; cbn [Rbar_lt] in *; try tauto; try lra; try congruence. }
  assert (Ea : match lo with Finite r => m r | _ => 0 end = Flo (F := F) lo).
  { destruct lo as [a| |]; simpl; auto; [|destruct hi; tauto].
    unfold m, clip_density. rb; auto; cbn [Rbar_lt] in *; try lra; try congruence. }
  assert (Eb : forall b : R, hi = Finite b -> m b = 1 - F b).
  { intros b ->. unfold m, clip_density. destruct (Rbar_lt_dec b lo) as [K|K].
    - exfalso. destruct lo; simpl in *; try tauto; lra.
    - destruct (Rbar_eq_dec b lo) as [K2|K2]. + exfalso. subst. simpl in H. lra.
      + rb; auto. exfalso; simpl in r; lra. congruence. }
  repeat split.
  - intros y Hy. unfold clip_cdf. rb; auto; tauto.
  - intros y ->. unfold clip_cdf. simpl in Ea. rewrite Ea. rb; auto; cbn [Rbar_lt] in *; try lra; try tauto.
  - intros y [H1 H2]. exists (F y - Flo (F := F) lo). split.
    + assert (Hy : Rbar_lt lo y) by auto. apply (rint_gen_ext f); auto.
      * intros x [X1 X2]. apply Em. split; auto. destruct hi; simpl in *; auto; lra.
      * apply (law_int L lo (Finite y)). auto.
    + unfold clip_cdf. rb; try tauto. { exfalso. destruct lo; cbn [Rbar_lt] in *; try tauto; lra. }
      unfold atom. destruct lo as [a| |]; simpl in *; try lra. destruct (Rle_dec a y); [rewrite Ea|]; lra.
  - exists (Flo (F := F) hi - Flo (F := F) lo). split; [|split].
    + apply (rint_gen_ext f); auto. now apply law_int.
    + intros y Hy. destruct hi as [b| |]; simpl in Hy; try tauto; [|destruct lo; tauto].
      unfold clip_cdf. destruct (Rbar_lt_dec y lo) as [K|K]. { exfalso. destruct lo; cbn [Rbar_lt] in *; try tauto; lra. }
      destruct (Rbar_lt_dec y b) as [K2|K2]. { exfalso. simpl in K2. lra. }
      unfold atom. rewrite (Eb b eq_refl). simpl. destruct (Rle_dec b y); [|lra].
      destruct lo as [a| |]; simpl in *; try tauto; try ring. destruct (Rle_dec a y); [|lra]. rewrite Ea. ring.
    + intros ->. rewrite Ea. apply (lim_eq 1); [simpl; ring|].
      apply (filterlim_ext_loc F); [|apply (cl_p _ _ L)].
      assert (E : exists M : R, forall x, M < x -> F x = clip_cdf F lo p_infty x).
      { destruct lo as [a| |]; simpl in H; try tauto.
        - exists a. intros x Hx. unfold clip_cdf. rb; cbn [Rbar_lt] in *; auto; try tauto. lra.
        - exists 0. intros x Hx. unfold clip_cdf. rb; cbn [Rbar_lt] in *; auto; tauto. }
      exact E.
Qed.

(** ** Integers *)
Section ILaw.
Context {p F : Z -> R} (L : int_law p F).
Lemma ilaw_step_le k : F (k - 1)%Z <= F k.
Proof. rewrite (il_step _ _ L k). generalize (il_nonneg _ _ L k). lra. Qed.
Lemma ilaw_mono_n k n : F k <= F (k + Z.of_nat n)%Z.
Proof.
  induction n as [|n IH]. - simpl. rewrite Z.add_0_r. lra.
  - eapply Rle_trans; [exact IH|]. replace (k + Z.of_nat n)%Z with (k + Z.of_nat (S n) - 1)%Z by lia. apply ilaw_step_le.
Qed.
Lemma ilaw_mono k j : (k <= j)%Z -> F k <= F j.
Proof. intros H. replace j with (k + Z.of_nat (Z.to_nat (j - k)))%Z by lia. apply ilaw_mono_n. Qed.
Lemma ilaw_le1 k : F k <= 1.
Proof.
  apply Rnot_lt_le. intros H. pose proof (il_p _ _ L) as P. apply is_lim_seq_spec in P. destruct (P (mkposreal (F k - 1) ltac:(lra))) as [N HN].
  specialize (HN (Nat.max N (Z.to_nat k)) ltac:(lia)). simpl in HN. apply Rabs_def2 in HN.
  assert (F k <= F (Z.of_nat (Nat.max N (Z.to_nat k)))) by (apply ilaw_mono; lia). lra.
Qed.
Lemma ilaw_ge0 k : 0 <= F k.
Proof.
  apply Rnot_lt_le. intros H. pose proof (il_m _ _ L) as P. apply is_lim_seq_spec in P. destruct (P (mkposreal (- F k) ltac:(lra))) as [N HN].
  specialize (HN (Nat.max N (Z.to_nat (- k))) ltac:(lia)). simpl in HN. apply Rabs_def2 in HN.
  assert (F (- Z.of_nat (Nat.max N (Z.to_nat (- k))))%Z <= F k) by (apply ilaw_mono; lia). lra.
Qed.
End ILaw.

Lemma telescope_up (G : Z -> R) n : sum_f_R0 (fun i => G (Z.of_nat i) - G (Z.of_nat i - 1)%Z) n = G (Z.of_nat n) - G (-1)%Z.
Proof.
  induction n as [|n IH]; [simpl; ring|]. rewrite tech5, IH. replace (Z.of_nat (S n) - 1)%Z with (Z.of_nat n) by lia. ring.
Qed.
Lemma telescope_down (G : Z -> R) n : sum_f_R0 (fun i => G (- Z.of_nat i - 1)%Z - G (- Z.of_nat i - 1 - 1)%Z) n = G (-1)%Z - G (- Z.of_nat n - 2)%Z.
Proof.
  induction n as [|n IH]; [simpl; ring|]. rewrite tech5, IH.
  replace (- Z.of_nat (S n) - 1)%Z with (- Z.of_nat n - 2)%Z by lia. replace (- Z.of_nat (S n) - 2)%Z with (- Z.of_nat n - 2 - 1)%Z by lia. ring.
Qed.
Lemma is_series_sum (a : nat -> R) (s : R) : is_lim_seq (sum_f_R0 a) s -> is_series a s.
Proof. intros H. apply (filterlim_ext (sum_f_R0 a)); [intros; symmetry; apply sum_n_Reals|]. exact H. Qed.
Lemma zseries_diff (G : Z -> R) : is_lim_seq (fun n => G (- Z.of_nat n)%Z) 0 -> is_lim_seq (fun n => G (Z.of_nat n)) 1 ->
  zseries (fun k => G k - G (k - 1)%Z) 1.
Proof.
  intros H0 H1. exists (1 - G (-1)%Z), (G (-1)%Z - 0). split; [|split; [|ring]].
  - apply is_series_sum. eapply is_lim_seq_ext; [intros; symmetry; apply telescope_up|].
    apply (is_lim_seq_minus' _ (fun _ => G (-1)%Z) 1 (G (-1)%Z)); [exact H1|apply is_lim_seq_const].
  - apply is_series_sum. eapply is_lim_seq_ext; [intros; symmetry; apply telescope_down|].
    apply (is_lim_seq_minus' (fun _ => G (-1)%Z)); [apply is_lim_seq_const|].
    apply (is_lim_seq_ext (fun n => G (- Z.of_nat (n + 2))%Z)). { intros; f_equal; lia. }
    now apply is_lim_seq_incr_n with (u := fun n => G (- Z.of_nat n)%Z).
Qed.
Lemma zseries_ext (g h : Z -> R) s : (forall k, g k = h k) -> zseries g s -> zseries h s.
Proof.
  intros E (s1 & s2 & H1 & H2 & H3). exists s1, s2. split; [|split]; auto; eapply is_series_ext; eauto; intros; apply E.
Qed.
Lemma int_clip_total p F lo hi : int_law p F -> zbefore lo hi \/ (exists a, lo = Some a /\ hi = Some a) -> zseries (int_clip_mass F lo hi) 1.
Proof.
  intros L H. apply (zseries_diff (int_clip_cdf F lo hi)).
  - destruct lo as [a|].
    + eapply is_lim_seq_ext_loc; [|apply is_lim_seq_const]. exists (Z.to_nat (1 - a)). intros n Hn. unfold int_clip_cdf.
      replace (- Z.of_nat n <? a)%Z with true; auto. symmetry. apply Z.ltb_lt. lia.
    + eapply is_lim_seq_ext_loc; [|apply (il_m _ _ L)]. destruct hi as [b|].
      * exists (Z.to_nat (1 - b)). intros n Hn. unfold int_clip_cdf. replace (b <=? - Z.of_nat n)%Z with false; auto. symmetry. apply Z.leb_gt. lia.
      * exists 0%nat. auto.
  - destruct hi as [b|].
    + eapply is_lim_seq_ext_loc; [|apply is_lim_seq_const].
      exists (Nat.max (Z.to_nat b) (match lo with Some a => Z.to_nat a | None => 0 end)). intros n Hn. unfold int_clip_cdf.
      replace (match lo with Some a => (Z.of_nat n <? a)%Z | None => false end) with false.
      * replace (b <=? Z.of_nat n)%Z with true; auto. symmetry. apply Z.leb_le. lia.
      * destruct lo as [a|]; auto. symmetry. apply Z.ltb_ge. lia.
    + eapply is_lim_seq_ext_loc; [|apply (il_p _ _ L)]. destruct lo as [a|].
      * exists (Z.to_nat a). intros n Hn. unfold int_clip_cdf. replace (Z.of_nat n <? a)%Z with false; auto. symmetry. apply Z.ltb_ge. lia.
      * exists 0%nat. auto.
Qed.

Lemma Reqb_IZR a b : Reqb (IZR a) (IZR b) = (a =? b)%Z.
Proof. unfold Reqb. destruct (Req_EM_T (IZR a) (IZR b)) as [E|E]; symmetry. apply Z.eqb_eq; now apply eq_IZR. apply Z.eqb_neq. congruence. Qed.
Lemma Rltb_IZR a b : Rltb (IZR a) (IZR b) = (a <? b)%Z.
Proof.
  unfold Rltb. destruct (Rlt_dec (IZR a) (IZR b)) as [E|E]; symmetry. apply Z.ltb_lt; now apply lt_IZR.
  apply Z.ltb_ge. apply Rnot_lt_le in E. now apply le_IZR.
Qed.
Lemma den_eq v d e : den v d -> d = e -> den v e.
Proof. now intros H <-. Qed.

Lemma int_clip_ok lp lc p F lower upper lo hi k : int_law p F ->
  (forall k, denotes (lp (Fin (IZR k))) (p k)) -> (forall k, denotes (lc (Fin (IZR k))) (F k)) ->
  lower_bound_is (bval lower) lo -> upper_bound_is (bval upper) hi -> zbefore lo hi ->
  denotes (clip_logprob true lp lc lower upper (Fin (IZR k))) (int_clip_mass F lo hi k).
Proof.
  intros L C1 C2 El Eu H. specialize (C1 k). specialize (C2 k). unfold clip_logprob.
  destruct (lp (Fin (IZR k))) as [vp|]; [|destruct C1]. destruct (lc (Fin (IZR k))) as [vc|]; [|destruct C2]. cbn [bind].
  assert (CC : den (xlogaddexp (xlog1mexp vc) vp) (1 - F (k - 1)%Z)).
  { apply (den_eq _ (1 - F k + p k)). - apply den_logaddexp; auto. apply den_le1; auto. apply (ilaw_le1 L).
    - rewrite (il_step _ _ L k). ring. }
  assert (CP : den vp (F k - F (k - 1)%Z)). { apply (den_eq _ (p k)); auto. rewrite (il_step _ _ L k). ring. }
  assert (HC : xle (bval lower) (bval upper) = true).
  { rewrite El, Eu. destruct lo, hi; auto. apply xle_true. apply IZR_le. simpl in H. lia. }
  match goal with |- denotes (if _ then check ?v _ else _) _ => assert (G : denotes v (int_clip_mass F lo hi k)) end.
  2:{ destruct (negb _ && negb _); auto. rewrite check_true; auto. cbn [forallb]. now rewrite HC. }
  clear HC C1. unfold int_clip_mass, int_clip_cdf.
  assert (El' : lower_unbounded lower = true -> lo = None).
  { destruct lower as [[]|]; simpl; try discriminate. intros _. unfold lower_bound_is in El. simpl in El. destruct lo; [discriminate|auto]. }
  assert (Eu' : upper_unbounded upper = true -> hi = None).
  { destruct upper as [[]|]; simpl; try discriminate; intros _; unfold upper_bound_is in Eu; simpl in Eu; destruct hi; auto; discriminate. }
  unfold lower_bound_is in El. unfold upper_bound_is in Eu. rewrite El, Eu.
  destruct (lower_unbounded lower); destruct (upper_unbounded upper);
    try (rewrite (El' eq_refl) in * ); try (rewrite (Eu' eq_refl) in * ); auto;
    destruct lo as [a|]; destruct hi as [b|]; cbn [xeq xgt xlt]; auto; rewrite ?Reqb_IZR, ?Rltb_IZR; simpl in H;
    repeat match goal with
    | |- context [(?u =? ?v)%Z] => destruct (Z.eqb_spec u v)
    | |- context [(?u <? ?v)%Z] => destruct (Z.ltb_spec u v)
    | |- context [(?u <=? ?v)%Z] => destruct (Z.leb_spec u v) end; try lia;
    try exact CP; try exact CC; try (apply (den_eq _ _ _ C2); ring); try (simpl; ring); auto.
Qed.
Lemma int_clip_outside lp lc lower upper lo hi y vp vc :
  lp (Fin y) = Val vp -> lc (Fin y) = Val vc ->
  lower_bound_is (bval lower) lo -> upper_bound_is (bval upper) hi -> zbefore lo hi -> zoutside lo hi y ->
  clip_logprob true lp lc lower upper (Fin y) = Val NInf.
Proof.
  intros Ep Ec El Eu H O. unfold clip_logprob. rewrite Ep, Ec. cbn [bind].
  assert (HC : xle (bval lower) (bval upper) = true).
  { rewrite El, Eu. destruct lo, hi; auto. apply xle_true. apply IZR_le. simpl in H. lia. }
  match goal with |- (if _ then check ?v _ else _) = _ => assert (G : v = Val NInf) end.
  2:{ destruct (negb _ && negb _); auto. rewrite check_true; auto. cbn [forallb]. now rewrite HC. }
  assert (El' : lower_unbounded lower = true -> lo = None).
  { destruct lower as [[]|]; simpl; try discriminate. intros _. unfold lower_bound_is in El. simpl in El. destruct lo; [discriminate|auto]. }
  assert (Eu' : upper_unbounded upper = true -> hi = None).
  { destruct upper as [[]|]; simpl; try discriminate; intros _; unfold upper_bound_is in Eu; simpl in Eu; destruct hi; auto; discriminate. }
  unfold lower_bound_is in El. unfold upper_bound_is in Eu. rewrite El, Eu. unfold zoutside in O.
  destruct (lower_unbounded lower); destruct (upper_unbounded upper);
    try (rewrite (El' eq_refl) in * ); try (rewrite (Eu' eq_refl) in * ); try tauto;
    destruct lo as [a|]; destruct hi as [b|]; cbn [xeq xgt xlt]; try tauto; simpl in H;
    try (apply IZR_lt in H); destruct O as [O|O]; try tauto; unfold Reqb, Rltb; rcase; auto.
Qed.

(** ** Rounding *)
Definition lo_of (op : rounding) (k : Z) : R := match op with RHalfEven => IZR k - 1/2 | RFloor => IZR k | RCeil => IZR k - 1 end.
Definition hi_of (op : rounding) (k : Z) : R := match op with RHalfEven => IZR k + 1/2 | RFloor => IZR k + 1 | RCeil => IZR k end.
Lemma preimage_of op k : preimage (rnd_of op) k (lo_of op k) (hi_of op k).
Proof.
  unfold preimage. destruct op; simpl; (split; [lra|split]); unfold rounds_half_even, rounds_floor, rounds_ceil; intros x H; try lra.
  - left. apply Rabs_def1; lra.
  - assert (Rabs (x - IZR k) <= 1/2) as A by (destruct H as [H|[H _]]; lra). apply Rabs_le_between in A. lra.
Qed.
Lemma Rround_Z k : Rround (IZR k) = k.
Proof. unfold Rround. rewrite Int_part_IZR. destruct (Rlt_dec _ _); auto. exfalso. lra. Qed.
Lemma Rceil_Z k : Rceil_part (IZR k) = k.
Proof. unfold Rceil_part. rewrite <- opp_IZR, Int_part_IZR. lia. Qed.
Lemma round_at op lc k : round_logprob op lc (Fin (IZR k)) =
  bind (lc (Fin (hi_of op k))) (fun u => bind (lc (Fin (lo_of op k))) (fun l => Val (logdiffexp u l))).
Proof.
  unfold round_logprob. destruct op; cbn [xround xfloor xceil lo_of hi_of]; rewrite ?Rround_Z, ?Rceil_Z, ?Int_part_IZR, ?xadd_fin, ?xsub_fin; reflexivity.
Qed.
Lemma den_logdiff u l a b : den u a -> den l b -> b <= a -> 0 < a -> den (logdiffexp u l) (a - b).
Proof.
  intros Hu Hl Hab Ha. unfold logdiffexp. destruct u as [u| | |]; try (now destruct Hu). 2:{ unfold den, denotes in Hu. lra. }
  assert (D : den (xsub l (Fin u)) (b / a)).
  { unfold den, denotes in *. destruct l as [l| | |]; simpl; try tauto. - subst. fold (l - u). rewrite exp_sub. reflexivity.
    - subst. field. lra. }
  replace (a - b) with (a * (1 - b / a)) by (field; lra).
  apply (den_add (Fin u)); auto. apply den_le1; auto. apply (Rmult_le_reg_r a); auto. field_simplify; lra.
Qed.
Lemma preimage_unique rnd k l u l' u' : preimage rnd k l u -> preimage rnd k l' u' -> l = l' /\ u = u'.
Proof.
  assert (A : forall l u l' u', preimage rnd k l u -> preimage rnd k l' u' -> l' <= l /\ u <= u').
  { clear. intros l u l' u' (H1 & H2 & _) (H3 & _ & H4). split; apply Rnot_lt_le; intros H.
    - set (x := (l + Rmin l' u) / 2). pose proof (Rmin_l l' u). pose proof (Rmin_r l' u).
      assert (l < Rmin l' u) by (apply Rmin_glb_lt; lra). assert (l < x < u) by (unfold x; lra). specialize (H4 x (H2 x H7)). unfold x in *. lra.
    - set (x := (u + Rmax u' l) / 2). pose proof (Rmax_l u' l). pose proof (Rmax_r u' l).
      assert (Rmax u' l < u) by (apply Rmax_lub_lt; lra). assert (l < x < u) by (unfold x; lra). specialize (H4 x (H2 x H7)). unfold x in *. lra. }
  intros H H'. destruct (A _ _ _ _ H H'), (A _ _ _ _ H' H). lra.
Qed.
Lemma round_ok op lc f F k l u : cont_law f F -> (forall x, denotes (lc (Fin x)) (F x)) ->
  preimage (rnd_of op) k l u -> 0 < F u ->
  is_RInt f l u (F u - F l) /\ denotes (round_logprob op lc (Fin (IZR k))) (F u - F l).
Proof.
  intros L C I P. destruct (preimage_unique _ _ _ _ _ _ I (preimage_of op k)) as [-> ->].
  assert (lo_of op k < hi_of op k) by apply I. split; [now apply (cl_int _ _ L)|].
  rewrite round_at. pose proof (C (hi_of op k)) as C1. pose proof (C (lo_of op k)) as C2.
  destruct (lc (Fin (hi_of op k))); [|destruct C1]. destruct (lc (Fin (lo_of op k))); [|destruct C2]. cbn [bind].
  apply den_logdiff; auto. apply (law_mono L). lra.
Qed.
Definition round_mass (op : rounding) (F : R -> R) (k : Z) : R := F (hi_of op k) - F (lo_of op k).
Lemma round_total op f F : cont_law f F -> zseries (round_mass op F) 1.
Proof.
  intros L. apply (zseries_ext (fun k => F (hi_of op k) - F (hi_of op (k - 1)%Z))).
  { intros k. unfold round_mass. f_equal. f_equal. destruct op; simpl; rewrite minus_IZR; lra. }
  assert (B : forall k, IZR k <= hi_of op k <= IZR k + 1) by (intros []; destruct op; simpl; lra).
  apply (zseries_diff (fun k => F (hi_of op k))).
  - apply (filterlim_comp _ _ _ (fun n => hi_of op (- Z.of_nat n)) F eventually (Rbar_locally m_infty)); [|apply (cl_m _ _ L)].
    intros P [M HM]. destruct (archimed (1 - M)) as [A _]. exists (Z.to_nat (up (1 - M))). intros n Hn. apply HM.
    specialize (B (- Z.of_nat n)%Z). assert (IZR (- Z.of_nat n) <= - IZR (up (1 - M))) by (rewrite <- opp_IZR; apply IZR_le; lia). lra.
  - apply (filterlim_comp _ _ _ (fun n => hi_of op (Z.of_nat n)) F eventually (Rbar_locally p_infty)); [|apply (cl_p _ _ L)].
    intros P [M HM]. destruct (archimed M) as [A _]. exists (Z.to_nat (up M)). intros n Hn. apply HM.
    specialize (B (Z.of_nat n)). assert (IZR (up M) <= IZR (Z.of_nat n)) by (apply IZR_le; lia). lra.
Qed.

Lemma round_masses op f F m : cont_law f F -> (forall k l u, preimage (rnd_of op) k l u -> m k = F u - F l) -> zseries m 1.
Proof.
  intros L H. apply (zseries_ext (round_mass op F)); [|now apply (round_total op f)].
  intros k. unfold round_mass. symmetry. apply H. apply preimage_of.
Qed.
(** the rounding relations are total functions, so the pre-images partition the reals *)
Lemma rnd_total op x : exists k, rnd_of op x k.
Proof.
  destruct op; simpl.
  - exists (Rround x). unfold rounds_half_even, Rround. destruct (base_Int_part x) as [H1 H2].
    destruct (Rlt_dec _ _); [left; rewrite Rabs_pos_eq; lra|]. destruct (Rlt_dec _ _).
    + left. rewrite plus_IZR. rewrite Rabs_left1; lra.
    + destruct (Z.even (Int_part x)) eqn:E.
      * right. split; [rewrite Rabs_pos_eq; lra|]. now apply Z.even_spec.
      * right. split; [rewrite plus_IZR, Rabs_left1; lra|]. apply Z.even_spec. rewrite Z.even_add. now rewrite E.
  - exists (Int_part x). unfold rounds_floor. destruct (base_Int_part x). lra.
  - exists (Rceil_part x). unfold rounds_ceil. pose proof (Rceil_spec x). lra.
Qed.
Lemma half_odd (j k : Z) : (k = j + 1)%Z -> Z.Even j -> Z.Even k -> False.
Proof. intros -> [a ->] [b H]. lia. Qed.
Lemma rnd_fun op x j k : rnd_of op x j -> rnd_of op x k -> j = k.
Proof.
  assert (A : forall j k, rnd_of op x j -> rnd_of op x k -> (j < k)%Z -> False).
  { clear j k. intros j k Hj Hk L. assert (IZR j + 1 <= IZR k) by (rewrite <- plus_IZR; apply IZR_le; lia).
    destruct op; simpl in *; unfold rounds_half_even, rounds_floor, rounds_ceil in *; try lra.
    assert (Bj : Rabs (x - IZR j) <= 1/2) by (destruct Hj as [|[]]; lra). assert (Bk : Rabs (x - IZR k) <= 1/2) by (destruct Hk as [|[]]; lra).
    apply Rabs_le_between in Bj. apply Rabs_le_between in Bk. assert (E : IZR k = IZR (j + 1)) by (rewrite plus_IZR; lra). apply eq_IZR in E.
    assert (Ej : Rabs (x - IZR j) = 1/2) by (rewrite Rabs_pos_eq; lra). assert (Ek : Rabs (x - IZR k) = 1/2) by (rewrite Rabs_left1; lra).
    destruct Hj as [|[_ Hj]]; [lra|]. destruct Hk as [|[_ Hk]]; [lra|]. eapply half_odd; eauto. }
  intros. destruct (Z.lt_trichotomy j k) as [L|[E|L]]; auto; exfalso; eauto.
Qed.

(** ** Concrete laws *)
Definition normal_cdf (mu s x : R) : R := Phi ((x - mu) / s).
Lemma normal_law mu s : 0 < s -> cont_law (normal_pdf mu s) (normal_cdf mu s).
Proof.
  intros Hs. assert (P := sqrtPI_pos). assert (S2 := s2pos). pose proof PI_RGT_0.
  assert (E : forall x, normal_cdf mu s x = 1/2 + / sqrt PI * GI ((x - mu) / s / sqrt 2)) by (intros; unfold normal_cdf; apply Phi_eq).
  assert (Cn : forall y, continuous (normal_pdf mu s) y). { intros y. apply (prim_cont _ m_infty p_infty 1); [now apply normal_prim|apply inside_all]. }
  assert (D : forall y, is_derive (normal_cdf mu s) y (normal_pdf mu s y)).
  { intros y. apply (is_derive_ext (fun y => 1/2 + / sqrt PI * GI ((y - mu) / s / sqrt 2))); [intros; now rewrite E|].
    rewrite normal_form by auto.
    replace (/ sqrt (2 * PI) * (exp (- ((y - mu) / s) ^ 2 / 2) * / s))
      with (0 + / sqrt PI * (/ s / sqrt 2 * gauss ((y - mu) / s / sqrt 2))).
    + apply @is_derive_plus; [apply @is_derive_const|]. apply is_derive_scal.
      apply (is_derive_comp GI (fun y => (y - mu) / s / sqrt 2) y); [apply GI_deriv|].
      auto_derive; auto. field. lra.
    + unfold gauss. rewrite sqrt_mult by lra.
      replace ((y - mu) / s / sqrt 2 * ((y - mu) / s / sqrt 2)) with (((y - mu) / s) ^ 2 / (sqrt 2 * sqrt 2)) by (field; lra).
      rewrite sqrt_sqrt by lra.
      replace (- ((y - mu) / s) ^ 2 / 2) with (- (((y - mu) / s) ^ 2 / 2)) by (field; lra). field. lra. }
  constructor.
  - intros x. unfold normal_pdf. assert (0 < sqrt (2 * PI)) by (apply sqrt_lt_R0; lra). apply Rlt_le. posi.
  - intros x. apply deriv_cont. eexists; apply D.
  - intros x y Hxy. apply (is_RInt_derive (normal_cdf mu s) (normal_pdf mu s)); intros; auto.
  - apply (filterlim_ext (fun y => 1/2 + / sqrt PI * - GI (- ((y - mu) / s / sqrt 2)))). { intros; rewrite E, GI_odd; ring. }
    apply (lim_eq (1/2 + / sqrt PI * - (sqrt PI / 2))); [field; lra|].
    apply lim_plus; [typeclasses eauto|apply lim_const; typeclasses eauto|].
    apply lim_scal; [typeclasses eauto|].
    apply lim_opp; [typeclasses eauto|]. eapply filterlim_comp; [|apply GI_lim_p].
    flim lim_opp_m. apply (filterlim_ext (fun y => / sqrt 2 * ((y - mu) / s))). { intros; field; lra. }
    flim lim_scal_m; [posi|]. now apply aff_lim_m.
  - apply (filterlim_ext (fun y => 1/2 + / sqrt PI * GI ((y - mu) / s / sqrt 2))). { intros; now rewrite E. }
    apply (lim_eq (1/2 + / sqrt PI * (sqrt PI / 2))); [field; lra|].
    apply lim_plus; [typeclasses eauto|apply lim_const; typeclasses eauto|].
    apply lim_scal; [typeclasses eauto|]. eapply filterlim_comp; [|apply GI_lim_p].
    apply (filterlim_ext (fun y => / sqrt 2 * ((y - mu) / s))). { intros; field; lra. }
    flim lim_scal_p; [posi|]. now apply aff_lim_p.
Qed.
Lemma normal_computes mu s : 0 < s -> computes_law (normal_logprob (Fin mu) (Fin s)) (normal_logcdf (Fin mu) (Fin s)) (normal_pdf mu s) (normal_cdf mu s).
Proof. intros Hs. split; intros x; [now apply normal_ok|]. rewrite normal_logcdf_val by auto. cbn. apply exp_ln, Phi_range. Qed.

Definition natpmf (f : nat -> R) (k : Z) : R := if (k <? 0)%Z then 0 else f (Z.to_nat k).
Lemma nat_law (f : nat -> R) : (forall n, 0 <= f n) -> is_series f 1 -> int_law (natpmf f) (fun k => mass_upto f (IZR k)).
Proof.
  intros H Hs.
  assert (N : forall n, mass_upto f (IZR (Z.of_nat n)) = sum_f_R0 f n) by (intros; rewrite <- INR_IZR_INZ; apply mass_upto_nat).
  assert (M : forall k, (k < 0)%Z -> mass_upto f (IZR k) = 0).
  { intros k Hk. unfold mass_upto. apply IZR_lt in Hk. destruct (Rle_dec 0 (IZR k)); auto. lra. }
  constructor.
  - intros k. unfold natpmf. destruct (k <? 0)%Z; auto; lra.
  - intros k. unfold natpmf. destruct (Z.ltb_spec k 0). + rewrite !M by lia. ring.
    + replace k with (Z.of_nat (Z.to_nat k)) by lia. destruct (Z.to_nat k) as [|n].
      * rewrite (M (Z.of_nat 0 - 1)%Z) by lia. rewrite N. simpl. ring.
      * replace (Z.of_nat (S n) - 1)%Z with (Z.of_nat n) by lia. rewrite !N, Nat2Z.id. reflexivity.
  - apply (is_lim_seq_ext_loc (fun _ => 0)); [|apply is_lim_seq_const]. exists 1%nat. intros n Hn. symmetry. apply M. lia.
  - apply (is_lim_seq_ext (sum_n f)); [|exact Hs]. intros n. rewrite N. apply sum_n_Reals.
Qed.

(** ** Counterexamples *)
Lemma poisson_mass_0 mu : 0 <= mu -> denotes (poisson_logcdf (Fin mu) (Fin 0)) (exp (- mu)).
Proof. intros H. pose proof (poisson_logcdf_ok mu 0 H) as P. change 0 with (INR 0) in P at 2. rewrite mass_upto_nat in P. simpl in P. unfold poisson_pmf in P. simpl in P.
  replace (1 / 1 * exp (- mu)) with (exp (- mu)) in P by field. exact P. Qed.
(** equal bounds: the point gets P(K <= a), not 1 *)
Lemma clip_equal_bounds : exists (mu : R) (a : Z), 0 < mu /\
  exists d, denotes (clip_logprob true (poisson_logprob (Fin mu)) (poisson_logcdf (Fin mu)) (BConst (Fin (IZR a))) (BConst (Fin (IZR a))) (Fin (IZR a))) d /\ d < 1.
Proof.
  exists 1, 0%Z. split; [lra|]. exists (exp (-1)). split.
  - unfold clip_logprob. pose proof (poisson_mass_0 1 ltac:(lra)) as P.
    destruct (poisson_logcdf (Fin 1) (Fin 0)) as [v|]; [|destruct P].
    destruct (poisson_logprob (Fin 1) (Fin 0)) as [w|] eqn:E.
    + cbn [bind lower_unbounded upper_unbounded negb andb bval]. rewrite xeq_true by auto. rewrite check_true; [exact P|]. cbn [forallb]. now rewrite xle_true by lra.
    + exfalso. pose proof (poisson_mass 1 0 ltac:(lra)) as Q. simpl INR in Q. rewrite E in Q. exact Q.
  - rewrite <- exp_0. apply exp_increasing. lra.
Qed.
(** rounding: non-integers share the mass of the integer they round to *)
Lemma round_nonint : exists x d, (forall k, x <> IZR k) /\ 0 < d /\
  denotes (round_logprob RHalfEven (normal_logcdf (Fin 0) (Fin 1)) (Fin x)) d.
Proof.
  exists (1/4), (normal_cdf 0 1 (IZR 0 + 1/2) - normal_cdf 0 1 (IZR 0 - 1/2)).
  assert (I : Int_part (1/4) = 0%Z).
  { destruct (base_Int_part (1/4)) as [A B]. assert (IZR (Int_part (1/4)) < 1) as C by lra. assert (-1 < IZR (Int_part (1/4))) as D by lra.
    change (-1) with (IZR (-1)) in D. apply lt_IZR in C. apply lt_IZR in D. lia. }
  split; [|split].
  - intros k E. assert (0 < IZR k) as A by lra. assert (IZR k < 1) as B by lra. apply lt_IZR in A. apply lt_IZR in B. lia.
  - unfold normal_cdf. assert (Phi ((IZR 0 - 1/2 - 0) / 1) < Phi ((IZR 0 + 1/2 - 0) / 1)); [|lra]. apply Phi_strict. lra.
  - destruct (round_ok RHalfEven (normal_logcdf (Fin 0) (Fin 1)) (normal_pdf 0 1) (normal_cdf 0 1) 0 (IZR 0 - 1/2) (IZR 0 + 1/2)) as [_ H].
    + apply normal_law; lra. + apply normal_computes; lra. + apply (preimage_of RHalfEven 0). + apply Phi_range.
    + assert (E : xround (Fin (1/4)) = Fin (IZR 0)).
      { cbn [xround]. unfold Rround. rewrite I. destruct (Rlt_dec _ _) as [|n]; auto. exfalso. lra. }
      unfold round_logprob in *. rewrite E. replace (xround (Fin (IZR 0))) with (Fin (IZR 0)) in H by (cbn [xround]; now rewrite Rround_Z). exact H.
Qed.
(** an integer of probability zero gets NaN, not -inf *)
Lemma round_nan : exists k, round_logprob RFloor (uniform_logcdf (Fin 0) (Fin 1)) (Fin (IZR k)) = Val NaN.
Proof.
  exists (-5)%Z. rewrite round_at. cbn [lo_of hi_of]. unfold uniform_logcdf. xrun. cbn [bind]. reflexivity.
Qed.

Lemma clip_one_sided lp lc f F y : cont_law f F -> computes_law lp lc f F ->
  (forall b, denotes (clip_logprob false lp lc (lower_of RBase) (upper_of (RConst (Fin b))) (Fin y)) (clip_density f F m_infty b y)) /\
  (forall a, denotes (clip_logprob false lp lc (lower_of (RConst (Fin a))) (upper_of RBase) (Fin y)) (clip_density f F a p_infty y)).
Proof. intros L C. split; intros; apply clip_ok; simpl; auto. Qed.
Lemma clip_total f F lo hi : cont_law f F -> Rbar_lt lo hi -> exists v,
  is_RInt_gen (clip_density f F lo hi) (Fr lo) (Fl hi) v /\
  match lo with Finite a => clip_density f F lo hi a | _ => 0 end + v +
  match hi with Finite b => clip_density f F lo hi b | _ => 0 end = 1.
Proof.
  intros L H. destruct (clip_mixed f F lo hi L H) as (_ & A & _ & v & I & U & _). exists v. split; auto.
  assert (Ea : match lo with Finite r => clip_density f F lo hi r | _ => 0 end = Flo (F := F) lo).
  { destruct lo as [a| |]; simpl; auto; [|destruct hi; tauto]. rewrite <- A by auto. unfold clip_cdf. rb; auto; cbn [Rbar_lt] in *; try lra; try tauto. }
  destruct hi as [b| |]; [| |destruct lo; tauto].
  - specialize (U b ltac:(simpl; lra)). unfold clip_cdf in U.
    destruct (Rbar_lt_dec b lo) as [K|K]. { exfalso. destruct lo; cbn [Rbar_lt] in *; try tauto; lra. }
    destruct (Rbar_lt_dec b b) as [K2|K2]. { exfalso. simpl in K2. lra. }
    rewrite U. unfold atom. destruct (Rle_dec b b); [|lra]. destruct lo as [a| |]; simpl in *; auto; try ring. destruct (Rle_dec a b); [ring|lra].
  - assert (E : v = 1 - Flo (F := F) lo).
    { apply (rint_gen_ext _ f) in I; auto.
      2:{ intros x [X1 X2]. unfold clip_density. rb; auto; destruct lo; cbn [Rbar_lt] in *; try tauto; try lra; try congruence. }
      pose proof (law_int L lo p_infty H) as I2.
      rewrite <- (is_RInt_gen_unique (V := R_CompleteNormedModule) _ _ I). exact (is_RInt_gen_unique (V := R_CompleteNormedModule) _ _ I2). }
    rewrite E, Ea. ring.
Qed.
Lemma clip_bad_bounds discrete lp lc lower upper a b y :
  bval lower = Fin a -> bval upper = Fin b -> b < a -> clip_logprob discrete lp lc lower upper (Fin y) = Raise.
Proof.
  intros El Eu H. unfold clip_logprob. destruct (lp (Fin y)); auto. destruct (lc (Fin y)); auto. cbn [bind].
  assert (Kl : lower_unbounded lower = false) by (destruct lower as [[]|[]]; auto; discriminate).
  assert (Ku : upper_unbounded upper = false) by (destruct upper as [[]|[]]; auto; discriminate).
  rewrite Kl, Ku. simpl negb. cbn [andb]. rewrite El, Eu. rewrite check_false; auto. cbn [forallb]. rewrite xle_false by lra. reflexivity.
Qed.
Lemma poisson_Z mu k : 0 <= mu -> denotes (poisson_logprob (Fin mu) (Fin (IZR k))) (natpmf (poisson_pmf mu) k).
Proof.
  intros H. unfold natpmf. destruct (Z.ltb_spec k 0). - now apply poisson_neg.
  - pose proof (poisson_mass mu (Z.to_nat k) H) as P. rewrite INR_IZR_INZ, Z2Nat.id in P by lia. exact P.
Qed.
Lemma rnd_function op x : exists k, rnd_of op x k /\ forall j, rnd_of op x j -> j = k.
Proof. destruct (rnd_total op x) as [k H]. exists k. split; auto. intros j Hj. now apply (rnd_fun op x). Qed.
Lemma rnd_example : rnd_of RHalfEven (5/2) 2 /\ ~ rnd_of RHalfEven (5/2) 3.
Proof.
  assert (H : rnd_of RHalfEven (5/2) 2). { right. split; [rewrite Rabs_pos_eq; lra|]. now exists 1%Z. }
  split; auto. intros H3. pose proof (rnd_fun _ _ _ _ H H3). lia.
Qed.
Lemma preimage_ex op k : exists l u, preimage (rnd_of op) k l u.
Proof. exists (lo_of op k), (hi_of op k). apply preimage_of. Qed.
Lemma den_zero v : den v 0 -> v = NInf.
Proof. unfold den, denotes. destruct v as [l| | |]; try tauto. intros E. generalize (exp_pos l). lra. Qed.
Lemma round_zero_mass op lc f F k l u : cont_law f F -> (forall x, denotes (lc (Fin x)) (F x)) ->
  preimage (rnd_of op) k l u -> 0 < F u -> F u = F l -> round_logprob op lc (Fin (IZR k)) = Val NInf.
Proof.
  intros L C I P E. destruct (round_ok op lc f F k l u L C I P) as [_ D]. rewrite E, Rminus_diag_eq in D by auto.
  destruct (round_logprob op lc (Fin (IZR k))) as [v|]; [|destruct D]. f_equal. now apply den_zero.
Qed.
Definition uniform_cdf (a b x : R) : R := if Rlt_dec x a then 0 else if Rlt_dec x b then (x - a) / (b - a) else 1.
Lemma C20_pre : preimage (rnd_of RFloor) 4 4 5.
Proof. pose proof (preimage_of RFloor 4) as H. simpl in H. now replace (4 + 1) with 5 in H by ring. Qed.
Lemma uniform_cdf_maxmin a b x : a < b -> uniform_cdf a b x = Rmax 0 (Rmin 1 ((x - a) / (b - a))).
Proof.
  intros H. unfold uniform_cdf. assert (E : forall z, z < x -> 0 < (x - z) / (b - a)) by (intros; apply Rdiv_lt_0_compat; lra).
  assert (K : (x - a) / (b - a) = 1 + (x - b) / (b - a)) by (field; lra).
  assert (K2 : (x - b) / (b - a) = - ((b - x) / (b - a))) by (field; lra).
  assert (K3 : (x - a) / (b - a) = - ((a - x) / (b - a))) by (field; lra).
  destruct (Rlt_dec x a); [|destruct (Rlt_dec x b)].
  - assert (0 < (a - x) / (b - a)) by (apply Rdiv_lt_0_compat; lra). rewrite Rmin_right by lra. rewrite Rmax_left; lra.
  - assert (0 < (b - x) / (b - a)) by (apply Rdiv_lt_0_compat; lra). rewrite Rmin_right by lra. rewrite Rmax_right; auto. apply Rmult_le_pos; [lra|]. apply Rlt_le, Rinv_0_lt_compat; lra.
  - assert (0 <= (x - b) / (b - a)) by (apply Rmult_le_pos; [lra|]; apply Rlt_le, Rinv_0_lt_compat; lra). rewrite Rmin_left by lra. rewrite Rmax_right; lra.
Qed.
Lemma uniform_piece a b x y : a < b -> x <= y ->
  (y <= a \/ b <= x \/ (a <= x /\ y <= b)) -> is_RInt (uniform_pdf a b) x y (uniform_cdf a b y - uniform_cdf a b x).
Proof.
  intros Hab Hxy Hc.
  assert (Q : exists c, (forall z, x < z < y -> c = uniform_pdf a b z) /\ c * (y - x) = uniform_cdf a b y - uniform_cdf a b x).
  { unfold uniform_pdf, uniform_cdf. destruct Hc as [H|[H|H]].
    - exists 0. split; [intros; rcase|]. destruct (Rlt_dec y a), (Rlt_dec x a), (Rlt_dec y b), (Rlt_dec x b); try lra;
       try (replace y with a by lra); try (replace x with a by lra); field; lra.
    - exists 0. split; [intros; rcase|]. rcase.
    - exists (/ (b - a)). split; [intros; rcase|]. rcase; try (replace y with b by lra); try (replace x with b by lra); field; lra. }
  destruct Q as (c & Q1 & Q2). rewrite <- Q2.
  apply (is_RInt_ext (fun _ => c)). { rewrite Rmin_left, Rmax_right by lra. auto. }
  assert (E : is_RInt (fun _ : R => c) x y (scal (y - x) c)) by exact (is_RInt_const (V := R_NormedModule) x y c).
  replace (c * (y - x)) with (scal (y - x) c); auto. unfold scal; simpl; unfold mult; simpl; ring.
Qed.
Lemma is_RInt_join (f : R -> R) a b c u v w : is_RInt f a b u -> is_RInt f b c v -> u + v = w -> is_RInt f a c w.
Proof. intros H1 H2 <-. exact (is_RInt_Chasles f a b c u v H1 H2). Qed.
Lemma uniform_law a b : a < b -> cont_law (uniform_pdf a b) (uniform_cdf a b).
Proof.
  intros H. constructor.
  - intros x. unfold uniform_pdf. assert (0 < / (b - a)) by (apply Rinv_0_lt_compat; lra). rcase.
  - intros x. apply (continuous_ext (fun x => Rmax 0 (Rmin 1 ((x - a) / (b - a))))); [intros; symmetry; now apply uniform_cdf_maxmin|].
    apply (continuous_comp (fun x => Rmin 1 ((x - a) / (b - a))) (Rmax 0)).
    + apply (continuous_comp (fun x => (x - a) / (b - a)) (Rmin 1)). apply deriv_cont; auto_derive; lra.
      intros P [e He]. exists e. intros z Hz. apply He. unfold ball in *; simpl in *; unfold AbsRing_ball, abs, minus, plus, opp in *; simpl in *.
      eapply Rle_lt_trans; [|exact Hz]. unfold Rmin. rcase; unfold Rabs; repeat destruct (Rcase_abs _); lra.
    + intros P [e He]. exists e. intros z Hz. apply He. unfold ball in *; simpl in *; unfold AbsRing_ball, abs, minus, plus, opp in *; simpl in *.
      eapply Rle_lt_trans; [|exact Hz]. unfold Rmax. rcase; unfold Rabs; repeat destruct (Rcase_abs _); lra.
  - intros x y Hxy. set (p := Rmax x (Rmin y a)). set (q := Rmin y (Rmax x b)).
    assert (x <= p <= y) by (unfold p, Rmax, Rmin; rcase). assert (x <= q <= y) by (unfold q, Rmax, Rmin; rcase).
    assert (p <= q) by (unfold p, q, Rmax, Rmin; rcase).
    assert (Q : (p <= a \/ b <= x \/ (a <= x /\ p <= b)) /\ (q <= a \/ b <= p \/ (a <= p /\ q <= b)) /\ (y <= a \/ b <= q \/ (a <= q /\ y <= b))).
    { unfold p, q, Rmax, Rmin in *; repeat match goal with
      | |- context [Rle_dec ?u ?v] => destruct (Rle_dec u v)
      | K : context [Rle_dec ?u ?v] |- _ => destruct (Rle_dec u v) end; lra. }
    eapply is_RInt_join; [apply (uniform_piece a b x p); tauto|eapply is_RInt_join; [apply (uniform_piece a b p q); tauto|apply (uniform_piece a b q y); tauto|reflexivity]|ring].
  - apply (filterlim_ext_loc (fun _ => 0)); [|apply lim_const; typeclasses eauto]. exists a. intros x Hx. unfold uniform_cdf. rcase.
  - apply (filterlim_ext_loc (fun _ => 1)); [|apply lim_const; typeclasses eauto]. exists b. intros x Hx. unfold uniform_cdf. rcase.
Qed.
