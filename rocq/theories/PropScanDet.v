(** C63: scans with outputs that are not random. *)
From Coq Require Import Reals Lra Lia List Arith ZArith Bool.
From Verif Require Import XR XTac SpecDist ModelDist LemDist ModelVec LemDisc ModelScan SpecScan LemScan ModelScanDet SpecScanDet LemScanDet.
Import ListNotations.
Open Scope nat_scope.

(** The full claim: every random output gets the log-density of its own series,
    and the sum is the joint log-density.  It holds when all outputs are random.
    Missing: computed outputs (refuted below), tap sets that are not symmetric
    (C44). *)
Theorem C63_random_partial step D (rs : list (list Z * list R)) (L : nat -> nat) N :
  let vars := map (fun tv => {| s_taps := fst tv; s_value := snd tv |}) rs in
  rs <> [] ->
  (forall u x, nth_error vars u = Some x -> tap_list (s_taps x) /\ max_lag (s_taps x) (L u) /\ symmetric (s_taps x) /\ length (s_value x) = N + L u) ->
  step_computes step D vars L N ->
  exists out, conditional_scan (fun t v e _ => step t v e) (map (fun r => Random (fst r)) rs) (map Some (map snd rs)) = Val (map (fun v => map (out v) (seq 0 N)) (seq 0 (length rs))) /\
    (forall v t, v < length rs -> t < N -> denotes (Val (out v t)) (D t v (history vars L t))) /\
    denotes (Val (xsum (concat (map (fun v => map (out v) (seq 0 N)) (seq 0 (length rs)))))) (scan_density D vars L N).
Proof. exact (all_random step D rs L N). Qed.
Print Assumptions C63_random_partial.
(** With computed outputs, which may read earlier values of the random outputs
    and of each other, the recurrences have exactly one solution at the given
    values of the random outputs. *)
Theorem C63_series cs vars L N : vars <> [] ->
  (forall u x, nth_error vars u = Some x -> tap_list (s_taps x) /\ max_lag (s_taps x) (L u) /\ symmetric (s_taps x) /\ length (s_value x) = N + L u) ->
  (forall c g, In (c, g) cs -> (forall k, In k (c_taps c) -> (- Z.of_nat (length (c_init c)) <= k < 0)%Z) /\ series_computes c g vars (map fst cs)) ->
  exists S, solves cs vars L N S /\ forall S', solves cs vars L N S' -> S' = S.
Proof. exact (series_exist cs vars L N). Qed.
Print Assumptions C63_series.
(** For any outputs, in any order: the first entries of the result are the
    series of the computed outputs themselves, initial values included; the
    log-densities of the random outputs, with parameters computed from these
    series, are the last entries; the sum is the joint log-density plus the sum
    of all computed values; and random output number [u] is evaluated at the
    value given for output number [u] of the scan. *)
Theorem C63_computed_partial step D (outs : list scan_out) (values : list (list R)) (cs : list (cout * (nat -> hist -> hist -> R))) (L : nat -> nat) N (S : list (list R)) :
  let vars := map (fun tv => {| s_taps := fst tv; s_value := snd tv |}) (combine (random_taps outs) values) in
  random_taps outs <> [] -> length values = length outs -> computed outs = map fst cs ->
  (forall u x, nth_error vars u = Some x -> tap_list (s_taps x) /\ max_lag (s_taps x) (L u) /\ symmetric (s_taps x) /\ length (s_value x) = N + L u) ->
  (forall c g, In (c, g) cs -> (forall k, In k (c_taps c) -> (- Z.of_nat (length (c_init c)) <= k < 0)%Z) /\ series_computes c g vars (map fst cs)) ->
  density_computes step D vars L N (map fst cs) S -> solves cs vars L N S ->
  exists out, conditional_scan step outs (map Some values) = Val (map (map Fin) S ++ map (fun v => map (out v) (seq 0 N)) (seq 0 (length (random_taps outs)))) /\
    (forall v t, v < length (random_taps outs) -> t < N -> denotes (Val (out v t)) (D t v (history vars L t) (c_history (map fst cs) S t))) /\
    denotes (Val (xsum (concat (map (map Fin) S ++ map (fun v => map (out v) (seq 0 N)) (seq 0 (length (random_taps outs)))))))
      (exp (total (concat S)) * scan_density (fun t v h => D t v h (c_history (map fst cs) S t)) vars L N).
Proof. exact (leading step D outs values cs L N S). Qed.
Print Assumptions C63_computed_partial.
(** A scan one of whose outputs has no value is refused, and so is one without
    random outputs. *)
Theorem C63_unvalued step outs given : In None given -> conditional_scan step outs given = Raise.
Proof. exact (unvalued step outs given). Qed.
Print Assumptions C63_unvalued.
Theorem C63_no_random step cs given : conditional_scan step (map Computed cs) given = Raise.
Proof. exact (no_random step cs given). Qed.
Print Assumptions C63_no_random.

Definition look (e : inputs) (k : Z) : R :=
  match List.find (fun p => Nat.eqb (fst (fst p)) 0 && Z.eqb (snd (fst p)) k)%bool e with Some p => snd p | None => 0%R end.
Lemma look_ok e (h : hist) taps k l : agrees e h taps -> nth_error taps 0 = Some l -> In k l -> h 0 k = Some (look e k).
Proof.
  intros (H & K) E I. destruct (K 0 l k E I) as (y & Iy). unfold look. destruct (List.find _ e) as [[[u j] x]|] eqn:F.
  - apply List.find_some in F as [I1 F]. cbn in F. apply Bool.andb_true_iff in F as [E1 E2]. apply Nat.eqb_eq in E1. apply Z.eqb_eq in E2. subst. exact (H _ _ _ I1).
  - exfalso. apply (List.find_none _ _ F) in Iy. cbn in Iy. rewrite Z.eqb_refl in Iy. discriminate.
Qed.
Definition or0 (o : option R) : R := match o with Some x => x | None => 0%R end.
(** Volatility: s_t = s_(t-1)/2 + x_(t-1)^2 and x_t ~ N(0, 1 + s_t^2), with
    initial values [x0] and [s0] *)
Definition vol_step (_ _ : nat) (e ce : inputs) : res xr :=
  normal_logprob (Fin 0) (Fin (1 + (look ce (-1) / 2 + look e (-1) ^ 2) ^ 2)) (Fin (look e 0)).
Definition vol_D (_ _ : nat) (h hc : hist) : R := normal_pdf 0 (1 + (or0 (hc 0%nat (-1)%Z) / 2 + or0 (h 0%nat (-1)%Z) ^ 2) ^ 2) (or0 (h 0%nat 0%Z)).
Definition vol (s0 : R) : cout := {| c_init := [s0]; c_taps := [(-1)%Z]; c_fn := fun _ e ce => Val (look ce (-1) / 2 + look e (-1) ^ 2)%R |}.
Definition vol_g (_ : nat) (h hc : hist) : R := (or0 (hc 0%nat (-1)%Z) / 2 + or0 (h 0%nat (-1)%Z) ^ 2)%R.
Example C63_volatility : forall x0 x1 x2 s0 : R,
  let vars := [{| s_taps := [(-1)%Z]; s_value := [x0; x1; x2] |}] in
  let s1 := (s0 / 2 + x0 ^ 2)%R in let s2 := (s1 / 2 + x1 ^ 2)%R in
  (forall u x, nth_error vars u = Some x -> tap_list (s_taps x) /\ max_lag (s_taps x) 1 /\ symmetric (s_taps x) /\ length (s_value x) = 2 + 1) /\
  (forall c g, In (c, g) [(vol s0, vol_g)] -> (forall k, In k (c_taps c) -> (- Z.of_nat (length (c_init c)) <= k < 0)%Z) /\ series_computes c g vars [vol s0]) /\
  density_computes vol_step vol_D vars (fun _ => 1) 2 [vol s0] [[s0; s1; s2]] /\ solves [(vol s0, vol_g)] vars (fun _ => 1) 2 [[s0; s1; s2]] /\
  scan_density (fun t v h => vol_D t v h (c_history [vol s0] [[s0; s1; s2]] t)) vars (fun _ => 1) 2 = (normal_pdf 0 (1 + s1 ^ 2) x1 * normal_pdf 0 (1 + s2 ^ 2) x2)%R.
Proof.
  intros x0 x1 x2 s0 vars s1 s2. destruct (lags_ok 1) as (T & M & S). split; [|split; [|split; [|split]]].
  - intros [|[|u]] x E; cbn in E; try discriminate. injection E as <-. auto.
  - intros c g [I|[]]. injection I as <- <-. split.
    + intros k [<-|[]]. cbn. lia.
    + intros t e ce h hc A1 A2. cbn [vol c_fn]. unfold vol_g. rewrite (look_ok e h _ (-1) _ A1 eq_refl), (look_ok ce hc _ (-1) _ A2 eq_refl) by (cbn; auto). reflexivity.
  - intros t v e ce Ht Hv A1 A2. set (h := history vars (fun _ => 1) t) in *. set (hc := c_history [vol s0] [[s0; s1; s2]] t) in *. clearbody h hc. unfold vol_D, vol_step. rewrite (look_ok e h _ (-1) _ A1 eq_refl), (look_ok e h _ 0 _ A1 eq_refl), (look_ok ce hc _ (-1) _ A2 eq_refl) by (cbn; auto). cbn [or0].
    apply normal_ok. pose proof (pow2_ge_0 (look ce (-1) / 2 + look e (-1) ^ 2)). lra.
  - split; [reflexivity|]. intros [|[|j]] c g s E Es; cbn in E, Es; try discriminate. injection E as <- <-. injection Es as <-. split; [reflexivity|]. split; [reflexivity|].
    intros [|[|t]] Ht; [reflexivity|reflexivity|lia].
  - unfold scan_density, vol_D. cbn -[normal_pdf pow Rdiv]. change (Pos.to_nat 1) with 1. change (Pos.to_nat 2) with 2. cbn -[normal_pdf pow Rdiv]. fold s1. fold s2. ring.
Qed.
Lemma den_same y a b : denotes (Val y) a -> denotes (Val y) b -> a = b.
Proof. destruct y; cbn; try easy; congruence. Qed.
Lemma pdf_pos m s x : (0 < s -> 0 < normal_pdf m s x)%R.
Proof. intros H. unfold normal_pdf. pose proof PI_RGT_0. pose proof (sqrt_lt_R0 (2 * PI) ltac:(lra)). apply Rmult_lt_0_compat; [apply Rinv_0_lt_compat; nra|apply exp_pos]. Qed.
(** The volatility model with the series of zeros and s_0 = 8 (so that s_1 = 4,
    s_2 = 2), all valued: the entry of the random output is the series 8, 4, 2
    and not its log-density, and the joint is e^14 times the density
    (scan.py:528-531 against 239-252, 273). *)
Theorem C63_computed_refuted : exists step D outs given vars cs (L : nat -> nat) N S out m,
  density_computes step D vars L N (map fst cs) S /\ solves cs vars L N S /\ conditional_scan step outs given = Val out /\ nth_error outs 0 = Some (Random [(-1)%Z]) /\
  nth_error out 0 = Some (map Fin m) /\ nth_error S 0 = Some m /\ ~ denotes (Val (Fin (nth 0 m 0%R))) (D 0 0 (history vars L 0) (c_history (map fst cs) S 0)) /\
  ~ denotes (Val (xsum (concat out))) (scan_density (fun t v h => D t v h (c_history (map fst cs) S t)) vars L N).
Proof.
  destruct (C63_volatility 0 0 0 8) as (W & CO & SC & Sol & Ed).
  destruct (C63_computed_partial vol_step vol_D [Random [(-1)%Z]; Computed (vol 8)] [[0; 0; 0]%R; [0; 0; 0]%R] [(vol 8, vol_g)] (fun _ => 1) 2 _ ltac:(discriminate) eq_refl eq_refl W CO SC Sol) as (out & E & H & J).
  eexists vol_step, vol_D, _, _, [{| s_taps := [(-1)%Z]; s_value := [0; 0; 0]%R |}], [(vol 8, vol_g)], (fun _ => 1), 2, _, _, _.
  split; [exact SC|]. split; [exact Sol|]. split; [exact E|]. split; [reflexivity|]. split; [reflexivity|]. split; [reflexivity|].
  assert (P : forall s, (0 < s -> 0 < normal_pdf 0 (1 + s ^ 2) 0 < 1)%R).
  { intros s Hs. assert (0 < s ^ 2)%R by nra. split; [apply pdf_pos; lra|]. unfold normal_pdf. replace (- (0 - 0) ^ 2 / (2 * (1 + s ^ 2) ^ 2))%R with 0%R by (field; nra). rewrite exp_0, Rmult_1_r.
    assert (1 < sqrt (2 * PI))%R by (rewrite <- sqrt_1; apply sqrt_lt_1; pose proof PI_4; pose proof PI2_1; unfold PI2 in *; lra).
    rewrite <- Rinv_1 at 2. apply Rinv_lt_contravar; nra. }
  split.
  - change (exp 8 = normal_pdf 0 (1 + (8 / 2 + 0 ^ 2) ^ 2) 0 -> False). intros Q. pose proof (P (8 / 2 + 0 ^ 2)%R ltac:(lra)). pose proof (exp_increasing 0 8 ltac:(lra)) as X1. rewrite exp_0 in X1. lra.
  - intros Q. pose proof (den_same _ _ _ J Q) as EQ. cbn [map fst] in EQ, Ed. cbn [random_taps computed flat_map app combine map fst snd] in EQ. rewrite Ed in EQ.
    set (s1 := (8 / 2 + 0 ^ 2)%R) in *. set (s2 := (s1 / 2 + 0 ^ 2)%R) in *. assert (H1 : (0 < s1)%R) by (unfold s1; lra). assert (H2 : (0 < s2)%R) by (unfold s2; lra).
    pose proof (P s1 H1) as P1. pose proof (P s2 H2) as P2. cbn [concat app total fold_right] in EQ.
    pose proof (exp_increasing 0 (8 + (s1 + (s2 + 0))) ltac:(lra)) as X1. rewrite exp_0 in X1.
    assert (P3 : (0 < normal_pdf 0 (1 + s1 ^ 2) 0 * normal_pdf 0 (1 + s2 ^ 2) 0)%R) by (apply Rmult_lt_0_compat; lra).
    revert EQ X1 P3. generalize (exp (8 + (s1 + (s2 + 0)))), (normal_pdf 0 (1 + s1 ^ 2) 0 * normal_pdf 0 (1 + s2 ^ 2) 0)%R. intros a b EQ X1 P3.
    assert (X2 := Rmult_lt_compat_r b 1 a P3 X1). lra.
Qed.
Print Assumptions C63_computed_refuted.
(** With the computed output first, the random one is evaluated at the value
    given for the computed one (scan.py:273): whatever is given for the random
    output, the result is the same. *)
Definition iid_step (_ _ : nat) (e _ : inputs) : res xr := normal_logprob (Fin 0) (Fin 1) (Fin (look e 0)).
Theorem C63_values_refuted : exists c x out, forall y, conditional_scan iid_step [Computed c; Random []] [Some [x]; Some [y]] = Val out.
Proof.
  assert (V : exists l, normal_logprob (Fin 0) (Fin 1) (Fin 3) = Val (Fin l)).
  { pose proof (normal_ok 0 1 3 ltac:(lra)) as Dn. pose proof (pdf_pos 0 1 3 ltac:(lra)).
    destruct (normal_logprob _ _ _) as [[l| | |]|]; cbn in Dn; try easy; [|lra]. exists l. auto. }
  destruct V as (l & El). exists {| c_init := []; c_taps := []; c_fn := fun _ _ _ => Val 3%R |}, 3%R, [[Fin 3]; [Fin l]]. intros y.
  assert (Q : conditional_scan iid_step [Computed {| c_init := []; c_taps := []; c_fn := fun _ _ _ => Val 3%R |}; Random []] [Some [3%R]; Some [y]] =
    bind (rseq [rseq [normal_logprob (Fin 0) (Fin 1) (Fin 3)]]) (fun ls => Val ([[Fin 3]] ++ ls))) by reflexivity.
  rewrite Q, El. reflexivity.
Qed.
Print Assumptions C63_values_refuted.
