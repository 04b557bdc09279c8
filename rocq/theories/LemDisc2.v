(** The binomial series and the negative binomial masses (C05). *)
From Coq Require Import Reals Lra Lia ZArith List Bool.
From Coquelicot Require Import Coquelicot.
From Verif Require Import XR Special LemInt LemLim LemGamma SpecDist XTac ModelDist LemDist LemDisc.
Import ListNotations.
Open Scope R_scope.

Section BinomialSeries.
Variable n : R.
Hypothesis Hn : 0 < n.
Let a (k : nat) : R := rising n k / INR (fact k).

Lemma rising_pos k : 0 < rising n k.
Proof. induction k; simpl; [lra|]. apply Rmult_lt_0_compat; auto. generalize (pos_INR k); lra. Qed.
Lemma bs_ne k : a k <> 0.
Proof. unfold a. apply Rgt_not_eq, Rdiv_lt_0_compat; [apply rising_pos|apply INR_fact_lt_0]. Qed.
Lemma bs_succ k : INR (S k) * a (S k) = (n + INR k) * a k.
Proof.
  unfold a. cbn [rising]. rewrite fact_S_div. field. split; [apply INR_fact_neq_0|apply not_0_INR; lia].
Qed.
Lemma bs_radius : CV_radius a = Finite (/ 1).
Proof.
  apply CV_radius_finite_DAlembert; [apply bs_ne|lra|].
  apply (is_lim_seq_ext (fun k => 1 + (n - 1) * / INR (S k))).
  - intros k. assert (S0 : INR (S k) <> 0) by (apply not_0_INR; lia).
    assert (E : a (S k) / a k = (n + INR k) / INR (S k)).
    { assert (H := bs_succ k). assert (N := bs_ne k).
      replace (a (S k)) with ((n + INR k) * a k / INR (S k)) by (rewrite <- H; field; auto). field. auto. }
    rewrite E. rewrite Rabs_right.
    + rewrite S_INR in *. field. auto.
    + apply Rle_ge, Rmult_le_pos; [generalize (pos_INR k); lra|]. apply Rlt_le, Rinv_0_lt_compat, lt_0_INR; lia.
  - replace (Finite 1) with (Rbar_plus 1 (Rbar_mult (n - 1) 0)) by (simpl; f_equal; ring).
    apply is_lim_seq_plus'; [apply is_lim_seq_const|].
    replace ((n - 1) * 0) with (real (Rbar_mult (n - 1) 0)) by (simpl; ring).
    apply (is_lim_seq_scal_l (fun k => / INR (S k)) (n - 1) 0).
    apply (is_lim_seq_incr_1 (fun k => / INR k)).
    replace (Finite 0) with (Rbar_inv p_infty) by reflexivity.
    apply is_lim_seq_inv; [apply is_lim_seq_INR|discriminate].
Qed.
Lemma bs_in q : Rabs q < 1 -> Rbar_lt (Rabs q) (CV_radius a).
Proof. intros. rewrite bs_radius. simpl. lra. Qed.
Lemma bs_ode q : Rabs q < 1 -> (1 - q) * PSeries (PS_derive a) q = n * PSeries a q.
Proof.
  intros Hq.
  assert (E1 : ex_pseries a q) by (apply CV_radius_inside, bs_in; auto).
  assert (E2 : ex_pseries (PS_derive a) q).
  { apply CV_radius_inside. rewrite CV_radius_derive. now apply bs_in. }
  assert (E : PSeries (PS_derive a) q - q * PSeries (PS_derive a) q = n * PSeries a q); [|lra].
  rewrite <- PSeries_incr_1, <- PSeries_minus, <- PSeries_scal; auto.
  2:{ apply ex_pseries_incr_1; auto. }
  apply PSeries_ext. intros k. unfold PS_minus, PS_scal, PS_incr_1, PS_derive. unfold PS_plus, PS_opp.
  rewrite bs_succ. destruct k as [|k].
  - unfold plus, opp, scal, zero; simpl. unfold mult; simpl. ring.
  - change ((n + INR (S k)) * a (S k) + - (INR (S k) * a (S k)) = n * a (S k)). ring.
Qed.
Lemma bs_value q : Rabs q < 1 -> PSeries a q = Rpower (1 - q) (- n).
Proof.
  intros Hq. apply Rabs_def2 in Hq as Hq'.
  assert (E : PSeries a q * Rpower (1 - q) n = PSeries a 0 * Rpower (1 - 0) n).
  { apply (inside_const (fun q => PSeries a q * Rpower (1 - q) n) (-1) 1 q 0).
    2,3: split; simpl; lra.
    intros z [Hz1 Hz2]; simpl in Hz1, Hz2.
    assert (Hz : Rabs z < 1) by (apply Rabs_def1; lra).
    assert (D2 : is_derive (fun q => Rpower (1 - q) n) z (-1 * (n * Rpower (1 - z) (n - 1)))).
    { apply (is_derive_comp (fun y => Rpower y n) (fun q => 1 - q) z).
      - apply is_derive_Rpower; lra.
      - auto_derive; auto; ring. }
    assert (D1 := is_derive_PSeries a z (bs_in z Hz)).
    assert (D := is_derive_mult _ _ z _ _ D1 D2 Rmult_comm).
    match type of D with is_derive _ _ ?d => replace 0 with d; [exact D|] end.
    unfold plus, mult; simpl. rewrite Rpower_pred by lra.
    assert (O := bs_ode z Hz).
    replace (PSeries (PS_derive a) z) with (n * PSeries a z / (1 - z)) by (rewrite <- O; field; lra).
    field. lra. }
  rewrite PSeries_0 in E. unfold a at 2 in E. simpl in E. rewrite Rminus_0_r, Rpower_1_base in E.
  rewrite Rpower_Ropp. pose proof (Rpower_pos (1 - q) n). apply Rmult_eq_reg_r with (Rpower (1 - q) n); [|lra].
  rewrite E. field. lra.
Qed.
Lemma nbinom_sum p : 0 < p < 1 -> is_series (nbinom_pmf n p) 1.
Proof.
  intros Hp. assert (Hq : Rabs (1 - p) < 1) by (rewrite Rabs_right; lra).
  assert (E1 : ex_pseries a (1 - p)) by (apply CV_radius_inside, bs_in; auto).
  apply PSeries_correct in E1. rewrite bs_value in E1 by auto. unfold is_pseries in E1.
  apply (is_series_scal_r (Rpower p n)) in E1.
  replace (1 - (1 - p)) with p in E1 by ring.
  rewrite Rpower_Ropp in E1. pose proof (Rpower_pos p n).
  assert (Ev : / Rpower p n * Rpower p n = 1) by (field; lra). rewrite Ev in E1.
  eapply is_series_ext; [|exact E1]. intros k. unfold nbinom_pmf. rewrite pow_n_pow.
  unfold scal; simpl; unfold mult; simpl. unfold a. ring.
Qed.
End BinomialSeries.
