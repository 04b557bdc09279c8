(** The log-CDF of geometric variables at all reals. *)
From Coq Require Import Reals Lra Lia.
From Coquelicot Require Import Coquelicot.
From Verif Require Import XR XTac Special SpecDist SpecCdf ModelDist LemInt LemNorm LemDisc LemDist LemCdf LemRef.
Open Scope R_scope.

Lemma denotes_fun r a b : denotes r a -> denotes r b -> a = b.
Proof. unfold denotes. destruct r as [[l| | |]|]; try tauto; congruence. Qed.
Lemma int_part_nat x : 0 <= x -> let n := Z.to_nat (Int_part x) in INR n <= x < INR n + 1.
Proof.
  intros H n. destruct (base_Int_part x) as [A B]. assert (C : IZR (-1) < IZR (Int_part x)) by lra. apply lt_IZR in C.
  unfold n. rewrite INR_IZR_INZ, Z2Nat.id by lia. lra.
Qed.
Lemma geometric_logcdf_real p x : 0 < p < 1 -> 0 < x -> denotes (geometric_logcdf (Fin p) (Fin x)) (1 - Rpower (1 - p) x).
Proof.
  intros Hp Hx. unfold geometric_logcdf. rewrite check_true by (xrun; reflexivity). rewrite xle_false by lra.
  assert (L : ln (1 - p) < 0) by (pose proof (ln_increasing (1 - p) 1 ltac:(lra) ltac:(lra)) as E'; rewrite ln_1 in E'; exact E').
  assert (Q : Rpower (1 - p) x < 1) by (pose proof (exp_increasing (x * ln (1 - p)) 0 ltac:(nra)) as E; rewrite exp_0 in E; exact E).
  apply den_log1mexp; [|left; exact Q]. unfold xlog1p. rewrite xneg_fin, xadd_fin, xlog_pos, xmul_fin by lra. cbn [den denotes].
  unfold Rpower. f_equal. replace (1 + - p) with (1 - p) by ring. ring.
Qed.
Lemma geometric_logcdf_one x : 0 < x -> denotes (geometric_logcdf (Fin 1) (Fin x)) 1.
Proof.
  intros Hx. unfold geometric_logcdf. rewrite check_true by (xrun; reflexivity). rewrite xle_false by lra.
  replace 1 with (1 - 0) at 2 by ring. apply den_log1mexp; [|left; lra]. unfold xlog1p. rewrite xneg_fin, xadd_fin, Rplus_opp_r, xlog_zero. cbn [xmul]. unfold sgn_inf. destruct (Rlt_dec 0 x); [|lra]. reflexivity.
Qed.
Lemma geometric_exact p x : 0 < p < 1 -> (denotes (geometric_logcdf (Fin p) (Fin x)) (mass_upto (geometric_pmf p) x) <-> x < 0 \/ exists k : nat, x = INR k).
Proof.
  intros Hp. split.
  - intros D. destruct (Rlt_dec x 0) as [H|H]; [now left|]. right. destruct (Req_EM_T x 0) as [->|N]; [now exists 0%nat|].
    pose proof (denotes_fun _ _ _ D (geometric_logcdf_real p x Hp ltac:(lra))) as E. unfold mass_upto in E. destruct (Rle_dec 0 x); [|lra]. rewrite geometric_cdf in E.
    exists (Z.to_nat (Int_part x)). rewrite <- Rpower_pow in E by lra. assert (F : Rpower (1 - p) (INR (Z.to_nat (Int_part x))) = Rpower (1 - p) x) by lra.
    unfold Rpower in F. apply exp_inv in F. assert (L : ln (1 - p) < 0) by (pose proof (ln_increasing (1 - p) 1 ltac:(lra) ltac:(lra)) as E'; rewrite ln_1 in E'; exact E'). apply Rmult_eq_reg_r in F; [now symmetry|lra].
  - intros [H|[k ->]]; [|apply geometric_logcdf_ok; lra]. unfold mass_upto. destruct (Rle_dec 0 x); [lra|]. apply geometric_logcdf_neg; lra.
Qed.
Lemma geometric_exact_one x : denotes (geometric_logcdf (Fin 1) (Fin x)) (mass_upto (geometric_pmf 1) x) <-> x <= 0 \/ 1 <= x.
Proof.
  split.
  - intros D. destruct (Rle_dec x 0) as [H|H]; [now left|]. right. pose proof (denotes_fun _ _ _ D (geometric_logcdf_one x ltac:(lra))) as E.
    unfold mass_upto in E. destruct (Rle_dec 0 x); [|lra]. rewrite geometric_cdf in E. destruct (int_part_nat x ltac:(lra)) as [A _]. destruct (Z.to_nat (Int_part x)) as [|n].
    + cbn in E. lra.
    + rewrite S_INR in A. pose proof (pos_INR n). lra.
  - intros [H|H].
    + destruct (Req_EM_T x 0) as [->|N]; [exact (geometric_logcdf_ok 1 0 (conj Rlt_0_1 (Rle_refl 1)))|]. unfold mass_upto. destruct (Rle_dec 0 x); [lra|]. apply geometric_logcdf_neg; lra.
    + unfold mass_upto. destruct (Rle_dec 0 x); [|lra]. rewrite geometric_cdf. destruct (int_part_nat x ltac:(lra)) as [_ B]. destruct (Z.to_nat (Int_part x)) as [|n]; [cbn in B; lra|].
      replace (1 - (1 - 1) ^ S n) with 1 by (replace (1 - 1) with 0 by ring; rewrite pow_i by lia; ring). apply geometric_logcdf_one. lra.
Qed.
Lemma geometric_icdf_one q : 0 < q < 1 -> geometric_icdf (Fin 1) (Fin q) = Val (Fin 0) /\ least_quantile (geometric_pmf 1) q 1.
Proof.
  intros Q. split.
  - unfold geometric_icdf. rewrite !xneg_fin. rewrite xlog1p_fin by lra. unfold xlog1p at 1. rewrite xadd_fin, Rplus_opp_r, xlog_zero. cbn [xdiv xceil]. do 2 f_equal.
    unfold Rceil_part. rewrite Ropp_0. rewrite (Int_part_IZR 0). reflexivity.
  - split.
    + rewrite mass_upto_nat, geometric_cdf. simpl. lra.
    + intros [|j]; [|lia]. rewrite mass_upto_nat, geometric_cdf. simpl. lra.
Qed.
