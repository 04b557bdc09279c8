(** C13: the Jacobian determinant of the simplex transform. *)
From Coq Require Import Reals Lra Lia ZArith List Bool.
From Verif Require Import XR SpecVec LemVec RMx SpecMvn LemMvn LemMvn2 LemSimplex2 ModelSimplex SpecSimplex LemSimplex.
Import ListNotations.
Open Scope R_scope.

Lemma prodn_exp v z : z <> 0 -> prodn (length v) (fun i => exp (nth i v 0) / z) = exp (rtotal v) / z ^ length v.
Proof.
  intros Z. rewrite <- (rev_involutive v). induction (rev v) as [|c l IH]; [cbn; rewrite exp_0; field|].
  cbn [rev]. rewrite app_length. cbn [length]. rewrite Nat.add_1_r. cbn [prodn pow]. rewrite app_nth2, Nat.sub_diag by auto. cbn [nth].
  replace (prodn (length (rev l)) (fun i => exp (nth i (rev l ++ [c]) 0) / z)) with (prodn (length (rev l)) (fun i => exp (nth i (rev l) 0) / z)).
  - rewrite IH, rtotal_app, exp_plus. replace (rtotal [c]) with c by (cbn; ring). field. split; [now apply pow_nonzero|exact Z].
  - assert (G : forall n f g, (forall i, (i < n)%nat -> f i = g i) -> prodn n f = prodn n g).
    { induction n as [|n IHn]; intros f g H; [reflexivity|]. cbn. rewrite (IHn f g), (H n) by auto with arith. reflexivity. }
    apply G. intros i I. now rewrite app_nth1.
Qed.
Lemma rtotal_sumn l : rtotal l = sumn (length l) (fun i => nth i l 0).
Proof.
  rewrite <- (rev_involutive l). induction (rev l) as [|c m IH]; [reflexivity|]. cbn [rev]. rewrite rtotal_app, app_length. cbn [length]. rewrite Nat.add_1_r.
  cbn [sumn]. rewrite app_nth2, Nat.sub_diag by auto. cbn [nth]. rewrite sumn_ext with (g := fun i => nth i (rev m) 0) by (intros i I; now rewrite app_nth1).
  rewrite IH. cbn. ring.
Qed.
Lemma det_Js v : rdet (length v) (Js v) = INR (S (length v)) / Zs v ^ S (length v).
Proof.
  unfold Js. rewrite (rdet_rank1 (length v) (fun i => nth i (soft v) 0) (fun j => nth j (soft v) 0 - nth (length v) (soft v) 0) (fun i j => if Nat.eq_dec i j then 1 else 0)).
  2:{ intros i. now destruct (Nat.eq_dec i i). }
  2:{ intros i j N. now destruct (Nat.eq_dec i j). }
  pose proof (Zs_pos v) as Z.
  assert (P : prodn (length v) (fun i => nth i (soft v) 0) = exp (rtotal v) / Zs v ^ length v).
  { rewrite <- (prodn_exp v (Zs v)) by lra. assert (G : forall n f g, (forall i, (i < n)%nat -> f i = g i) -> prodn n f = prodn n g).
    { induction n as [|n IHn]; intros f g H; [reflexivity|]. cbn. rewrite (IHn f g), (H n) by auto with arith. reflexivity. }
    apply G. intros i I. now apply soft_nth. }
  rewrite P.
  assert (S1 : sumn (length v) (fun j => nth j (soft v) 0 - nth (length v) (soft v) 0) = 1 - INR (S (length v)) * nth (length v) (soft v) 0).
  { destruct (soft_simplex v) as (L & _ & T). rewrite rtotal_sumn, L in T. cbn [sumn] in T.
    rewrite sumn_ext with (g := fun j => nth j (soft v) 0 + - nth (length v) (soft v) 0 * 1) by (intros; ring).
    rewrite sumn_plus, sumn_scal. replace (sumn (length v) (fun _ => 1)) with (INR (length v)).
    - rewrite S_INR. lra.
    - clear. induction (length v) as [|n IH]; [reflexivity|]. rewrite S_INR. cbn [sumn]. now rewrite <- IH. }
  rewrite S1, soft_last. cbn [pow]. replace (exp (- rtotal v)) with (/ exp (rtotal v)) by (now rewrite exp_Ropp).
  pose proof (exp_pos (rtotal v)). assert (Zs v ^ length v <> 0) by (apply pow_nonzero; lra). field. repeat split; lra || assumption.
Qed.
Lemma simplex_det v : rdet (length v) (Js v) <> 0 /\ simplex_log_jac_det (map Fin v) = Fin (ln (Rabs (rdet (length v) (Js v)))).
Proof.
  rewrite log_jac_value, det_Js. pose proof (Zs_pos v) as Z. assert (N : 0 < INR (S (length v))) by (apply lt_0_INR; lia).
  pose proof (pow_lt (Zs v) (S (length v)) Z) as Q. pose proof (Rdiv_lt_0_compat _ _ N Q). split; [lra|].
  rewrite Rabs_pos_eq by lra. unfold Rdiv. rewrite ln_mult, ln_Rinv, ln_pow by auto using Rinv_0_lt_compat. f_equal; ring.
Qed.
