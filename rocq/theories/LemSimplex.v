(** Lemmas for C13: the simplex transform on real vectors. *)
From Coq Require Import Reals Lra Lia ZArith List Bool.
From Coquelicot Require Import Coquelicot.
From Verif Require Import XR Special XTac ModelDist ModelVec LemDist SpecVec LemVec ModelSimplex SpecSimplex.
Import ListNotations.
Open Scope R_scope.

Definition ext (v : list R) : list R := v ++ [- rtotal v].
Definition Zs (v : list R) : R := rtotal (map exp (ext v)).
Definition soft (v : list R) : list R := map (fun x => exp x / Zs v) (ext v).
Lemma rtotal_exp_nneg l : 0 <= rtotal (map exp l).
Proof. apply rtotal_nneg. apply Forall_map, Forall_forall. intros x _. left. apply exp_pos. Qed.
Lemma Zs_alt v : Zs v = rtotal (map exp v) + exp (- rtotal v).
Proof. unfold Zs, ext. rewrite map_app, rtotal_app. cbn. ring. Qed.
Lemma Zs_pos v : 0 < Zs v.
Proof. rewrite Zs_alt. pose proof (rtotal_exp_nneg v). pose proof (exp_pos (- rtotal v)). lra. Qed.
Lemma xmaxl_fin a l : exists m, xmaxl (Fin a) (map Fin l) = Fin m.
Proof.
  revert a. induction l as [|b l IH]; intros a; [eexists; reflexivity|]. cbn [map xmaxl]. destruct (IH b) as (m & ->). cbn [xmaximum].
  destruct (xlt (Fin a) (Fin m)); eauto.
Qed.
Lemma at_max_fin l : l <> [] -> exists m, at_max (map Fin l) = Fin m.
Proof. destruct l as [|a l]; [easy|]. intros _. apply xmaxl_fin. Qed.
Lemma backward_soft v : simplex_backward (map Fin v) = map Fin (soft v).
Proof.
  unfold simplex_backward. cbv zeta. rewrite xsum_Fin. cbn [xneg].
  replace (map Fin v ++ [Fin (- rtotal v)]) with (map Fin (ext v)) by (unfold ext; now rewrite map_app).
  destruct (at_max_fin (ext v)) as (m & ->); [unfold ext; now destruct v|]. rewrite !map_map.
  rewrite map_ext with (f := fun x => xexp (xsub (Fin x) (Fin m))) (g := fun x => Fin (exp (- m) * exp x)).
  2:{ intros x. cbn [xsub xneg xadd xexp]. f_equal. rewrite <- exp_plus. f_equal. ring. }
  rewrite <- (map_map (fun x => exp (- m) * exp x) Fin), xsum_Fin, rtotal_map_scal. fold (Zs v).
  unfold soft. rewrite map_map. apply map_ext. intros x. pose proof (Zs_pos v). pose proof (exp_pos (- m)).
  assert (exp (- m) * Zs v <> 0) by (apply Rmult_integral_contrapositive; lra).
  cbn [xsub xneg xadd xexp]. rewrite xdiv_fin by assumption. f_equal. replace (x + - m) with (- m + x) by ring. rewrite exp_plus. field. lra.
Qed.
Lemma soft_simplex v : in_simplex (length v) (soft v).
Proof.
  pose proof (Zs_pos v). split; [unfold soft, ext; rewrite map_length, app_length; cbn; lia|]. split.
  - apply Forall_map, Forall_forall. intros x _. apply Rdiv_lt_0_compat; [apply exp_pos|assumption].
  - unfold soft. rewrite <- (map_map exp (fun x => x / Zs v)), rtotal_scal. fold (Zs v). field. lra.
Qed.
Lemma removelast_map {A B} (f : A -> B) l : removelast (map f l) = map f (removelast l).
Proof. induction l as [|a [|b l] IH]; [reflexivity..|]. cbn [map removelast] in *. now rewrite IH. Qed.
Lemma forward_fin x : x <> [] -> List.Forall (fun a => 0 < a) x ->
  simplex_forward (map Fin x) = map Fin (map (fun a => ln a - rtotal (map ln x) / INR (length x)) (removelast x)).
Proof.
  intros N F. unfold simplex_forward. cbv zeta. rewrite map_map, map_length.
  rewrite map_ext_in with (g := fun a => Fin (ln a)) by (intros a I; apply xlog_pos; rewrite List.Forall_forall in F; now apply F).
  rewrite <- (map_map ln Fin), xsum_Fin, xdiv_fin by (apply not_0_INR; destruct x; [easy|discriminate]).
  rewrite removelast_map, removelast_map, !map_map. reflexivity.
Qed.
Lemma rtotal_sub {A} (f : A -> R) c l : rtotal (map (fun a => f a - c) l) = rtotal (map f l) - INR (length l) * c.
Proof. unfold rtotal. induction l as [|a l IH]; cbn [map fold_right length]; [cbn; ring|]. rewrite IH, S_INR. ring. Qed.
Lemma forward_backward v : simplex_forward (simplex_backward (map Fin v)) = map Fin v.
Proof.
  rewrite backward_soft. destruct (soft_simplex v) as (L & P & _). rewrite forward_fin; [|intros E; rewrite E in L; discriminate|exact P].
  f_equal. unfold soft at 1. rewrite L. unfold soft. rewrite map_map. pose proof (Zs_pos v).
  assert (Q : forall a, ln (exp a / Zs v) = a - ln (Zs v)) by (intros a; unfold Rdiv; rewrite ln_mult, ln_exp, ln_Rinv; auto using exp_pos, Rinv_0_lt_compat; ring).
  rewrite map_ext with (g := fun a => a - ln (Zs v)) (f := fun x => ln (exp x / Zs v)) by exact Q.
  rewrite (rtotal_sub (fun a => a)), map_id. unfold ext. rewrite rtotal_app, app_length. cbn [length].
  replace (rtotal [- rtotal v]) with (- rtotal v) by (cbn; ring). rewrite removelast_map, removelast_last, map_map, Nat.add_1_r.
  transitivity (map (fun a : R => a) v); [|apply map_id]. apply map_ext. intros a. cbv beta. rewrite Q. assert (INR (S (length v)) <> 0) by (apply not_0_INR; lia). field. assumption.
Qed.
Lemma backward_forward n x : in_simplex n x -> simplex_backward (simplex_forward (map Fin x)) = map Fin x.
Proof.
  intros (L & P & S1). assert (N : x <> []) by (intros ->; discriminate). rewrite forward_fin by assumption. rewrite backward_soft. f_equal.
  destruct (exists_last N) as (w & a & ->). rewrite removelast_last.
  set (m := rtotal (map ln (w ++ [a])) / INR (length (w ++ [a]))).
  assert (E : ext (map (fun b => ln b - m) w) = map (fun b => ln b - m) (w ++ [a])).
  { unfold ext. rewrite map_app. cbn [map]. do 2 f_equal. rewrite rtotal_sub. unfold m. rewrite map_app, rtotal_app, app_length. cbn [length map rtotal fold_right].
    rewrite Nat.add_1_r, S_INR. pose proof (pos_INR (length w)). field. lra. }
  assert (X : forall b, In b (w ++ [a]) -> exp (ln b - m) = exp (- m) * b).
  { intros b I. rewrite List.Forall_forall in P. unfold Rminus. rewrite exp_plus, exp_ln by (now apply P). ring. }
  assert (Zm : Zs (map (fun b => ln b - m) w) = exp (- m)).
  { unfold Zs. rewrite E, map_map. rewrite map_ext_in with (g := fun b => exp (- m) * b) by exact X. rewrite rtotal_map_scal, map_id, S1. ring. }
  unfold soft. rewrite Zm, E, map_map. rewrite <- (map_id (w ++ [a])) at 2. apply map_ext_in. intros b I. rewrite X by exact I.
  pose proof (exp_pos (- m)). field. lra.
Qed.

(** ** derivatives *)
Lemma upd_length v j t : length (upd v j t) = length v.
Proof. revert j; induction v as [|a v IH]; intros [|j]; cbn; auto. Qed.
Lemma upd_nth v j t i : (j < length v)%nat -> nth i (upd v j t) 0 = if Nat.eq_dec i j then t else nth i v 0.
Proof.
  revert j i; induction v as [|a v IH]; intros j i H; [inversion H|]. cbn [length] in H.
  destruct (Nat.eq_dec i j) as [->|N].
  - destruct j as [|j]; [reflexivity|]. cbn [upd nth]. rewrite IH by lia. now destruct (Nat.eq_dec j j).
  - destruct j as [|j], i as [|i]; cbn [upd nth]; [easy|reflexivity..|]. rewrite IH by lia. destruct (Nat.eq_dec i j); [congruence|reflexivity].
Qed.
Lemma upd_total (f : R -> R) v j t : (j < length v)%nat -> rtotal (map f (upd v j t)) = rtotal (map f v) - f (nth j v 0) + f t.
Proof.
  revert j; induction v as [|a v IH]; intros [|j] H; cbn in *; try lia; [ring|]. unfold rtotal in IH. rewrite IH by lia. ring.
Qed.
Lemma soft_nth v i : (i < length v)%nat -> nth i (soft v) 0 = exp (nth i v 0) / Zs v.
Proof.
  intros H. unfold soft, ext. rewrite map_app, app_nth1 by (now rewrite map_length).
  rewrite (nth_indep _ 0 (exp 0 / Zs v)) by (now rewrite map_length). apply (map_nth (fun x => exp x / Zs v)).
Qed.
Lemma soft_last v : nth (length v) (soft v) 0 = exp (- rtotal v) / Zs v.
Proof. unfold soft, ext. rewrite map_app, app_nth2; rewrite map_length; [|lia]. now rewrite Nat.sub_diag. Qed.
Definition Js (v : list R) (i j : nat) : R :=
  nth i (soft v) 0 * ((if Nat.eq_dec i j then 1 else 0) - (nth j (soft v) 0 - nth (length v) (soft v) 0)).
Lemma soft_jacobian v : is_jacobian (length v) soft v (Js v).
Proof.
  intros i j Hi Hj. set (K := rtotal (map exp v) - exp (nth j v 0)). set (c := rtotal v - nth j v 0).
  assert (Zt : forall t, Zs (upd v j t) = K + exp t + exp (- (c + t))).
  { intros t. rewrite Zs_alt, upd_total by exact Hj. pose proof (upd_total (fun x => x) v j t Hj) as U. rewrite !map_id in U. rewrite U. reflexivity. }
  assert (ZP : forall t, K + exp t + exp (- (c + t)) <> 0) by (intros t; rewrite <- Zt; pose proof (Zs_pos (upd v j t)); lra).
  assert (Z0 : Zs v = K + exp (nth j v 0) + exp (- (c + nth j v 0))).
  { rewrite Zs_alt. unfold K, c. replace (rtotal v - nth j v 0 + nth j v 0) with (rtotal v) by ring. ring. }
  apply is_derive_ext with (f := fun t => exp (if Nat.eq_dec i j then t else nth i v 0) / (K + exp t + exp (- (c + t)))).
  { intros t. rewrite soft_nth by (rewrite upd_length; exact Hi). rewrite Zt, upd_nth by exact Hj. reflexivity. }
  unfold Js. rewrite soft_last, !soft_nth by assumption. rewrite Z0.
  replace (- rtotal v) with (- (c + nth j v 0)) by (unfold c; ring). pose proof (ZP (nth j v 0)).
  destruct (Nat.eq_dec i j) as [->|].
  - auto_derive; [exact H|]. field. exact H.
  - auto_derive; [exact H|]. field. exact H.
Qed.
Lemma log_jac_value v : simplex_log_jac_det (map Fin v) = Fin (ln (INR (S (length v))) - INR (S (length v)) * ln (Zs v)).
Proof.
  unfold simplex_log_jac_det. cbv zeta. rewrite map_length, xsum_Fin, map_map, Nat.add_1_r.
  rewrite map_ext with (g := fun x => Fin (x + rtotal v)) by (intros; apply xadd_fin). rewrite map_app, map_map. cbn [map xexp].
  replace (map (fun x => Fin (exp (x + rtotal v))) v ++ [Fin (exp 0)]) with (map Fin (map (fun x => exp (rtotal v) * exp x) (ext v))).
  2:{ unfold ext. rewrite !map_map, map_app. cbn [map]. f_equal; [apply map_ext; intros x; f_equal; rewrite <- exp_plus; f_equal; ring|]. do 2 f_equal. rewrite <- exp_plus. f_equal. ring. }
  rewrite xsum_Fin, rtotal_map_scal. fold (Zs v). pose proof (Zs_pos v). pose proof (exp_pos (rtotal v)).
  assert (0 < INR (S (length v))) by (apply lt_0_INR; lia).
  rewrite !xlog_pos by (try apply Rmult_lt_0_compat; assumption). rewrite !xmul_fin, xadd_fin, xsub_fin. f_equal.
  rewrite ln_mult, ln_exp by assumption. ring.
Qed.
