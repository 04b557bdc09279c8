(** Clipping discrete variables at bounds that are no integers. *)
From Coq Require Import Reals Lra Lia ZArith List Bool.
From Coquelicot Require Import Coquelicot.
From Verif Require Import XR XTac Special SpecDist ModelDist ModelVec SpecCens ModelCens SpecCdf LemDist LemDisc LemCdf LemCens.
Open Scope R_scope.

Lemma half_clip n : clip_fun m_infty (1/2) (INR n) = 1/2 <-> n <> 0%nat.
Proof.
  cbn [clip_fun]. destruct n as [|n]; [cbn; rewrite Rmin_right by lra; split; [lra|easy]|]. rewrite S_INR. pose proof (pos_INR n). rewrite Rmin_left by lra. split; easy.
Qed.
Lemma half_mass mu : is_series (fun n => if Req_EM_T (clip_fun m_infty (1/2) (INR n)) (1/2) then poisson_pmf mu n else 0) (1 - exp (- mu)).
Proof.
  apply is_series_decr_1. match goal with |- is_series ?a ?l => replace l with (1 - poisson_pmf mu 0) end.
  - apply (is_series_ext (fun n => poisson_pmf mu (S n))).
    + intros n. destruct (Req_EM_T _ _) as [E|E]; auto. exfalso. apply E. apply half_clip. easy.
    + apply (is_series_incr_1 (poisson_pmf mu)). unfold plus; cbn. replace (1 - poisson_pmf mu 0 + poisson_pmf mu 0) with 1 by ring. apply poisson_sum.
  - destruct (Req_EM_T _ _) as [E|E]; [apply half_clip in E; easy|]. unfold plus, opp; cbn. unfold poisson_pmf. cbn. field.
Qed.
(** P(K >= 1/2) is given out as more than that *)
Lemma clip_half mu : 0 < mu -> exists d, denotes (clip_logprob true (poisson_logprob (Fin mu)) (poisson_logcdf (Fin mu)) (BConst NInf) (BConst (Fin (1/2))) (Fin (1/2))) d /\ 1 - exp (- mu) < d.
Proof.
  intros H. pose proof (poisson_logcdf_ok mu (1/2) ltac:(lra)) as P.
  assert (E : mass_upto (poisson_pmf mu) (1/2) = exp (- mu)).
  { unfold mass_upto. destruct (Rle_dec 0 (1/2)); [|lra]. assert (Int_part (1/2) = 0%Z) as ->. { destruct (base_Int_part (1/2)) as [A B]. assert (IZR (Int_part (1/2)) < 1) as C by lra. assert (IZR (-1) < IZR (Int_part (1/2))) as D by lra. apply lt_IZR in C. apply lt_IZR in D. lia. } cbn. unfold poisson_pmf. cbn. field. }
  rewrite E in P.
  assert (Q : exists p, poisson_logprob (Fin mu) (Fin (1/2)) = Val (Fin p)).
  { unfold poisson_logprob. eexists. assert (xeq (Fin mu) (Fin 0) && xeq (Fin (1/2)) (Fin 0) = false) as ->. { apply andb_false_iff. left. unfold xeq, Reqb. destruct (Req_EM_T mu 0); [lra|auto]. }
    cbn [rswitch]. rewrite check_true by (cbn [forallb]; now rewrite xle_true by lra). rewrite xle_true by lra. rewrite xadd_fin, xgammaln_fin by lra.
    unfold xlogy0. xrun. reflexivity. }
  destruct Q as [p Q]. exists (1 - exp (- mu) + exp p). pose proof (exp_pos p). split; [|lra].
  unfold clip_logprob. rewrite Q. destruct (poisson_logcdf (Fin mu) (Fin (1/2))) as [c|]; [|easy]. cbn [bind lower_unbounded upper_unbounded negb andb bval]. rewrite xeq_true by auto.
  apply den_logaddexp; [apply den_le1; auto|reflexivity]. rewrite <- exp_0. left. apply exp_increasing. lra.
Qed.
Lemma noninteger_bound : exists (mu b d s : R), 0 < mu /\
  denotes (clip_logprob true (poisson_logprob (Fin mu)) (poisson_logcdf (Fin mu)) (BConst NInf) (BConst (Fin b)) (Fin b)) d /\
  is_series (fun n => if Req_EM_T (clip_fun m_infty b (INR n)) b then poisson_pmf mu n else 0) s /\ s < d.
Proof. destruct (clip_half 1 ltac:(lra)) as (d & D & L). exists 1, (1/2), d, (1 - exp (- 1)). split; [lra|]. split; [exact D|]. split; [apply half_mass|exact L]. Qed.
