(** Lemmas for C78. *)
From Coq Require Import Reals Lra Lia List Bool Arith.
From Coquelicot Require Import Coquelicot.
From Verif Require Import XR SpecDist ModelDist ModelVec SpecVec ModelTen ModelTrans SpecTrans SpecSimplex LemVec RMx LemMvn2 ModelVTrans SpecVTrans LemVTrans LemVTrans2 ModelDefJac SpecDefJac.
Import ListNotations.
Open Scope R_scope.

Lemma xlogabs r : r <> 0 -> xlog (xabs (Fin r)) = Fin (ln (Rabs r)).
Proof. intros N. unfold xlog, xabs. pose proof (Rabs_pos_lt r N). destruct (Rlt_dec 0 (Rabs r)); [reflexivity|]. destruct (Req_EM_T (Rabs r) 0); lra. Qed.
Lemma default_value g grad v f J : gradients_at g grad v f J -> default_vector g grad (map Fin v) = Val (DSca (xlog (xabs (Fin (rdet (length v) J))))).
Proof.
  intros (_ & E & L & _ & Q). unfold default_vector. rewrite E. cbn [bind]. rewrite !map_length, L. unfold default_log_jac_det. cbn [bind]. unfold atleast_2d, det_nd. cbn [nshp nelt].
  rewrite Nat.eqb_refl. cbn [hd tl]. cbn [rmap].
  assert (B : forallb (fun i => forallb (fun j => is_fin (grad (map Fin v) i j)) (seq 0 (length v))) (seq 0 (length v)) = true).
  { apply forallb_forall. intros i I. apply in_seq in I. apply forallb_forall. intros j K. apply in_seq in K. now rewrite Q by lia. }
  rewrite B. cbn [rmap]. do 4 f_equal. rewrite (rdet_ext (length v) _ J); [reflexivity|]. intros i j I K. now rewrite Q.
Qed.
Lemma default_vec lp g grad v f J b : gradients_at g grad v f J -> rdet (length v) J <> 0 -> lp (map Fin (f v)) = Val (DSca (Fin b)) -> exists p,
  transformed_vector true lp g (default_vector g grad) (map Fin v) = Val (DSca (Fin p)) /\ changed_logpdf g v b p.
Proof.
  intros G N E. unfold transformed_vector. rewrite (default_value _ _ _ _ _ G). destruct G as (C & B & L & D & _). rewrite B. cbn [bind]. rewrite E. cbn [bind]. rewrite xlogabs by assumption.
  eexists. split; [reflexivity|]. exists (ln (Rabs (rdet (length v) J))). split; [|reflexivity]. exists f, J. auto.
Qed.
Lemma xsum_fin ls : xsum (map Fin ls) = Fin (rtotal ls).
Proof. rewrite <- (map_id ls) at 2. apply (xsum_of (fun x => x)). Qed.
Lemma rtotal_shift x ls : rtotal (map (fun y => y + x) ls) = rtotal ls + INR (length ls) * x.
Proof. rewrite (rtotal_two (fun y => y) (fun _ => x)), map_id, rtotal_const. reflexivity. Qed.
Lemma default_draws lp g grad v f J bs : gradients_at g grad v f J -> rdet (length v) J <> 0 -> lp (map Fin (f v)) = Val (DVec (map Fin bs)) -> exists d p,
  transformed_vector true lp g (default_vector g grad) (map Fin v) = Val d /\ factor d = Fin (p + (INR (length bs) - 1) * ln (Rabs (rdet (length v) J))) /\ changed_logpdf g v (rtotal bs) p.
Proof.
  intros G N E. unfold transformed_vector. rewrite (default_value _ _ _ _ _ G). destruct G as (C & B & L & D & _). rewrite B. cbn [bind]. rewrite E. cbn [bind]. rewrite xlogabs by assumption.
  eexists. exists (rtotal bs + ln (Rabs (rdet (length v) J))). split; [reflexivity|]. split.
  - cbn [vadd factor]. rewrite map_map. cbn [xadd]. rewrite <- (map_map (fun y => y + ln (Rabs (rdet (length v) J))) Fin), xsum_fin, rtotal_shift. f_equal. ring.
  - exists (ln (Rabs (rdet (length v) J))). split; [|reflexivity]. exists f, J. auto.
Qed.
Lemma chain_value l v : l <> [] -> List.Forall unscaled l -> List.Forall (good l) v -> exists ls,
  chain_log_jac_det (map VElem l) (map Fin v) = Val (DVec (map Fin ls)) /\ length ls = length v /\ log_abs_det (chain_backward (map VElem l)) v (rtotal ls).
Proof.
  intros A B C. destruct (elementwise_ok l v A B C) as (ls & E & D). exists ls. split; [exact E|]. split; [|now apply det_derivs].
  destruct D as (_ & _ & _ & _ & L & _). exact L.
Qed.
Lemma map2_add bs : forall ls, length ls = length bs -> map2 xadd (map Fin bs) (map Fin ls) = map Fin (map2 Rplus bs ls).
Proof. induction bs as [|x bs IH]; intros [|y ls] L; try discriminate L; [reflexivity|]. cbn. now rewrite IH by (injection L as L; exact L). Qed.
Lemma rtotal_map2 bs : forall ls, length ls = length bs -> rtotal (map2 Rplus bs ls) = rtotal bs + rtotal ls.
Proof. induction bs as [|x bs IH]; intros [|y ls] L; try discriminate L; cbn; [ring|]. change (fold_right Rplus 0) with rtotal. rewrite IH by (injection L as L; exact L). ring. Qed.
Lemma elementwise_draws lp l v w bs : l <> [] -> List.Forall unscaled l -> List.Forall (good l) v ->
  chain_backward (map VElem l) (map Fin v) = Val w -> lp w = Val (DVec (map Fin bs)) -> length bs = length v -> exists d p,
  transformed_vector true lp (chain_backward (map VElem l)) (chain_log_jac_det (map VElem l)) (map Fin v) = Val d /\ factor d = Fin p /\
  changed_logpdf (chain_backward (map VElem l)) v (rtotal bs) p.
Proof.
  intros A B C W E L. destruct (chain_value l v A B C) as (ls & Q & Ls & D). unfold transformed_vector. rewrite W. cbn [bind]. rewrite E. cbn [bind]. rewrite Q. cbn [bind vadd].
  eexists. exists (rtotal bs + rtotal ls). split; [reflexivity|]. split; [|now exists (rtotal ls)]. cbn [factor]. rewrite map2_add, xsum_fin, rtotal_map2 by lia. reflexivity.
Qed.
Lemma elementwise_vector lp l v w b : l <> [] -> List.Forall unscaled l -> List.Forall (good l) v ->
  chain_backward (map VElem l) (map Fin v) = Val w -> lp w = Val (DSca (Fin b)) -> exists d p,
  transformed_vector true lp (chain_backward (map VElem l)) (chain_log_jac_det (map VElem l)) (map Fin v) = Val d /\ factor d = Fin (p + (INR (length v) - 1) * b) /\
  changed_logpdf (chain_backward (map VElem l)) v b p.
Proof.
  intros A B C W E. destruct (chain_value l v A B C) as (ls & Q & Ls & D). unfold transformed_vector. rewrite W. cbn [bind]. rewrite E. cbn [bind]. rewrite Q. cbn [bind vadd].
  eexists. exists (b + rtotal ls). split; [reflexivity|]. split; [|now exists (rtotal ls)]. cbn [factor]. rewrite map_map. cbn [xadd].
  rewrite <- (map_map (fun y => b + y) Fin), xsum_fin. rewrite (map_ext (fun y => b + y) (fun y => y + b)) by (intros; ring). rewrite rtotal_shift, Ls. f_equal. ring.
Qed.
Lemma default_scalar D : D <> 0 -> default_log_jac_det [] [] (fun _ _ => Fin D) = Val (Fin (ln (Rabs D))).
Proof.
  intros N. unfold default_log_jac_det. cbn [bind]. unfold atleast_2d, det_nd. cbn [nshp nelt Nat.eqb seq forallb is_fin fin_part andb rmap].
  rewrite (rdet_diag 1) by (intros; lia). cbn [prodn]. replace (1 * D) with D by ring. now rewrite xlogabs.
Qed.
Lemma default_scalar_density lp x D p : D <> 0 -> denotes (lp (Fin x)) p ->
  denotes (bind (lp (Fin x)) (fun l => bind (default_log_jac_det [] [] (fun _ _ => Fin D)) (fun j => Val (xadd l j)))) (p * Rabs D).
Proof.
  intros N E. rewrite default_scalar by assumption. pose proof (Rabs_pos_lt D N).
  destruct (lp (Fin x)) as [[r| | |]|]; try contradiction; cbn [bind xadd denotes] in *.
  - now rewrite exp_plus, E, exp_ln.
  - rewrite E. ring.
Qed.
Lemma scalar_law lp f D p q y1 y2 : y1 <= y2 -> (forall y, is_derive f y (D y)) -> (forall y, continuous D y) -> ((forall y, 0 < D y) \/ (forall y, D y < 0)) ->
  (forall y, continuous p (f y)) -> (forall y, denotes (lp (Fin (f y))) (p (f y))) ->
  (forall y, denotes (bind (lp (Fin (f y))) (fun l => bind (default_log_jac_det [] [] (fun _ _ => Fin (D y))) (fun j => Val (xadd l j)))) (q y)) ->
  is_RInt q y1 y2 (RInt p (Rmin (f y1) (f y2)) (Rmax (f y1) (f y2))).
Proof.
  intros Y HD CD S Cp L Q.
  assert (Qe : forall y, q y = p (f y) * Rabs (D y)).
  { intros y. assert (N : D y <> 0) by (destruct S as [S|S]; specialize (S y); lra). pose proof (default_scalar_density lp (f y) (D y) _ N (L y)) as E. specialize (Q y).
    destruct (bind (lp (Fin (f y))) _) as [[r| | |]|]; try contradiction; cbn in *; congruence. }
  assert (I : is_RInt (fun y => scal (D y) (p (f y))) y1 y2 (RInt p (f y1) (f y2))).
  { apply (is_RInt_comp p f D); [intros; apply Cp|]. intros; split; [apply HD|apply CD]. }
  assert (MVT : exists c, f y2 - f y1 = D c * (y2 - y1)).
  { destruct (MVT_gen f y1 y2 D) as (c & _ & E).
    - intros; apply HD.
    - intros x _. apply continuity_pt_filterlim. apply (ex_derive_continuous f). eexists. apply HD.
    - now exists c. }
  destruct MVT as (c & E). destruct S as [S|S].
  - assert (f y1 <= f y2) by (specialize (S c); nra). rewrite Rmin_left, Rmax_right by assumption.
    eapply is_RInt_ext; [|exact I]. intros x _. rewrite Qe, Rabs_pos_eq by (specialize (S x); lra). unfold scal; cbn; unfold mult; cbn. ring.
  - assert (f y2 <= f y1) by (specialize (S c); nra). rewrite Rmin_right, Rmax_left by assumption. apply is_RInt_opp in I.
    replace (RInt p (f y2) (f y1)) with (opp (RInt p (f y1) (f y2))).
    + eapply is_RInt_ext; [|exact I]. intros x _. rewrite Qe, Rabs_left by apply S. unfold opp, scal; cbn; unfold mult; cbn. ring.
    + rewrite opp_RInt_swap; [reflexivity|]. destruct (Req_dec y1 y2) as [->|NE]; [apply ex_RInt_point|].
      apply (ex_RInt_continuous p). intros z Z. rewrite Rmin_right, Rmax_left in Z by assumption.
      destruct (IVT_gen f y1 y2 z) as (t & _ & <-); [|split; rewrite ?Rmin_right, ?Rmax_left by assumption; lra|apply Cp].
      intros x. apply continuity_pt_filterlim. apply (ex_derive_continuous f). eexists. apply HD.
Qed.
Lemma default_raises out inp d : (2 <= length out)%nat \/ (out = [] /\ (exists n, inp = [n] /\ n <> 1%nat)) \/ (exists m n, out = [m] /\ inp = [n] /\ m <> n) ->
  default_log_jac_det out inp d = Raise.
Proof.
  intros [L|[(-> & n & -> & N)|(m & n & -> & -> & N)]]; unfold default_log_jac_det.
  - destruct out as [|? [|]]; cbn in L; try lia. reflexivity.
  - cbn [bind]. unfold atleast_2d, det_nd. cbn [nshp nelt]. destruct (Nat.eqb_spec 1 n); [congruence|reflexivity].
  - cbn [bind]. unfold atleast_2d, det_nd. cbn [nshp nelt]. destruct (Nat.eqb_spec m n); [congruence|reflexivity].
Qed.
Lemma default_single out inp d D : In out [[]; [1%nat]] -> In inp [[]; [1%nat]] -> d (map (fun _ => 0%nat) out) (map (fun _ => 0%nat) inp) = Fin D -> D <> 0 ->
  default_log_jac_det out inp d = Val (Fin (ln (Rabs D))).
Proof.
  intros O I E N. unfold default_log_jac_det.
  assert (G : forall a : nd xr, nshp a = [1%nat; 1%nat] -> nelt a [0%nat; 0%nat] = Fin D -> rmap (fun x => xlog (xabs x)) (det_nd a) = Val (Fin (ln (Rabs D)))).
  { intros a S A. unfold det_nd. rewrite S. cbn [Nat.eqb seq forallb]. rewrite A. cbn [is_fin andb rmap].
    rewrite (rdet_diag 1) by (intros; lia). cbn [prodn]. rewrite A. cbn [fin_part]. replace (1 * D) with D by ring. now rewrite xlogabs. }
  destruct O as [<-|[<-|[]]], I as [<-|[<-|[]]]; cbn [bind]; apply G; try reflexivity; exact E.
Qed.
Lemma no_jacobian lp back ljd y x : back y = Val x -> transformed_vector false lp back ljd y = lp x.
Proof. intros E. unfold transformed_vector. rewrite E. cbn [bind]. now destruct (lp x). Qed.
