(** Uniqueness of expectations; total mass; examples. *)
From Coq Require Import Reals Lra Lia ZArith List Arith Bool Permutation Sorted.
From Coquelicot Require Import Coquelicot.
From Verif Require Import XR SpecDist ModelDist ModelVec SpecCens LemInt ModelCens LemCens ModelJoint ModelNest ModelGuard LemLaw ModelCensSys SpecCensSys LemCensSys LemCensSys2 LemCensSys3 LemCensSys4.
Import ListNotations.
Open Scope R_scope.

Section Unique.
Variable fs : nat -> list xr -> xr.
Variable h : list cnode.
Variable req : list nat.
Variable cont : nat -> bool.
Variable pdf : nat -> list R -> R -> R.
Variable base : nat -> nat.
Hypothesis AC : cacyclic h.
Hypothesis OB : forall v, In v req -> observes h cont req v (base v).
Lemma measure_ok y v mu : measure_of fs h cont pdf req y v mu -> okm mu.
Proof. intros M. destruct M as [v d ps N|v t b lo hi d ps l u N Nb B1 B2 Lt|v op b N|v b ws d ps xs s t l u C Ne Nb F S Lt H]; [destruct (cont d); exact I|destruct (cont d); exact Lt|exact I|exact Lt]. Qed.
Lemma pick_low (l u v : Rbar) : Rbar_lt l u -> Rbar_lt l v -> exists z : R, Rbar_lt l z /\ Rbar_lt z u /\ Rbar_lt z v.
Proof.
  intros A B. destruct (Rbar_le_lt_dec u v) as [C|C].
  - destruct (inside_ex l u A) as [z [Z1 Z2]]. exists z. split; [easy|split; [easy|]]. eapply Rbar_lt_le_trans; eauto.
  - destruct (inside_ex l v B) as [z [Z1 Z2]]. exists z. split; [easy|split; [|easy]]. eapply Rbar_lt_trans; eauto.
Qed.
Lemma pick_high (l u v : Rbar) : Rbar_lt l u -> Rbar_lt v u -> exists z : R, Rbar_lt l z /\ Rbar_lt z u /\ Rbar_lt v z.
Proof.
  intros A B. destruct (Rbar_le_lt_dec l v) as [C|C].
  - destruct (inside_ex v u B) as [z [Z1 Z2]]. exists z. split; [|easy]. eapply Rbar_le_lt_trans; eauto.
  - destruct (inside_ex l u A) as [z [Z1 Z2]]. exists z. split; [easy|split; [easy|]]. eapply Rbar_lt_trans; eauto.
Qed.
Lemma lt_not (a : Rbar) (z : R) : Rbar_lt a z -> Rbar_lt z a -> False.
Proof. destruct a; cbn; auto; lra. Qed.
Lemma inside_ends l u l' u' : Rbar_lt l u -> Rbar_lt l' u' -> (forall z, between l u z <-> between l' u' z) -> l = l' /\ u = u'.
Proof.
  assert (A : forall l u l' u', Rbar_lt l u -> (forall z, between l u z -> between l' u' z) -> Rbar_le l' l /\ Rbar_le u u').
  { clear. intros l u l' u' L H. split; apply Rbar_not_lt_le; intros Q.
    - destruct (pick_low l u l' L Q) as (z & Z1 & Z2 & Z3). destruct (H z (conj Z1 Z2)) as [H1 _]. exact (lt_not _ _ H1 Z3).
    - destruct (pick_high l u u' L Q) as (z & Z1 & Z2 & Z3). destruct (H z (conj Z1 Z2)) as [_ H1]. exact (lt_not _ _ Z3 H1). }
  intros L L' H. destruct (A l u l' u' L ltac:(intros z; apply H)) as [A1 A2]. destruct (A l' u' l u L' ltac:(intros z; apply H)) as [A3 A4]. split; now apply Rbar_le_antisym.
Qed.
Lemma support_fun f s t s' t' : supported f s t -> supported f s' t' -> s = s' /\ t = t'.
Proof.
  assert (A : forall s t s' t', supported f s t -> supported f s' t' -> Rbar_le s' s /\ Rbar_le t t').
  { clear. intros s t s' t' (L & I & O) (L' & I' & O'). split; apply Rbar_not_lt_le; intros Q.
    - destruct (pick_low s t s' L Q) as (z & Z1 & Z2 & Z3). apply (I z (conj Z1 Z2)). apply O'. now left.
    - destruct (pick_high s t t' L Q) as (z & Z1 & Z2 & Z3). apply (I z (conj Z1 Z2)). apply O'. now right. }
  intros S S'. destruct (A s t s' t' S S') as [A1 A2]. destruct (A s' t' s t S' S) as [A3 A4]. split; now apply Rbar_le_antisym.
Qed.
Lemma measure_fun y v mu mu' : measure_of fs h cont pdf req y v mu -> measure_of fs h cont pdf req y v mu' -> mu = mu'.
Proof.
  assert (EL : forall b ws w, chained h req b ws w -> ws <> [] -> exists n, nth_error h w = Some n /\ elem n).
  { intros b ws w C Ne. destruct (chain_inv h req b ws w C) as [(-> & _)|(ws' & a & n & _ & _ & _ & N & El & _)]; [easy|eauto]. }
  intros M M'. pose proof (valued_con h cont req base OB y) as C. pose proof (cval_fun fs h AC _ C) as V.
  destruct M as [v d ps N|v t b lo hi d ps l u N Nb B1 B2 Lt|v op b N|v b ws d ps xs s t l u Ch Ne Nb F S Lt H]; inversion M' as [v' d' ps' N' Q1 Q2|v' t' b' lo' hi' d' ps' l' u' N' Nb' B1' B2' Lt' Q1 Q2|v' op' b' N' Q1 Q2|v' b' ws' d' ps' xs' s' t' l' u' Ch' Ne' Nb' F' S' Lt' H' Q1 Q2]; try congruence;
    try (exfalso; match goal with K : nth_error h v = Some ?k, Ck : chained h req _ ?w v, Nw : ?w <> [] |- _ => let n := fresh in let Nn := fresh in let El := fresh in destruct (EL _ _ _ Ck Nw) as (n & Nn & El); rewrite K in Nn; injection Nn as <-; exact El end).
  - assert (d' = d) as -> by congruence; reflexivity.
  - assert (Q : b' = b /\ lo' = lo /\ hi' = hi) by (repeat split; congruence). destruct Q as (Eb & El & Eh). rewrite Eb, El in B1'. rewrite Eb, Eh in B2'.
    assert (d' = d) as -> by congruence. assert (l' = l) as -> by (eapply bound_fun; eauto). assert (u' = u) as -> by (eapply bound_fun; eauto). reflexivity.
  - destruct (chain_fun h req b b' d ps d' ps' ws Nb Nb' ws' v Ch Ch') as [<- _]. assert (d' = d /\ ps' = ps) as [-> ->] by (split; congruence).
    assert (xs' = xs) as -> by (eapply f2_fun; [|exact F'|exact F]; intros a z z' _; apply V). destruct (support_fun _ _ _ _ _ S S') as [<- <-].
    destruct (inside_ends l u l' u' Lt Lt') as [<- <-]; [|reflexivity]. intros z. now rewrite H, H'.
Qed.
Lemma weighs_unique F J f vs : forall y m m', weighs fs h cont pdf req F J f vs y m -> weighs fs h cont pdf req F J f vs y m' -> m = m'.
Proof.
  induction vs as [|v vs IH]; intros y m m' H H'.
  - inversion H as [y1 r p Ej D|]; inversion H' as [y' r' p' Ej' D'|]; subst. assert (r' = r) as -> by congruence. now rewrite (den_uniq r p p').
  - inversion H as [|v1 vs1 y1 mu g m1 M G Hi]; inversion H' as [|v' vs' y' mu' g' m2 M' G' Hi']; subst. assert (mu' = mu) as -> by (eapply measure_fun; eauto).
    apply (integral_unique mu g m m' Hi). apply (integral_ext mu g' g m' (measure_ok _ _ _ M)); [|exact Hi'].
    intros x Cx. destruct (G x Cx) as (r & p & E & D & W & Z). destruct (G' x Cx) as (r' & p' & E' & D' & W' & Z'). assert (r' = r) as -> by congruence. assert (p' = p) as -> by (eapply den_uniq; eauto).
    destruct (Req_dec p 0) as [Q|Q]; [now rewrite Z, Z'|]. symmetry. eapply IH; eauto.
Qed.
End Unique.

(** ** the constant 1 *)
Lemma runs_one fs h cont pdf cdf proper req ddt dlp dlc bs rho : lawful h cont pdf proper req ddt dlp dlc cdf -> runs fs h cont pdf proper req bs rho -> expects fs h cont pdf proper req (fun _ => 1) bs rho 1.
Proof.
  intros LF H. induction H as [rho zs Hz|b bs rho d ps xs Nb Fp Pr Hg IH]; [now apply (ex_end fs h cont pdf proper req (fun _ => 1) rho zs)|].
  apply (ex_draw fs h cont pdf proper req (fun _ => 1) b bs rho d ps xs (fun _ => 1) 1); auto.
  apply (integral_ext _ (pdf d xs)); [destruct (cont d); exact I|intros; ring|]. now apply (lf_unit _ _ _ _ _ _ _ _ _ LF).
Qed.

Section Expect.
Variable ddt : nat -> dtype.
Variable fs : nat -> list xr -> xr.
Variable dlp dlc : nat -> list xr -> xr -> res xr.
Variable h : list cnode.
Variable cont : nat -> bool.
Variable pdf cdf : nat -> list R -> R -> R.
Variable proper : nat -> list R -> Prop.
Lemma cens_expect req vs base f rho m : cacyclic h -> Permutation vs req -> StronglySorted lt vs -> (forall v, In v req -> observes h cont req v (base v)) ->
  (forall v w, In v req -> In w req -> base v = base w -> v = w) -> lawful h cont pdf proper req ddt dlp dlc cdf -> whole_bounds fs h cont req -> safe_chains fs h cont pdf req ->
  possible h cont rho -> expects fs h cont pdf proper req f (map base vs) rho m -> forall rhoM y m',
  weighs fs h cont pdf req (fun y v => c_conditional ddt fs dlp dlc h req (fun w => Fin (y w)) rhoM v) (fun y => c_joint ddt fs dlp dlc h req (fun w => Fin (y w)) rhoM) f vs y m' <-> m' = m.
Proof.
  intros AC PV SS OB INJ LF WB RG Ps H rhoM y m'.
  assert (W : weighs fs h cont pdf req (fun y v => c_conditional ddt fs dlp dlc h req (fun w => Fin (y w)) rhoM v) (fun y => c_joint ddt fs dlp dlc h req (fun w => Fin (y w)) rhoM) f vs y m).
  { pose proof (main ddt fs dlp dlc h req rhoM cont pdf cdf proper base vs AC PV SS OB INJ LF WB RG f vs [] rho y (fun _ => 1) m Ps ltac:(intros ? ? ? ? []) eq_refl ltac:(intros w []) ltac:(intros w []) H) as W. cbn [map] in W. unfold prodl in W. cbn [fold_right] in W. now rewrite Rmult_1_l in W. }
  split; [|intros ->; exact W]. intros W'. eapply weighs_unique; eauto.
Qed.
Lemma cens_total req vs base rho : cacyclic h -> Permutation vs req -> StronglySorted lt vs -> (forall v, In v req -> observes h cont req v (base v)) ->
  (forall v w, In v req -> In w req -> base v = base w -> v = w) -> lawful h cont pdf proper req ddt dlp dlc cdf -> whole_bounds fs h cont req -> safe_chains fs h cont pdf req ->
  possible h cont rho -> runs fs h cont pdf proper req (map base vs) rho -> forall rhoM y m',
  weighs fs h cont pdf req (fun y v => c_conditional ddt fs dlp dlc h req (fun w => Fin (y w)) rhoM v) (fun y => c_joint ddt fs dlp dlc h req (fun w => Fin (y w)) rhoM) (fun _ => 1) vs y m' <-> m' = 1.
Proof. intros. eapply cens_expect; eauto. eapply runs_one; eauto. Qed.
End Expect.

(** ** X ~ normal(0, 1), C = clip(X, -1, 1), Z ~ normal(C, 1), R = round(Z), K ~ poisson(exp(R)); C, R and K are requested *)
From Verif Require Import LemDist LemDisc SpecCdf LemCdf.
Definition cs_h : list cnode :=
  [CCon (Fin 0); CCon (Fin 1); CRv 0 [0; 1]%nat; CCon (Fin (-1)); CClip DFloat 2 3 1; CRv 0 [4; 1]%nat; CRound RHalfEven 5; COne UExp 6; CRv 1 [7]%nat].
Definition cs_ddt (d : nat) : dtype := match d with 0%nat => DFloat | _ => DInt end.
Definition cs_cont (d : nat) : bool := (d =? 0)%nat.
Definition cs_lp (d : nat) (ps : list xr) (x : xr) : res xr :=
  match d, ps with 0%nat, [m; s] => normal_logprob m s x | 1%nat, [m] => poisson_logprob m x | _, _ => Raise end.
Definition cs_lc (d : nat) (ps : list xr) (x : xr) : res xr := match d, ps with 0%nat, [m; s] => normal_logcdf m s x | 1%nat, [m] => poisson_logcdf m x | _, _ => Raise end.
Definition cs_pdf (d : nat) (xs : list R) (x : R) : R :=
  match d, xs with 0%nat, [m; s] => normal_pdf m s x | 1%nat, [m] => poisson_pmf m (Z.to_nat (Int_part x)) | _, _ => 0 end.
Definition cs_cdf (d : nat) (xs : list R) (x : R) : R := match d, xs with 0%nat, [m; s] => normal_cdf m s x | 1%nat, [m] => mass_upto (poisson_pmf m) x | _, _ => 0 end.
Definition cs_proper (d : nat) (xs : list R) : Prop := match d, xs with 0%nat, [m; s] => 0 < s | 1%nat, [m] => 0 < m | _, _ => False end.
Definition cs_fs : nat -> list xr -> xr := fun _ _ => NaN.
Definition cs_base (v : nat) : nat := match v with 4%nat => 2%nat | 6%nat => 5%nat | _ => v end.

Lemma int_law_ext p p' F : (forall k, p k = p' k) -> int_law p F -> int_law p' F.
Proof. intros E L. split; [intros k; rewrite <- E; apply (il_nonneg _ _ L)|intros k; rewrite <- E; apply (il_step _ _ L)|apply (il_m _ _ L)|apply (il_p _ _ L)]. Qed.
Lemma cs_zmass m k : natpmf (poisson_pmf m) k = zmass (cs_pdf 1 [m]) k.
Proof. unfold natpmf, zmass. destruct (k <? 0)%Z; auto. cbn [cs_pdf]. now rewrite Int_part_IZR. Qed.
Lemma normal_whole m s : 0 < s -> supported (normal_pdf m s) m_infty p_infty.
Proof. intros P. split; [exact I|split]. - intros x _. apply Rgt_not_eq. unfold normal_pdf. pose proof PI_RGT_0. apply Rmult_lt_0_compat; [apply Rinv_0_lt_compat, Rmult_lt_0_compat; [exact P|apply sqrt_lt_R0; lra]|apply exp_pos]. - intros x [[]|[]]. Qed.
Lemma no_chains fs h cont pdf req : (forall v n, In v req -> nth_error h v = Some n -> ~ elem n) -> (forall d, ~ transformed h req d) /\ safe_chains fs h cont pdf req.
Proof.
  intros H. assert (A : forall b ws v, In v req -> chained h req b ws v -> ws = []).
  { intros b ws v I C. destruct (chain_inv h req b ws v C) as [(E & _)|(ws' & a & n & _ & _ & _ & N & El & _)]; [easy|]. now destruct (H v n I N). }
  split; [intros d (v & b & ws & ps & I & C & Ne & _); apply Ne; eapply A; eauto|]. intros v b ws rho I C _ _ w W. now rewrite (A b ws v I C) in W.
Qed.
Lemma cs_lawful h req : ~ rounded h req 1 -> ~ transformed h req 1 -> lawful h cs_cont cs_pdf cs_proper req cs_ddt cs_lp cs_lc cs_cdf.
Proof.
  intros NR NT. split.
  - intros d xs Pr. destruct d as [|[|d]]; destruct xs as [|m [|s [|? ?]]]; cbn in Pr; try easy.
    + cbn [cs_cont Nat.eqb cs_pdf]. eapply leb_unit. now apply normal_law.
    + cbn [cs_cont Nat.eqb cs_pdf integral]. apply (is_series_ext (poisson_pmf m)); [intros n; now rewrite INR_IZR_INZ, Int_part_IZR, Nat2Z.id|]. apply poisson_sum.
  - intros d xs x Pr C. destruct d as [|[|d]]; destruct xs as [|m [|s [|? ?]]]; cbn in Pr; try easy.
    + cbn [map cs_lp cs_pdf]. now apply normal_ok.
    + cbn [cs_cont Nat.eqb charges] in C. destruct C as [k ->]. cbn [map cs_lp cs_pdf]. rewrite INR_IZR_INZ, Int_part_IZR, Nat2Z.id, <- INR_IZR_INZ. apply poisson_mass. lra.
  - intros d xs C Cd Pr. destruct d as [|[|d]]; destruct xs as [|m [|s [|? ?]]]; cbn in Pr; try easy.
    split; [reflexivity|]. split; [now apply normal_law|]. now apply normal_computes.
  - intros d xs C Cd Pr. destruct d as [|[|d]]; destruct xs as [|m [|s [|? ?]]]; cbn in Pr; try easy.
    split; [reflexivity|]. split.
    + apply (int_law_ext _ _ _ (cs_zmass m)). apply nat_law; [intros; apply poisson_pmf_nonneg; lra|apply poisson_sum].
    + intros k. rewrite <- cs_zmass. cbn [map cs_lp cs_lc cs_cdf]. split; [apply poisson_Z; lra|apply poisson_logcdf_ok; lra].
  - intros d xs x C Pr. destruct d as [|[|d]]; destruct xs as [|m [|s [|? ?]]]; cbn in Pr; try easy; cbn [cs_cdf]. unfold normal_cdf. apply Phi_range.
  - intros d xs C Pr. destruct d as [|[|d]]; destruct xs as [|m [|s [|? ?]]]; cbn in Pr; try easy. split; [discriminate|]. exists m_infty, p_infty. cbn [cs_pdf]. now apply normal_whole.
Qed.
Lemma cs_acyclic : cacyclic cs_h.
Proof.
  intros v n a N I. do 9 (destruct v as [|v]; [injection N as <-; cbn in I; intuition lia|]). destruct v; discriminate N.
Qed.
Lemma cs_none req : ~ rounded cs_h req 1.
Proof.
  intros (v & op & b & ps & _ & N & Nb). do 9 (destruct v as [|v]; [try discriminate N; injection N as <- <-; discriminate Nb|]). destruct v; discriminate N.
Qed.
Lemma cs_plain req : incl req [8; 4; 6]%nat -> (forall d, ~ transformed cs_h req d) /\ safe_chains cs_fs cs_h cs_cont cs_pdf req.
Proof. intros I. apply no_chains. intros v n R N. destruct (I v R) as [<-|[<-|[<-|[]]]]; injection N as <-; intros []. Qed.
Lemma cs_whole req : whole_bounds cs_fs cs_h cs_cont req.
Proof.
  intros v t b lo hi d ps _ N Nb Cd. exfalso. do 9 (destruct v as [|v]; [try discriminate N; injection N as <- <- <- <-; try discriminate Nb; injection Nb as <- <-; discriminate Cd|]). destruct v; discriminate N.
Qed.
Lemma zero_possible h cont : possible h cont (fun _ => 0).
Proof. intros b d ps _. destruct (cont d); [exact I|now exists 0%nat]. Qed.
Lemma cs_con v r rho : nth_error cs_h v = Some (CCon (Fin r)) -> cvalue cs_fs cs_h (drawn cs_h rho) v r.
Proof. intros N. apply c_con; auto. unfold drawn. now rewrite N. Qed.
Lemma cs_rv v d ps rho : nth_error cs_h v = Some (CRv d ps) -> cvalue cs_fs cs_h (drawn cs_h rho) v (rho v).
Proof. intros N. apply c_given. unfold drawn. now rewrite N. Qed.
Lemma cs_c rho : cvalue cs_fs cs_h (drawn cs_h rho) 4 (clip_fun (-1) 1 (rho 2%nat)).
Proof.
  eapply (c_clip cs_fs cs_h _ 4 DFloat 2 3 1); try reflexivity.
  - eapply cs_rv; reflexivity.
  - apply b_val; [discriminate|]. now apply cs_con.
  - apply b_val; [discriminate|]. now apply cs_con.
  - cbn. lra.
Qed.
Lemma cs_r rho : exists k, cvalue cs_fs cs_h (drawn cs_h rho) 6 (IZR k).
Proof. destruct (rnd_total RHalfEven (rho 5%nat)) as [k K]. exists k. eapply (c_round cs_fs cs_h _ 6 RHalfEven 5); try reflexivity; [eapply cs_rv; reflexivity|exact K]. Qed.
Lemma cs_observes v : In v [8; 4; 6]%nat -> observes cs_h cs_cont [8; 4; 6]%nat v (cs_base v).
Proof.
  assert (KC : forall v c, nth_error cs_h v = Some (CCon c) -> cknown cs_h [8; 4; 6]%nat v) by (intros w c N; eapply ck_det; eauto; [discriminate|intros a []]).
  intros [<-|[<-|[<-|[]]]].
  - eapply (o_rv cs_h cs_cont _ 8); [reflexivity|]. intros p [<-|[]]. eapply ck_det; [reflexivity|discriminate|]. intros a [<-|[]]. apply ck_req. cbn; auto.
  - eapply (o_clip cs_h cs_cont _ 4 DFloat 2 3 1); try reflexivity; [cbn; lia| | |].
    + intros p [<-|[<-|[]]]; eapply KC; reflexivity.
    + right. eapply KC; reflexivity.
    + right. eapply KC; reflexivity.
  - eapply (o_round cs_h cs_cont _ 6 RHalfEven 5); try reflexivity; [cbn; lia|]. intros p [<-|[<-|[]]]; [apply ck_req; cbn; auto|eapply KC; reflexivity].
Qed.
Lemma cs_inj v w : In v [8; 4; 6]%nat -> In w [8; 4; 6]%nat -> cs_base v = cs_base w -> v = w.
Proof. intros [<-|[<-|[<-|[]]]] [<-|[<-|[<-|[]]]]; cbn; intros; congruence. Qed.
Lemma cs_runs rho : runs cs_fs cs_h cs_cont cs_pdf cs_proper [8; 4; 6]%nat (map cs_base [4; 6; 8]%nat) rho.
Proof.
  cbn [map cs_base]. eapply (run_draw _ _ _ _ _ _ 2 _ _ 0 _ [0; 1]); [reflexivity|constructor; [now apply cs_con|constructor; [now apply cs_con|constructor]]|cbn; lra|]. intros x _ _.
  eapply (run_draw _ _ _ _ _ _ 5 _ _ 0 _ [clip_fun (-1) 1 (upd rho 2 x 2%nat); 1]); [reflexivity|constructor; [apply cs_c|constructor; [now apply cs_con|constructor]]|cbn; lra|]. intros x' _ _.
  set (r := upd (upd rho 2 x) 5 x'). destruct (cs_r r) as [k K].
  eapply (run_draw _ _ _ _ _ _ 8 _ _ 1 _ [exp (IZR k)]); [reflexivity|constructor; [|constructor]|cbn; apply exp_pos|].
  { eapply (c_exp cs_fs cs_h _ 7 6); try reflexivity. exact K. }
  intros x'' _ _. set (r' := upd r 8 x''). destruct (cs_r r') as [k' K'].
  eapply (run_end _ _ _ _ _ _ _ [r' 8%nat; _; IZR k']). constructor; [eapply cs_rv; reflexivity|]. constructor; [apply cs_c|]. constructor; [exact K'|constructor].
Qed.

(** ** the probability that clip(X, -1, 1) is 1 *)
Definition at_one (l : list R) : R := match l with [z] => if Req_EM_T z 1 then 1 else 0 | _ => 0 end.
Lemma at_one_clip x : at_one [clip_fun (-1) 1 x] = if Rlt_dec x 1 then 0 else 1.
Proof.
  cbn [at_one clip_fun]. destruct (Rlt_dec x 1) as [L|L], (Req_EM_T _ 1) as [Q|Q]; auto; exfalso.
  - pose proof (Rmin_l 1 (Rmax (-1) x)). destruct (Rle_dec (-1) x); [rewrite Rmax_right in Q by lra; rewrite Rmin_right in Q; lra|rewrite Rmax_left in Q by lra; rewrite Rmin_right in Q; lra].
  - apply Q. rewrite Rmax_right by lra. now rewrite Rmin_left by lra.
Qed.
Lemma half_line f F : cont_law f F -> integral Leb (fun x => f x * (if Rlt_dec x 1 then 0 else 1)) (1 - F 1).
Proof.
  intros L. cbn [integral]. intros P HP. unfold filtermapi.
  assert (Q : Rbar_locally p_infty (fun z => P (F z - F 1) /\ 1 < z)).
  { apply filter_and; [|exists 1; auto]. assert (T : filterlim (fun z => F z - F 1) (Rbar_locally p_infty) (locally (1 - F 1))); [|exact (T P HP)].
    apply lim_minus; [typeclasses eauto|apply (cl_p _ _ L)|apply lim_const; typeclasses eauto]. }
  exists (fun x => x < 1) (fun z => P (F z - F 1) /\ 1 < z); [exists 1; auto|exact Q|]. intros x z Lx [Pz Lz]. exists (F z - F 1). split; [|exact Pz]. cbn [fst snd].
  replace (F z - F 1) with (0 + (F z - F 1)) by ring. apply (is_RInt_Chasles (V := R_NormedModule) _ x 1 z).
  - apply (is_RInt_ext (fun _ => 0)).
    + intros w Hw. rewrite Rmin_left, Rmax_right in Hw by lra. destruct (Rlt_dec w 1); [|lra]. now rewrite Rmult_0_r.
    + pose proof (is_RInt_const (V := R_NormedModule) x 1 0) as K. unfold scal in K; cbn in K; unfold mult in K; cbn in K; rewrite Rmult_0_r in K; exact K.
  - apply (is_RInt_ext f); [|now apply (cl_int _ _ L)]. intros w Hw. rewrite Rmin_left, Rmax_right in Hw by lra. destruct (Rlt_dec w 1); [lra|]. now rewrite Rmult_1_r.
Qed.
Lemma cs_one rho : expects cs_fs cs_h cs_cont cs_pdf cs_proper [4]%nat at_one (map cs_base [4]%nat) rho (1 - normal_cdf 0 1 1).
Proof.
  cbn [map cs_base]. eapply (ex_draw _ _ _ _ _ _ _ 2 _ _ 0 _ [0; 1] (fun x => if Rlt_dec x 1 then 0 else 1)); [reflexivity|constructor; [now apply cs_con|constructor; [now apply cs_con|constructor]]|cbn; lra| |].
  - intros x _ _. assert (W : expects cs_fs cs_h cs_cont cs_pdf cs_proper [4]%nat at_one [] (upd rho 2 x) (at_one [clip_fun (-1) 1 (upd rho 2 x 2%nat)])).
    { apply (ex_end cs_fs cs_h cs_cont cs_pdf cs_proper [4]%nat at_one). constructor; [apply cs_c|constructor]. }
    rewrite at_one_clip in W. exact W.
  - cbn [cs_cont Nat.eqb cs_pdf]. apply half_line. apply normal_law. lra.
Qed.
Lemma cs_observes1 v : In v [4]%nat -> observes cs_h cs_cont [4]%nat v (cs_base v).
Proof.
  assert (KC : forall v c, nth_error cs_h v = Some (CCon c) -> cknown cs_h [4]%nat v) by (intros w c N; eapply ck_det; eauto; [discriminate|intros a []]).
  intros [<-|[]]. eapply (o_clip cs_h cs_cont _ 4 DFloat 2 3 1); try reflexivity; [cbn; lia| | |].
  - intros p [<-|[<-|[]]]; eapply KC; reflexivity.
  - right. eapply KC; reflexivity.
  - right. eapply KC; reflexivity.
Qed.

(** ** U ~ uniform(0, 1), R = floor(U) *)
Definition cz_h : list cnode := [CCon (Fin 0); CCon (Fin 1); CRv 0 [0; 1]%nat; CRound RFloor 2].
Definition cz_lp (d : nat) (ps : list xr) (x : xr) : res xr := match ps with [a; b] => uniform_logprob a b x | _ => Raise end.
Definition cz_lc (d : nat) (ps : list xr) (x : xr) : res xr := match ps with [a; b] => uniform_logcdf a b x | _ => Raise end.
Definition cz_pdf (d : nat) (xs : list R) (x : R) : R := match xs with [a; b] => uniform_pdf a b x | _ => 0 end.
Definition cz_proper (d : nat) (xs : list R) : Prop := match xs with [a; b] => a < b | _ => False end.
Lemma cz_none : expects cs_fs cz_h (fun _ => true) cz_pdf cz_proper [3]%nat (fun _ => 1) [2]%nat (fun _ => 0) 1 /\
  forall rho y m, ~ weighs cs_fs cz_h (fun _ => true) cz_pdf [3]%nat (fun y v => c_conditional (fun _ => DFloat) cs_fs cz_lp cz_lc cz_h [3]%nat (fun w => Fin (y w)) rho v)
    (fun y => c_joint (fun _ => DFloat) cs_fs cz_lp cz_lc cz_h [3]%nat (fun w => Fin (y w)) rho) (fun _ => 1) [3]%nat y m.
Proof.
  assert (Cn : forall rho v r, nth_error cz_h v = Some (CCon (Fin r)) -> cvalue cs_fs cz_h (drawn cz_h rho) v r) by (intros rho v r N; apply c_con; auto; unfold drawn; now rewrite N).
  split.
  - eapply (ex_draw _ _ _ _ _ _ _ 2 _ _ 0 _ [0; 1] (fun _ => 1)); [reflexivity|constructor; [now apply Cn|constructor; [now apply Cn|constructor]]|cbn; lra| |].
    + intros x _ _. destruct (rnd_total RFloor (upd (fun _ => 0) 2 x 2%nat)) as [k K]. apply (ex_end cs_fs cz_h (fun _ => true) cz_pdf cz_proper [3]%nat (fun _ => 1) _ [IZR k]). constructor; [|constructor].
      eapply (c_round cs_fs cz_h _ 3 RFloor 2); [reflexivity|reflexivity|apply c_given; reflexivity|exact K].
    + cbn [cz_pdf]. apply (integral_ext Leb (uniform_pdf 0 1)); [exact I|intros; ring|]. eapply leb_unit. apply (uniform_law 0 1). lra.
  - intros rho y m W. inversion W as [|v vs y' mu g m' M H Hi]. assert (mu = Ints) as -> by (inversion M; try discriminate; try reflexivity; exfalso;
      match goal with Ck : chained cz_h _ _ ?w 3, Nw : ?w <> [] |- _ => destruct (chain_inv _ _ _ _ _ Ck) as [(E & _)|(ws' & a & n & _ & _ & _ & N & El & _)]; [exact (Nw E)|injection N as <-; exact El] end).
    destruct round_nan as [k Ek]. destruct (H (IZR k) (ex_intro _ k eq_refl)) as (r & p & E & D & _).
    assert (E' : c_conditional (fun _ => DFloat) cs_fs cz_lp cz_lc cz_h [3]%nat (fun w => Fin (upd y 3 (IZR k) w)) rho 3 = Some (round_logprob RFloor (uniform_logcdf (Fin 0) (Fin 1)) (Fin (IZR k)))) by reflexivity.
    rewrite E', Ek in E. injection E as <-. exact D.
Qed.
Lemma cz_observes : observes cz_h (fun _ => true) [3]%nat 3 2.
Proof.
  eapply (o_round cz_h _ _ 3 RFloor 2); try reflexivity; [cbn; lia|]. intros p [<-|[<-|[]]]; (eapply ck_det; [reflexivity|discriminate|intros a []]).
Qed.

(** ** N ~ poisson(3), K ~ poisson(2), C = clip(K, 0, N + 1); N and C are requested *)
Definition cn_h : list cnode := [CCon (Fin 3); CRv 1 [0]%nat; CCon (Fin 2); CRv 1 [2]%nat; CCon (Fin 0); CCon (Fin 1); CMany NAdd [1; 5]%nat; CClip DInt 3 4 6].
Definition cn_base (v : nat) : nat := match v with 7%nat => 3%nat | _ => v end.
Lemma cn_acyclic : cacyclic cn_h.
Proof. intros v n a N I. do 8 (destruct v as [|v]; [injection N as <-; cbn in I; intuition lia|]). destruct v; discriminate N. Qed.
Lemma cn_none req : ~ rounded cn_h req 1.
Proof. intros (v & op & b & ps & _ & N & Nb). do 8 (destruct v as [|v]; [discriminate N|]). destruct v; discriminate N. Qed.
Lemma cn_plain : (forall d, ~ transformed cn_h [7; 1]%nat d) /\ safe_chains cs_fs cn_h cs_cont cs_pdf [7; 1]%nat.
Proof. apply no_chains. intros v n [<-|[<-|[]]] N; injection N as <-; intros []. Qed.
Lemma cn_con v r rho : nth_error cn_h v = Some (CCon (Fin r)) -> cvalue cs_fs cn_h (drawn cn_h rho) v r.
Proof. intros N. apply c_con; auto. unfold drawn. now rewrite N. Qed.
Lemma cn_rv v d ps rho : nth_error cn_h v = Some (CRv d ps) -> cvalue cs_fs cn_h (drawn cn_h rho) v (rho v).
Proof. intros N. apply c_given. unfold drawn. now rewrite N. Qed.
Lemma cn_top rho : cvalue cs_fs cn_h (drawn cn_h rho) 6 (rho 1%nat + (1 + 0)).
Proof. eapply (c_add cs_fs cn_h _ 6 [1; 5]%nat [rho 1%nat; 1]); try reflexivity. constructor; [eapply cn_rv; reflexivity|]. constructor; [now apply cn_con|constructor]. Qed.
Lemma cn_c rho : 0 < rho 1%nat + (1 + 0) -> cvalue cs_fs cn_h (drawn cn_h rho) 7 (clip_fun 0 (rho 1%nat + (1 + 0)) (rho 3%nat)).
Proof.
  intros L. eapply (c_clip cs_fs cn_h _ 7 DInt 3 4 6); try reflexivity; [eapply cn_rv; reflexivity|apply b_val; [discriminate|now apply cn_con]|apply b_val; [discriminate|apply cn_top]|exact L].
Qed.
Lemma cn_whole req : whole_bounds cs_fs cn_h cs_cont req.
Proof.
  intros v t b lo hi d ps _ N Nb Cd rho r Ps B. do 7 (destruct v as [|v]; [discriminate N|]). destruct v; [|destruct v; discriminate N]. injection N as <- <- <- <-.
  assert (E : exists k, forall r, cvalue cs_fs cn_h (drawn cn_h rho) 6 r -> r = IZR k).
  { destruct (Ps 1%nat 1%nat _ eq_refl) as [k Ek]. exists (Z.of_nat k + 1)%Z. intros s V. rewrite (cval_fun cs_fs cn_h cn_acyclic _ (drawn_con cn_h rho) 6 s _ V (cn_top rho)), Ek, plus_IZR, INR_IZR_INZ. ring. }
  destruct B as [B|B]; inversion B as [a' inf' Q1 Q2|a' inf' b' c' l' Nq E' Nc Rc|a' inf' b' r' Nq V]; subst; try discriminate.
  - injection Nc as <-. injection Rc as <-. now exists 0%Z.
  - exists 0%Z. apply (cval_fun cs_fs cn_h cn_acyclic _ (drawn_con cn_h rho) 4); [exact V|now apply cn_con].
  - destruct E as [k Hk]. exists k. now apply Hk.
Qed.
Lemma cn_observes v : In v [7; 1]%nat -> observes cn_h cs_cont [7; 1]%nat v (cn_base v).
Proof.
  assert (KC : forall v c, nth_error cn_h v = Some (CCon c) -> cknown cn_h [7; 1]%nat v) by (intros w c N; eapply ck_det; eauto; [discriminate|intros a []]).
  intros [<-|[<-|[]]].
  - eapply (o_clip cn_h cs_cont _ 7 DInt 3 4 6); try reflexivity; [cbn; lia| | |].
    + intros p [<-|[]]; eapply KC; reflexivity.
    + right. eapply KC; reflexivity.
    + right. eapply ck_det; [reflexivity|discriminate|]. intros a [<-|[<-|[]]]; [apply ck_req; cbn; auto|eapply KC; reflexivity].
  - eapply (o_rv cn_h cs_cont _ 1); [reflexivity|]. intros p [<-|[]]. eapply KC; reflexivity.
Qed.
Lemma cn_inj v w : In v [7; 1]%nat -> In w [7; 1]%nat -> cn_base v = cn_base w -> v = w.
Proof. intros [<-|[<-|[]]] [<-|[<-|[]]]; cbn; intros; congruence. Qed.
Lemma cn_runs rho : runs cs_fs cn_h cs_cont cs_pdf cs_proper [7; 1]%nat (map cn_base [1; 7]%nat) rho.
Proof.
  cbn [map cn_base]. eapply (run_draw _ _ _ _ _ _ 1 _ _ 1 _ [3]); [reflexivity|constructor; [now apply cn_con|constructor]|cbn; lra|]. intros x [k ->] _.
  eapply (run_draw _ _ _ _ _ _ 3 _ _ 1 _ [2]); [reflexivity|constructor; [now apply cn_con|constructor]|cbn; lra|]. intros x' _ _.
  eapply (run_end _ _ _ _ _ _ _ [_; _]). constructor; [apply cn_c|constructor; [eapply cn_rv; reflexivity|constructor]]. cbn. pose proof (pos_INR k). lra.
Qed.

(** ** X ~ normal(0, 1), Y = exp(X), Z ~ normal(0, Y), T = 1 - Y * Z, K ~ poisson(Y); Y, T and K are requested *)
Definition ct_h : list cnode := [CCon (Fin 0); CCon (Fin 1); CRv 0 [0; 1]%nat; COne UExp 2; CRv 0 [0; 3]%nat; CMany NMul [3; 4]%nat; CSub 1 5; CRv 1 [3]%nat].
Definition ct_base (v : nat) : nat := match v with 3%nat => 2%nat | 6%nat => 4%nat | _ => v end.
Lemma ct_acyclic : cacyclic ct_h.
Proof. intros v n a N I. do 8 (destruct v as [|v]; [injection N as <-; cbn in I; intuition lia|]). destruct v; discriminate N. Qed.
Lemma ct_none req : ~ rounded ct_h req 1.
Proof. intros (v & op & b & ps & _ & N & Nb). do 8 (destruct v as [|v]; [discriminate N|]). destruct v; discriminate N. Qed.
Lemma ct_whole req : whole_bounds cs_fs ct_h cs_cont req.
Proof. intros v t b lo hi d ps _ N. do 8 (destruct v as [|v]; [discriminate N|]). destruct v; discriminate N. Qed.
Lemma ct_chain3 req : ~ In 2%nat req -> chained ct_h req 2 [3]%nat 3.
Proof. intros I. eapply (ch_one ct_h req 2 [] 2); [constructor|exact I|reflexivity]. Qed.
Lemma ct_con_known req v c : nth_error ct_h v = Some (CCon c) -> cknown ct_h req v.
Proof. intros N. eapply ck_det; eauto; [discriminate|intros a []]. Qed.
Lemma ct_chain6 : chained ct_h [7; 3; 6]%nat 4 [6; 5]%nat 6.
Proof.
  eapply (ch_sub_r ct_h _ 4 [5]%nat 5); [|cbn; lia|reflexivity|eapply ct_con_known; reflexivity]. eapply (ch_many ct_h _ 4 [] 4 5 NMul [3]%nat []); [constructor|cbn; lia|reflexivity|discriminate|].
  intros p [<-|[]]. apply ck_req. cbn; auto.
Qed.
Lemma ct_observes v : In v [7; 3; 6]%nat -> observes ct_h cs_cont [7; 3; 6]%nat v (ct_base v).
Proof.
  assert (K3 : cknown ct_h [7; 3; 6]%nat 3) by (apply ck_req; cbn; auto). intros [<-|[<-|[<-|[]]]].
  - eapply (o_rv ct_h cs_cont _ 7); [reflexivity|]. now intros p [<-|[]].
  - eapply (o_chain ct_h cs_cont _ 3 2 [3]%nat); [apply ct_chain3; cbn; lia|discriminate|reflexivity|reflexivity|]. intros p [<-|[<-|[]]]; eapply ct_con_known; reflexivity.
  - eapply (o_chain ct_h cs_cont _ 6 4 [6; 5]%nat); [apply ct_chain6|discriminate|reflexivity|reflexivity|]. intros p [<-|[<-|[]]]; [eapply ct_con_known; reflexivity|exact K3].
Qed.
Lemma ct_inj v w : In v [7; 3; 6]%nat -> In w [7; 3; 6]%nat -> ct_base v = ct_base w -> v = w.
Proof. intros [<-|[<-|[<-|[]]]] [<-|[<-|[<-|[]]]]; cbn; intros; congruence. Qed.
Lemma ct_chain_inv req v b ws d ps : ~ In 2%nat req -> In v [7; 3]%nat -> chained ct_h req b ws v -> nth_error ct_h b = Some (CRv d ps) -> ws = [] \/ b = 2%nat /\ ws = [3]%nat.
Proof.
  intros N2 [<-|[<-|[]]] C Nb.
  - destruct (chain_inv ct_h req b ws 7 C) as [(E & _)|(ws' & a & n & _ & _ & _ & N & El & _)]; [now left|]. injection N as <-. destruct El.
  - right. apply (chain_fun ct_h req b 2 d ps 0 [0; 1]%nat ws Nb eq_refl [3]%nat 3 C). now apply ct_chain3.
Qed.
Lemma ct_drawn v r rho : nth_error ct_h v = Some (CCon (Fin r)) -> cvalue cs_fs ct_h (drawn ct_h rho) v r.
Proof. intros N. apply c_con; auto. unfold drawn. now rewrite N. Qed.
Lemma ct_rv v d ps rho : nth_error ct_h v = Some (CRv d ps) -> cvalue cs_fs ct_h (drawn ct_h rho) v (rho v).
Proof. intros N. apply c_given. unfold drawn. now rewrite N. Qed.
Lemma ct_y rho : cvalue cs_fs ct_h (drawn ct_h rho) 3 (exp (rho 2%nat)).
Proof. eapply (c_exp cs_fs ct_h _ 3 2); try reflexivity. eapply ct_rv; reflexivity. Qed.
Lemma ct_t rho : cvalue cs_fs ct_h (drawn ct_h rho) 6 (1 - exp (rho 2%nat) * (rho 4%nat * 1)).
Proof.
  eapply (c_sub cs_fs ct_h _ 6 1 5); try reflexivity; [now apply ct_drawn|]. eapply (c_mul cs_fs ct_h _ 5 [3; 4]%nat [_; _]); try reflexivity.
  constructor; [apply ct_y|constructor; [eapply ct_rv; reflexivity|constructor]].
Qed.
Lemma ct_lone : ~ transformed ct_h [7; 3; 6]%nat 1 /\ ~ transformed ct_h [3]%nat 1.
Proof.
  split; intros (v & b & ws & ps & I & C & Ne & Nb).
  - assert (Q : v = 6%nat \/ In v [7; 3]%nat) by (cbn in *; intuition). destruct Q as [->|Q].
    + destruct (chain_fun ct_h _ b 4 1 ps 0 [0; 3]%nat ws Nb eq_refl [6; 5]%nat 6 C ct_chain6) as [-> _]. discriminate Nb.
    + destruct (ct_chain_inv [7; 3; 6]%nat v b ws _ _ ltac:(cbn; lia) Q C Nb) as [E|[-> _]]; [easy|discriminate Nb].
  - destruct (ct_chain_inv [3]%nat v b ws _ _ ltac:(cbn; lia) ltac:(cbn in *; intuition) C Nb) as [E|[-> _]]; [easy|discriminate Nb].
Qed.
Lemma ct_safe req : ~ In 4%nat req -> safe_chains cs_fs ct_h cs_cont cs_pdf req.
Proof.
  intros N4 v b ws rho _ _ _ _ w _. do 5 (destruct w as [|w]; [exact I|]). destruct w as [|w]; [|do 2 (destruct w as [|w]; [exact I|]); unfold safe; destruct w; exact I].
  intros p x [<-|[<-|[]]] K V.
  - rewrite (cval_fun cs_fs ct_h ct_acyclic _ (drawn_con ct_h rho) 3 _ _ V (ct_y rho)). apply Rgt_not_eq, exp_pos.
  - exfalso. inversion K as [v' I'|v' n N NR]; [easy|]. injection N as <-. eapply NR; reflexivity.
Qed.
Lemma ct_runs rho : runs cs_fs ct_h cs_cont cs_pdf cs_proper [7; 3; 6]%nat (map ct_base [3; 6; 7]%nat) rho.
Proof.
  cbn [map ct_base]. eapply (run_draw _ _ _ _ _ _ 2 _ _ 0 _ [0; 1]); [reflexivity|constructor; [now apply ct_drawn|constructor; [now apply ct_drawn|constructor]]|cbn; lra|]. intros x _ _.
  eapply (run_draw _ _ _ _ _ _ 4 _ _ 0 _ [0; _]); [reflexivity|constructor; [now apply ct_drawn|constructor; [apply ct_y|constructor]]|apply exp_pos|]. intros x' _ _.
  eapply (run_draw _ _ _ _ _ _ 7 _ _ 1 _ [_]); [reflexivity|constructor; [apply ct_y|constructor]|apply exp_pos|]. intros x'' _ _.
  eapply (run_end _ _ _ _ _ _ _ [_; _; _]). constructor; [eapply ct_rv; reflexivity|constructor; [apply ct_y|constructor; [apply ct_t|constructor]]].
Qed.
(** the probability that exp(X) is at least e *)
Definition from_e (l : list R) : R := match l with [z] => if Rlt_dec z (exp 1) then 0 else 1 | _ => 0 end.
Lemma ct_one rho : expects cs_fs ct_h cs_cont cs_pdf cs_proper [3]%nat from_e (map ct_base [3]%nat) rho (1 - normal_cdf 0 1 1).
Proof.
  cbn [map ct_base]. eapply (ex_draw _ _ _ _ _ _ _ 2 _ _ 0 _ [0; 1] (fun x => if Rlt_dec x 1 then 0 else 1)); [reflexivity|constructor; [now apply ct_drawn|constructor; [now apply ct_drawn|constructor]]|cbn; lra| |].
  - intros x _ _. assert (W : expects cs_fs ct_h cs_cont cs_pdf cs_proper [3]%nat from_e [] (upd rho 2 x) (from_e [exp (upd rho 2 x 2%nat)])).
    { apply (ex_end cs_fs ct_h cs_cont cs_pdf cs_proper [3]%nat from_e). constructor; [apply ct_y|constructor]. }
    change (upd rho 2 x 2%nat) with x in W. replace (from_e [exp x]) with (if Rlt_dec x 1 then 0 else 1) in W; [exact W|]. cbn [from_e].
    destruct (Rlt_dec x 1) as [L|L], (Rlt_dec (exp x) (exp 1)) as [L'|L']; auto; exfalso; [apply L'; now apply exp_increasing|apply L; now apply exp_lt_inv].
  - cbn [cs_cont Nat.eqb cs_pdf]. apply half_line. apply normal_law. lra.
Qed.
Lemma ct_observes1 v : In v [3]%nat -> observes ct_h cs_cont [3]%nat v (ct_base v).
Proof. intros [<-|[]]. eapply (o_chain ct_h cs_cont _ 3 2 [3]%nat); [apply ct_chain3; cbn; lia|discriminate|reflexivity|reflexivity|]. intros p [<-|[<-|[]]]; eapply ct_con_known; reflexivity. Qed.
