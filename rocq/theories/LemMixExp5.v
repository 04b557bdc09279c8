(** A model with a mixture: the facts its examples need. *)
From Coq Require Import Reals Lra Lia ZArith List Arith Bool Permutation Sorted.
From Coquelicot Require Import Coquelicot.
From Verif Require Import XR SpecDist ModelDist ModelVec SpecCens LemInt ModelCens LemCens ModelJoint ModelMix ModelNest ModelGuard ModelCensSys SpecCensSys LemCensSys LemCensSys2 LemCensSys3 LemCensSys4 LemCensSys5 ModelMixCens SpecMixExp LemMixExp LemMixExp2 LemMixExp3 LemMixExp4 LemDist LemDisc SpecCdf LemCdf.
Import ListNotations.
Open Scope R_scope.

(** ** I ~ bernoulli(1/3), X ~ normal(0, 1), Y ~ normal(5, 2), Z = stack([X, Y])[I], W ~ normal(Z, 1), C = clip(W, 0, 1) *)
Definition mx_h : list cnode :=
  [CCon (Fin 0); CCon (Fin 1); CCon (Fin (/ 3)); CRv 2 [2]%nat; CRv 0 [0; 1]%nat; CCon (Fin 5); CCon (Fin 2); CRv 0 [5; 6]%nat; COther 0 [3; 4; 7]%nat; CRv 0 [8; 1]%nat; CClip DFloat 9 0 1].
Definition mx_sel (k : nat) : bool := (k =? 0)%nat.
Definition mx_fs (k : nat) (l : list xr) : xr :=
  match l with Fin i :: xs => if Req_EM_T i (INR (Z.to_nat (Int_part i))) then nth (Z.to_nat (Int_part i)) xs NaN else NaN | _ => NaN end.
Definition mx_lp (d : nat) (ps : list xr) (x : xr) : res xr := match d, ps with 2%nat, [p] => bernoulli_logprob p x | 2%nat, _ => Raise | _, _ => cs_lp d ps x end.
Definition mx_pdf (d : nat) (xs : list R) (x : R) : R := match d, xs with 2%nat, [p] => bernoulli_pmf p (Z.to_nat (Int_part x)) | 2%nat, _ => 0 | _, _ => cs_pdf d xs x end.
Definition mx_proper (d : nat) (xs : list R) : Prop := match d, xs with 2%nat, [p] => 0 <= p <= 1 | 2%nat, _ => False | _, _ => cs_proper d xs end.
Definition mx_base (v : nat) : nat := match v with 10%nat => 9%nat | _ => v end.

Lemma mx_selects : selects mx_fs mx_sel.
Proof.
  intros k i xs r _. cbn [mx_fs map]. assert (N : forall n, nth n (map Fin xs) NaN = Fin r <-> nth_error xs n = Some r).
  { clear. induction xs as [|x xs IH]; intros [|n]; cbn; try (split; discriminate); [split; congruence|apply IH]. }
  destruct (Req_EM_T i (INR (Z.to_nat (Int_part i)))) as [E|E].
  - rewrite N. split; [intros H; exists (Z.to_nat (Int_part i)); auto|]. intros (n & -> & H). now rewrite int_nat.
  - split; [discriminate|]. intros (n & -> & _). destruct E. now rewrite int_nat.
Qed.
Lemma mx_numbered : numbered mx_h 3.
Proof. intros v d ps N. do 11 (destruct v as [|v]; [try discriminate N; injection N as <- <-; lia|]). destruct v; discriminate N. Qed.
Lemma mx_acyclic : cacyclic mx_h.
Proof. intros v n a N I. do 11 (destruct v as [|v]; [injection N as <-; cbn in I; intuition lia|]). destruct v; discriminate N. Qed.
Lemma mx_mixture v idx comps : mixture mx_sel mx_h v idx comps -> v = 8%nat /\ idx = 3%nat /\ comps = [4; 7]%nat.
Proof. intros (k & N & _). do 11 (destruct v as [|v]; [try discriminate N; injection N as <- <- <-; auto|]). destruct v; discriminate N. Qed.
Lemma mx_plain req : ~ In 4%nat req -> ~ In 7%nat req -> plain_mixtures mx_sel mx_h req cs_cont.
Proof.
  intros N4 N7 v idx comps I Mx. destruct (mx_mixture v idx comps Mx) as (-> & -> & ->). split; [discriminate|]. exists true. intros b [<-|[<-|[]]]; (split; [auto|]); do 2 eexists; (split; [reflexivity|reflexivity]).
Qed.
Lemma mx_lawful h req : (forall d, ~ rounded h req d) -> (forall d, ~ transformed h req d) -> ~ clipped h req 2 -> lawful h cs_cont mx_pdf mx_proper req cs_ddt mx_lp cs_lc cs_cdf.
Proof.
  intros NR NT NC. pose proof (cs_lawful h req (NR 1%nat) (NT 1%nat)) as L. constructor.
  - intros d xs P. assert (E : d = 2%nat \/ d <> 2%nat) by lia. destruct E as [->|E].
    + destruct xs as [|p [|? ?]]; try destruct P. cbn. apply (is_series_ext (bernoulli_pmf p)); [intros n; now rewrite int_nat|]. apply bernoulli_sum.
    + assert (mx_proper d xs = cs_proper d xs /\ mx_pdf d xs = cs_pdf d xs) as [Ep ->] by (do 3 (destruct d as [|d]; [auto|]); auto; now destruct E). rewrite Ep in P. apply (lf_unit _ _ _ _ _ _ _ _ _ L d xs P).
  - intros d xs x P C. assert (E : d = 2%nat \/ d <> 2%nat) by lia. destruct E as [->|E].
    + destruct xs as [|p [|? ?]]; try destruct P. cbn in C. destruct C as [k ->]. cbn [map mx_lp mx_pdf]. rewrite int_nat. apply bernoulli_mass. lra.
    + assert (mx_proper d xs = cs_proper d xs /\ mx_pdf d xs = cs_pdf d xs /\ mx_lp d (map Fin xs) = cs_lp d (map Fin xs)) as (Ep & -> & ->) by (do 3 (destruct d as [|d]; [auto|]); auto; now destruct E). rewrite Ep in P. now apply (lf_lp _ _ _ _ _ _ _ _ _ L d xs x P).
  - intros d xs C Cd P. destruct d as [|d]; [|discriminate]. apply (lf_cens _ _ _ _ _ _ _ _ _ L 0%nat xs C Cd P).
  - intros d xs C Cd P. assert (E : d = 2%nat \/ d <> 2%nat) by lia. destruct E as [->|E]; [easy|].
    assert (mx_proper d xs = cs_proper d xs /\ mx_pdf d xs = cs_pdf d xs /\ mx_lp d (map Fin xs) = cs_lp d (map Fin xs)) as (Ep & -> & ->) by (do 3 (destruct d as [|d]; [auto|]); auto; now destruct E). rewrite Ep in P. now apply (lf_count _ _ _ _ _ _ _ _ _ L d xs).
  - intros d xs x C. now destruct (NR d).
  - intros d xs C. now destruct (NT d).
Qed.
Lemma mx_rounded req d : ~ rounded mx_h req d.
Proof. intros (v & op & b & ps & _ & N & _). do 11 (destruct v as [|v]; [discriminate N|]). destruct v; discriminate N. Qed.
Lemma mx_clipped req : ~ clipped mx_h req 2.
Proof. intros (v & t & b & lo & hi & ps & _ & N & Nb). do 11 (destruct v as [|v]; [try discriminate N; injection N as <- <- <- <-; discriminate Nb|]). destruct v; discriminate N. Qed.
Lemma mx_elem v n : nth_error mx_h v = Some n -> ~ elem n.
Proof. intros N. do 11 (destruct v as [|v]; [injection N as <-; intros []|]). destruct v; discriminate N. Qed.
Lemma mx_con v r rho : nth_error mx_h v = Some (CCon (Fin r)) -> cvalue mx_fs mx_h (drawn mx_h rho) v r.
Proof. intros N. apply c_con; auto. unfold drawn. now rewrite N. Qed.
Lemma mx_rv v d ps rho : nth_error mx_h v = Some (CRv d ps) -> cvalue mx_fs mx_h (drawn mx_h rho) v (rho v).
Proof. intros N. apply c_given. unfold drawn. now rewrite N. Qed.
Lemma mx_z rho n : rho 3%nat = INR n -> (n < 2)%nat -> cvalue mx_fs mx_h (drawn mx_h rho) 8 (match n with O => rho 4%nat | _ => rho 7%nat end).
Proof.
  intros E L. eapply (c_other mx_fs mx_h _ 8 0 _ [rho 3%nat; rho 4%nat; rho 7%nat]); try reflexivity; [repeat (constructor; [eapply mx_rv; reflexivity|]); constructor|].
  apply (mx_selects 0%nat (rho 3%nat) [rho 4%nat; rho 7%nat] _ eq_refl). exists n. split; auto. destruct n as [|[|n]]; [reflexivity|reflexivity|lia].
Qed.
Lemma mx_c rho : cvalue mx_fs mx_h (drawn mx_h rho) 10 (clip_fun 0 1 (rho 9%nat)).
Proof.
  eapply (c_clip mx_fs mx_h _ 10 DFloat 9 0 1); try reflexivity; [eapply mx_rv; reflexivity| | |cbn; lra]; (apply b_val; [discriminate|now apply mx_con]).
Qed.
Lemma bern_index k : mx_pdf 2 [/ 3] (INR k) <> 0 -> (k < 2)%nat.
Proof. cbn. rewrite int_nat. destruct k as [|[|k]]; cbn; intros; [lia|lia|lra]. Qed.

Notation mx_m := (merged mx_sel mx_h [10; 8; 3]%nat 3).
Notation mx_mc := (m_cont mx_h cs_cont 3).
Lemma mx_known req v c : nth_error (merged mx_sel mx_h req 3) v = Some (CCon c) -> cknown (merged mx_sel mx_h req 3) req v.
Proof. intros N. eapply ck_det; eauto; [discriminate|intros a []]. Qed.
Lemma mx_observes v : In v [10; 8; 3]%nat -> observes mx_m mx_mc [10; 8; 3]%nat v (mx_base v).
Proof.
  intros [<-|[<-|[<-|[]]]].
  - eapply (o_clip mx_m mx_mc _ 10 DFloat 9 0 1); try reflexivity; [cbn; lia| | |].
    + intros p [<-|[<-|[]]]; [apply ck_req; cbn; auto|eapply mx_known; reflexivity].
    + right. eapply mx_known; reflexivity.
    + right. eapply mx_known; reflexivity.
  - eapply (o_rv mx_m mx_mc _ 8); [reflexivity|]. cbn [rv_params flat_map nth_error mx_h app]. intros p [<-|[<-|[<-|[<-|[<-|[]]]]]]; [apply ck_req; cbn; auto|eapply mx_known; reflexivity..].
  - eapply (o_rv mx_m mx_mc _ 3); [reflexivity|]. intros p [<-|[]]. eapply mx_known; reflexivity.
Qed.
Lemma mx_merged_node req v n : nth_error (merged mx_sel mx_h req 3) v = Some n -> (exists d ps, n = CRv d ps) \/ nth_error mx_h v = Some n.
Proof.
  rewrite merged_nth. destruct (nth_error mx_h v) as [n0|] eqn:N; [|discriminate]. cbn [option_map]. injection 1 as <-. destruct (merge_cases mx_sel mx_h req 3 v n0 N) as [(idx & comps & _ & _ & ->)|(_ & ->)]; eauto.
Qed.
Lemma mx_chains req cont pdf : safe_chains mx_fs (merged mx_sel mx_h req 3) cont pdf req.
Proof.
  apply no_chains. intros v n _ N. destruct (mx_merged_node req v n N) as [(d & ps & ->)|N']; [intros []|]. eapply mx_elem; eauto.
Qed.
Lemma mx_whole req : ~ In 9%nat req -> whole_bounds mx_fs (merged mx_sel mx_h req 3) mx_mc req.
Proof.
  intros N9 v t b lo hi d ps _ N Nb Cd. exfalso. destruct (mx_merged_node req v _ N) as [(d' & ps' & Q)|N']; [discriminate|]. clear N.
  do 11 (destruct v as [|v]; [try discriminate N'; injection N' as <- <- <- <-; rewrite merged_same in Nb by (intros [Q _]; easy); injection Nb as <- <-; discriminate Cd|]). destruct v; discriminate N'.
Qed.
Lemma mx_nodup : NoDup (flat_map (sources mx_sel mx_h mx_base) [3; 8; 10]%nat).
Proof. cbn. repeat (constructor; [cbn; intuition discriminate|]). constructor. Qed.
Lemma mx_runs rho : runs mx_fs mx_h cs_cont mx_pdf mx_proper [10; 8; 3]%nat (flat_map (sources mx_sel mx_h mx_base) [3; 8; 10]%nat) rho.
Proof.
  change (flat_map (sources mx_sel mx_h mx_base) [3; 8; 10]%nat) with [3; 4; 7; 9]%nat.
  eapply (run_draw _ _ _ _ _ _ 3 _ _ 2 _ [/ 3]); [reflexivity|constructor; [now apply mx_con|constructor]|cbn; lra|]. intros i [n ->] Pn. apply bern_index in Pn.
  eapply (run_draw _ _ _ _ _ _ 4 _ _ 0 _ [0; 1]); [reflexivity|constructor; [now apply mx_con|constructor; [now apply mx_con|constructor]]|cbn; lra|]. intros x _ _.
  eapply (run_draw _ _ _ _ _ _ 7 _ _ 0 _ [5; 2]); [reflexivity|constructor; [now apply mx_con|constructor; [now apply mx_con|constructor]]|cbn; lra|]. intros x' _ _.
  eapply (run_draw _ _ _ _ _ _ 9 _ _ 0 _ [_; 1]); [reflexivity|constructor; [apply (mx_z _ n); [reflexivity|auto]|constructor; [now apply mx_con|constructor]]|cbn; lra|]. intros w _ _.
  eapply (run_end _ _ _ _ _ _ _ [_; _; _]). constructor; [apply mx_c|]. constructor; [apply (mx_z _ n); [reflexivity|auto]|]. constructor; [eapply mx_rv; reflexivity|constructor].
Qed.

(** ** the probability that Z is at least 1 *)
Definition from_one (l : list R) : R := match l with [z; _] => if Rlt_dec z 1 then 0 else 1 | _ => 0 end.
Definition mx_prob : R := 2 / 3 * (1 - normal_cdf 0 1 1) + 1 / 3 * (1 - normal_cdf 5 2 1).
Lemma two_series (a : nat -> R) : (forall n, (2 <= n)%nat -> a n = 0) -> is_series a (a 0%nat + a 1%nat).
Proof.
  intros Z. apply lim_series. apply (is_lim_seq_ext_loc (fun _ => a 0%nat + a 1%nat)); [|apply is_lim_seq_const]. exists 1%nat. intros n Hn. symmetry. induction Hn as [|m Hn IH].
  - rewrite sum_Sn, sum_O. reflexivity.
  - rewrite sum_Sn, IH, (Z (S m)) by lia. unfold plus. cbn. ring.
Qed.
Lemma mx_expects rho : expects mx_fs mx_h cs_cont mx_pdf mx_proper [8; 3]%nat from_one (flat_map (sources mx_sel mx_h mx_base) [3; 8]%nat) rho mx_prob.
Proof.
  change (flat_map (sources mx_sel mx_h mx_base) [3; 8]%nat) with [3; 4; 7]%nat.
  eapply (ex_draw _ _ _ _ _ _ _ 3 _ _ 2 _ [/ 3] (fun i => if Req_EM_T i 0 then 1 - normal_cdf 0 1 1 else 1 - normal_cdf 5 2 1)); [reflexivity|constructor; [now apply mx_con|constructor]|cbn; lra| |].
  - intros i [n ->] Pn. apply bern_index in Pn. set (r3 := upd rho 3 (INR n)). destruct (Req_EM_T (INR n) 0) as [Q|Q].
    + assert (n = 0%nat) as -> by (apply INR_eq; rewrite Q; reflexivity).
      eapply (ex_draw _ _ _ _ _ _ _ 4 _ _ 0 _ [0; 1] (fun x => if Rlt_dec x 1 then 0 else 1)); [reflexivity|constructor; [now apply mx_con|constructor; [now apply mx_con|constructor]]|cbn; lra| |cbn [cs_cont Nat.eqb mx_pdf cs_pdf]; apply half_line, normal_law; lra].
      intros x _ _. eapply (ex_draw _ _ _ _ _ _ _ 7 _ _ 0 _ [5; 2] (fun _ => if Rlt_dec x 1 then 0 else 1)); [reflexivity|constructor; [now apply mx_con|constructor; [now apply mx_con|constructor]]|cbn; lra| |].
      * intros x' _ _. assert (W : expects mx_fs mx_h cs_cont mx_pdf mx_proper [8; 3]%nat from_one [] (upd (upd r3 4 x) 7 x') (from_one [x; INR 0])); [|exact W].
        apply (ex_end mx_fs mx_h cs_cont mx_pdf mx_proper [8; 3]%nat from_one). constructor; [apply (mx_z (upd (upd r3 4 x) 7 x') 0); [reflexivity|lia]|]. constructor; [apply (mx_rv 3 2 [2]%nat); reflexivity|constructor].
      * set (c := if Rlt_dec x 1 then 0 else 1). pose proof (integral_scal Leb c _ _ (leb_unit _ _ (normal_law 5 2 ltac:(lra)))) as S. rewrite Rmult_1_r in S. cbn [cs_cont Nat.eqb]. apply (integral_ext Leb _ _ _ I) with (2 := S). intros z _. cbn [mx_pdf cs_pdf]. apply Rmult_comm.
    + assert (n = 1%nat) as -> by (destruct n as [|[|n]]; [now destruct Q|auto|lia]).
      eapply (ex_draw _ _ _ _ _ _ _ 4 _ _ 0 _ [0; 1] (fun x => 1 - normal_cdf 5 2 1)); [reflexivity|constructor; [now apply mx_con|constructor; [now apply mx_con|constructor]]|cbn; lra| |].
      * intros x _ _. eapply (ex_draw _ _ _ _ _ _ _ 7 _ _ 0 _ [5; 2] (fun x' => if Rlt_dec x' 1 then 0 else 1)); [reflexivity|constructor; [now apply mx_con|constructor; [now apply mx_con|constructor]]|cbn; lra| |cbn [cs_cont Nat.eqb mx_pdf cs_pdf]; apply half_line, normal_law; lra].
        intros x' _ _. assert (W : expects mx_fs mx_h cs_cont mx_pdf mx_proper [8; 3]%nat from_one [] (upd (upd r3 4 x) 7 x') (from_one [x'; INR 1])); [|exact W].
        apply (ex_end mx_fs mx_h cs_cont mx_pdf mx_proper [8; 3]%nat from_one). constructor; [apply (mx_z (upd (upd r3 4 x) 7 x') 1); [reflexivity|lia]|]. constructor; [apply (mx_rv 3 2 [2]%nat); reflexivity|constructor].
      * set (c := 1 - normal_cdf 5 2 1). pose proof (integral_scal Leb c _ _ (leb_unit _ _ (normal_law 0 1 ltac:(lra)))) as S. rewrite Rmult_1_r in S. cbn [cs_cont Nat.eqb]. apply (integral_ext Leb _ _ _ I) with (2 := S). intros z _. cbn [mx_pdf cs_pdf]. apply Rmult_comm.
  - cbn [cs_cont Nat.eqb integral mx_pdf]. set (a := fun k : nat => bernoulli_pmf (/ 3) (Z.to_nat (Int_part (INR k))) * (if Req_EM_T (INR k) 0 then 1 - normal_cdf 0 1 1 else 1 - normal_cdf 5 2 1)).
    assert (mx_prob = a 0%nat + a 1%nat) as ->.
    { unfold a. rewrite !int_nat. cbn [bernoulli_pmf]. destruct (Req_EM_T (INR 0) 0) as [_|Q]; [|now destruct Q]. destruct (Req_EM_T (INR 1) 0) as [Q|_]; [cbn in Q; lra|]. unfold mx_prob. field. }
    apply two_series. intros n Hn. unfold a. rewrite int_nat. destruct n as [|[|n]]; [lia|lia|]. cbn [bernoulli_pmf]. ring.
Qed.
Lemma mx_observes1 v : In v [8; 3]%nat -> observes (merged mx_sel mx_h [8; 3]%nat 3) mx_mc [8; 3]%nat v (mx_base v).
Proof.
  intros [<-|[<-|[]]].
  - eapply (o_rv (merged mx_sel mx_h [8; 3]%nat 3) mx_mc _ 8); [reflexivity|]. cbn [rv_params flat_map nth_error mx_h app]. intros p [<-|[<-|[<-|[<-|[<-|[]]]]]]; [apply ck_req; cbn; auto|eapply mx_known; reflexivity..].
  - eapply (o_rv (merged mx_sel mx_h [8; 3]%nat 3) mx_mc _ 3); [reflexivity|]. intros p [<-|[]]. eapply mx_known; reflexivity.
Qed.
Lemma mx_nodup1 : NoDup (flat_map (sources mx_sel mx_h mx_base) [3; 8]%nat).
Proof. cbn. repeat (constructor; [cbn; intuition discriminate|]). constructor. Qed.
Lemma mx_all_lawful req : lawful mx_h cs_cont mx_pdf mx_proper req cs_ddt mx_lp cs_lc cs_cdf.
Proof.
  apply mx_lawful; [apply mx_rounded| |apply mx_clipped]. apply (no_chains mx_fs mx_h cs_cont mx_pdf req). intros v n _ N. eapply mx_elem; eauto.
Qed.
