(** Lemmas for C84. *)
From Coq Require Import Reals List Arith ZArith Bool Lia Lra Permutation Sorted Classical.
From Coquelicot Require Import Coquelicot.
From Verif Require Import XR SpecDist SpecTrans LemInt ModelVec ModelTrans ModelJoint SpecJoint LemJoint ModelGraph SpecGraph LemGraph LemGraph2 LemGraph3 ModelLaw SpecLaw LemLaw SpecLawArr LemLawArr2
  ModelScan SpecScan LemScan ModelScanBody SpecScanBody LemScanBody ModelScanLaw SpecScanLaw.
Import ListNotations.
Open Scope nat_scope.

(** ** Chains of entries, each with a law given the entries before it *)
Section Chain.
Variables (J : point_values -> xr -> Prop) (lawat : point_values -> nat * list nat -> law -> Prop) (es : list (nat * list nat)).
Let val (zs : point_values) (e : nat * list nat) : R := zs (fst e) (snd e).
Let within zs e := forall L, lawat zs e L -> contains (law_support L) (val zs e).
Let fd zs e d := exists L, lawat zs e L /\ denotes (law_logprob L (Fin (val zs e))) d.
Let dom zs e s := exists L, lawat zs e L /\ s = law_support L.
Hypothesis ND : NoDup es.
Hypothesis EX : forall zs e, In e es -> exists L, lawat zs e L.
Hypothesis VALID : forall zs done e todo L, es = done ++ e :: todo -> (forall e', In e' done -> within zs e') -> lawat zs e L -> law_valid L.
Hypothesis LOC : forall zs zs' done e todo L M, es = done ++ e :: todo -> (forall e', In e' done -> val zs e' = val zs' e') -> lawat zs e L -> lawat zs' e M -> L = M.
Hypothesis JOINT : forall zs ds, List.Forall2 (fd zs) es ds -> exists y, J zs y /\ denotes (Val y) (prodl ds).

Let moved zs zs' done e todo L : es = done ++ e :: todo -> (forall e', In e' done -> val zs e' = val zs' e') -> lawat zs e L -> lawat zs' e L.
Proof. intros E H A. destruct (EX zs' e) as (M & B); [rewrite E; apply in_or_app; right; now left|]. now rewrite (LOC zs zs' done e todo L M E H A B). Qed.
Lemma chain_from : forall todo done zs ds, done ++ todo = es -> List.Forall2 (fd zs) done ds -> (forall e, In e done -> within zs e) -> total J dom todo zs (prodl ds).
Proof.
  induction todo as [|e todo IH]; intros done zs ds E F Wd.
  - rewrite app_nil_r in E. subst done. destruct (JOINT zs ds F) as (y & Hy & Hd). eapply total_here; eauto.
  - destruct (EX zs e) as (L & A); [rewrite <- E; apply in_or_app; right; now left|]. pose proof (VALID zs done e todo L (eq_sym E) Wd A) as V.
    assert (NQ : forall e', In e' done -> e' <> e). { intros e' Ie ->. rewrite <- E in ND. apply NoDup_remove_2 in ND. apply ND, in_or_app. auto. }
    assert (UP : forall x e', In e' done -> val zs e' = val (upd_entry zs e x) e') by (intros x e' Ie; apply upd_entry_other; auto).
    assert (SAME : forall x, val (upd_entry zs e x) e = x) by (intros x; destruct e; apply upd_entry_same).
    assert (AU : forall x, lawat (upd_entry zs e x) e L) by (intros x; exact (moved _ _ _ _ _ _ (eq_sym E) (UP x) A)).
    assert (PRE : forall x e', In e' done -> exists d1 t1, es = d1 ++ e' :: t1 /\ forall e2, In e2 d1 -> val zs e2 = val (upd_entry zs e x) e2).
    { intros x e' Ie. apply in_split in Ie as (d1 & d2 & Ed). exists d1, (d2 ++ e :: todo). split; [rewrite <- E, Ed, <- app_assoc; reflexivity|].
      intros e2 I2. apply UP. rewrite Ed. apply in_or_app. auto. }
    assert (STEP : forall x d, denotes (law_logprob L (Fin x)) d -> contains (law_support L) x -> total J dom todo (upd_entry zs e x) (prodl ds * d)).
    { intros x d Hd Hc. replace (prodl ds * d)%R with (prodl (ds ++ [d])) by (rewrite prodl_app; cbn; ring).
      apply (IH (done ++ [e])); [rewrite <- app_assoc; exact E| |].
      - apply Forall2_app; [|constructor; [exists L; rewrite SAME; auto|constructor]]. eapply F2_in; [exact F|]. intros e' d' Ie (M & B & Hm).
        destruct (PRE x e' Ie) as (d1 & t1 & E1 & H1). exists M. rewrite <- (UP x e' Ie). split; [exact (moved _ _ _ _ _ _ E1 H1 B)|exact Hm].
      - intros e' Ie. apply in_app_or in Ie as [Ie|[<-|[]]].
        + intros M B. rewrite <- (UP x e' Ie). apply (Wd e' Ie). destruct (PRE x e' Ie) as (d1 & t1 & E1 & H1).
          exact (moved _ _ _ _ _ _ E1 (fun e2 I2 => eq_sym (H1 e2 I2)) B).
        + intros M B. rewrite SAME. assert (M = L) as -> by (eapply (LOC _ _ done e todo); [exact (eq_sym E)|reflexivity|exact B|apply AU]). exact Hc. }
    assert (DM : dom zs e (law_support L)) by (exists L; auto).
    destruct (law_support L) as [lo hi|pm] eqn:Es.
    + destruct (law_cont L lo hi V Es) as (f & H1 & _ & H3). apply (total_int J dom e todo zs lo hi (fun x => (prodl ds * f x)%R)); auto.
      * now apply (law_order L).
      * pose proof (is_RInt_gen_scal f (prodl ds) 1%R H3) as Q. change (scal (prodl ds) 1%R) with (prodl ds * 1)%R in Q. rewrite Rmult_1_r in Q. exact Q.
    + destruct (law_disc L pm V Es) as (H1 & H2). apply (total_sum J dom e todo zs pm (fun k => (prodl ds * pm k)%R)); auto.
      * intros k Hk. apply STEP; [apply H1|]. exists k. auto.
      * intros k ->. ring.
      * pose proof (is_series_scal (prodl ds) pm 1%R H2) as Q. change (scal (prodl ds) 1%R) with (prodl ds * 1)%R in Q. rewrite Rmult_1_r in Q. exact Q.
Qed.
Lemma chain_one zs : total J dom es zs 1.
Proof. exact (chain_from es [] zs [] eq_refl ltac:(constructor) ltac:(easy)). Qed.
End Chain.

(** ** Sorted lists *)
Lemma sorted_before {A} (R : A -> A -> Prop) : (forall x y, R x y -> R y x -> False) -> forall l, StronglySorted R l ->
  forall d e t e', l = d ++ e :: t -> In e' l -> R e' e -> In e' d.
Proof.
  intros AS l SO d. revert l SO. induction d as [|x d IH]; intros l SO e t e' -> I Re; cbn [app] in *; inversion SO as [|? ? SO' F]; subst.
  - exfalso. destruct I as [<-|I]; [eauto|]. rewrite Forall_forall in F. eauto.
  - destruct I as [<-|I]; [now left|]. right. eapply IH; eauto.
Qed.
Lemma sorted_nodup {A} (R : A -> A -> Prop) : (forall x, ~ R x x) -> forall l, StronglySorted R l -> NoDup l.
Proof.
  intros IR l SO. induction SO as [|x l SO IH F]; constructor; [|exact IH]. intros I. rewrite Forall_forall in F. exact (IR x (F x I)).
Qed.
Lemma sorted_app {A} (R : A -> A -> Prop) a b : StronglySorted R a -> StronglySorted R b -> (forall x y, In x a -> In y b -> R x y) -> StronglySorted R (a ++ b).
Proof.
  intros SA SB H. induction SA as [|x a SA IH F]; [exact SB|]. cbn. constructor.
  - apply IH. intros y z I J. apply H; [now right|exact J].
  - apply Forall_app. split; [exact F|]. apply Forall_forall. intros y I. apply H; [now left|exact I].
Qed.

(** ** The scan *)
Section Scan.
Variables (D : nat -> list R -> law) (det : nat -> list R -> R) (g : heap) (outs : list nat) (lag : nat -> Z -> option nat) (seqs : nat -> nat -> R).
Variables (inits : list (list Z * list R)) (N : nat) (us : list nat).
Notation M := (scan_sem D det).
Hypothesis W : model_graph g.
Hypothesis ND : NoDup outs.
Hypothesis NE : outs <> [].
Hypothesis RV : forall o, In o outs -> random g o.
Hypothesis AO : all_output g outs.
Hypothesis LI : length inits = length outs.
Hypothesis TL : forall taps xs, In (taps, xs) inits -> tap_list taps /\ max_lag taps (length xs) /\ symmetric taps.
Hypothesis LG : lag_inputs g lag (map (fun p => {| s_taps := fst p; s_value := snd p |}) inits).
Hypothesis PM : Permutation us (seq 0 (length outs)).
Hypothesis SO : StronglySorted lt (map (fun u => nth u outs 0) us).
Hypothesis PB : proper_body M D g outs lag seqs inits N.
Notation SL := (step_law M D g outs lag seqs inits N).
Notation PA := (past inits N).

Lemma series_nth zs u : u < length inits ->
  nth_error (series inits N zs) u = Some {| s_taps := fst (out_init inits u); s_value := snd (out_init inits u) ++ map (fun t => zs t [u]) (seq 0 N) |}.
Proof. intros H. unfold series. rewrite nth_error_map, nth_seq by exact H. reflexivity. Qed.
Lemma series_taps zs u x : nth_error (series inits N zs) u = Some x ->
  u < length inits /\ tap_list (s_taps x) /\ max_lag (s_taps x) (initial inits u) /\ symmetric (s_taps x) /\ length (s_value x) = N + initial inits u.
Proof.
  intros E. assert (H : u < length inits) by (apply nth_lt in E; unfold series in E; now rewrite map_length, seq_length in E).
  split; [exact H|]. rewrite series_nth in E by exact H. injection E as <-. cbn [s_taps s_value].
  assert (I : In (out_init inits u) inits) by (apply nth_In, H). unfold initial. destruct (out_init inits u) as (taps & xs) eqn:Eo. cbn [fst snd].
  destruct (TL taps xs I) as (A & B & C). repeat (split; [assumption|]). rewrite app_length, map_length, seq_length. lia.
Qed.
Lemma lag_some u k n : lag u k = Some n -> u < length inits /\ In k (fst (out_init inits u)) /\ (- Z.of_nat (initial inits u) <= k < 0)%Z.
Proof.
  intros E. destruct (proj1 (proj1 LG u k)) as (x & Ex & I); [congruence|]. rewrite nth_error_map in Ex.
  destruct (nth_error inits u) as [p|] eqn:Ep; [|discriminate]. injection Ex as <-. cbn [s_taps] in I.
  assert (Eo : out_init inits u = p) by (apply nth_error_nth, Ep). split; [eapply nth_lt, Ep|]. rewrite Eo. split; [exact I|].
  unfold initial. rewrite Eo. apply nth_error_In in Ep. destruct p as (taps & xs). destruct (TL taps xs Ep) as ((_ & A) & (_ & B) & _). cbn [fst snd] in *. split; [now apply B|now apply A].
Qed.
Lemma past_now zs t u : t < N -> u < length inits -> PA zs t u 0%Z = Some (zs t [u]).
Proof.
  intros Ht Hu. unfold past, history. rewrite series_nth by exact Hu. cbn [s_value]. unfold lagged. destruct (Z.leb_spec 0 (Z.of_nat t + Z.of_nat (initial inits u) + 0)); [|lia].
  replace (Z.to_nat (Z.of_nat t + Z.of_nat (initial inits u) + 0)) with (length (snd (out_init inits u)) + t) by (unfold initial; lia).
  rewrite nth_error_app2, (Nat.add_comm _ t), Nat.add_sub by lia. now rewrite nth_error_map, nth_seq.
Qed.
Lemma past_lag zs zs' t u k n : t < N -> lag u k = Some n -> (forall t', t' < t -> zs t' [u] = zs' t' [u]) -> exists x, PA zs t u k = Some x /\ PA zs' t u k = Some x.
Proof.
  intros Ht E H. destruct (lag_some u k n E) as (Hu & _ & Hk). unfold past, history. rewrite !series_nth by exact Hu. cbn [s_value]. unfold lagged.
  destruct (Z.leb_spec 0 (Z.of_nat t + Z.of_nat (initial inits u) + k)); [|lia].
  set (j := Z.to_nat (Z.of_nat t + Z.of_nat (initial inits u) + k)). assert (Hj : j < t + length (snd (out_init inits u))) by (unfold j, initial in *; lia).
  destruct (lt_dec j (length (snd (out_init inits u)))) as [L|L].
  - rewrite !nth_error_app1 by exact L. destruct (nth_error _ j) as [x|] eqn:Q; [eauto|]. apply nth_error_None in Q. lia.
  - rewrite !nth_error_app2 by lia. rewrite !nth_error_map, nth_seq by lia. cbn. exists (zs (j - length (snd (out_init inits u))) [u]). split; [reflexivity|]. f_equal. symmetry. apply H. lia.
Qed.
Lemma inputs_ex zs t : t < N -> exists i, body_inputs lag seqs t (PA zs t) i.
Proof.
  intros Ht. set (keys := flat_map (fun u => map (pair u) (fst (out_init inits u))) (seq 0 (length inits))).
  set (q n := fun p : nat * Z => match lag (fst p) (snd p) with Some m => m =? n | None => false end).
  exists (fun n => match find (q n) keys with Some p => match PA zs t (fst p) (snd p) with Some x => x | None => 0%R end | None => seqs t n end). split.
  - intros u k n E. destruct (find (q n) keys) as [(u' & k')|] eqn:F.
    + apply find_some in F as (_ & Q). unfold q in Q. cbn [fst snd] in *. destruct (lag u' k') as [m|] eqn:E'; [|discriminate]. apply Nat.eqb_eq in Q as ->.
      destruct (proj2 (proj2 LG) _ _ _ _ _ E E') as (-> & ->). destruct (past_lag zs zs t u' k' n Ht E (fun _ _ => eq_refl)) as (x & -> & _). reflexivity.
    + exfalso. destruct (lag_some u k n E) as (Hu & Ik & _). assert (I : In (u, k) keys). { apply in_flat_map. exists u. split; [apply in_seq; lia|]. now apply in_map. }
      assert (Q := find_none _ _ F _ I). unfold q in Q. cbn [fst snd] in Q. rewrite E, Nat.eqb_refl in Q. discriminate.
  - intros n Hn. destruct (find (q n) keys) as [(u' & k')|] eqn:F; [|reflexivity]. exfalso. apply find_some in F as (_ & Q). unfold q in Q. cbn [fst snd] in Q.
    destruct (lag u' k') as [m|] eqn:E'; [|discriminate]. apply Nat.eqb_eq in Q as ->. exact (Hn _ _ E').
Qed.
Lemma outputs_ex (f : nat -> Z -> option R) : exists rho, body_outputs outs f rho.
Proof.
  exists (fun n => match find (fun u => match nth_error outs u with Some o => o =? n | None => false end) (seq 0 (length outs)) with Some u => f u 0%Z | None => None end). split.
  - intros u o' Eu. destruct (find _ _) as [u'|] eqn:Fd.
    + apply find_some in Fd as (Iu & P). destruct (nth_error outs u') as [o2|] eqn:E2; [|discriminate]. apply Nat.eqb_eq in P as ->.
      f_equal. pose proof ND as ND'. rewrite NoDup_nth_error in ND'. apply ND'; [eapply nth_lt, E2|congruence].
    + exfalso. assert (Iu : In u (seq 0 (length outs))) by (apply in_seq; apply nth_lt in Eu; lia).
      assert (Q := find_none _ _ Fd u Iu). cbv beta in Q. rewrite Eu, Nat.eqb_refl in Q. discriminate.
  - intros n NI. destruct (find _ _) as [u'|] eqn:Fd; [|reflexivity]. apply find_some in Fd as (_ & P).
    destruct (nth_error outs u') as [o2|] eqn:E2; [|discriminate]. apply Nat.eqb_eq in P as ->. destruct NI. eapply nth_error_In, E2.
Qed.
Lemma law_ex zs t u : t < N -> u < length outs -> exists L, SL zs t u L.
Proof.
  intros Ht Hu. destruct (nth_error outs u) as [o|] eqn:Eo; [|apply nth_error_None in Eo; lia].
  destruct (inputs_ex zs t Ht) as (i & Hi). destruct (outputs_ex (PA zs t)) as (rho & Hr). destruct (RV o (nth_error_In _ _ Eo)) as (rng & dist & ps & G).
  destruct (meanss_total (with_inputs M i (fun _ _ _ => 0%R)) g rho W ps) as (xs & X). { intros a I. apply (W _ _ G) in I. apply nth_lt in G. lia. }
  exists (D dist xs), o, i, rho, (fun _ _ _ => 0%R), rng, dist, ps, xs. auto 10.
Qed.
Lemma law_loc zs zs' t u L L' : t < N -> (forall t' u', u' < length outs -> t' < t -> zs t' [u'] = zs' t' [u']) ->
  (forall u', u' < length outs -> nth u' outs 0 < nth u outs 0 -> zs t [u'] = zs' t [u']) -> SL zs t u L -> SL zs' t u L' -> L = L'.
Proof.
  intros Ht H1 H2 (o & i & rho & draw & rng & dist & ps & xs & Eo & (BI & BS) & (RO & RN) & G & MS & ->) (o' & i' & rho' & draw' & rng' & dist' & ps' & xs' & Eo' & (BI' & BS') & (RO' & RN') & G' & MS' & ->).
  rewrite Eo in Eo'. injection Eo' as <-. rewrite G in G'. injection G' as <- <- <-. f_equal.
  assert (Io : In o outs) by (eapply nth_error_In, Eo). assert (No : nth u outs 0 = o) by (apply nth_error_nth, Eo).
  assert (LO : forall v o, nth_error outs v = Some o -> v < length inits) by (intros v o1 E; apply nth_lt in E; lia).
  assert (II : forall v, v < length g -> nth_error g v = Some (mk OIn []) -> i v = i' v).
  { intros n _ _. destruct (classic (exists u k, lag u k = Some n)) as [(u1 & k1 & E)|NO].
    - destruct (past_lag zs zs' t u1 k1 n Ht E) as (x & P & P'); [intros t' Lt; apply H1; [apply lag_some in E; lia|exact Lt]|].
      rewrite (BI _ _ _ E) in P. rewrite (BI' _ _ _ E) in P'. congruence.
    - rewrite BS, BS'; [reflexivity| |]; intros u1 k1 E; apply NO; eauto. }
  assert (MS2 : meanss (with_inputs M i' draw') g rho ps xs).
  { rewrite <- (app_nil_r g). eapply meanss_same with (i := i); [exact W|exact II| |exact MS]. intros p a Ip Da Ra.
    assert (Ia : In a outs) by (apply (AO o a); [exact Io|eapply dep_step; eauto|exact Ra]). apply In_nth_error in Ia as (u' & Eu). rewrite (RO u' a Eu), past_now; eauto. discriminate. }
  eapply meanss_det; [exact W| |exact MS']. eapply (meanss_swap _ (with_inputs M i' draw') g rho rho' o); eauto.
  - intros w Hw. destruct (in_dec Nat.eq_dec w outs) as [I|I].
    + apply In_nth_error in I as (u' & Eu). rewrite (RO _ _ Eu), (RO' _ _ Eu), !past_now by eauto. f_equal. apply H2; [eapply nth_lt, Eu|]. rewrite No, (nth_error_nth _ _ _ Eu). exact Hw.
    + now rewrite RN, RN'.
  - intros p I. apply (W _ _ G), I.
Qed.

Let before (a b : nat * list nat) : Prop := exists u v, snd a = [u] /\ snd b = [v] /\ (fst a < fst b \/ fst a = fst b /\ nth u outs 0 < nth v outs 0).
Lemma entries_in e : In e (entries N us) <-> exists t u, e = (t, [u]) /\ t < N /\ u < length outs.
Proof.
  unfold entries. rewrite in_flat_map. split.
  - intros (t & It & J). apply in_map_iff in J as (u & <- & Iu). apply in_seq in It. apply (Permutation_in _ PM), in_seq in Iu. exists t, u. repeat split; lia.
  - intros (t & u & -> & Ht & Hu). exists t. split; [apply in_seq; lia|]. apply in_map_iff. exists u. split; [reflexivity|]. apply (Permutation_in _ (Permutation_sym PM)), in_seq. lia.
Qed.
Lemma entries_sorted : StronglySorted before (entries N us).
Proof.
  clear PB. unfold entries. generalize 0 as s. induction N as [|n IH]; intros s; [constructor|]. cbn [seq flat_map]. apply sorted_app; [| apply IH|].
  - clear -SO. induction us as [|u l IH]; [constructor|]. cbn [map] in *. inversion SO as [|? ? SO' F]; subst. constructor; [apply IH, SO'|].
    apply Forall_forall. intros e I. apply in_map_iff in I as (v & <- & Iv). exists u, v. cbn. split; [reflexivity|]. split; [reflexivity|]. right. split; [reflexivity|].
    rewrite Forall_forall in F. apply F. apply in_map_iff. exists v. auto.
  - intros x y I J. apply in_map_iff in I as (u & <- & _). apply in_flat_map in J as (t & It & J). apply in_map_iff in J as (v & <- & _). apply in_seq in It. exists u, v. cbn. split; [reflexivity|]. split; [reflexivity|]. left. lia.
Qed.
Lemma before_done d t u td t' u' : entries N us = d ++ (t, [u]) :: td -> t < N -> u' < length outs -> (t' < t \/ t' = t /\ nth u' outs 0 < nth u outs 0) -> In (t', [u']) d.
Proof.
  intros E Ht Hu H. eapply (sorted_before before); [|exact entries_sorted|exact E| |].
  - intros (a & la) (b & lb) (x & y & X & Y & H1) (x' & y' & X' & Y' & H2). cbn in *. subst. injection X' as ->. injection Y' as ->. lia.
  - apply entries_in. exists t', u'. repeat split; lia.
  - exists u', u. cbn. auto.
Qed.
Notation LA := (law_at M D g outs lag seqs inits N).
Lemma la_step zs t u L : LA zs (t, [u]) L -> t < N /\ SL zs t u L.
Proof. intros (Ht & v & E & H). cbn in *. injection E as <-. auto. Qed.
Lemma la_loc zs zs' d e td L L' : entries N us = d ++ e :: td -> (forall e', In e' d -> zs (fst e') (snd e') = zs' (fst e') (snd e')) -> LA zs e L -> LA zs' e L' -> L = L'.
Proof.
  intros E H A B. assert (I : In e (entries N us)) by (rewrite E; apply in_or_app; right; now left). apply entries_in in I as (t & u & -> & Ht & Hu).
  apply la_step in A as (_ & A). apply la_step in B as (_ & B). eapply law_loc; [exact Ht| | |exact A|exact B].
  - intros t' u' Hu' Lt. apply (H (t', [u'])). eapply before_done; eauto.
  - intros u' Hu' Lt. apply (H (t, [u'])). eapply before_done; eauto.
Qed.
Lemma la_same zs e L L' : LA zs e L -> LA zs e L' -> L = L'.
Proof.
  intros (Ht & u & E & A) (_ & u' & E' & B). rewrite E in E'. injection E' as <-. eapply law_loc; eauto.
Qed.
Lemma la_valid zs d e td L : entries N us = d ++ e :: td -> (forall e', In e' d -> forall L, LA zs e' L -> contains (law_support L) (zs (fst e') (snd e'))) -> LA zs e L -> law_valid L.
Proof.
  intros E H A. assert (I : In e (entries N us)) by (rewrite E; apply in_or_app; right; now left). apply entries_in in I as (t & u & -> & Ht & Hu).
  apply la_step in A as (_ & A). apply (PB zs t u L Ht A). intros t' u' L' Le Hn S'. assert (Hu' : u' < length outs) by (destruct S' as (o & ? & ? & ? & ? & ? & ? & ? & Eo & _); eapply nth_lt, Eo).
  apply (H (t', [u'])); [eapply before_done; eauto; destruct (Nat.eq_dec t' t); [right; auto|left; lia]|]. split; [cbn; lia|]. exists u'. auto.
Qed.

(** the joint log-probability of the scan *)
Variables (h : heap) (fs : list (nat * factor)) (draw : nat -> nat -> nat -> list R -> R) (step : nat -> nat -> list ((nat * Z) * R) -> res xr).
Hypothesis HF : inner_logps g outs = Ok (h, fs, []).
Hypothesis SR : step_runs g lag seqs M draw h fs step.

Lemma lag_series zs : lag_inputs g lag (series inits N zs).
Proof.
  destruct LG as (L1 & L2 & L3). split; [|split; assumption]. intros u k. rewrite L1. split; intros (x & Ex & I).
  - rewrite nth_error_map in Ex. destruct (nth_error inits u) as [p|] eqn:Ep; [|discriminate]. injection Ex as <-. cbn [s_taps] in I.
    rewrite series_nth by (eapply nth_lt, Ep). eexists. split; [reflexivity|]. cbn [s_taps]. unfold out_init. now rewrite (nth_error_nth _ _ _ Ep).
  - destruct (series_taps zs u x Ex) as (Hu & _). rewrite series_nth in Ex by exact Hu. injection Ex as <-. cbn [s_taps] in I.
    destruct (nth_error inits u) as [p|] eqn:Ep; [|apply nth_error_None in Ep; lia]. rewrite nth_error_map, Ep. eexists. split; [reflexivity|]. cbn [s_taps].
    unfold out_init in I. now rewrite (nth_error_nth _ _ _ Ep) in I.
Qed.
Lemma prod_swap (f : nat -> nat -> R) T n : prod (map (fun v => prod (map (fun t => f t v) (seq 0 T))) (seq 0 n)) = prod (map (fun t => prod (map (f t) (seq 0 n))) (seq 0 T)).
Proof.
  assert (P1 : forall l, prod (map (fun _ : nat => 1%R) l) = 1%R). { unfold prod. induction l as [|x l IH]; cbn; [reflexivity|]. rewrite IH. ring. }
  assert (PP : forall (a b : nat -> R) l, prod (map (fun x => a x * b x)%R l) = (prod (map a l) * prod (map b l))%R). { intros a b. unfold prod. induction l as [|x l IH]; cbn; [ring|]. rewrite IH. ring. }
  assert (G : forall n s, prod (map (fun v => prod (map (fun t => f t v) (seq 0 T))) (seq s n)) = prod (map (fun t => prod (map (f t) (seq s n))) (seq 0 T))).
  { clear n. induction n as [|n IH]; intros s; cbn [seq map].
    - symmetry. apply P1.
    - change (prod (map (fun t => f t s) (seq 0 T)) * prod (map (fun v => prod (map (fun t => f t v) (seq 0 T))) (seq (S s) n)) = prod (map (fun t => f t s * prod (map (f t) (seq (S s) n))) (seq 0 T)))%R.
      rewrite IH, <- PP. reflexivity. }
  apply G.
Qed.
Lemma prodl_flat {A B} (f : A -> list B) (w : B -> R) l : prodl (map w (flat_map f l)) = prod (map (fun t => prodl (map w (f t))) l).
Proof. induction l as [|x l IH]; [reflexivity|]. cbn [flat_map map]. rewrite map_app, prodl_app, IH. reflexivity. Qed.
Lemma scan_joint_law zs ds : List.Forall2 (fun e d => exists L, LA zs e L /\ denotes (law_logprob L (Fin (zs (fst e) (snd e)))) d) (entries N us) ds ->
  exists y, scan_value inits N step zs y /\ denotes (Val y) (prodl ds).
Proof.
  intros F.
  assert (EXD : forall t, In t (seq 0 N) -> exists f : nat -> R, forall u, In u (seq 0 (length outs)) -> exists L, SL zs t u L /\ denotes (law_logprob L (Fin (zs t [u]))) (f u)).
  { intros t It. apply (choose_on (fun u d => exists L, SL zs t u L /\ denotes (law_logprob L (Fin (zs t [u]))) d) 0%R). intros u Iu. assert (I : In (t, [u]) (entries N us)) by (apply entries_in; apply in_seq in It, Iu; exists t, u; repeat split; lia).
    clear -F I. induction F as [|e d es ds (L & A & Hd) F IH]; [destruct I|]. destruct I as [->|I]; [|auto]. exists d, L. apply la_step in A. cbn in Hd. tauto. }
  destruct (choose_on (fun t f => forall u, In u (seq 0 (length outs)) -> exists L, SL zs t u L /\ denotes (law_logprob L (Fin (zs t [u]))) (f u)) (fun _ => 0%R) _ EXD) as (w & Hw).
  assert (Eds : ds = map (fun e => match snd e with [u] => w (fst e) u | _ => 0%R end) (entries N us)).
  { assert (Q : forall e d, In e (entries N us) -> (exists L, LA zs e L /\ denotes (law_logprob L (Fin (zs (fst e) (snd e)))) d) -> d = match snd e with [u] => w (fst e) u | _ => 0%R end).
    { intros e d I (L & A & Hd). apply entries_in in I as (t & u & -> & Ht & Hu). cbn [fst snd] in *. destruct (Hw t) with (u := u) as (L' & B & Hd'); [apply in_seq; lia|apply in_seq; lia|].
      apply la_step in A as (_ & A). assert (L = L') as <- by (eapply (law_loc zs zs t u); eauto). eapply den_uniq; eauto. }
    clear -F Q. induction F as [|e d es ds H F IH]; [reflexivity|]. cbn [map]. f_equal; [apply Q; [now left|exact H]|]. apply IH. intros e' d' I. apply Q. now right. }
  destruct (body_scan g outs lag seqs M draw h fs [] step (series inits N zs) (fun t v _ => w t v) (initial inits) N) as (out & H1 & _ & H2); auto.
  - now apply guard_iff.
  - unfold series. now rewrite map_length, seq_length.
  - apply lag_series.
  - intros u x Ex. now apply series_taps in Ex.
  - intros t v o i rho Ht Eo BI BO. exists (fun _ _ _ => 0%R). destruct (RV o (nth_error_In _ _ Eo)) as (rng & dist & ps & G).
    destruct (meanss_total (with_inputs M i (fun _ _ _ => 0%R)) g rho W ps) as (xs & X). { intros a I. apply (W _ _ G) in I. apply nth_lt in G. lia. }
    assert (Hv : v < length outs) by (eapply nth_lt, Eo).
    exists (law_logprob (D dist xs) (Fin (zs t [v]))). split.
    + exists rng, dist, ps, xs, (zs t [v]). split; [exact G|]. split; [exact X|]. split; [|reflexivity]. rewrite (proj1 BO _ _ Eo). apply past_now; lia.
    + destruct (Hw t) with (u := v) as (L' & B & Hd'); [apply in_seq; lia|apply in_seq; lia|].
      assert (A : SL zs t v (D dist xs)) by (exists o, i, rho, (fun _ _ _ => 0%R), rng, dist, ps, xs; auto 10).
      assert (D dist xs = L') as -> by (eapply (law_loc zs zs t v); eauto). exact Hd'.
  - assert (LS : length (series inits N zs) = length outs) by (unfold series; rewrite map_length, seq_length; exact LI).
    rewrite LS in *. destruct outs as [|o0 l0] eqn:Eouts; [easy|]. rewrite <- Eouts in *.
    exists (xsum (concat (map (fun v => map (out v) (seq 0 N)) (seq 0 (length outs))))). split.
    + eexists. split; [exact H1|]. rewrite Eouts. cbn [length seq map]. apply joint_concat.
    + replace (prodl ds) with (scan_density (fun t v _ => w t v) (series inits N zs) (initial inits) N); [exact H2|].
      unfold scan_density. rewrite LS, prod_swap, Eds. unfold entries. rewrite prodl_flat. f_equal. apply map_ext. intros t. rewrite map_map. cbn [fst snd].
      apply prodl_perm. apply Permutation_map, Permutation_sym, PM.
Qed.
Lemma scan_total zs m : total (scan_value inits N step) (step_domain M D g outs lag seqs inits N) (entries N us) zs m <-> m = 1%R.
Proof.
  assert (T1 : total (scan_value inits N step) (step_domain M D g outs lag seqs inits N) (entries N us) zs 1).
  { apply (chain_one (scan_value inits N step) LA (entries N us)).
    - apply (sorted_nodup before); [|exact entries_sorted]. intros e (u & v & E1 & E2 & H). rewrite E1 in E2. injection E2 as <-. lia.
    - intros z e I. apply entries_in in I as (t & u & -> & Ht & Hu). destruct (law_ex z t u Ht Hu) as (L & A). exists L. split; [exact Ht|]. exists u. auto.
    - intros z d e td L E H A. eapply la_valid; eauto.
    - intros z z' d e td L L' E H A B. eapply la_loc; eauto.
    - apply scan_joint_law. }
  split; [|intros ->; exact T1]. intros T. eapply total_unique; [| |exact T|exact T1].
  - intros z y y' (l & E & J) (l' & E' & J'). rewrite E in E'. injection E' as <-. congruence.
  - intros z e s s' (L & A & ->) (L' & B & ->). f_equal. eapply la_same; eauto.
Qed.
End Scan.
Lemma scan_mass (D : nat -> list R -> law) (det : nat -> list R -> R) (g : heap) (outs : list nat) (lag : nat -> Z -> option nat) (seqs : nat -> nat -> R)
    (inits : list (list Z * list R)) (N : nat) (us : list nat) :
  model_graph g -> NoDup outs -> outs <> [] -> (forall o, In o outs -> random g o) -> find_measurable_scans g outs = true ->
  length inits = length outs -> (forall taps xs, In (taps, xs) inits -> tap_list taps /\ max_lag taps (length xs) /\ symmetric taps) ->
  lag_inputs g lag (map (fun p => {| s_taps := fst p; s_value := snd p |}) inits) ->
  Permutation us (seq 0 (length outs)) -> StronglySorted lt (map (fun u => nth u outs 0) us) ->
  proper_body (scan_sem D det) D g outs lag seqs inits N ->
  exists h fs, inner_logps g outs = Ok (h, fs, []) /\
    forall draw step, step_runs g lag seqs (scan_sem D det) draw h fs step ->
    forall zs m, total (scan_value inits N step) (step_domain (scan_sem D det) D g outs lag seqs inits N) (entries N us) zs m <-> m = 1%R.
Proof.
  intros W ND NE RV GU LI TL LG PM SO PB. destruct (inner_def g outs W ND RV) as (h & fs & E & _). exists h, fs. split; [exact E|]. intros draw step SR zs m.
  eapply scan_total; eauto. now apply guard_iff.
Qed.
