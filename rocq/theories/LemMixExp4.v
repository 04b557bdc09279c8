(** Expectations in models with mixtures. *)
From Coq Require Import Reals Lra Lia ZArith List Arith Bool Permutation Sorted FunctionalExtensionality.
From Coquelicot Require Import Coquelicot.
From Verif Require Import XR SpecDist ModelDist ModelVec SpecCens LemInt ModelCens ModelJoint ModelMix LemMix ModelNest ModelGuard ModelCensSys SpecCensSys LemCensSys LemCensSys2 LemCensSys3 LemCensSys4 LemCensSys5 ModelMixCens SpecMixExp LemMixExp LemMixExp2 LemMixExp3.
Import ListNotations.
Open Scope R_scope.

Lemma weighs_ext fs h cont pdf req F F' J f vs : (forall y v, In v vs -> F y v = F' y v) -> forall y m, weighs fs h cont pdf req F J f vs y m -> weighs fs h cont pdf req F' J f vs y m.
Proof.
  induction vs as [|v vs IH]; intros E y m W; [inversion W; subst; eapply we_end; eauto|]. inversion W as [|v0 vs0 y0 mu g m0 Mo Hx Hi]; subst. eapply we_value; [exact Mo| |exact Hi].
  intros x Cx. destruct (Hx x Cx) as (r & p & EF & Dn & H1 & H2). exists r, p. rewrite <- E by now left. split; auto. split; auto. split; auto. intros Np. apply IH; auto. intros y0 w Iw. apply E. now right.
Qed.
Section Reduce.
Variable sel : nat -> bool.
Variable ddt : nat -> dtype.
Variable fs : nat -> list xr -> xr.
Variable dlp dlc : nat -> list xr -> xr -> res xr.
Variable h : list cnode.
Variable req : list nat.
Variable D : nat.
Variable cont : nat -> bool.
Variable pdf cdf : nat -> list R -> R -> R.
Variable proper : nat -> list R -> Prop.
Variable base : nat -> nat.
Variable vs : list nat.
Notation h' := (merged sel h req D).
Notation mixture := (mixture sel h).
Notation mixed := (mixed sel h req).
Notation m_cont := (m_cont h cont D).
Notation m_pdf := (m_pdf sel h req pdf D).
Notation m_proper := (m_proper sel h req proper D).
Notation m_ddt := (m_ddt D ddt).
Notation m_dlp := (m_dlp sel h req D dlp).
Notation parts := (parts sel h req).
Notation sources := (sources sel h base).
Hypothesis SEL : selects fs sel.
Hypothesis NB : numbered h D.
Hypothesis PM : plain_mixtures sel h req cont.
Hypothesis AC : cacyclic h.
Hypothesis OB : forall v, In v req -> observes h' m_cont req v (base v).
Hypothesis LF : lawful h cont pdf proper req ddt dlp dlc cdf.
Hypothesis PV : Permutation vs req.
Hypothesis SS : StronglySorted lt vs.
Hypothesis ND : NoDup (flat_map sources vs).
Let AM : cacyclic h' := AC' sel h req D AC.
Let LM := lawful_merged sel ddt dlp dlc h req D cont pdf cdf proper base NB PM OB LF.

(** ** the variables behind the requested ones *)
Lemma base_mixed v idx comps : In v req -> mixture v idx comps -> base v = v.
Proof.
  intros I Mx. pose proof (merged_mix sel h req D v idx comps I Mx) as N. destruct (observes_inv h' m_cont req v (base v) (OB v I)) as (d & ps & Nb & _ & [E|(_ & [(t & lo & hi & N' & _)|[(op & N' & _)|(ws & C & Ne & _)]])]); try congruence.
  destruct (chain_inv h' req (base v) ws v C) as [(-> & _)|(ws' & a & n & _ & _ & _ & N' & El & _)]; [easy|]. assert (n = CRv (D + v) (idx :: flat_map (rv_params h) comps)) as -> by congruence. destruct El.
Qed.
Lemma mix_known v idx comps p : In v req -> mixture v idx comps -> p = idx \/ In p (flat_map (rv_params h) comps) -> cknown h' req p.
Proof.
  intros I Mx Ip. pose proof (merged_mix sel h req D v idx comps I Mx) as N. destruct (observes_inv h' m_cont req v (base v) (OB v I)) as (d & ps & Nb & K & _). rewrite (base_mixed v idx comps I Mx) in Nb. assert (ps = idx :: flat_map (rv_params h) comps) as -> by congruence. apply K. destruct Ip as [->|Ip]; cbn; auto.
Qed.
Lemma base_plain v : In v req -> ~ mixed v -> exists d ps, nth_error h (base v) = Some (CRv d ps).
Proof.
  intros I NM. destruct (observes_inv h' m_cont req v (base v) (OB v I)) as (d & ps & Nb & _ & [E|(Nr & _)]); exists d, ps; [|eapply free_rv; eauto]. rewrite merged_same in Nb; auto. now rewrite <- E.
Qed.
Lemma sources_mixed v idx comps : mixture v idx comps -> sources v = comps.
Proof. intros (k & N & S). unfold SpecMixExp.sources. now rewrite N, S. Qed.
Lemma sources_plain v : In v req -> ~ mixed v -> sources v = [base v].
Proof.
  intros I NM. unfold SpecMixExp.sources. destruct (nth_error h v) as [[]|] eqn:N; auto. destruct l as [|idx comps]; auto. destruct (sel k) eqn:S; auto. destruct NM. split; auto. exists idx, comps, k. auto.
Qed.
Lemma comp_rv v idx comps b : In v req -> mixture v idx comps -> In b comps -> nth_error h b = Some (CRv (rv_dist h b) (rv_params h b)) /\ (b < v)%nat.
Proof.
  intros I Mx Ib. destruct (PM v idx comps I Mx) as (_ & c & HC). destruct (HC b Ib) as (_ & d & ps & N & _). unfold rv_dist, rv_params. rewrite N. split; auto. destruct Mx as (k & Nv & _). eapply AC; eauto. cbn; auto.
Qed.
Lemma base_inj v w : In v req -> In w req -> base v = base w -> v = w.
Proof.
  intros Iv Iw E. destruct (mixed_dec sel h req v) as [(_ & idx & comps & Mv)|NV]; destruct (mixed_dec sel h req w) as [(_ & idx' & comps' & Mw)|NW].
  - rewrite (base_mixed v idx comps Iv Mv), (base_mixed w idx' comps' Iw Mw) in E. auto.
  - rewrite (base_mixed v idx comps Iv Mv) in E. destruct (base_plain w Iw NW) as (d & ps & N). destruct Mv as (k & Nv & _). congruence.
  - rewrite (base_mixed w idx' comps' Iw Mw) in E. destruct (base_plain v Iv NV) as (d & ps & N). destruct Mw as (k & Nw & _). congruence.
  - destruct (Nat.eq_dec v w) as [|Ne]; auto. exfalso. assert (Vv : In v vs) by (eapply Permutation_in; [apply Permutation_sym|]; eauto). assert (Vw : In w vs) by (eapply Permutation_in; [apply Permutation_sym|]; eauto).
    assert (A : forall a b, In a vs -> In b vs -> In a req -> In b req -> ~ mixed a -> ~ mixed b -> base a = base b -> (a < b)%nat -> False).
    { clear - ND SS. intros a b Va Vb Ia Ib Na Nb E L. apply in_split in Va as (l & r & Ev). rewrite Ev in *. replace (l ++ a :: r) with ((l ++ [a]) ++ r) in * by now rewrite <- app_assoc.
      assert (Ir : In b r). { apply in_app_or in Vb as [Vb|Vb]; auto. apply in_app_or in Vb as [Vb|[->|[]]]; [|lia]. rewrite <- app_assoc in SS. pose proof (sorted_app l ([a] ++ r) b a SS Vb ltac:(cbn; auto)). lia. }
      apply (nodup_split sources (l ++ [a]) r a (base a) ND); [apply in_or_app; right; now left|rewrite (sources_plain a Ia Na); now left|]. apply in_flat_map. exists b. split; auto. rewrite (sources_plain b Ib Nb), E. now left. }
    destruct (lt_eq_lt_dec v w) as [[L|]|L]; [eauto|auto|]. apply (A w v); auto.
Qed.

(** ** the two ways of drawing *)
Definition mixrho (rho z : nat -> R) (w : nat) : R := match nth_error h w with Some (CRv _ _) => rho w | _ => z w end.
Lemma mixrho_rv rho z b d ps : nth_error h b = Some (CRv d ps) -> mixrho rho z b = rho b.
Proof. intros N. unfold mixrho. now rewrite N. Qed.
Lemma mixrho_mix rho z v idx comps : mixture v idx comps -> mixrho rho z v = z v.
Proof. intros (k & N & _). unfold mixrho. now rewrite N. Qed.
Lemma mixrho_upd rho z b d ps x : nth_error h b = Some (CRv d ps) -> upd (mixrho rho z) b x = mixrho (upd rho b x) z.
Proof. intros N. apply functional_extensionality. intros w. unfold upd, mixrho. destruct (Nat.eqb_spec w b) as [->|]; [now rewrite N|reflexivity]. Qed.
Lemma mixrho_mupd rho z v idx comps x : mixture v idx comps -> upd (mixrho rho z) v x = mixrho rho (upd z v x).
Proof. intros (k & N & _). apply functional_extensionality. intros w. unfold upd, mixrho. destruct (Nat.eqb_spec w v) as [->|]; [now rewrite N|reflexivity]. Qed.
Lemma base_state w rho rho2 z z2 : In w req -> (mixed w -> z2 w = z w) -> (~ mixed w -> rho2 (base w) = rho (base w)) -> mixrho rho2 z2 (base w) = mixrho rho z (base w).
Proof.
  intros I Ez Er. destruct (mixed_dec sel h req w) as [M|NM].
  - pose proof M as (_ & idx & comps & Mx). rewrite (base_mixed w idx comps I Mx), !(mixrho_mix _ _ w idx comps Mx). auto.
  - destruct (base_plain w I NM) as (d & ps & N). rewrite !(mixrho_rv _ _ _ _ _ N). auto.
Qed.
Definition agree (done : list nat) (rho z : nat -> R) : Prop := forall u idx comps, In u done -> mixture u idx comps ->
  exists i c, cvalue fs h' (drawn h' (mixrho rho z)) idx (INR i) /\ nth_error comps i = Some c /\ z u = rho c.
Lemma to_merged done rho z : agree done rho z -> forall p, (forall w, In w req -> (w <= p)%nat -> In w done) -> forall r, cvalue fs h (drawn h rho) p r -> cvalue fs h' (drawn h' (mixrho rho z)) p r.
Proof.
  intros A p. induction p as [p IH] using lt_wf_ind. intros W r V.
  assert (IH' : forall a s, (a < p)%nat -> cvalue fs h (drawn h rho) a s -> cvalue fs h' (drawn h' (mixrho rho z)) a s) by (intros a s L; apply IH; auto; intros w Iw Lw; apply W; auto; lia). clear IH.
  assert (RV : forall c d ps s, nth_error h c = Some (CRv d ps) -> cvalue fs h (drawn h rho) c s -> s = rho c).
  { intros c d ps s N Vc. apply (cval_fun fs h AC _ (drawn_con h rho) c s (rho c) Vc). apply c_given. unfold drawn. now rewrite N. }
  destruct (mixed_dec sel h req p) as [(I & idx & comps & Mx)|NM].
  - destruct (A p idx comps (W p I (le_n _)) Mx) as (i & c & Vi & Nc & Ez). pose proof Mx as (k & N & S).
    assert (DN : drawn h rho p = None) by (unfold drawn; now rewrite N). pose proof (cval_inv fs h _ p _ r DN N V) as M. destruct M as (xs & F & E). inversion F as [|x0 i0 l0 xs0 F1 F2]; subst.
    apply (SEL k i0 xs0 r S) in E as (n & -> & Nr). apply IH' in F1; [|eapply AC; eauto; cbn; auto]. pose proof (INR_eq _ _ (cval_fun fs h' AM _ (drawn_con h' _) idx _ _ F1 Vi)) as ->.
    destruct (f2_nth _ _ _ F2 i r Nr) as (c' & Nc' & Vc). assert (c' = c) as -> by congruence. destruct (comp_rv p idx comps c I Mx) as [Nb _]; [eapply nth_error_In; eauto|].
    rewrite (RV c _ _ r Nb Vc), <- Ez. apply c_given. unfold drawn. rewrite (merged_mix sel h req D p idx comps I Mx), (mixrho_mix rho z p idx comps Mx). reflexivity.
  - assert (NN : exists n, nth_error h p = Some n). { destruct (drawn h rho p) as [e|] eqn:E; [|eapply cval_node; eauto]. unfold drawn in E. destruct (nth_error h p) as [n|]; [eauto|discriminate]. } destruct NN as [n N].
    pose proof N as N'. rewrite <- (merged_same sel h req D p NM) in N'.
    assert (CS : (exists d ps, n = CRv d ps) \/ forall d ps, n <> CRv d ps) by (destruct n; eauto; right; discriminate). destruct CS as [(d & ps & ->)|NR].
    + rewrite (RV p d ps r N V). apply c_given. unfold drawn. rewrite N'. now rewrite (mixrho_rv rho z p d ps N).
    + eapply cval_mk; [exact (drawn_other h' _ p n N' NR)|exact N'|]. apply (cval_inv fs h _ p n) in V; auto; [|exact (drawn_other h rho p n N NR)].
      eapply cmeans_two; [|apply drawn_con| |exact V]; [intros v c Nv; rewrite merged_same; auto; intros (_ & idx & comps & k & Q & _); congruence|]. intros a x Ia. apply IH'. eapply AC; eauto.
Qed.
Lemma move done rA rB p : (forall w, In w req -> (w <= p)%nat -> In w done) -> (forall w, In w done -> rB (base w) = rA (base w)) -> cknown h' req p -> forall r, cvalue fs h' (drawn h' rA) p r -> cvalue fs h' (drawn h' rB) p r.
Proof. intros W E K. apply (stable fs h' m_cont req base AM OB rA rB p K). auto. Qed.
Lemma in_vs w : In w vs <-> In w req.
Proof. split; intros I; [eapply Permutation_in; eauto|eapply Permutation_in; [apply Permutation_sym|]; eauto]. Qed.
Lemma sub_done done todo w : done ++ todo = vs -> In w done -> In w req.
Proof. intros E I. apply in_vs. rewrite <- E. apply in_or_app. auto. Qed.
Lemma closed_done done todo u w : done ++ todo = vs -> In u done -> In w req -> (w <= u)%nat -> In w done.
Proof. intros E Iu Iw L. apply in_vs in Iw. rewrite <- E in Iw. apply in_app_or in Iw as [Iw|Iw]; auto. rewrite <- E in SS. pose proof (sorted_app done todo u w SS Iu Iw). lia. Qed.
Lemma early_done done todo v w : done ++ v :: todo = vs -> In w req -> (w < v)%nat -> In w done.
Proof.
  intros E Iw L. apply in_vs in Iw. rewrite <- E in Iw. apply in_app_or in Iw as [Iw|[->|Iw]]; [auto|lia|]. rewrite <- E in SS. replace (done ++ v :: todo) with ((done ++ [v]) ++ todo) in SS by now rewrite <- app_assoc. pose proof (sorted_app (done ++ [v]) todo v w SS ltac:(apply in_or_app; right; now left) Iw). lia.
Qed.
Lemma agree_move done todo rho rho2 z z2 : done ++ todo = vs -> (forall w b, In w done -> In b (sources w) -> rho2 b = rho b) -> (forall w, In w done -> z2 w = z w) -> agree done rho z -> agree done rho2 z2.
Proof.
  intros E Er Ez A u idx comps Iu Mx. pose proof (sub_done done todo u E Iu) as Ru. destruct (A u idx comps Iu Mx) as (i & c & Vi & Nc & Eu). exists i, c. split; [|split; auto].
  - pose proof Mx as (k & N & _). assert (idx < u)%nat by (eapply AC; eauto; cbn; auto). eapply (move done); [| |eapply mix_known; eauto|exact Vi].
    + intros w Iw Lw. eapply closed_done; eauto. lia.
    + intros w Iw. pose proof (sub_done done todo w E Iw) as Rw. apply base_state; auto. intros NM. apply (Er w); auto. rewrite sources_plain; auto. now left.
  - rewrite Ez, Eu by auto. symmetry. apply (Er u c Iu). rewrite (sources_mixed u idx comps Mx). eapply nth_error_In; eauto.
Qed.
Notation expects := (SpecCensSys.expects fs h cont pdf proper req).
Notation expects' := (SpecCensSys.expects fs h' m_cont m_pdf m_proper req).
Lemma params_known v d ps p : In v req -> nth_error h' (base v) = Some (CRv d ps) -> In p ps -> cknown h' req p /\ (p < v)%nat.
Proof.
  intros I N Ip. destruct (observes_inv h' m_cont req v (base v) (OB v I)) as (d' & ps' & N' & K & _). assert (ps' = ps) as -> by congruence. split; auto. pose proof (base_le h' m_cont req AM v (base v) (OB v I)). assert (p < base v)%nat by (eapply AM; eauto). lia.
Qed.
Lemma exp_move f : forall todo done rA rB m, done ++ todo = vs -> (forall w, In w done -> rB (base w) = rA (base w)) -> expects' f (map base todo) rA m -> expects' f (map base todo) rB m.
Proof.
  induction todo as [|v todo IH]; intros done rA rB m E W H; cbn [map] in *.
  - inversion H as [r1 zs F|]. apply ex_end. eapply f2_mono; [|exact F]. intros a x Ia. apply (move done); auto; [|now apply ck_req]. intros w Iw _. apply in_vs in Iw. now rewrite <- E, app_nil_r in Iw.
  - inversion H as [|b1 bs1 r1 d ps xs g m1 N F P G Hi]; subst b1 bs1 r1 m1. assert (Iv : In v req) by (apply in_vs; rewrite <- E; apply in_or_app; right; now left). eapply ex_draw; [exact N| |exact P| |exact Hi].
    + eapply f2_mono; [|exact F]. intros p x Ip. destruct (params_known v d ps p Iv N Ip) as [K L]. apply (move done); auto. intros w Iw Lw. eapply early_done; eauto. lia.
    + intros x Cx Px. apply (IH (done ++ [v]) (upd rA (base v) x) _ (g x)); auto; [now rewrite <- app_assoc|]. intros w Iw. unfold upd. destruct (Nat.eqb_spec (base w) (base v)); auto. apply in_app_or in Iw as [Iw|[->|[]]]; [auto|easy].
Qed.
Lemma reduce f : forall todo done rho z m, done ++ todo = vs -> agree done rho z -> expects f (flat_map sources todo) rho m -> expects' f (map base todo) (mixrho rho z) m.
Proof.
  induction todo as [|v todo IH]; intros done rho z m E A H.
  - cbn [flat_map map] in *. inversion H as [r1 zs F|]. apply ex_end. eapply f2_mono; [|exact F]. intros a x Ia. apply (to_merged done); auto. intros w Iw _. apply in_vs in Iw. now rewrite <- E, app_nil_r in Iw.
  - cbn [flat_map map] in *. assert (Iv : In v req) by (apply in_vs; rewrite <- E; apply in_or_app; right; now left). assert (E' : (done ++ [v]) ++ todo = vs) by now rewrite <- app_assoc.
    assert (OUT : forall w b, In w done -> In b (sources w) -> ~ In b (sources v ++ flat_map sources todo)). { intros w b Iw Ib Q. rewrite <- E in ND. exact (nodup_split sources done (v :: todo) w b ND Iw Ib Q). }
    assert (Lv : forall u, In u done -> (u < v)%nat). { intros u Iu. rewrite <- E in SS. apply (sorted_app done (v :: todo) u v SS Iu). now left. }
    destruct (mixed_dec sel h req v) as [Mv|NM].
    + pose proof Mv as (_ & idx & comps & Mx). rewrite (sources_mixed v idx comps Mx) in H, OUT. rewrite (base_mixed v idx comps Iv Mx). pose proof Mx as (k & N & Sk). assert (Li : (idx < v)%nat) by (eapply AC; eauto; cbn; auto).
      (* states that differ in later draws *)
      assert (OA : forall rho1, outside (comps ++ flat_map sources todo) rho rho1 -> agree done rho1 z). { intros rho1 O. apply (agree_move done (v :: todo) rho rho1 z z); auto. intros w b Iw Ib. apply O. eauto. }
      assert (OB1 : forall rho1 z1 w, outside (comps ++ flat_map sources todo) rho rho1 -> In w done -> mixrho rho1 (upd z v z1) (base w) = mixrho rho z (base w)).
      { intros rho1 z1 w O Iw. pose proof (sub_done done _ w E Iw) as Rw. apply base_state; auto.
        - intros _. unfold upd. destruct (Nat.eqb_spec w v) as [->|]; auto. specialize (Lv v Iw). lia.
        - intros Nw. apply O. apply (OUT w (base w) Iw). rewrite sources_plain; auto. now left. }
      assert (OV : forall rho1 p x, outside (comps ++ flat_map sources todo) rho rho1 -> cknown h' req p -> (p < v)%nat -> cvalue fs h (drawn h rho1) p x -> cvalue fs h' (drawn h' (mixrho rho z)) p x).
      { intros rho1 p x O K Lp V. assert (Wp : forall w, In w req -> (w <= p)%nat -> In w done) by (intros w Iw Lw; eapply early_done; eauto; lia). apply (to_merged done rho1 z (OA rho1 O) p Wp) in V. apply (move done _ (mixrho rho z) p) in V; auto.
        intros w Iw. pose proof (sub_done done _ w E Iw) as Rw. symmetry. apply base_state; auto. intros Nw. apply O. apply (OUT w (base w) Iw). rewrite sources_plain; auto. now left. }
      assert (OC : forall rho1, outside comps rho rho1 -> outside (comps ++ flat_map sources todo) rho rho1) by (intros rho1 O b Nb; apply O; intros Q; apply Nb, in_or_app; auto).
      (* the index *)
      assert (IX : exists n c, cvalue fs h' (drawn h' (mixrho rho z)) idx (INR n) /\ nth_error comps n = Some c).
      { destruct (reach ddt fs dlp dlc h req cont pdf cdf proper LF _ _ (expects_runs _ _ _ _ _ _ _ _ _ _ H)) as (rho1 & zs & O & F). destruct (f2_in _ _ _ _ F Iv) as (r & V).
        assert (DN : drawn h rho1 v = None) by (unfold drawn; now rewrite N). pose proof (cval_inv fs h _ v _ r DN N V) as M. destruct M as (xs & F' & Ef). inversion F' as [|x0 i0 l0 xs0 F1 F2]; subst.
        apply (SEL k i0 xs0 r Sk) in Ef as (n & -> & Nr). destruct (f2_nth _ _ _ F2 n r Nr) as (c & Nc & _). exists n, c. split; auto. apply (OV rho1); auto. eapply mix_known; eauto. }
      destruct IX as (n & c & Vi & Nc). assert (Ic : In c comps) by (eapply nth_error_In; eauto). destruct (comp_rv v idx comps c Iv Mx Ic) as [Nbc Lc].
      (* the parameters *)
      assert (PK : forall b p, In b comps -> In p (rv_params h b) -> cknown h' req p /\ (p < v)%nat).
      { intros b p Ib Ip. split; [eapply mix_known; eauto; right; apply in_flat_map; eauto|]. destruct (comp_rv v idx comps b Iv Mx Ib) as [Nb Lb]. assert (p < b)%nat by (eapply AC; eauto). lia. }
      assert (PR : exists xss, List.Forall2 (fun b xs => List.Forall2 (cvalue fs h' (drawn h' (mixrho rho z))) (rv_params h b) xs /\ proper (rv_dist h b) xs) comps xss).
      { apply f2_choose. intros b Ib. destruct (draws_proper ddt fs dlp dlc h req cont pdf cdf proper f LF _ _ _ _ H b Ib) as (rho1 & d & ps & xs & O & Nb & F & Pr). destruct (comp_rv v idx comps b Iv Mx Ib) as [Nb' _]. assert (d = rv_dist h b /\ ps = rv_params h b) as [-> ->] by (split; congruence).
        exists xs. split; auto. eapply f2_mono; [|exact F]. intros p x Ip V. destruct (PK b p Ib Ip) as [K L]. apply (OV rho1); auto. }
      destruct PR as (xss & FX). destruct (f2_nth_l _ _ _ FX n c Nc) as (xs & Nx & Fx & Px).
      assert (PT : parts v (concat xss) = combine (map (rv_dist h) comps) xss).
      { unfold SpecMixExp.parts. rewrite N, Sk, (proj2 (mem_in v req) Iv). cbn [andb]. f_equal. assert (map (fun b => length (rv_params h b)) comps = map (@length R) xss) as ->; [|apply cut_concat]. clear - FX. induction FX as [|b xs l m [F _] FX IHF]; cbn [map]; auto. rewrite IHF. f_equal. symmetry. eapply f2_len; eauto. }
      assert (MP : m_proper (D + v) (INR n :: concat xss)).
      { unfold SpecMixExp.m_proper. destruct (Nat.ltb_spec (D + v) D) as [|_]; [lia|]. replace (D + v - D)%nat with v by lia. rewrite PT. split.
        - exists n. split; auto. rewrite combine_length, map_length, (f2_len _ _ _ FX), Nat.min_id. apply nth_error_Some. congruence.
        - intros e l Il. clear - FX Il. induction FX as [|b xs l0 m [_ P] FX IHF]; [easy|]. cbn [map combine] in Il. destruct Il as [Q|Il]; [injection Q as <- <-; auto|auto]. }
      destruct (part_at sel dlp h req D cont pdf proper PM (D + v) _ ltac:(lia) MP) as (n' & xs0 & e & l & Q & Nl & _ & Em & Ep & _). injection Q as Qn <-. apply INR_eq in Qn. subst n'. replace (D + v - D)%nat with v in Nl by lia. rewrite PT, nth_combine, nth_error_map, Nc in Nl. destruct Nl as [Ne Nl]. injection Ne as <-. assert (l = xs) as -> by congruence.
      (* the state after the draw *)
      assert (AN : forall rho1, outside comps rho rho1 -> agree (done ++ [v]) rho1 (upd z v (rho1 c))).
      { intros rho1 O u idx' comps' Iu Mu. assert (A1 : agree done rho1 (upd z v (rho1 c))). { apply (agree_move done (v :: todo) rho rho1 z); auto; [intros w b Iw Ib; apply (OC rho1 O); eauto|]. intros w Iw. unfold upd. destruct (Nat.eqb_spec w v) as [->|]; auto. specialize (Lv v Iw). lia. }
        apply in_app_or in Iu as [Iu|[<-|[]]]; [apply (A1 u idx' comps' Iu Mu)|]. destruct (mixture_fun sel h v idx comps idx' comps' Mx Mu) as [-> ->]. exists n, c. split; [|split; auto; unfold upd; now rewrite Nat.eqb_refl].
        eapply (move done); [| |eapply mix_known; eauto|exact Vi]; [intros w Iw Lw; eapply early_done; eauto; lia|]. intros w Iw. apply OB1; auto. }
      destruct (draws_one ddt fs dlp dlc h req cont pdf cdf proper f LF (flat_map sources todo) (rv_dist h c) (rv_params h c) xs c Nbc comps) with (rho := rho) (m := m) as (G & Hi & HG); auto.
      * rewrite <- (sources_mixed v idx comps Mx). apply (nodup_one sources vs); auto. rewrite <- E. apply in_or_app. right. now left.
      * intros rho1 xs1 O F1. eapply f2_fun; [|eapply f2_mono; [|exact F1]|exact Fx]; [intros a b b' _; apply (cval_fun fs h' AM _ (drawn_con h' _))|]. intros p x Ip V. destruct (PK c p Ic Ip) as [K L]. apply (OV rho1); auto.
      * intros rho1 rho2 m1 m2 O1 O2 Ec X1 X2. apply (IH _ _ _ _ E' (AN rho1 O1)) in X1. apply (IH _ _ _ _ E' (AN rho2 O2)) in X2. rewrite <- Ec in X2.
        apply (exp_move f todo (done ++ [v]) _ (mixrho rho2 (upd z v (rho1 c)))) in X1; auto; [eapply (exp_unique fs h' req m_cont m_pdf m_proper f AM); eauto|].
        intros w Iw. apply in_app_or in Iw as [Iw|[<-|[]]]; [rewrite !OB1 by auto; auto|]. rewrite (base_mixed v idx comps Iv Mx), !(mixrho_mix _ _ v idx comps Mx). reflexivity.
      * eapply ex_draw with (d := (D + v)%nat) (xs := INR n :: concat xss) (g := G); [exact (merged_mix sel h req D v idx comps Iv Mx)| |exact MP| |].
        { constructor; auto. clear - FX. induction FX as [|b xs l m [F _] FX IHF]; cbn [flat_map concat]; [constructor|]. now apply Forall2_app. }
        { rewrite Em, Ep. intros x Cx Pz. destruct (HG x Cx Pz) as (rho1 & O & Ex & X). apply (IH _ _ _ _ E' (AN rho1 O)) in X. eapply (exp_move f todo (done ++ [v])); [exact E'| |exact X]. intros w Iw. rewrite (mixrho_mupd rho z v idx comps x Mx).
          apply in_app_or in Iw as [Iw|[<-|[]]]; [rewrite !OB1 by (auto; intros ? ?; reflexivity); auto|]. rewrite (base_mixed v idx comps Iv Mx), !(mixrho_mix _ _ v idx comps Mx). unfold upd. now rewrite Nat.eqb_refl. }
        { rewrite Em, Ep. exact Hi. }
    + rewrite (sources_plain v Iv NM) in H, OUT. cbn [app] in H, OUT. inversion H as [|b1 bs1 r1 d ps xs g m1 N F P G Hi]; subst b1 bs1 r1 m1. pose proof (NB _ _ _ N) as Ld. pose proof (merged_rv sel h req D _ _ _ N) as N'.
      eapply ex_draw; [exact N'| | | |].
      * eapply f2_mono; [|exact F]. intros p x Ip. destruct (params_known v d ps p Iv N' Ip) as [_ L]. apply (to_merged done); auto. intros w Iw Lw. eapply early_done; eauto. lia.
      * rewrite small_proper; auto.
      * intros x Cx Pz. rewrite small_cont in Cx by auto. rewrite small_pdf in Pz by auto. rewrite (mixrho_upd rho z _ _ _ x N). apply (IH (done ++ [v])); auto.
        assert (A1 : agree done (upd rho (base v) x) z). { apply (agree_move done (v :: todo) rho _ z z); auto. intros w b Iw Ib. unfold upd. destruct (Nat.eqb_spec b (base v)) as [->|]; auto. destruct (OUT w _ Iw Ib). now left. }
        intros u idx comps Iu Mu. apply in_app_or in Iu as [Iu|[<-|[]]]; [apply (A1 u idx comps Iu Mu)|]. destruct NM. split; eauto.
      * rewrite small_cont, small_pdf by auto. exact Hi.
Qed.

Hypothesis DP : (0 < D)%nat.
Hypothesis WB : whole_bounds fs h' m_cont req.
Hypothesis RG : safe_chains fs h' m_cont m_pdf req.
Lemma mix_expect f rho m : possible h cont rho -> expects f (flat_map sources vs) rho m -> forall rhoM y m',
  weighs fs h' m_cont m_pdf req (fun y v => mc_conditional sel ddt fs dlp dlc h req (fun w => Fin (y w)) rhoM v) (fun y => mc_joint sel ddt fs dlp dlc h req (fun w => Fin (y w)) rhoM) f vs y m' <-> m' = m.
Proof.
  intros Ps H rhoM y m'. assert (A0 : agree [] rho (fun _ => 0)) by (intros u idx comps []). apply (reduce f vs [] rho (fun _ => 0) m eq_refl A0) in H.
  assert (PO : possible h' m_cont (mixrho rho (fun _ => 0))).
  { intros b d ps Nb. destruct (mixed_dec sel h req b) as [(_ & idx & comps & Mx)|NM].
    - rewrite (mixrho_mix _ _ b idx comps Mx). destruct (m_cont d); [exact I|exists 0%nat; reflexivity].
    - rewrite merged_same in Nb by auto. rewrite (mixrho_rv _ _ _ _ _ Nb), small_cont by (eapply NB; eauto). eapply Ps; eauto. }
  rewrite <- (cens_expect m_ddt fs m_dlp dlc h' m_cont m_pdf cdf m_proper req vs base f (mixrho rho (fun _ => 0)) m AM PV SS OB base_inj LM WB RG PO H rhoM y m').
  assert (EJ : (fun y : nat -> R => mc_joint sel ddt fs dlp dlc h req (fun w => Fin (y w)) rhoM) = (fun y => c_joint m_ddt fs m_dlp dlc h' req (fun w => Fin (y w)) rhoM)).
  { apply functional_extensionality. intros y0. eapply mc_joint_same; eauto. }
  rewrite EJ. assert (EF : forall y v, In v vs -> mc_conditional sel ddt fs dlp dlc h req (fun w => Fin (y w)) rhoM v = c_conditional m_ddt fs m_dlp dlc h' req (fun w => Fin (y w)) rhoM v).
  { intros y0 v Iv. eapply mc_same; eauto. now apply in_vs. }
  split; apply weighs_ext; intros y0 v Iv; [|symmetry]; now apply EF.
Qed.
Lemma mix_total rho : possible h cont rho -> runs fs h cont pdf proper req (flat_map sources vs) rho -> forall rhoM y m',
  weighs fs h' m_cont m_pdf req (fun y v => mc_conditional sel ddt fs dlp dlc h req (fun w => Fin (y w)) rhoM v) (fun y => mc_joint sel ddt fs dlp dlc h req (fun w => Fin (y w)) rhoM) (fun _ => 1) vs y m' <-> m' = 1.
Proof. intros Ps H. apply (mix_expect (fun _ => 1) rho 1 Ps). eapply runs_one; eauto. Qed.
End Reduce.
