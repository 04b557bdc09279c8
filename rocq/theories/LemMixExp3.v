(** Drawing the random variables of a model with mixtures. *)
From Coq Require Import Reals Lra Lia ZArith List Arith Bool Permutation Sorted FunctionalExtensionality.
From Coquelicot Require Import Coquelicot.
From Verif Require Import XR SpecDist ModelDist ModelVec SpecCens LemInt ModelCens ModelJoint ModelMix LemMix ModelNest ModelGuard ModelCensSys SpecCensSys LemCensSys LemCensSys2 LemCensSys3 LemCensSys4 LemCensSys5 ModelMixCens SpecMixExp LemMixExp LemMixExp2.
Import ListNotations.
Open Scope R_scope.

Lemma int_nat n : Z.to_nat (Int_part (INR n)) = n.
Proof. rewrite INR_IZR_INZ. assert (Int_part (IZR (Z.of_nat n)) = Z.of_nat n) as ->; [|lia]. unfold Int_part. rewrite <- (tech_up (IZR (Z.of_nat n)) (Z.of_nat n + 1)); [lia| |]; rewrite plus_IZR; lra. Qed.
Lemma index_nat n : index_of (Fin (INR n)) = Z.of_nat n.
Proof. cbn. rewrite INR_IZR_INZ. unfold Int_part. rewrite <- (tech_up (IZR (Z.of_nat n)) (Z.of_nat n + 1)); [lia| |]; rewrite plus_IZR; lra. Qed.
Lemma nth_combine {A B} (l : list A) : forall (m : list B) n e x, nth_error (combine l m) n = Some (e, x) <-> nth_error l n = Some e /\ nth_error m n = Some x.
Proof. induction l as [|a l IH]; intros [|b m] [|n] e x; cbn; try (split; [discriminate|intros [? ?]; discriminate]); [split; [injection 1 as <- <-; auto|intros [E1 E2]; congruence]|apply IH]. Qed.
Lemma nodup_split {A B} (f : A -> list B) a b w x : NoDup (flat_map f (a ++ b)) -> In w a -> In x (f w) -> ~ In x (flat_map f b).
Proof.
  induction a as [|v a IH]; intros N Iw Ix Ib; [easy|]. cbn [app flat_map] in N. destruct Iw as [->|Iw].
  - assert (In x (flat_map f (a ++ b))) by (rewrite flat_map_app; apply in_or_app; auto). clear - N Ix H. induction (f w) as [|y l IHl]; [easy|]. cbn [app] in N. apply NoDup_cons_iff in N as [N1 N2]. destruct Ix as [->|Ix]; [apply N1, in_or_app; auto|auto].
  - apply IH; auto. clear - N. induction (f v) as [|y l IHl]; auto. cbn [app] in N. apply NoDup_cons_iff in N as [_ N]. auto.
Qed.
Lemma nodup_one {A B} (f : A -> list B) l v : NoDup (flat_map f l) -> In v l -> NoDup (f v).
Proof.
  induction l as [|a l IH]; intros N Iv; [easy|]. cbn [flat_map] in N. destruct Iv as [->|Iv].
  - clear - N. induction (f v) as [|x m IHm]; [constructor|]. cbn [app] in N. apply NoDup_cons_iff in N as [N1 N2]. constructor; [intros I; apply N1, in_or_app; auto|auto].
  - apply IH; auto. clear - N. induction (f a) as [|y m IHm]; auto. cbn [app] in N. apply NoDup_cons_iff in N as [_ N]. auto.
Qed.
Lemma sorted_app (a b : list nat) x y : StronglySorted lt (a ++ b) -> In x a -> In y b -> (x < y)%nat.
Proof.
  induction a as [|c a IH]; intros S Ix Iy; [easy|]. cbn [app] in S. inversion S as [|c' l S' F]; subst. destruct Ix as [->|Ix]; auto. rewrite Forall_forall in F. apply F, in_or_app. auto.
Qed.
Lemma f2_nth {A B} (P : A -> B -> Prop) l m : List.Forall2 P l m -> forall n b, nth_error m n = Some b -> exists a, nth_error l n = Some a /\ P a b.
Proof. intros F. induction F as [|x y l m H F IH]; intros [|n] b E; try discriminate; [injection E as <-; exists x; auto|cbn in *; auto]. Qed.
Lemma f2_nth_l {A B} (P : A -> B -> Prop) l m : List.Forall2 P l m -> forall n a, nth_error l n = Some a -> exists b, nth_error m n = Some b /\ P a b.
Proof. intros F. induction F as [|x y l m H F IH]; intros [|n] b E; try discriminate; [injection E as <-; exists y; auto|cbn in *; auto]. Qed.
Lemma f2_choose {A B} (P : A -> B -> Prop) l : (forall a, In a l -> exists b, P a b) -> exists m, List.Forall2 P l m.
Proof. induction l as [|a l IH]; intros H; [exists []; constructor|]. destruct (H a ltac:(now left)) as [b Hb]. destruct IH as [m Hm]; [intros c Ic; apply H; now right|]. exists (b :: m). now constructor. Qed.
Lemma f2_len {A B} (P : A -> B -> Prop) l m : List.Forall2 P l m -> length m = length l.
Proof. intros F. induction F; cbn; auto. Qed.
Lemma bound_two fs h h2 env env2 a inf b l : (forall v c, nth_error h v = Some (CCon c) -> nth_error h2 v = Some (CCon c)) -> free_con h2 env2 -> (forall r, cvalue fs h env b r -> cvalue fs h2 env2 b r) -> cbound fs h env a inf b l -> cbound fs h2 env2 a inf b l.
Proof. intros S C H B. destruct B as [a inf|a inf b c l N E K R|a inf b r N V]; [apply b_self|eapply b_inf; eauto|apply b_val; auto]. Qed.
Lemma cmeans_two fs h h2 env env2 n r : (forall v c, nth_error h v = Some (CCon c) -> nth_error h2 v = Some (CCon c)) -> free_con h2 env2 ->
  (forall a x, In a (cinputs n) -> cvalue fs h env a x -> cvalue fs h2 env2 a x) -> cmeans fs h env n r -> cmeans fs h2 env2 n r.
Proof.
  intros S C H M. destruct n as [c|d ps|[]|[] l|a b|a b|d a lo hi|op a|k l]; cbn [cmeans cinputs] in *; auto.
  1-3: destruct M as (x & V & M); exists x; split; auto; apply H; auto; now left.
  1-2: destruct M as (xs & V & M); exists xs; split; auto; eapply f2_mono; eauto.
  1-2: destruct M as (x & z & V & W & M); exists x, z; (split; [apply H; auto; now left|]); split; auto; apply H; auto; right; now left.
  - destruct M as (x & l & u & V & B1 & B2 & M). exists x, l, u. split; [apply H; auto; now left|]. split; [|split; auto]; [apply (bound_two fs h h2 env env2 a m_infty lo l S C); [intros; apply H; cbn; auto|exact B1]|apply (bound_two fs h h2 env env2 a p_infty hi u S C); [intros; apply H; cbn; auto|exact B2]].
  - destruct M as (x & k & V & M). exists x, k. split; auto. apply H; auto; now left.
  - destruct M as (xs & V & M). exists xs. split; auto; eapply f2_mono; eauto.
Qed.

Section Reduce.
Variable sel : nat -> bool.
Variable ddt : nat -> dtype.
Variable fs : nat -> list xr -> xr.
Variable dlp dlc : nat -> list xr -> xr -> res xr.
Variable h : list cnode.
Variable req : list nat.
Variable D : nat.
Variable cont : nat -> bool.
Variable pdf cdf : nat -> list R -> R -> R.
Variable proper : nat -> list R -> Prop.
Variable base : nat -> nat.
Variable vs : list nat.
Notation h' := (merged sel h req D).
Notation mixture := (mixture sel h).
Notation mixed := (mixed sel h req).
Notation m_cont := (m_cont h cont D).
Notation m_pdf := (m_pdf sel h req pdf D).
Notation m_proper := (m_proper sel h req proper D).
Notation m_ddt := (m_ddt D ddt).
Notation m_dlp := (m_dlp sel h req D dlp).
Notation parts := (parts sel h req).
Notation sources := (sources sel h base).
Notation mu_of d := (if cont d then Leb else Nats).
Hypothesis SEL : selects fs sel.
Hypothesis NB : numbered h D.
Hypothesis PM : plain_mixtures sel h req cont.
Hypothesis AC : cacyclic h.
Hypothesis OB : forall v, In v req -> observes h' m_cont req v (base v).
Hypothesis LF : lawful h cont pdf proper req ddt dlp dlc cdf.

Lemma AC' : cacyclic h'. Proof. now apply merged_acyclic. Qed.

(** ** the laws of the merged model *)
Lemma small_cont d : (d < D)%nat -> m_cont d = cont d. Proof. intros L. unfold SpecMixExp.m_cont. now destruct (Nat.ltb_spec d D); [|lia]. Qed.
Lemma small_pdf d : (d < D)%nat -> m_pdf d = pdf d. Proof. intros L. apply functional_extensionality. intros xs. apply functional_extensionality. intros x. unfold SpecMixExp.m_pdf. now destruct (Nat.ltb_spec d D); [|lia]. Qed.
Lemma small_proper d xs : (d < D)%nat -> m_proper d xs = proper d xs. Proof. intros L. unfold SpecMixExp.m_proper. now destruct (Nat.ltb_spec d D); [|lia]. Qed.
Lemma small_ddt d : (d < D)%nat -> m_ddt d = ddt d. Proof. intros L. unfold LemMixExp.m_ddt. now destruct (Nat.ltb_spec d D); [|lia]. Qed.
Lemma small_dlp d : (d < D)%nat -> m_dlp d = dlp d. Proof. intros L. apply functional_extensionality. intros xs. apply functional_extensionality. intros x. unfold LemMixExp.m_dlp. now destruct (Nat.ltb_spec d D); [|lia]. Qed.
Lemma parts_map xs v : parts v (map Fin xs) = map (fun p => (fst p, map Fin (snd p))) (parts v xs).
Proof.
  unfold SpecMixExp.parts. destruct (nth_error h v) as [[]|]; auto. destruct l as [|? comps]; auto. destruct (_ && _)%bool; auto. rewrite cut_map. generalize (cut (map (fun b => length (rv_params h b)) comps) xs) as m. generalize (map (rv_dist h) comps) as l. clear.
  induction l as [|a l IH]; intros [|x m]; cbn; auto. now rewrite IH.
Qed.
Lemma part_at d xs : (D <= d)%nat -> m_proper d xs -> exists n xs0 e l, xs = INR n :: xs0 /\ nth_error (parts (d - D) xs0) n = Some (e, l) /\ proper e l /\ m_cont d = cont e /\ m_pdf d xs = pdf e l /\ forall x, m_dlp d (map Fin xs) x = dlp e (map Fin l) x.
Proof.
  intros L P. unfold SpecMixExp.m_proper in P. destruct (Nat.ltb_spec d D) as [|_]; [lia|]. destruct xs as [|i xs]; [easy|]. destruct P as ((n & -> & Ln) & P).
  destruct (nth_error (parts (d - D) xs) n) as [[e l]|] eqn:N; [|apply nth_error_None in N; lia]. exists n, xs, e, l. split; auto. split; auto. split; [apply P; eapply nth_error_In; eauto|]. split; [|split].
  - unfold SpecMixExp.m_cont. destruct (Nat.ltb_spec d D) as [|_]; [lia|]. revert N. unfold SpecMixExp.parts. destruct (nth_error h (d - D)) as [[c|d0 ps|u a|n0 l0|a b|a b|d0 a lo hi|op a|k l0]|] eqn:E; try (destruct n; discriminate).
    destruct l0 as [|idx comps]; [destruct n; discriminate|]. destruct (sel k) eqn:S; [|destruct n; discriminate]. destruct (mem (d - D) req) eqn:M; cbn [andb]; [|destruct n; discriminate]. rewrite nth_combine. intros [N _]. apply mem_in in M.
    destruct (PM (d - D)%nat idx comps M (ex_intro _ k (conj E S))) as (Ne & c & HC). assert (RC : forall b, In b comps -> cont (rv_dist h b) = c). { intros b Ib. destruct (HC b Ib) as (_ & d1 & ps1 & Nb & Cb). unfold rv_dist. now rewrite Nb. }
    rewrite nth_error_map in N. destruct (nth_error comps n) as [b|] eqn:Nb; [|discriminate]. injection N as <-. rewrite (RC b) by (eapply nth_error_In; eauto). destruct comps as [|b0 comps]; [easy|]. apply RC. now left.
  - apply functional_extensionality. intros x. unfold SpecMixExp.m_pdf. destruct (Nat.ltb_spec d D) as [|_]; [lia|]. now rewrite int_nat, N.
  - intros x. unfold LemMixExp.m_dlp. destruct (Nat.ltb_spec d D) as [|_]; [lia|]. cbn [map]. rewrite index_nat. apply mixture_scalar_in. rewrite parts_map, map_map, nth_error_map, N. reflexivity.
Qed.
Lemma cknown_same p : cknown h' req p -> cknown h req p.
Proof.
  intros K. induction K as [v K|v n N NR K IH]; [now apply ck_req|]. assert (NM : ~ mixed v). { intros (I & idx & comps & Mx). rewrite (merged_mix sel h req D v idx comps I Mx) in N. injection N as <-. eapply NR; eauto. }
  rewrite merged_same in N by auto. eapply ck_det; eauto.
Qed.
Lemma same_node v n : nth_error h' v = Some n -> (forall d ps, n <> CRv d ps) -> nth_error h v = Some n.
Proof.
  intros N NR. rewrite merged_same in N; auto. intros (I & idx & comps & Mx). rewrite (merged_mix sel h req D v idx comps I Mx) in N. injection N as <-. eapply NR; eauto.
Qed.
Lemma free_rv b d ps : nth_error h' b = Some (CRv d ps) -> ~ In b req -> nth_error h b = Some (CRv d ps).
Proof. intros N I. rewrite merged_same in N; auto. intros [Q _]. easy. Qed.
Lemma chained_same b ws v : chained h' req b ws v -> chained h req b ws v.
Proof.
  intros C. induction C as [|ws a v u C IH I N|ws a v n l r C IH I N Ne K|ws a v c C IH I N K|ws a v c C IH I N K|ws a v c C IH I N K|ws a v c C IH I N K]; [apply ch_start|..]; (apply same_node in N; [|discriminate]).
  - eapply ch_one; eauto.
  - eapply ch_many; eauto. intros p Ip. apply cknown_same. auto.
  - eapply ch_sub_l; eauto. now apply cknown_same.
  - eapply ch_sub_r; eauto. now apply cknown_same.
  - eapply ch_div_l; eauto. now apply cknown_same.
  - eapply ch_div_r; eauto. now apply cknown_same.
Qed.
Lemma clip_base v t b lo hi : In v req -> nth_error h' v = Some (CClip t b lo hi) -> ~ In b req.
Proof.
  intros I N. pose proof (OB v I) as O. remember (base v) as b0. destruct O as [v d ps E|v t0 b0 lo0 hi0 d ps E Nb _ _ _ _|v op b0 d ps E|v b0 ws d ps C Ne]; [congruence|congruence|congruence|].
  destruct (chain_inv h' req b0 ws v C) as [(-> & _)|(ws' & a & n & _ & _ & _ & N' & El & _)]; [easy|]. assert (n = CClip t b lo hi) as -> by congruence. destruct El.
Qed.
Lemma round_base v op b : In v req -> nth_error h' v = Some (CRound op b) -> ~ In b req.
Proof.
  intros I N. pose proof (OB v I) as O. remember (base v) as b0. destruct O as [v d ps E|v t0 b0 lo0 hi0 d ps E|v op0 b0 d ps E Nb|v b0 ws d ps C Ne]; [congruence|congruence|congruence|].
  destruct (chain_inv h' req b0 ws v C) as [(-> & _)|(ws' & a & n & _ & _ & _ & N' & El & _)]; [easy|]. assert (n = CRound op b) as -> by congruence. destruct El.
Qed.
Lemma clipped_same d : clipped h' req d -> clipped h req d.
Proof.
  intros (v & t & b & lo & hi & ps & I & N & Nb). exists v, t, b, lo, hi, ps. split; auto. split; [apply same_node; [auto|discriminate]|]. apply free_rv; auto. eapply clip_base; eauto.
Qed.
Lemma rounded_same d : rounded h' req d -> rounded h req d.
Proof. intros (v & op & b & ps & I & N & Nb). exists v, op, b, ps. split; auto. split; [apply same_node; [auto|discriminate]|]. apply free_rv; auto. eapply round_base; eauto. Qed.
Lemma transformed_same d : transformed h' req d -> transformed h req d.
Proof. intros (v & b & ws & ps & I & C & Ne & Nb). exists v, b, ws, ps. split; auto. split; [now apply chained_same|]. split; auto. apply free_rv; auto. eapply chain_free; eauto. Qed.
Lemma clipped_small d : clipped h req d -> (d < D)%nat. Proof. intros (v & t & b & lo & hi & ps & _ & _ & N). eapply NB; eauto. Qed.
Lemma rounded_small d : rounded h req d -> (d < D)%nat. Proof. intros (v & op & b & ps & _ & _ & N). eapply NB; eauto. Qed.
Lemma transformed_small d : transformed h req d -> (d < D)%nat. Proof. intros (v & b & ws & ps & _ & _ & _ & N). eapply NB; eauto. Qed.
Lemma lawful_merged : lawful h' m_cont m_pdf m_proper req m_ddt m_dlp dlc cdf.
Proof.
  constructor.
  - intros d xs P. destruct (le_lt_dec D d) as [L|L].
    + destruct (part_at d xs L P) as (n & xs0 & e & l & -> & N & Pe & -> & -> & _). apply (lf_unit _ _ _ _ _ _ _ _ _ LF e l Pe).
    + rewrite small_cont, small_pdf by auto. rewrite small_proper in P by auto. apply (lf_unit _ _ _ _ _ _ _ _ _ LF d xs P).
  - intros d xs x P. destruct (le_lt_dec D d) as [L|L].
    + destruct (part_at d xs L P) as (n & xs0 & e & l & -> & N & Pe & -> & -> & E). rewrite E. apply (lf_lp _ _ _ _ _ _ _ _ _ LF e l x Pe).
    + rewrite small_cont, small_pdf, small_dlp by auto. rewrite small_proper in P by auto. apply (lf_lp _ _ _ _ _ _ _ _ _ LF d xs x P).
  - intros d xs CR Cd P. assert (CR' : clipped h req d \/ rounded h req d) by (destruct CR as [Q|Q]; [left; now apply clipped_same|right; now apply rounded_same]). assert (L : (d < D)%nat) by (destruct CR'; [now apply clipped_small|now apply rounded_small]).
    rewrite small_cont in Cd by auto. rewrite small_proper in P by auto. rewrite small_ddt, small_pdf by auto. apply (lf_cens _ _ _ _ _ _ _ _ _ LF); auto.
  - intros d xs Q Cd P. apply clipped_same in Q. pose proof (clipped_small d Q) as L. rewrite small_cont in Cd by auto. rewrite small_proper in P by auto. rewrite small_ddt, small_pdf, small_dlp by auto. apply (lf_count _ _ _ _ _ _ _ _ _ LF); auto.
  - intros d xs x Q P. apply rounded_same in Q. pose proof (rounded_small d Q) as L. rewrite small_proper in P by auto. apply (lf_pos _ _ _ _ _ _ _ _ _ LF); auto.
  - intros d xs Q P. apply transformed_same in Q. pose proof (transformed_small d Q) as L. rewrite small_proper in P by auto. rewrite small_ddt, small_pdf by auto. apply (lf_chain _ _ _ _ _ _ _ _ _ LF); auto.
Qed.
End Reduce.
