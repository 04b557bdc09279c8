(** Lemmas for the further claims of C95. *)
From Coq Require Import Reals List Arith Bool Lia Lra.
From Verif Require Import XR ModelVec ModelJoint ModelTen ModelElem ModelNest ModelEls ModelElsV SpecTen SpecElsV LemTen2 LemSys LemVec SpecVec SpecElsTypes.
Import ListNotations.
Open Scope nat_scope.

Lemma all_ints ddt h l ms : (forall a, In a l -> forall m, v_m a = Some m -> v_starts_int ddt h m = true) -> v_all l = Some ms -> forallb (v_starts_int ddt h) ms = true.
Proof.
  revert ms. induction l as [|a l IH]; intros ms H; cbn; [intros X; injection X as <-; reflexivity|].
  destruct (v_m a) as [m|] eqn:E; [|discriminate]. destruct (v_all l) as [ms'|]; [|discriminate]. intros X. injection X as <-. cbn. rewrite (H a (or_introl eq_refl) m E). apply IH; [|reflexivity]. intros b I. apply H. now right.
Qed.
Section Types.
Variable ddt : nat -> dtype.
Variable afs : nat -> list (nd xr) -> nd xr.
Variable h : list vnode.
Variable req : list nat.
Variable y : nat -> nd xr.
Hypothesis Ac : vacyclic h.
Notation unf := (v_unfold ddt afs h req y).
Lemma counts_ann v : counts ddt h req v -> forall F, v < F -> v_rand (unf F v) = true /\ forall m, v_m (unf F v) = Some m -> v_starts_int ddt h m = true.
Proof.
  induction 1 as [v d s ps E D N|v xs t a E C IH N|v o a E C IH N|v axis a E C IH N|v l E NE C IH N|v axis l E NE C IH N]; intros F L; (destruct F as [|F]; [lia|]); cbn [v_unfold]; rewrite (proj2 (mem_not _ _) N); unfold v_node; rewrite E; cbn [v_rand v_m].
  - split; [reflexivity|]. intros m X. injection X as <-. cbn. unfold v_dtype. now rewrite E, D.
  - pose proof (Ac v _ a E (or_introl eq_refl)). destruct (IH F ltac:(lia)) as [R S]. split; [exact R|]. intros m. destruct (v_m (unf F a)) as [M|]; [|discriminate].
    specialize (S M eq_refl). destruct M; try discriminate; intros X; injection X as <-; exact S.
  - pose proof (Ac v _ a E (or_introl eq_refl)). destruct (IH F ltac:(lia)) as [R S]. split; [exact R|]. intros m. destruct (v_m (unf F a)) as [M|]; [|discriminate].
    specialize (S M eq_refl). destruct (is_rv M); [|discriminate]. intros X. injection X as <-. exact S.
  - pose proof (Ac v _ a E (or_introl eq_refl)). destruct (IH F ltac:(lia)) as [R S]. split; [exact R|]. intros m. destruct (v_m (unf F a)) as [M|]; [|discriminate].
    specialize (S M eq_refl). intros X. injection X as <-. exact S.
  - split.
    + destruct l as [|a l]; [easy|]. pose proof (Ac v _ a E (or_introl eq_refl)). cbn. now rewrite (proj1 (IH a (or_introl eq_refl) F ltac:(lia))).
    + intros m. destruct (v_all (map (unf F) l)) as [ms|] eqn:EA; [|discriminate]. intros X. injection X as <-. cbn. apply (all_ints _ _ (map (unf F) l)); [|exact EA].
      intros A I. apply in_map_iff in I as (a & <- & I). pose proof (Ac v _ a E I). apply (IH a I F). lia.
  - split.
    + destruct l as [|a l]; [easy|]. pose proof (Ac v _ a E (or_introl eq_refl)). cbn. now rewrite (proj1 (IH a (or_introl eq_refl) F ltac:(lia))).
    + intros m. destruct (v_all (map (unf F) l)) as [ms|] eqn:EA; [|discriminate]. intros X. injection X as <-. cbn. apply (all_ints _ _ (map (unf F) l)); [|exact EA].
      intros A I. apply in_map_iff in I as (a & <- & I). pose proof (Ac v _ a E I). apply (IH a I F). lia.
Qed.
Lemma construct_refused l mk a : In a l -> v_rand a = true -> (forall m, v_m a = Some m -> v_starts_int ddt h m = true) -> v_construct ddt h l mk = None.
Proof.
  intros I R S. unfold v_construct. destruct (v_m a) as [m|] eqn:E.
  - assert (J : In m (v_measurable l)). { unfold v_measurable. apply in_flat_map. exists a. split; [exact I|]. rewrite E. now left. }
    destruct (v_measurable l) as [|M [|? ?]]; [reflexivity| |reflexivity]. destruct J as [->|[]]. now rewrite (S m eq_refl).
  - assert (J : existsb v_rand (v_others l) = true). { apply existsb_exists. exists a. split; [|exact R]. unfold v_others. apply filter_In. split; [exact I|]. now rewrite E. }
    destruct (v_measurable l) as [|M [|? ?]]; try reflexivity. destruct (v_starts_int ddt h M); [reflexivity|]. now rewrite J.
Qed.
Lemma counts_in v nd a : nth_error h v = Some nd -> In a (vinputs nd) -> counts ddt h req a -> a < length h.
Proof. intros E I C. pose proof (Ac v nd a E I). assert (v < length h) by (apply nth_error_Some; congruence). lia. Qed.
Lemma discrete v nd a : nth_error h v = Some nd -> elementwise nd -> In a (vinputs nd) -> counts ddt h req a -> v_m (v_top ddt afs h req y v) = None.
Proof.
  intros E W I C. destruct (counts_ann a C (length h) (counts_in v _ a E I C)) as [R S]. unfold v_top, v_node. rewrite E. destruct nd as [| |u b|n l|b c|b c| | | | | |]; try destruct W.
  - destruct I as [->|[]]. apply (construct_refused _ _ (unf (length h) a)); [now left|exact R|exact S].
  - apply (construct_refused _ _ (unf (length h) a)); [now apply in_map|exact R|exact S].
  - destruct I as [->|[->|[]]].
    + apply (construct_refused _ _ (unf (length h) a)); [now left|exact R|exact S].
    + unfold v_rw_sub. match goal with |- v_m (v_rw_nary _ _ _ [_; ?A]) = _ => apply (construct_refused _ _ A); [right; now left| |] end.
      * cbn. now rewrite R.
      * intros m. unfold v_rw_nary. cbn [v_m]. rewrite (construct_refused _ _ (unf (length h) a)); [discriminate|right; now left|exact R|exact S].
  - destruct I as [->|[->|[]]].
    + apply (construct_refused _ _ (unf (length h) a)); [now left|exact R|exact S].
    + unfold v_rw_div. match goal with |- v_m (v_rw_nary _ _ _ [_; ?A]) = _ => apply (construct_refused _ _ A); [right; now left| |] end.
      * exact R.
      * intros m. unfold v_rw_unary. cbn [v_m]. rewrite (construct_refused _ _ (unf (length h) a)); [discriminate|now left|exact R|exact S].
Qed.
Lemma discrete_joint dlp v nd a : nth_error h v = Some nd -> elementwise nd -> In a (vinputs nd) -> counts ddt h req a -> In v req -> v_joint ddt afs dlp h req y = None.
Proof.
  intros E W I C J. pose proof (discrete v nd a E W I C) as D. unfold v_joint.
  assert (G : forall l, In v l -> v_conditionals ddt afs dlp h req y l = None).
  { induction l as [|x l IH]; [intros []|]. intros [->|K]; cbn; [unfold v_conditional; now rewrite D|rewrite (IH K); now destruct (v_conditional _ _ _ _ _ _ x)]. }
  now rewrite (G req J).
Qed.
Lemma cumsum_value v axis a ax f : nth_error h v = Some (VCum axis a) -> In a req -> axis_is (length (nshp (y a))) axis ax -> (forall p, nelt (y a) p = Fin (f p)) ->
  exists r, v_val (v_top ddt afs h req y v) = Val r /\ nshp r = nshp (y a) /\ forall q n, length (q n) = length (nshp (y a)) -> along ax q n -> nelt r (q n) = Fin (sum_f_R0 (fun i => f (q i)) n).
Proof.
  intros E I A Hf. pose proof (Ac v _ a E (or_introl eq_refl)). assert (v < length h) by (apply nth_error_Some; congruence).
  unfold v_top, v_node. rewrite E. cbn [v_val]. assert (Eu : unf (length h) a = v_con (y a)). { destruct (length h) as [|F]; [lia|]. cbn [v_unfold]. now rewrite (proj2 (mem_In _ _) I). }
  rewrite Eu. cbn [v_con v_val bind]. unfold cumulate. rewrite (proj2 (norm_axis_spec _ _ _) A). eexists. split; [reflexivity|]. split; [reflexivity|]. cbn [nelt].
  intros q n Lq Q. assert (La : ax < length (nshp (y a))) by (exact (proj1 A)). assert (En : nth ax (q n) 0 = n) by (apply nth_error_nth; exact (proj2 (Q n (le_n n)))).
  rewrite En. assert (K : forall m, m <= n -> xsum (map (fun i => nelt (y a) (set_nth ax i (q n))) (seq 0 (S m))) = Fin (sum_f_R0 (fun i => f (q i)) m)); [|exact (K n (le_n n))].
  assert (G : forall i, i <= n -> set_nth ax i (q n) = q i) by (intros i Li; apply set_nth_same; [lia|exact (proj1 (Q i Li))|exact (proj2 (Q i Li))]).
  intros m Lm. rewrite (map_ext_in _ (fun i => Fin (f (q i)))) by (intros i Ii; apply in_seq in Ii; rewrite G by lia; apply Hf).
  clear Lm. rewrite <- (map_map (fun i => f (q i)) Fin). rewrite xsum_Fin. unfold rtotal. f_equal.
  induction m as [|m IH]; [cbn; lra|]. rewrite seq_S, map_app, fold_right_app. cbn [fold_right map]. rewrite Nat.add_0_l. cbn [sum_f_R0]. rewrite <- IH.
  generalize (map (fun i => f (q i)) (seq 0 (S m))) as l. intros l. generalize (f (q (S m))) as x. intros x. clear. induction l as [|b l IH]; cbn; lra.
Qed.
End Types.
