(** Lemmas on indexed random arrays: which indices read an element twice, and
    the density of the elements read. *)
From Coq Require Import Reals Lra Lia List Arith ZArith Bool.
From Coquelicot Require Import Coquelicot.
From Verif Require Import XR SpecDist ModelDist ModelVec SpecVec RMx ModelIdx SpecIdx LemIdx LemIdx2 ModelTen ModelSub LemSub LemUtil ModelNest SpecNest ModelJoint LemJoint ModelSys SpecSys LemSys LemDet LemSys2 LemSys3
  ModelEls SpecEls ModelElsV SpecElsV LemElsV LemElsV2 LemElsV3 SpecTake.
Import ListNotations.
Open Scope nat_scope.

Lemma picks_once full sh o : basic_dims full sh o -> forall b1 b2 src, picks [] full sh b1 src -> picks [] full sh b2 src ->
  List.Forall (fun i => match i with IArr _ => False | _ => True end) full -> b1 = b2.
Proof.
  induction 1 as [|ix sh bs B IH|a b s ix n sh c bs S C B IH|z ix n sh bs B IH|a ix n sh bs B IH]; intros b1 b2 src P1 P2 F; inversion P1; subst; inversion P2; subst; inversion F; subst; try reflexivity.
  - f_equal. eauto.
  - f_equal; [|eauto]. match goal with A : slice_nth _ _ _ _ ?k ?x, B : slice_nth _ _ _ _ ?l ?x |- ?k = ?l => destruct A as [A _], B as [B' _] end.
    cbn zeta in *. assert (Z.of_nat k * py_step s = Z.of_nat k0 * py_step s)%Z as X by lia. apply Z.mul_cancel_r in X; [lia|exact S].
  - eauto.
  - contradiction.
Qed.
Lemma completes_no_arrays ix sh full : completes ix sh full -> no_arrays ix -> no_arrays full.
Proof.
  induction 1 as [sh|ix sh full C IH|i ix n sh full N C IH]; intros F.
  - apply Forall_forall. intros i I. apply repeat_spec in I as ->. exact Logic.I.
  - apply Forall_inv_tail in F. apply List.Forall_cons; [exact Logic.I|exact (IH F)].
  - pose proof (Forall_inv F) as F1. apply Forall_inv_tail in F. apply List.Forall_cons; [exact F1|exact (IH F)].
Qed.
Lemma no_sub full s : no_arrays full -> is_broadcast (flat_map adv_shape full) s -> s = [].
Proof.
  intros F (_ & [->|(sh & I & L)] & _); [reflexivity|]. apply in_flat_map in I as (i & Ii & I). unfold no_arrays in F. rewrite List.Forall_forall in F. specialize (F i Ii).
  destruct i; cbn in I; try contradiction. destruct I as [<-|[]]. destruct s; [reflexivity|discriminate].
Qed.
Lemma placed_flat full bs o : placed (A := nat) full [] bs o -> o = bs.
Proof.
  intros P. apply placed_insertion in P as ->. cbn. apply firstn_skipn.
Qed.
Lemma basic_distinct ix sh o i j src : no_arrays ix -> np_shape ix sh o -> np_element ix sh i src -> np_element ix sh j src -> i = j.
Proof.
  intros F (full & sub & bs & C & B & D & _) (f1 & s1 & u1 & b1 & C1 & B1 & L1 & P1 & K1) (f2 & s2 & u2 & b2 & C2 & B2 & L2 & P2 & K2).
  pose proof (completes_no_arrays _ _ _ C F) as G. apply completes_full in C, C1, C2. subst f1 f2. rewrite <- C in *. 
  apply (no_sub full) in B1, B2; auto. subst s1 s2. destruct u1; [|discriminate]. destruct u2; [|discriminate].
  apply placed_flat in P1, P2. subst. exact (picks_once _ _ _ D _ _ _ K1 K2 G).
Qed.

Lemma nodup_app {A} (l m : list A) : NoDup l -> NoDup m -> (forall x, In x l -> In x m -> False) -> NoDup (l ++ m).
Proof.
  induction 1 as [|a l N L IH]; intros M D; [exact M|]. cbn. constructor; [|apply IH; [exact M|intros x X; apply D; now right]].
  intros X. apply in_app_iff in X as [X|X]; [exact (N X)|exact (D a (or_introl eq_refl) X)].
Qed.
Lemma nodup_map_on {A B} (f : A -> B) l : (forall x y, In x l -> In y l -> f x = f y -> x = y) -> NoDup l -> NoDup (map f l).
Proof.
  induction l as [|a l IH]; intros F N; [constructor|]. inversion N as [|? ? Na Nl]; subst. cbn. constructor; [|apply IH; [intros x z X Z; apply F; now right|exact Nl]].
  intros X. apply in_map_iff in X as (b & E & I). rewrite (F b a) in I; auto; [now right|now left].
Qed.

Section Density.
Variables (ddt : nat -> dtype) (afs : nat -> list (nd xr) -> nd xr) (fs : nat -> list xr -> xr) (dlp : nat -> list xr -> xr -> res xr).
Variables (h : list vnode) (sh : nat -> list nat) (g : list snode) (ix : nat -> list nat -> nat).
Variables (req : list nat) (y : nat -> nd xr).
Hypothesis WS : v_well_shaped afs h sh.
Hypothesis SO : v_spelled_out afs fs h sh g ix.
Hypothesis RA : read_apart h sh req.
Inductive lifted : nat -> nat -> Prop :=
| l_rv v d s ps : nth_error h v = Some (VRv d s ps) -> lifted v v
| l_take v xs t b a : nth_error h v = Some (VTake xs t b) -> ~ In b req -> lifted b a -> lifted v a.
Lemma drawn_lifted v i a p : drawn h sh req v i a p -> lifted v a.
Proof. induction 1; [eapply l_rv; eauto|eapply l_take; eauto]. Qed.
Lemma lifted_ix v a : lifted v a -> forall i, inside (sh v) i -> exists p, drawn h sh req v i a p /\ own h sh a p /\ ix v i = ix a p.
Proof.
  induction 1 as [v d s ps E|v xs t b a E R H IH]; intros i I.
  - exists i. split; [eapply d_rv; eauto|]. split; [exact (plain_own h sh v _ i E (fun X => X) I)|reflexivity].
  - destruct (WS v _ E) as (_ & St & W). destruct (IH (nelt t i) (proj2 (W i I))) as (p & D & O & Ei). exists p. split; [exact (d_take h sh req v xs t b i _ a p E R (proj1 (W i I)) D)|]. split; [exact O|].
    rewrite <- Ei. apply (vs_same _ _ _ _ _ _ SO v _ i b (nelt t i) E I). split; reflexivity.
Qed.
Lemma drawn_ix v i : In v req -> inside (sh v) i -> exists a p, read h sh req v i a p /\ own h sh a p /\ ix v i = ix a p.
Proof.
  intros V I. destruct (proj1 RA v i V I) as (a & p0 & [D|(o & b & q & E & R & _ & D)]); pose proof (drawn_lifted _ _ _ _ D) as L.
  - destruct (lifted_ix v a L i I) as (p & D' & O & Ei). exists a, p. split; [now left|]. auto.
  - destruct (WS v _ E) as (Vo & Sh). destruct (source_exists o (sh b) (sh v) i Vo Sh I) as (q' & Pq & Iq). destruct (lifted_ix b a L q' Iq) as (p & D' & O & Ei).
    exists a, p. split; [right; exists o, b, q'; auto|]. split; [exact O|]. rewrite <- Ei. apply (vs_same _ _ _ _ _ _ SO v _ i b q' E I). cbn. auto.
Qed.
Lemma lifted_accepted (Ac : vacyclic h) v a : lifted v a -> forall F, v < F -> ~ In v req -> exists M, v_m (v_unfold ddt afs h req y F v) = Some M /\ is_rv M = true.
Proof.
  induction 1 as [v d s ps E|v xs t b a E R H IH]; intros [|F] L N; try lia; cbn [v_unfold]; rewrite (proj2 (mem_not _ _) N); unfold v_node; rewrite E.
  - eexists. split; reflexivity.
  - destruct (IH F) as (M & EM & RM); [|exact R|].
    { pose proof (Ac v _ b E (or_introl eq_refl)). lia. }
    cbn [v_m]. rewrite EM. destruct M; try discriminate; eexists; split; reflexivity.
Qed.
Lemma lifted_range v a : lifted v a -> v < length h.
Proof. intros H. apply nth_error_Some. inversion H; congruence. Qed.
Lemma reads_nodup : NoDup req -> NoDup (flat_map (elements_of sh ix) req).
Proof.
  assert (G : forall v w i j, In v req -> In w req -> inside (sh v) i -> inside (sh w) j -> ix v i = ix w j -> v = w /\ i = j).
  { intros v w i j V W I J E. destruct (drawn_ix v i V I) as (a & p & D & O & E1). destruct (drawn_ix w j W J) as (b & q & D' & O' & E2).
    destruct (vs_inj _ _ _ _ _ _ SO a b p q O O') as [-> ->]; [congruence|]. exact (proj2 RA v w i j b q V W I J D D'). }
  assert (K : forall l, incl l req -> NoDup l -> NoDup (flat_map (elements_of sh ix) l)).
  { induction l as [|v l IH]; intros L N; [constructor|]. cbn. inversion N as [|? ? Nv Nl]; subst. pose proof (L v (or_introl eq_refl)) as V.
    apply nodup_app; [| |].
    - unfold elements_of. apply nodup_map_on; [|apply positions_nodup]. intros i j I J E. apply positions_in in I, J. exact (proj2 (G v v i j V V I J E)).
    - apply IH; [|exact Nl]. intros x X. apply L. now right.
    - intros x X Y. unfold elements_of in X. apply in_map_iff in X as (i & <- & I). apply in_flat_map in Y as (w & W & Y). apply in_map_iff in Y as (j & E & J). apply positions_in in I, J.
      destruct (G v w i j V (L w (or_intror W)) I J (eq_sym E)) as [-> _]. exact (Nv W). }
  exact (K req (fun x X => X)).
Qed.
Hypothesis NE : forall v, In v req -> v < length h /\ exists i, inside (sh v) i.
Lemma reads_accepted : vacyclic h -> exists r, v_joint ddt afs dlp h req y = Some r.
Proof.
  intros Ac. assert (C : forall v, In v req -> exists r, v_conditional ddt afs dlp h req y v = Some r).
  { intros v V. destruct (NE v V) as (L & i & I). unfold v_conditional, v_top. destruct (proj1 RA v i V I) as (a & p & [D|(o & b & q & E & R & _ & D)]).
    - apply drawn_lifted in D. inversion D as [? d s ps E|? xs t b ? E R D']; subst; unfold v_node; rewrite E; [eexists; reflexivity|]. cbn [v_m].
      destruct (lifted_accepted Ac b a D' (length h) (lifted_range _ _ D') R) as (M & -> & RM). destruct M; try discriminate; eexists; reflexivity.
    - apply drawn_lifted in D. unfold v_node. rewrite E. cbn [v_m]. destruct (lifted_accepted Ac b a D (length h) (lifted_range _ _ D) R) as (M & -> & RM). rewrite RM. eexists; reflexivity. }
  unfold v_joint. assert (K : forall l, incl l req -> exists rs, v_conditionals ddt afs dlp h req y l = Some rs).
  { induction l as [|v l IH]; intros I; [eexists; reflexivity|]. cbn. destruct (C v (I v (or_introl eq_refl))) as (r & ->). destruct IH as (rs & ->); [intros x X; apply I; now right|]. eexists. reflexivity. }
  destruct (K req (fun x X => X)) as (rs & ->). eexists. reflexivity.
Qed.
End Density.
Lemma take_density ddt afs fs dlp pdf h sh g ix req y rho ps : vacyclic h -> acyclic g -> v_well_shaped afs h sh -> v_spelled_out afs fs h sh g ix -> tidy ddt h sh req ->
  NoDup req -> read_apart h sh req ->
  (forall v, In v req -> v < length h /\ ~ In 0 (sh v) /\ nshp (y v) = sh v /\ forall i, inside (sh v) i -> nelt (y v) i = Fin (rho (ix v i))) ->
  let els := flat_map (elements_of sh ix) req in
  (forall v d l, In v els -> nth_error g v = Some (SRv d l) -> List.Forall (known g els) l) ->
  Forall2 (draw_density fs g pdf rho) els ps ->
  (forall v d l rs, In v els -> nth_error g v = Some (SRv d l) -> Forall2 (svalue fs g rho) l rs -> denotes (dlp d (map Fin rs) (Fin (rho v))) (pdf d rs (rho v))) ->
  exists r, v_joint ddt afs dlp h req y = Some r /\ denotes r (SpecVec.rprod ps).
Proof.
  intros GA AC WS SO TI NR RA RQ els KN DD DL.
  assert (NE : forall v, In v req -> v < length h /\ exists i, inside (sh v) i).
  { intros v V. destruct (RQ v V) as (L & N0 & _). split; [exact L|]. exists (repeat 0 (length (sh v))). clear - N0. induction (sh v) as [|n s IH]; [constructor|]. cbn. constructor; [destruct n; [exfalso; apply N0; now left|lia]|apply IH; intros X; apply N0; now right]. }
  destruct (reads_accepted ddt afs dlp h sh req y RA NE GA) as (r & E). exists r. split; [exact E|].
  assert (RV : forall v, In v els -> exists d l, nth_error g v = Some (SRv d l)).
  { intros v V. apply in_flat_map in V as (w & W & V). apply in_map_iff in V as (i & <- & I). apply positions_in in I. destruct (drawn_ix afs fs h sh g ix req WS SO RA w i W I) as (a & p & D & O & ->).
    assert (Ea : exists d s l, nth_error h a = Some (VRv d s l)).
    { assert (K : forall v i, drawn h sh req v i a p -> exists d s l, nth_error h a = Some (VRv d s l)) by (induction 1; eauto). destruct D as [D|(o & b & q & _ & _ & _ & D)]; exact (K _ _ D). }
    destruct Ea as (d & s & l & Ea).
    destruct (vs_node _ _ _ _ _ _ SO a _ p Ea O) as (e & Ee & l' & -> & _). eauto. }
  pose proof (reads_nodup afs fs h sh g ix req WS SO RA NR) as ND. fold els in ND.
  set (J := fun i j : nat => if i =? j then 1%R else 0%R).
  assert (DJ : rdet (length els) J = 1%R).
  { rewrite (det_ranked (length els) J (fun i => i)).
    - unfold J. rewrite (prodn_ext _ _ (fun _ => 1%R)); [|intros i _; now rewrite Nat.eqb_refl]. generalize (length els). clear. induction n as [|n IH]; [reflexivity|]. cbn. rewrite IH. ring.
    - intros i j _ _ N _. unfold J. destruct (Nat.eqb_spec i j); [contradiction|reflexivity]. }
  replace (SpecVec.rprod ps) with (SpecVec.rprod ps / Rabs (rdet (length els) J))%R by (rewrite DJ, Rabs_R1; field).
  refine (proj2 (v_density ddt afs fs dlp pdf h sh g ix req y rho (fun v => v) rho J ps r GA AC WS SO TI _ ND _ _ _ KN DD DL _ E)).
  - intros v V. destruct (RQ v V) as (L & _ & S & X). auto.
  - intros v V. destruct (RV v V) as (d & l & Ev). exact (v_rv fs g rho v d l Ev).
  - intros v V. destruct (RV v V) as (d & l & Ev). split; [exact (s_rv fs g els rho v d l Ev)|now right].
  - auto.
  - intros i j Li Lj. destruct (RV (nth i els 0) (nth_In _ _ Li)) as (d & l & Ev). unfold J. destruct (Nat.eqb_spec i j) as [<-|N].
    + exists (fun t => t). split; [|apply (is_derive_id (K := R_AbsRing))]. apply filter_forall. intros t. pose proof (v_rv fs g (upd rho (nth i els 0) t) _ d l Ev) as V. unfold upd in V at 2. now rewrite Nat.eqb_refl in V.
    + exists (fun _ => rho (nth i els 0)). split; [|apply (is_derive_const (K := R_AbsRing) (V := R_NormedModule))]. apply filter_forall. intros t.
      pose proof (v_rv fs g (upd rho (nth j els 0) t) _ d l Ev) as V. unfold upd in V at 2. destruct (Nat.eqb_spec (nth i els 0) (nth j els 0)) as [X|_]; [|exact V]. exfalso. apply N. eapply NoDup_nth; eauto.
Qed.
Lemma once_apart (h : list vnode) sh req (src : nat -> nat) :
  (forall v, In v req -> (exists d s ps, nth_error h (src v) = Some (VRv d s ps)) /\
     match nth_error h v with
     | Some (VRv _ _ _) => src v = v
     | Some (VTake ix _ b) => src v = b /\ ~ In b req /\ np_shape ix (sh b) (sh v) /\ reads_once ix (sh b) /\ forall i, inside (sh v) i -> exists p, np_element ix (sh b) i p
     | _ => False
     end) ->
  (forall v w, In v req -> In w req -> src v = src w -> v = w) -> read_apart h sh req.
Proof.
  intros H D.
  assert (SR : forall v i a p, In v req -> read h sh req v i a p -> src v = a /\ match nth_error h v with Some (VTake ix _ b) => np_element ix (sh b) i p | _ => p = i end).
  { intros v i a p V R. destruct (H v V) as ((d & s & ps & Es) & M). destruct R as [R|(o & b & q & E & _)]; [|rewrite E in M; contradiction].
    inversion R as [? d' s' ps' ? E|? xs t b ? q ? ? E N P R']; subst; rewrite E in M |- *; [auto|]. destruct M as (Eb & _). rewrite Eb in Es |- *.
    inversion R' as [? d' s' ps' ? E'|? xs' t' b' ? q' ? ? E' N' P' R'']; subst; [auto|congruence]. }
  split.
  - intros v i V I. destruct (H v V) as ((d & s & ps & R) & M). destruct (nth_error h v) as [nd|] eqn:E; [|contradiction]. destruct nd; try contradiction.
    + exists v, i. left. eapply d_rv; eauto.
    + destruct M as (Es & N & _ & _ & P). destruct (P i I) as (p & Pp). exists a, p. left. rewrite Es in R. eapply d_take; eauto. eapply d_rv; eauto.
  - intros v w i j a p V W I J A B. apply (SR _ _ _ _ V) in A as [A A']. apply (SR _ _ _ _ W) in B as [B B']. assert (v = w) as -> by (apply D; congruence). split; [reflexivity|].
    destruct (H w W) as (_ & M). destruct (nth_error h w) as [[]|]; try contradiction; [congruence|]. destruct M as (_ & _ & Hs & O & _). exact (O _ i j p Hs I J A' B').
Qed.
