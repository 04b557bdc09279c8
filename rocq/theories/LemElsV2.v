(** Lemmas on models of arrays with stacks, joins, shuffles and cumulative sums:
    whole graphs, the joint log-probability. *)
From Coq Require Import Reals Lra Lia List Arith ZArith Bool.
From Coquelicot Require Import Coquelicot.
From Verif Require Import XR ModelDist ModelVec ModelIdx SpecIdx LemIdx LemIdx2 ModelTen SpecTen LemMix LemTen LemTen2 ModelConv ModelSub LemSub ModelTrans ModelElem SpecElem LemElem LemBatch
  ModelJoint LemJoint ModelNest ModelSys SpecSys LemSys ModelEls SpecEls LemEls LemEls2 ModelElsV SpecElsV LemElsV.
Import ListNotations.
Open Scope nat_scope.

Lemma axis_unique r z a b : axis_is r z a -> axis_is r z b -> a = b.
Proof. intros [L [->|E]] [L' [E'|E']]; lia. Qed.
Lemma sizes_unique ax shs s1 s2 : Forall2 (size_along ax) shs s1 -> Forall2 (size_along ax) shs s2 -> s1 = s2.
Proof. intros F. revert s2. induction F as [|s n shs s1 H F IH]; intros s2 G; inversion G as [|? m ? ? H' G']; subst; [reflexivity|]. f_equal; [unfold size_along in *; congruence|auto]. Qed.
Lemma v_all_nth (go : nat -> vann) (l : list nat) ms : v_all (map go l) = Some ms -> length ms = length l /\ forall k M, nth_error ms k = Some M -> exists a, nth_error l k = Some a /\ v_m (go a) = Some M.
Proof.
  revert ms. induction l as [|a l IH]; intros ms E; cbn in E.
  - injection E as <-. split; [reflexivity|]. intros [|k] M X; discriminate.
  - destruct (v_m (go a)) as [m|] eqn:Em; [|discriminate]. destruct (v_all (map go l)) as [ms'|]; [|discriminate]. injection E as <-. destruct (IH ms' eq_refl) as [L H].
    split; [cbn; lia|]. intros [|k] M X; cbn in *; [injection X as <-; eauto|eauto].
Qed.
Lemma stack_ok {A} (l : list (nd A)) s d : l <> [] -> (forall a, In a l -> nshp a = s) -> exists r, stack l d = Val r /\ nshp r = length l :: s /\
  forall k q a, nth_error l k = Some a -> nelt r (k :: q) = nelt a q.
Proof.
  intros N H. destruct l as [|a0 l]; [easy|]. unfold stack.
  assert (F : forallb (fun b => if list_eq_dec Nat.eq_dec (nshp b) (nshp a0) then true else false) (a0 :: l) = true).
  { apply forallb_forall. intros b Ib. destruct list_eq_dec as [|K]; auto. exfalso. apply K. rewrite (H b Ib), (H a0 (or_introl eq_refl)). reflexivity. }
  rewrite F. eexists. split; [reflexivity|]. cbn [nshp]. rewrite (H a0 (or_introl eq_refl)). split; [reflexivity|]. intros k q a E. cbn [nelt]. now rewrite E.
Qed.

Lemma shuffled_unique o s0 s1 s2 : shuffled_shape o s0 s1 -> shuffled_shape o s0 s2 -> s1 = s2.
Proof.
  intros (L1 & A1 & B1 & _) (L2 & A2 & B2 & _). apply nth_error_ext. intros j. destruct (nth_error o j) as [[d|]|] eqn:E.
  - now rewrite (A1 j d E), (A2 j d E).
  - now rewrite (B1 j E), (B2 j E).
  - apply nth_error_None in E. rewrite !(proj2 (nth_error_None _ _)); auto; lia.
Qed.
(** choices without axioms *)
Lemma choose {A} (P : nat -> A -> Prop) (d : A) n : (forall k, k < n -> exists a, P k a) -> exists f, forall k, k < n -> P k (f k).
Proof.
  induction n as [|n IH]; intros H; [exists (fun _ => d); intros k L; lia|]. destruct IH as (f & F); [intros k L; apply H; lia|]. destruct (H n ltac:(lia)) as (a & Pa).
  exists (fun k => if k =? n then a else f k). intros k L. destruct (Nat.eqb_spec k n) as [->|N]; [exact Pa|apply F; lia].
Qed.
Fixpoint locate (sizes : list nat) (x : nat) : nat * nat :=
  match sizes with [] => (0, x) | n :: r => if x <? n then (0, x) else let (k, z) := locate r (x - n) in (S k, z) end.
Lemma locate_ok sizes : forall x, x < list_sum sizes -> exists n, nth_error sizes (fst (locate sizes x)) = Some n /\ snd (locate sizes x) < n /\ x = list_sum (firstn (fst (locate sizes x)) sizes) + snd (locate sizes x).
Proof.
  induction sizes as [|n sizes IH]; intros x L; [cbn in L; lia|]. change (list_sum (n :: sizes)) with (n + list_sum sizes) in L. cbn [locate]. destruct (Nat.ltb_spec x n) as [H|H].
  - exists n. cbn. auto.
  - destruct (IH (x - n)) as (m & E & Lz & Ex); [lia|]. destruct (locate sizes (x - n)) as [k z]. cbn [fst snd] in *. exists m. split; [exact E|]. split; [exact Lz|].
    change (list_sum (firstn (S k) (n :: sizes))) with (n + list_sum (firstn k sizes)). lia.
Qed.
Definition locate_at (ax : nat) (sizes i : list nat) : nat * list nat := let (k, z) := locate sizes (nth ax i 0) in (k, set_nth ax z i).
Lemma locate_part ax shs sizes s i : joinable ax shs sizes s -> inside s i -> part_at ax sizes i (fst (locate_at ax sizes i)) (snd (locate_at ax sizes i)).
Proof.
  intros (_ & Lax & F & SB & Es) I. pose proof (inside_len _ _ I) as Li. unfold locate_at.
  destruct (nth_error i ax) as [x|] eqn:Ex; [|apply nth_error_None in Ex; lia]. pose proof (inside_nth _ _ _ _ _ I Ex Es) as Lx.
  rewrite (nth_error_nth _ _ 0 Ex). destruct (locate_ok sizes x Lx) as (n & En & Lz & E). destruct (locate sizes x) as [k z]. cbn [fst snd] in *.
  split; [apply same_but_set; lia|]. exists n, z. split; [exact En|]. split; [apply set_nth_at; lia|]. subst x. auto.
Qed.

Section Graphs.
Variables (ddt : nat -> dtype) (afs : nat -> list (nd xr) -> nd xr) (fs : nat -> list xr -> xr) (dlp : nat -> list xr -> xr -> res xr).
Variables (h : list vnode) (sh : nat -> list nat) (g : list snode) (ix : nat -> list nat -> nat).
Variables (req : list nat) (y : nat -> nd xr) (y' : nat -> xr).
Hypothesis GA : vacyclic h.
Hypothesis AC : acyclic g.
Hypothesis WS : v_well_shaped afs h sh.
Hypothesis SO : v_spelled_out afs fs h sh g ix.
Hypothesis TI : tidy ddt h sh req.
Hypothesis RQ : forall v, In v req -> v < length h /\ nshp (y v) = sh v /\ forall i, inside (sh v) i -> y' (ix v i) = nelt (y v) i.
Notation req' := (flat_map (elements_of sh ix) req).
Notation sdt := (rv_dtype ddt g).
Notation unf := (unfold g req' y' (length g)).
Notation ar := (arel h sh ix).
Notation mp := (mpart h sh ix).
Notation vunf := (v_unfold ddt afs h req y).
Notation hid := (hidden h req).

Lemma in_h v nd a : nth_error h v = Some nd -> In a (vinputs nd) -> a < v /\ v < length h.
Proof. intros E I. split; [exact (GA v nd a E I)|]. apply nth_error_Some. congruence. Qed.
Lemma some_node v : v < length h -> exists nd, nth_error h v = Some nd.
Proof. intros L. destruct (nth_error h v) as [nd|] eqn:E; [eauto|]. apply nth_error_Some in L. congruence. Qed.
Lemma plain_own v nd i : nth_error h v = Some nd -> ~ view nd -> inside (sh v) i -> own h sh v i.
Proof. intros E N I. exists nd. split; [exact E|]. split; [exact I|]. intros a j S. apply N. destruct nd; cbn in *; auto. Qed.
(** elements of a view: those of a part, or later elements of a cumulative sum *)
Lemma same_inside v nd i a j : nth_error h v = Some nd -> inside (sh v) i -> same_element sh (sh v) nd i a j -> view nd /\ In a (vinputs nd) /\ inside (sh a) j.
Proof.
  intros E I S. pose proof (WS v nd E) as W. destruct nd as [c|d s ps|u b|n l|b c|b c|k l|l|axis l|o b|axis b|xs t b]; cbn in S; try contradiction.
  - destruct S as (k & -> & Ek & ->). split; [exact Logic.I|]. split; [cbn; eapply nth_error_In; eauto|]. destruct W as (_ & _ & W). rewrite W by (eapply nth_error_In; eauto). constructor.
  - destruct S as (ax & sizes & k & A & J & Ek & P). split; [exact Logic.I|]. split; [cbn; eapply nth_error_In; eauto|].
    apply (part_inside ax (map sh l) sizes (sh v) i k j (sh a) J I P). now apply map_nth_error.
  - destruct S as (-> & P). destruct W as (V & Sh). split; [exact Logic.I|]. split; [now left|]. exact (source_inside o (sh b) (sh v) i j V Sh I P).
  - destruct S as (-> & -> & _). destruct W as (<- & _). split; [exact Logic.I|]. split; [now left|exact I].
  - destruct S as (-> & ->). destruct W as (_ & _ & W). split; [exact Logic.I|]. split; [now left|exact (proj2 (W i I))].
Qed.
Lemma element_cases v nd i : nth_error h v = Some nd -> inside (sh v) i -> own h sh v i \/ exists a j, same_element sh (sh v) nd i a j.
Proof.
  intros E I. pose proof (WS v nd E) as W. destruct nd as [c|d s ps|u b|n l|b c|b c|k l|l|axis l|o b|axis b|xs t b]; try (left; apply (plain_own v _ i E); [cbn; tauto|exact I]).
  - right. destruct W as (_ & Es & W). rewrite Es in I. inversion I as [|k n i0 s0 Lk I0]; subst. inversion I0; subst.
    destruct (nth_error l k) as [a|] eqn:Ek; [|apply nth_error_None in Ek; lia]. exists a, [], k. auto.
  - right. destruct W as (ax & sizes & A & J). destruct (part_exists ax (map sh l) sizes (sh v) i J I) as (k & p & sk & Ek & P & _).
    destruct (nth_error l k) as [a|] eqn:Ea; [|apply nth_error_None in Ea; assert (k < length (map sh l)) by (apply nth_error_Some; congruence); rewrite map_length in *; lia].
    exists a, p, ax, sizes, k. auto.
  - right. destruct W as (V & Sh). destruct (source_exists o (sh b) (sh v) i V Sh I) as (p & P & _). exists b, p. split; [reflexivity|exact P].
  - destruct W as (Es & ax & n & A & En). destruct (nth_error i ax) as [[|k]|] eqn:Ei.
    + right. exists b, i. split; [reflexivity|]. split; [reflexivity|]. eauto.
    + left. exists (VCum axis b). split; [exact E|]. split; [exact I|]. intros a j (_ & _ & ax' & A' & Z). rewrite <- (axis_unique _ _ _ _ A A') in Z. congruence.
    + apply nth_error_None in Ei. rewrite (inside_len _ _ I) in Ei. assert (ax < length (sh v)) by (apply nth_error_Some; congruence). lia.
  - right. exists b, (nelt t i). split; reflexivity.
Qed.
(** where an element comes from *)
Lemma resolve : forall n w j, w < n -> w < length h -> inside (sh w) j -> exists u k, own h sh u k /\ ix w j = ix u k /\
  (In w req \/ hid w -> In u req \/ hid u) /\ ((u = w /\ k = j) \/ exists v nd i, nth_error h v = Some nd /\ inside (sh v) i /\ same_element sh (sh v) nd i u k).
Proof.
  induction n as [|n IH]; intros w j Ln L I; [lia|]. destruct (some_node w L) as (nd & E). destruct (element_cases w nd j E I) as [O|(a & p & S)].
  - exists w, j. split; [exact O|]. split; [reflexivity|]. split; [auto|left; auto].
  - destruct (same_inside w nd j a p E I S) as (V & Ia & Ip). pose proof (in_h w nd a E Ia) as [La _].
    destruct (IH a p ltac:(lia) ltac:(lia) Ip) as (u & k & O & Eu & P & Q). exists u, k. split; [exact O|]. split; [rewrite (vs_same _ _ _ _ _ _ SO w nd j a p E I S); exact Eu|]. split.
    + intros H. apply P. destruct (in_dec Nat.eq_dec a req) as [Ra|Ra]; [now left|]. right. destruct H as [H|H]; [exact (hd_req h req w nd a E V H Ia Ra)|exact (hd_part h req w nd a E V H Ia Ra)].
    + right. destruct Q as [[-> ->]|Q]; [|exact Q]. exists w, nd, j. auto.
Qed.
Lemma ix_range v i : v < length h -> inside (sh v) i -> ix v i < length g.
Proof.
  intros L I. destruct (resolve (S v) v i ltac:(lia) L I) as (u & k & (nd & E & Ik & N) & -> & _).
  destruct (vs_node _ _ _ _ _ _ SO u nd k E (ex_intro _ nd (conj E (conj Ik N)))) as (e & Ee & _). apply nth_error_Some. congruence.
Qed.
Lemma req_elements v i : In v req -> inside (sh v) i -> mem (ix v i) req' = true.
Proof. intros M I. apply mem_In. apply in_flat_map. exists v. split; [exact M|]. apply in_map. now apply positions_in. Qed.
Lemma own_not v i : own h sh v i -> ~ In v req -> ~ hid v -> mem (ix v i) req' = false.
Proof.
  intros O N H. apply mem_not. intros J. apply in_flat_map in J as (w & W & J). apply in_map_iff in J as (j & Ej & J). apply positions_in in J.
  destruct (RQ w W) as (Lw & _). destruct (resolve (S w) w j ltac:(lia) Lw J) as (u & k & Ou & Eu & P & _). destruct (vs_inj _ _ _ _ _ _ SO u v k i Ou O) as [-> _]; [congruence|].
  destruct (P (or_introl W)); auto.
Qed.
Lemma Dt : forall b d s ps i, nth_error h b = Some (VRv d s ps) -> inside (sh b) i -> sdt (ix b i) = ddt d.
Proof.
  intros b d s ps i E I. destruct (vs_node _ _ _ _ _ _ SO b _ i E (plain_own b _ i E (fun X => X) I)) as (e & Ee & l & -> & _). unfold rv_dtype. now rewrite Ee.
Qed.
Lemma args_eq (l : list nat) s i m : (forall a, In a l -> broadcasts (sh a) s) -> inside s i ->
  Forall2 (fun a n => exists j, aligned (sh a) i j /\ n = ix a j) l m -> m = map (fun a => ix a (align (sh a) i)) l.
Proof.
  intros B I F. induction F as [|a n l m (j & A & ->) F IH]; [reflexivity|]. cbn. rewrite IH by (intros; apply B; now right). f_equal. f_equal.
  exact (aligned_eq (sh a) s i j (B a (or_introl eq_refl)) I A).
Qed.
(** a node that is no view *)
Lemma node_rel go go' v nd : nth_error h v = Some nd -> ~ view nd ->
  (forall a, In a (vinputs nd) -> ar (go a) (sh a) (fun i => annotate sdt fs (go' (ix a i)))) ->
  (forall a, elementwise nd -> In a (vinputs nd) -> fits ddt h (v_m (go a)) (sh a) (sh v)) ->
  ar (v_node ddt afs h go v) (sh v) (fun i => annotate sdt fs (expand g go' (ix v i))).
Proof.
  intros E NV H FI. unfold v_node. rewrite E. pose proof (WS v nd E) as W.
  assert (ND : forall i, inside (sh v) i -> exists e, nth_error g (ix v i) = Some e /\ v_element afs fs sh ix v i nd e) by (intros i I; exact (vs_node _ _ _ _ _ _ SO v nd i E (plain_own v nd i E NV I))).
  assert (L : v < length h) by (apply nth_error_Some; congruence).
  destruct nd as [c|d s ps|u a|n l|a b|a b|k l|l|axis l|o b|axis b|xs t b]; try (exfalso; exact (NV Logic.I)); cbn [vinputs] in H, FI.
  - rewrite <- W. apply (arel_ext h sh ix _ _ (fun i => con (nelt c i))); [|apply con_rel]. intros i I. rewrite W in I.
    destruct (ND i I) as (e & Ee & ->). unfold expand. now rewrite Ee.
  - destruct W as [-> _]. split; [|split; [|split]].
    + intros R. discriminate.
    + cbn [v_val]. eexists. split; [reflexivity|]. split; [reflexivity|]. intros i I. destruct (ND i I) as (e & Ee & l & -> & _). unfold expand. now rewrite Ee.
    + intros i I. apply annotate_tame.
    + cbn [v_m]. intros X EX. injection EX as <-. exists (fun i => MBase (ix v i)). split; [exact (mr_base h sh ix v d (sh v) ps _ E (fun i _ => eq_refl))|].
      intros i I. destruct (ND i I) as (e & Ee & l & -> & _). unfold expand. now rewrite Ee.
  - pose proof (unary_rel ddt h sh g ix Dt u _ _ _ (H a (or_introl eq_refl))) as R. rewrite W in *. specialize (R (FI a Logic.I (or_introl eq_refl))). revert R. apply arel_ext. intros i I.
    destruct (ND i I) as (e & Ee & ->). unfold expand. now rewrite Ee.
  - set (T := map (fun a => (go a, (sh a, fun i => annotate sdt fs (go' (ix a i))))) l : list trip).
    assert (R : ar (v_rw_nary ddt h n (map tA T)) (sh v) (fun i => rw_nary sdt n (sub i T))).
    { apply nary_rel; [exact Dt| |unfold T; rewrite map_map; exact W]. unfold T. rewrite List.Forall_forall. intros t I. apply in_map_iff in I as (a & <- & I). split; [exact (H a I)|exact (FI a Logic.I I)]. }
    unfold T in R at 1. rewrite map_map in R. revert R. apply arel_ext. intros i I.
    destruct (ND i I) as (e & Ee & m & -> & F). unfold expand. rewrite Ee. cbn [annotate]. f_equal.
    rewrite (args_eq l (sh v) i m (fun a Ia => bc_sub (map sh l) (sh v) (sh a) W (in_map sh l a Ia)) I F).
    unfold sub, T. rewrite !map_map. reflexivity.
  - pose proof (sub_rel ddt h sh g ix Dt _ _ _ _ (sh v) _ _ (H a (or_introl eq_refl)) (H b (or_intror (or_introl eq_refl))) W (FI a Logic.I (or_introl eq_refl)) (FI b Logic.I (or_intror (or_introl eq_refl)))) as R. revert R. apply arel_ext. intros i I.
    destruct (ND i I) as (e & Ee & j & k & A & B & ->). unfold expand. rewrite Ee. cbn [annotate].
    rewrite (aligned_eq (sh a) (sh v) i j), (aligned_eq (sh b) (sh v) i k); auto; apply (bc_sub [sh a; sh b]); cbn; auto.
  - pose proof (div_rel ddt h sh g ix Dt _ _ _ _ (sh v) _ _ (H a (or_introl eq_refl)) (H b (or_intror (or_introl eq_refl))) W (FI a Logic.I (or_introl eq_refl)) (FI b Logic.I (or_intror (or_introl eq_refl)))) as R. revert R. apply arel_ext. intros i I.
    destruct (ND i I) as (e & Ee & j & k & A & B & ->). unfold expand. rewrite Ee. cbn [annotate].
    rewrite (aligned_eq (sh a) (sh v) i j), (aligned_eq (sh b) (sh v) i k); auto; apply (bc_sub [sh a; sh b]); cbn; auto.
  - assert (VL : exists V, map (fun a => v_val (go a)) l = map Val V /\ map nshp V = map sh l /\
      flat_map (fun a => map (nelt a) (positions (nshp a))) V = map a_val (map (annotate sdt fs) (map go' (flat_map (elements_of sh ix) l)))).
    { clear - H. induction l as [|a l IH]; [exists []; repeat split|]. destruct IH as (V & V1 & V2 & V3); [intros b I; apply H; now right|].
      destruct (H a (or_introl eq_refl)) as (_ & (r & Er & Es & El) & _). exists (r :: V). cbn [map flat_map]. rewrite Er, V1, V2, V3, Es. repeat split.
      rewrite !map_app. f_equal. unfold elements_of. rewrite !map_map. apply map_ext_in. intros i I. apply positions_in in I. now apply El. }
    destruct VL as (V & V1 & V2 & V3). split; [|split; [|split]].
    + cbn [v_rand]. intros R i I. destruct (ND i I) as (e & Ee & k' & -> & _). unfold expand. rewrite Ee. cbn [annotate a_rand]. clear - H R.
      induction l as [|a l IH]; [reflexivity|]. cbn [existsb] in R. apply orb_false_iff in R as [R1 R2]. cbn [flat_map]. rewrite !map_app, existsb_app. apply orb_false_iff. split.
      * destruct (H a (or_introl eq_refl)) as (Ra & _). unfold elements_of. rewrite !map_map. apply not_true_is_false. intros X. apply existsb_exists in X as (z & Z & X).
        apply in_map_iff in Z as (j & <- & J). apply positions_in in J. rewrite (Ra R1 j J) in X. discriminate.
      * apply IH; [intros b Ib; apply H; now right|exact R2].
    + cbn [v_val]. rewrite V1, rseq_val. cbn [rmap]. exists (afs k V). split; [reflexivity|]. split; [now apply W|].
      intros i I. destruct (ND i I) as (e & Ee & k' & -> & K). unfold expand. rewrite Ee. cbn [annotate a_val]. rewrite <- (K V V2). now rewrite V3.
    + intros i I. apply annotate_tame.
    + cbn [v_m]. intros X EX. discriminate.
Qed.
(** a stack, join or shuffle: expressions *)
Lemma view_mpart go (b : nat -> option mexpr) v nd : nth_error h v = Some nd -> view nd -> (forall axis a, nd <> VCum axis a) ->
  (forall a, In a (vinputs nd) -> v_m (go a) <> None -> mp (v_m (go a)) (sh a) (fun i => b (ix a i))) ->
  (forall a W, In a (vinputs nd) -> v_m (go a) = Some (WBase W) -> W = a /\ exists d s ps, nth_error h a = Some (VRv d s ps)) ->
  (forall a, In a (vinputs nd) -> v_shape (go a) = sh a) ->
  mp (v_m (v_node ddt afs h go v)) (sh v) (fun i => b (ix v i)).
Proof.
  intros E V NC H HB HS. pose proof (WS v nd E) as W. unfold v_node. rewrite E.
  destruct nd as [c|d s ps|u a|n l|a c|a c|k l|l|axis l|o a|axis a|xs t a]; try destruct V; cbn [vinputs v_m] in *; [| | |exfalso; exact (NC axis a eq_refl)|].
  - intros X EX. destruct (v_all (map go l)) as [ms|] eqn:EA; [|discriminate]. cbn in EX. injection EX as <-. destruct (v_all_nth go l ms EA) as [L P]. destruct W as (Nl & Es & W).
    assert (C : forall k, k < length ms -> exists m, forall a M, nth_error l k = Some a -> nth_error ms k = Some M -> mrel h sh ix M [] m /\ b (ix a []) = Some (m [])).
    { intros k Lk. destruct (nth_error ms k) as [M|] eqn:EM; [|apply nth_error_None in EM; lia]. destruct (P k M EM) as (a & Ea & Em). pose proof (nth_error_In _ _ Ea) as Ia.
      destruct (H a Ia ltac:(congruence) M Em) as (m & R & Q). exists m. intros a' M' Ea' EM'. injection EM' as <-. rewrite Ea in Ea'. injection Ea' as <-. rewrite (W a Ia) in R, Q. split; [exact R|]. apply Q. constructor. }
    apply (choose _ (fun _ => MBase 0)) in C as (mk & C).
    assert (C' : forall k a M, nth_error l k = Some a -> nth_error ms k = Some M -> mrel h sh ix M [] (mk k) /\ b (ix a []) = Some (mk k [])) by (intros k a M Ea EM; apply (C k); [apply nth_error_Some; congruence|exact Ea|exact EM]). clear C. rename C' into C.
    exists (fun i => mk (hd 0 i) []). rewrite Es. split.
    + rewrite <- L. apply (mr_vec h sh ix ms mk); [intros ->; destruct l; [easy|discriminate]| |reflexivity]. intros k M EM. destruct (P k M EM) as (a & Ea & _). exact (proj1 (C k a M Ea EM)).
    + intros i I. inversion I as [|k n i0 s0 Lk I0]; subst. inversion I0; subst. cbn [hd]. destruct (nth_error ms k) as [M|] eqn:EM; [|apply nth_error_None in EM; lia].
      destruct (P k M EM) as (a & Ea & _). rewrite <- Es in I. rewrite (vs_same _ _ _ _ _ _ SO v _ [k] a [] E I) by (cbn; eauto). exact (proj2 (C k a M Ea EM)).
  - intros X EX. destruct (v_all (map go l)) as [ms|] eqn:EA; [|discriminate]. cbn in EX. injection EX as <-. destruct (v_all_nth go l ms EA) as [L P]. destruct W as (ax & sizes & A & J).
    assert (ES : map (fun a => v_shape (go a)) l = map sh l) by (apply map_ext_in; exact HS). rewrite ES.
    assert (C : forall k, k < length ms -> exists m, forall a M, nth_error l k = Some a -> nth_error ms k = Some M -> mrel h sh ix M (sh a) m /\ forall p, inside (sh a) p -> b (ix a p) = Some (m p)).
    { intros k Lk. destruct (nth_error ms k) as [M|] eqn:EM; [|apply nth_error_None in EM; lia]. destruct (P k M EM) as (a & Ea & Em). pose proof (nth_error_In _ _ Ea) as Ia.
      destruct (H a Ia ltac:(congruence) M Em) as (m & R & Q). exists m. intros a' M' Ea' EM'. injection EM' as <-. rewrite Ea in Ea'. injection Ea' as <-. split; [exact R|exact Q]. }
    apply (choose _ (fun _ => MBase 0)) in C as (mk & C).
    assert (C' : forall k a M, nth_error l k = Some a -> nth_error ms k = Some M -> mrel h sh ix M (sh a) (mk k) /\ forall p, inside (sh a) p -> b (ix a p) = Some (mk k p)) by (intros k a M Ea EM; apply (C k); [apply nth_error_Some; congruence|exact Ea|exact EM]). clear C. rename C' into C.
    exists (fun i => let (k, p) := locate_at ax sizes i in mk k p).
    assert (D : forall i k p, inside (sh v) i -> part_at ax sizes i k p -> (let (k, p) := locate_at ax sizes i in mk k p) = mk k p).
    { intros i k p I Pk. pose proof (locate_part ax (map sh l) sizes (sh v) i J I) as Q. destruct (locate_at ax sizes i) as [k' p']. cbn [fst snd] in Q. destruct (part_unique _ _ _ _ _ _ _ Pk Q) as [-> ->]. reflexivity. }
    split.
    + apply (mr_join h sh ix axis ax ms (map sh l) sizes (sh v) mk _ J A); [now rewrite map_length| |intros i k p I _ Pk; now apply D].
      intros k M sk EM Ek. destruct (P k M EM) as (a & Ea & _). rewrite (map_nth_error sh _ _ Ea) in Ek. injection Ek as <-. exact (proj1 (C k a M Ea EM)).
    + intros i I. destruct (part_exists ax (map sh l) sizes (sh v) i J I) as (k & p & sk & Ek & Pk & Ip). rewrite (D i k p I Pk).
      destruct (nth_error l k) as [a|] eqn:Ea; [|apply nth_error_None in Ea; assert (k < length (map sh l)) by (apply nth_error_Some; congruence); rewrite map_length in *; lia].
      destruct (nth_error ms k) as [M|] eqn:EM; [|apply nth_error_None in EM; assert (k < length l) by (apply nth_error_Some; congruence); lia].
      rewrite (map_nth_error sh _ _ Ea) in Ek. injection Ek as <-. rewrite (vs_same _ _ _ _ _ _ SO v _ i a p E I) by (cbn; eauto 8). exact (proj2 (C k a M Ea EM) p Ip).
  - intros X EX. destruct (v_m (go a)) as [M|] eqn:EM; [|discriminate]. destruct (is_rv M) eqn:RM; [|discriminate]. injection EX as <-.
    destruct W as (Vo & Sh). rewrite (HS a (or_introl eq_refl)).
    destruct (H a (or_introl eq_refl) ltac:(congruence) _ EM) as (m & R & Q).
    exists (fun i => m (map (fun d => match axis_at d o with Some j => nth j i 0 | None => 0 end) (seq 0 (length (sh a))))).
    assert (SE : forall i p, inside (sh v) i -> source o (length (sh a)) i p -> map (fun d => match axis_at d o with Some j => nth j i 0 | None => 0 end) (seq 0 (length (sh a))) = p).
    { intros i p I Pp. apply (source_unique o (length (sh a)) i); [exact Vo| |exact Pp]. apply shuffle_source; [|exact Vo]. rewrite (inside_len _ _ I). apply Sh. }
    split.
    + apply (mr_shuf h sh ix o M (sh a) m (sh v)); auto. intros i p I Pp. now rewrite (SE i p I Pp).
    + intros i I. destruct (source_exists o (sh a) (sh v) i Vo Sh I) as (p & Pp & Ip). rewrite (SE i p I Pp). rewrite (vs_same _ _ _ _ _ _ SO v _ i a p E I) by (cbn; auto). now apply Q.
  - destruct W as (_ & St & W). intros X EX. destruct (v_m (go a)) as [[w|? ?|?|? ? ?|? ? ?|? ?|t' w]|] eqn:EM; try discriminate; injection EX as <-;
      destruct (H a (or_introl eq_refl) ltac:(congruence) _ EM) as (m & R & Q); exists (fun i => m (nelt t i)); rewrite <- St in W; (split; [|intros i I; rewrite (vs_same _ _ _ _ _ _ SO v _ i a (nelt t i) E I) by (cbn; auto); rewrite <- St in I; apply Q; exact (proj2 (W i I))]).
    + destruct (HB a w (or_introl eq_refl) EM) as (-> & d & s & ps & Ea). inversion R as [b0 d0 s0 ps0 m0 E0 Em| | | | |]; subst.
      rewrite <- St. apply (mr_take h sh ix t a d s ps); [exact Ea|]. intros i I. pose proof (proj2 (W i I)) as J. split; [exact J|]. now apply Em.
    + inversion R as [| | | | |t0 b0 d0 s0 ps0 m0 E0 Em]; subst. rewrite <- St. apply (mr_take h sh ix {| nshp := nshp t; nelt := fun i => nelt t' (nelt t i) |} w d0 s0 ps0); [exact E0|]. cbn [nshp nelt].
      intros i I. pose proof (proj2 (W i I)) as J. match goal with X : nshp t' = sh a |- _ => rewrite <- X in J | X : sh a = nshp t' |- _ => rewrite X in J end. exact (Em _ J).
Qed.
(** ** values and shapes *)
Definition valok (r : res (nd xr)) (s : list nat) : Prop := exists arr, r = Val arr /\ nshp arr = s.
Lemma nary_ok n rs ss s : Forall2 valok rs ss -> is_broadcast ss s -> valok (g_nary n rs) s.
Proof.
  intros F B. assert (X : exists V, rs = map Val V /\ map nshp V = ss).
  { clear B. induction F as [|r s0 rs ss (a & -> & <-) F (V & -> & <-)]; [exists []; split; reflexivity|]. exists (a :: V). split; reflexivity. }
  destruct X as (V & -> & <-). unfold g_nary. rewrite rseq_val. cbn [bind]. rewrite (elemwise_at _ V s) by now apply bcast_all_spec. eexists. split; reflexivity.
Qed.
Lemma vals_view go (val : nat -> xr) (l : list nat) : (forall a, In a l -> vrel (v_val (go a)) (sh a) (fun i => val (ix a i))) ->
  exists V, map (fun a => v_val (go a)) l = map Val V /\ map nshp V = map sh l /\
    forall k a arr, nth_error l k = Some a -> nth_error V k = Some arr -> forall p, inside (sh a) p -> nelt arr p = val (ix a p).
Proof.
  induction l as [|a l IH]; intros H; [exists []; repeat split; intros [|k] a arr E; discriminate|]. destruct IH as (V & V1 & V2 & V3); [intros b I; apply H; now right|].
  destruct (H a (or_introl eq_refl)) as (r & Er & Es & El). exists (r :: V). cbn [map]. rewrite Er, V1, V2, Es. split; [reflexivity|]. split; [reflexivity|].
  intros [|k] b arr Eb Ea; cbn in *; [injection Eb as <-; injection Ea as <-; exact El|exact (V3 k b arr Eb Ea)].
Qed.
Lemma view_vrel go (val : nat -> xr) v nd : nth_error h v = Some nd -> view nd -> (forall axis a, nd <> VCum axis a) ->
  (forall a, In a (vinputs nd) -> vrel (v_val (go a)) (sh a) (fun i => val (ix a i))) ->
  vrel (v_val (v_node ddt afs h go v)) (sh v) (fun i => val (ix v i)).
Proof.
  intros E V NC H. pose proof (WS v nd E) as W. unfold v_node. rewrite E.
  destruct nd as [c|d s ps|u a|n l|a c|a c|k l|l|axis l|o a|axis a|xs t a]; try destruct V; cbn [vinputs v_val] in *; [| | |exfalso; exact (NC axis a eq_refl)|].
  - destruct (vals_view go val l H) as (V & V1 & V2 & V3). destruct W as (Nl & Es & W). rewrite V1, rseq_val. cbn [bind].
    assert (LV : length V = length l) by (rewrite <- (map_length nshp), V2, map_length; reflexivity).
    destruct (stack_ok V [] NaN) as (r & Er & Ers & El).
    { intros ->. destruct l; [easy|discriminate]. }
    { intros a I. assert (J : In (nshp a) (map sh l)) by (rewrite <- V2; now apply in_map). apply in_map_iff in J as (b & Eb & J). rewrite <- Eb. now apply W. }
    exists r. split; [exact Er|]. split; [rewrite Ers, Es, LV; reflexivity|]. intros i I. rewrite Es in I. inversion I as [|k n i0 s0 Lk I0]; subst. inversion I0; subst.
    destruct (nth_error V k) as [arr|] eqn:Ea; [|apply nth_error_None in Ea; lia]. destruct (nth_error l k) as [a|] eqn:Ek; [|apply nth_error_None in Ek; lia].
    rewrite (El k [] arr Ea). rewrite <- Es in I. rewrite (vs_same _ _ _ _ _ _ SO v _ [k] a [] E I) by (cbn; eauto). apply (V3 k a arr Ek Ea). rewrite (W a (nth_error_In _ _ Ek)). constructor.
  - destruct (vals_view go val l H) as (V & V1 & V2 & V3). destruct W as (ax & sizes & A & J). rewrite V1, rseq_val. cbn [bind].
    rewrite <- V2 in J. destruct (concat_ok axis ax V sizes (sh v) NaN J A) as (r & Er & Ers & El). exists r. split; [exact Er|]. split; [exact Ers|]. intros i I. rewrite V2 in J.
    destruct (part_exists ax (map sh l) sizes (sh v) i J I) as (k & p & sk & Ek & Pk & Ip).
    assert (LV : length V = length l) by (rewrite <- (map_length nshp), V2, map_length; reflexivity).
    destruct (nth_error l k) as [a|] eqn:Ea; [|apply nth_error_None in Ea; assert (k < length (map sh l)) by (apply nth_error_Some; congruence); rewrite map_length in *; lia].
    destruct (nth_error V k) as [arr|] eqn:EV; [|apply nth_error_None in EV; assert (k < length l) by (apply nth_error_Some; congruence); lia].
    rewrite (El k i p arr EV Pk). rewrite (map_nth_error sh _ _ Ea) in Ek. injection Ek as <-. rewrite (vs_same _ _ _ _ _ _ SO v _ i a p E I) by (cbn; eauto 8). exact (V3 k a arr Ea EV p Ip).
  - destruct W as (Vo & Sh). destruct (H a (or_introl eq_refl)) as (x & Ex & Es & El). rewrite Ex. cbn [rmap]. exists (dimshuffle o x). split; [reflexivity|].
    assert (IS : is_shuffle o x (dimshuffle o x)) by (apply dimshuffle_is_shuffle; rewrite Es; [exact Vo|apply Sh]). destruct IS as [S1 S2]. rewrite Es in S1, S2.
    assert (ES : nshp (dimshuffle o x) = sh v) by exact (shuffled_unique o (sh a) _ _ S1 Sh). split; [exact ES|]. intros i I.
    destruct (source_exists o (sh a) (sh v) i Vo Sh I) as (p & Pp & Ip). rewrite (vs_same _ _ _ _ _ _ SO v _ i a p E I) by (cbn; auto). rewrite (S2 i p); [now apply El|now rewrite ES|exact Pp].
  - destruct W as (_ & St & W). destruct (H a (or_introl eq_refl)) as (x & Ex & Es & El). rewrite Ex. cbn [rmap]. eexists. split; [reflexivity|]. split; [exact St|]. intros i I. cbn [nelt].
    rewrite (vs_same _ _ _ _ _ _ SO v _ i a (nelt t i) E I) by (cbn; auto). apply El. exact (proj2 (W i I)).
Qed.
Lemma vals_ok go (l : list nat) : (forall a, In a l -> valok (v_val (go a)) (sh a)) -> Forall2 valok (map (fun a => v_val (go a)) l) (map sh l).
Proof. induction l as [|a l IH]; intros H; [constructor|]. constructor; [apply H; now left|apply IH; intros b I; apply H; now right]. Qed.
Lemma vals_arr go (l : list nat) : (forall a, In a l -> valok (v_val (go a)) (sh a)) -> exists V, map (fun a => v_val (go a)) l = map Val V /\ map nshp V = map sh l.
Proof.
  induction l as [|a l IH]; intros H; [exists []; split; reflexivity|]. destruct IH as (V & V1 & V2); [intros b I; apply H; now right|].
  destruct (H a (or_introl eq_refl)) as (r & Er & Es). exists (r :: V). cbn [map]. rewrite Er, V1, V2, Es. split; reflexivity.
Qed.
Lemma shape_node go v nd : nth_error h v = Some nd -> (forall a, In a (vinputs nd) -> valok (v_val (go a)) (sh a)) -> valok (v_val (v_node ddt afs h go v)) (sh v).
Proof.
  intros E H. pose proof (WS v nd E) as W. unfold v_node. rewrite E.
  destruct nd as [c|d s ps|u a|n l|a c|a c|k l|l|axis l|o a|axis a|xs t a]; cbn [vinputs] in H.
  - exists c. split; [reflexivity|exact W].
  - destruct W as [-> _]. eexists. split; reflexivity.
  - destruct (H a (or_introl eq_refl)) as (r & Er & Es). cbn [v_rw_unary v_val]. rewrite Er. eexists. split; [reflexivity|]. cbn. now rewrite W.
  - cbn [v_rw_nary v_val]. rewrite map_map. exact (nary_ok n _ _ _ (vals_ok go l H) W).
  - cbn [v_rw_sub v_rw_nary v_val map v_con]. apply (nary_ok NAdd _ [sh a; sh c]); [|exact W]. constructor; [apply H; now left|]. constructor; [|constructor].
    apply (nary_ok NMul _ [[]; sh c]); [|apply broadcasts_nil]. constructor; [eexists; split; reflexivity|]. constructor; [apply H; cbn; auto|constructor].
  - cbn [v_rw_div v_rw_nary v_val map v_rw_unary]. apply (nary_ok NMul _ [sh a; sh c]); [|exact W]. constructor; [apply H; now left|]. constructor; [|constructor].
    destruct (H c (or_intror (or_introl eq_refl))) as (r & Er & Es). rewrite Er. eexists. split; [reflexivity|]. exact Es.
  - destruct (vals_arr go l H) as (V & V1 & V2). cbn [v_val]. rewrite V1, rseq_val. eexists. split; [reflexivity|]. now apply W.
  - destruct (vals_arr go l H) as (V & V1 & V2). cbn [v_val]. rewrite V1, rseq_val. cbn [bind]. destruct W as (Nl & Es & W).
    assert (LV : length V = length l) by (rewrite <- (map_length nshp), V2, map_length; reflexivity).
    destruct (stack_ok V [] NaN) as (r & Er & Ers & El).
    { intros ->. destruct l; [easy|discriminate]. }
    { intros a I. assert (J : In (nshp a) (map sh l)) by (rewrite <- V2; now apply in_map). apply in_map_iff in J as (b & Eb & J). rewrite <- Eb. now apply W. }
    exists r. split; [exact Er|]. now rewrite Ers, Es, LV.
  - destruct (vals_arr go l H) as (V & V1 & V2). cbn [v_val]. rewrite V1, rseq_val. cbn [bind]. destruct W as (ax & sizes & A & J). rewrite <- V2 in J.
    destruct (concat_ok axis ax V sizes (sh v) NaN J A) as (r & Er & Ers & _). exists r. split; [exact Er|exact Ers].
  - destruct (H a (or_introl eq_refl)) as (x & Ex & Es). cbn [v_val]. rewrite Ex. eexists. split; [reflexivity|]. destruct W as (Vo & Sh).
    assert (IS : is_shuffle o x (dimshuffle o x)) by (apply dimshuffle_is_shuffle; rewrite Es; [exact Vo|apply Sh]). destruct IS as [S1 _]. rewrite Es in S1. exact (shuffled_unique o (sh a) _ _ S1 Sh).
  - destruct (H a (or_introl eq_refl)) as (x & Ex & Es). cbn [v_val]. rewrite Ex. cbn [bind]. destruct W as (Ev & ax & n & A & En). unfold cumulate. rewrite Es, <- Ev.
    rewrite (proj2 (norm_axis_spec _ _ _) A). eexists. split; reflexivity.
  - destruct (H a (or_introl eq_refl)) as (x & Ex & Es). cbn [v_val]. rewrite Ex. eexists. split; [reflexivity|]. exact (proj1 (proj2 W)).
Qed.
Lemma shape_unf : forall F v, v < F -> v < length h -> valok (v_val (vunf F v)) (sh v).
Proof.
  induction F as [|F IH]; intros v LF L; [lia|]. cbn [v_unfold]. destruct (mem v req) eqn:M.
  - destruct (RQ v (proj1 (mem_In v req) M)) as (_ & Es & _). exists (y v). split; [reflexivity|exact Es].
  - destruct (some_node v L) as (nd & E). apply (shape_node _ v nd E). intros a I. pose proof (in_h v nd a E I). apply IH; lia.
Qed.
Lemma v_shape_unf F v : v < F -> v < length h -> v_shape (vunf F v) = sh v.
Proof. intros LF L. destruct (shape_unf F v LF L) as (r & Er & Es). unfold v_shape. now rewrite Er. Qed.

(** ** where measurable expressions come from *)
Lemma construct_elem l mk W : v_construct ddt h l mk = Some W -> exists t m, W = WElem t m.
Proof. unfold v_construct. destruct (v_measurable l) as [|m [|? ?]]; try discriminate. destruct (v_starts_int ddt h m); [discriminate|]. destruct (existsb v_rand (v_others l)); [discriminate|]. destruct (mk (map v_val (v_others l))); [|discriminate]. intros E. injection E as <-. eauto. Qed.
Lemma node_base go v b : v_m (v_node ddt afs h go v) = Some (WBase b) -> b = v /\ exists d s ps, nth_error h v = Some (VRv d s ps).
Proof.
  unfold v_node. destruct (nth_error h v) as [nd|] eqn:E; [|discriminate].
  destruct nd as [c|d s ps|u a|n l|a c|a c|k l|l|axis l|o a|axis a|xs t a]; cbn [v_m v_con v_rw_unary v_rw_nary v_rw_sub v_rw_div]; intros X; try discriminate;
    try (apply construct_elem in X as (t & m & X); discriminate).
  - injection X as <-. eauto 6.
  - destruct (v_all (map go l)); discriminate.
  - destruct (v_all (map go l)); discriminate.
  - destruct (v_m (go a)) as [[]|]; discriminate.
  - destruct (v_m (go a)); discriminate.
  - destruct (v_m (go a)) as [[]|]; discriminate.
Qed.
Lemma unf_base F v b : v_m (vunf F v) = Some (WBase b) -> b = v /\ exists d s ps, nth_error h v = Some (VRv d s ps).
Proof. destruct F as [|F]; cbn [v_unfold]; [discriminate|]. destruct (mem v req); [discriminate|]. apply node_base. Qed.
Lemma plain_inputs v nd a : nth_error h v = Some nd -> ~ view nd -> In a (vinputs nd) -> ~ hid a.
Proof. intros E N I H. exact (N (proj1 (ti_used _ _ _ _ TI a v nd H E I))). Qed.
Lemma view_inputs v nd a : nth_error h v = Some nd -> ~ In v req -> ~ hid v -> In a (vinputs nd) -> ~ hid a.
Proof. intros E R N I H. destruct (proj2 (ti_used _ _ _ _ TI a v nd H E I)); auto. Qed.
(** expressions that are no random variable *)
Lemma node_ints go v nd M : nth_error h v = Some nd -> ~ view nd -> (forall d s ps, nth_error h v = Some (VRv d s ps) -> ddt d <> DInt) -> v_m (v_node ddt afs h go v) = Some M -> ints ddt h M = false.
Proof.
  intros E N D. unfold v_node. rewrite E.
  destruct nd as [c|d s ps|u a|n l|a c|a c|k l|l|axis l|o a|axis a|xs t a]; cbn [v_m v_con v_rw_unary v_rw_nary v_rw_sub v_rw_div]; intros X; try discriminate; try (exfalso; exact (N Logic.I));
    try exact (proj1 (construct_view _ _ _ _ _ X)).
  injection X as <-. cbn. unfold v_dtype. rewrite E. specialize (D d s ps E). now destruct (ddt d).
Qed.
Lemma unf_view : forall F v M, v_m (vunf F v) = Some M -> has_view M = true -> above h req v /\ (~ hid v -> ints ddt h M = false).
Proof.
  induction F as [|F IH]; intros v M; cbn [v_unfold]; [discriminate|]. destruct (mem v req) eqn:R; [discriminate|]. apply mem_not in R.
  unfold v_node. destruct (nth_error h v) as [nd|] eqn:E; [|discriminate].
  assert (EL : forall a M', elementwise nd -> In a (vinputs nd) -> v_m (vunf F a) = Some M' -> has_view M' = true -> above h req v).
  { intros a M' EN I EM HV. apply (ab_elem h req v nd a E EN R I). exact (proj1 (IH a M' EM HV)). }
  assert (PI : view nd -> (forall axis a, nd <> VCum axis a) -> forall a M', ~ hid v -> In a (vinputs nd) -> v_m (vunf F a) = Some M' -> ints ddt h M' = false).
  { intros V NC a M' NH I EM. pose proof (view_inputs v nd a E R NH I) as Na. destruct (has_view M') eqn:HV; [exact (proj2 (IH a M' EM HV) Na)|].
    destruct M' as [b|t m| | | | |]; try discriminate; [|reflexivity]. destruct (unf_base F a b EM) as (-> & d & s & ps & Ea). cbn. unfold v_dtype. rewrite Ea.
    pose proof (ti_int _ _ _ _ TI v nd a d s ps E V R NH I Ea). now destruct (ddt d). }
  destruct nd as [c|d s ps|u a|n l|a c|a c|k l|l|axis l|o a|axis a|xs t a]; cbn [v_m v_con v_rw_unary v_rw_nary v_rw_sub v_rw_div vinputs] in *; intros X HV; try discriminate.
  - injection X as <-. discriminate.
  - destruct (construct_view _ _ _ _ _ X) as (IW & x & M' & [<-|[]] & EM & HV'). split; [|auto]. apply (EL a M' Logic.I); [now left|exact EM|congruence].
  - destruct (construct_view _ _ _ _ _ X) as (IW & x & M' & I & EM & HV'). split; [|auto]. apply in_map_iff in I as (a & <- & I). apply (EL a M' Logic.I); [exact I|exact EM|congruence].
  - destruct (construct_view _ _ _ _ _ X) as (IW & x & M' & [<-|[<-|[]]] & EM & HV'); (split; [|auto]).
    + apply (EL a M' Logic.I); [now left|exact EM|congruence].
    + cbn [v_rw_nary v_m] in EM. destruct (construct_view _ _ _ _ _ EM) as (_ & x & M'' & [<-|[<-|[]]] & EM' & HV''); [discriminate|]. apply (EL c M'' Logic.I); [cbn; auto|exact EM'|congruence].
  - destruct (construct_view _ _ _ _ _ X) as (IW & x & M' & [<-|[<-|[]]] & EM & HV'); (split; [|auto]).
    + apply (EL a M' Logic.I); [now left|exact EM|congruence].
    + cbn [v_rw_unary v_m] in EM. destruct (construct_view _ _ _ _ _ EM) as (_ & x & M'' & [<-|[]] & EM' & HV''). apply (EL c M'' Logic.I); [cbn; auto|exact EM'|congruence].
  - split; [exact (ab_view h req v _ E Logic.I R)|]. intros NH. destruct (v_all (map (vunf F) l)) as [ms|] eqn:EA; [|discriminate]. injection X as <-. cbn.
    apply not_true_is_false. intros Y. apply existsb_exists in Y as (W & IW & Y). apply In_nth_error in IW as (k & EW). destruct (proj2 (v_all_nth _ _ _ EA) k W EW) as (a & Ea & Em).
    rewrite (PI Logic.I) with (a := a) in Y; [discriminate|discriminate|exact NH|eapply nth_error_In; eauto|exact Em].
  - split; [exact (ab_view h req v _ E Logic.I R)|]. intros NH. destruct (v_all (map (vunf F) l)) as [ms|] eqn:EA; [|discriminate]. injection X as <-. cbn.
    apply not_true_is_false. intros Y. apply existsb_exists in Y as (W & IW & Y). apply In_nth_error in IW as (k & EW). destruct (proj2 (v_all_nth _ _ _ EA) k W EW) as (a & Ea & Em).
    rewrite (PI Logic.I) with (a := a) in Y; [discriminate|discriminate|exact NH|eapply nth_error_In; eauto|exact Em].
  - split; [exact (ab_view h req v _ E Logic.I R)|]. intros NH. destruct (v_m (vunf F a)) as [W|] eqn:EM; [|discriminate]. destruct (is_rv W) eqn:RM; [|discriminate]. injection X as <-.
    pose proof (PI Logic.I ltac:(discriminate) a _ NH (or_introl eq_refl) EM) as Y. exact Y.
  - exfalso. exact (R (proj1 (ti_cum _ _ _ _ TI v axis a E))).
  - split; [exact (ab_view h req v _ E Logic.I R)|]. intros NH. destruct (v_m (vunf F a)) as [[b| | | | | |]|] eqn:EM; try discriminate; injection X as <-;
    pose proof (PI Logic.I ltac:(discriminate) a _ NH (or_introl eq_refl) EM) as Y; exact Y.
Qed.
Lemma unf_fits F v nd a : nth_error h v = Some nd -> elementwise nd -> In a (vinputs nd) -> fits ddt h (v_m (vunf F a)) (sh a) (sh v).
Proof.
  intros E EN I W EW HV. destruct (unf_view F a W EW HV) as [A B]. split; [symmetry; exact (ti_flat _ _ _ _ TI v nd a E EN I A)|]. apply B. apply (plain_inputs v nd a E); [|exact I]. destruct nd; cbn in *; tauto.
Qed.
(** ** the graphs *)
Lemma fuel_enough' : forall f1 f2 v, v < f1 -> v < f2 -> v < length g -> unfold g req' y' f1 v = unfold g req' y' f2 v.
Proof.
  induction f1 as [|f1 IH]; intros f2 v L1 L2 LN; [lia|]. destruct f2 as [|f2]; [lia|]. cbn [unfold]. destruct (mem v req'); [reflexivity|].
  unfold expand. destruct (nth_error g v) as [nd|] eqn:E; [|reflexivity].
  assert (G : forall a, In a (node_inputs nd) -> unfold g req' y' f1 a = unfold g req' y' f2 a). { intros a I. pose proof (in_range g AC v nd a E I). apply IH; lia. }
  destruct nd; cbn [node_inputs] in G; try reflexivity; f_equal; try (apply map_ext_in; exact G); apply G; cbn; auto.
Qed.
Lemma unf_step x : x < length g -> unf x = if mem x req' then NCon (y' x) else expand g unf x.
Proof. intros L. rewrite (fuel_enough' (length g) (S (length g)) x) by lia. reflexivity. Qed.
Lemma unfold_rel : forall F v, v < F -> v < length h -> ~ hid v -> ar (vunf F v) (sh v) (fun i => annotate sdt fs (unf (ix v i))).
Proof.
  induction F as [|F IH]; intros v LF L NH; [lia|]. cbn [v_unfold]. destruct (mem v req) eqn:M.
  - pose proof (proj1 (mem_In v req) M) as I. destruct (RQ v I) as (_ & Es & Ey). rewrite <- Es.
    apply (arel_ext h sh ix _ _ (fun i => con (nelt (y v) i))); [|apply con_rel]. intros i J. rewrite Es in J.
    rewrite unf_step by now apply ix_range. rewrite req_elements by auto. cbn [annotate]. now rewrite Ey.
  - apply mem_not in M. destruct (some_node v L) as (nd & E).
    assert (IN : forall a, In a (vinputs nd) -> ar (vunf F a) (sh a) (fun i => annotate sdt fs (unf (ix a i)))).
    { intros a I. pose proof (in_h v nd a E I). apply IH; [lia|lia|]. exact (view_inputs v nd a E M NH I). }
    assert (NC : forall axis a, nd <> VCum axis a) by (intros axis a ->; exact (M (proj1 (ti_cum _ _ _ _ TI v axis a E)))).
    assert (D : view nd \/ ~ view nd) by (destruct nd; cbn; tauto). destruct D as [V|V].
    + split; [|split; [|split]].
      * intros R i I. destruct (element_cases v nd i E I) as [O|(a & j & S)].
        { exfalso. destruct O as (nd' & E' & _ & N). rewrite E in E'. injection E' as <-. clear - V N NC WS E I. pose proof (WS v nd E) as W.
          destruct nd as [c|d s ps|u a|n l|a c|a c|k l|l|axis l|o a|axis a|xs t a]; try destruct V.
          - destruct W as (_ & Es & W). rewrite Es in I. inversion I as [|k n i0 s0 Lk I0]; subst. inversion I0; subst. destruct (nth_error l k) as [a|] eqn:Ek; [|apply nth_error_None in Ek; lia]. apply (N a []). exists k. auto.
          - destruct W as (ax & sizes & A & J). destruct (part_exists ax (map sh l) sizes (sh v) i J I) as (k & p & sk & Ek & P & _).
            destruct (nth_error l k) as [a|] eqn:Ea; [|apply nth_error_None in Ea; assert (k < length (map sh l)) by (apply nth_error_Some; congruence); rewrite map_length in *; lia].
            apply (N a p). exists ax, sizes, k. auto.
          - destruct W as (Vo & Sh). destruct (source_exists o (sh a) (sh v) i Vo Sh I) as (p & P & _). apply (N a p). split; [reflexivity|exact P].
          - exact (NC axis a eq_refl).
          - apply (N a (nelt t i)). split; reflexivity. }
        destruct (same_inside v nd i a j E I S) as (_ & Ia & Ij). rewrite (vs_same _ _ _ _ _ _ SO v nd i a j E I S). destruct (IN a Ia) as (Ra & _). apply Ra; [|exact Ij].
        revert R Ia. unfold v_node. rewrite E. destruct nd; try destruct V; cbn [v_rand vinputs]; intros R Ia.
        { apply not_true_is_false. intros X. apply not_true_iff_false in R. apply R. apply existsb_exists. eauto. }
        { apply not_true_is_false. intros X. apply not_true_iff_false in R. apply R. apply existsb_exists. eauto. }
        { destruct Ia as [<-|[]]. exact R. }
        { destruct Ia as [<-|[]]. exact R. }
        { destruct Ia as [<-|[]]. exact R. }
      * apply (view_vrel (vunf F) (fun n => a_val (annotate sdt fs (unf n))) v nd E V NC). intros a I. exact (proj1 (proj2 (IN a I))).
      * intros i I. apply annotate_tame.
      * apply (view_mpart (vunf F) (fun n => a_m (annotate sdt fs (unf n))) v nd E V NC).
        { intros a I _. exact (proj2 (proj2 (proj2 (IN a I)))). }
        { intros a W I EM. exact (unf_base F a W EM). }
        { intros a I. pose proof (in_h v nd a E I). apply v_shape_unf; lia. }
    + apply (arel_ext h sh ix _ _ (fun i => annotate sdt fs (expand g unf (ix v i)))).
      * intros i I. rewrite (unf_step (ix v i)) by now apply ix_range. now rewrite (own_not v i (plain_own v nd i E V I) M NH).
      * apply (node_rel _ _ v nd E V); [exact IN|]. intros a EN I. exact (unf_fits F v nd a E EN I).
Qed.
Lemma top_rel : forall F v nd, v <= F -> nth_error h v = Some nd -> In v req \/ hid v -> (forall axis a, nd <> VCum axis a) ->
  mp (v_m (v_node ddt afs h (vunf F) v)) (sh v) (fun i => a_m (annotate sdt fs (top g req' y' (ix v i)))).
Proof.
  induction F as [|F IH]; intros v nd LF E RH NC; assert (D : view nd \/ ~ view nd) by (destruct nd; cbn; tauto); destruct D as [V|V].
  - apply (view_mpart (vunf 0) (fun n => a_m (annotate sdt fs (top g req' y' n))) v nd E V NC); intros a; intros; pose proof (in_h v nd a E ltac:(eassumption)); lia.
  - apply (node_rel (vunf 0) unf v nd E V); intros a; intros; pose proof (in_h v nd a E ltac:(eassumption)); lia.
  - apply (view_mpart (vunf (S F)) (fun n => a_m (annotate sdt fs (top g req' y' n))) v nd E V NC).
    + intros a I NN. pose proof (in_h v nd a E I) as [La Lh]. cbn [v_unfold] in NN |- *. destruct (mem a req) eqn:R; [exfalso; now apply NN|]. apply mem_not in R.
      destruct (some_node a ltac:(lia)) as (nd' & E'). apply (IH a nd' ltac:(lia) E').
      * right. destruct RH as [RH|RH]; [exact (hd_req h req v nd a E V RH I R)|exact (hd_part h req v nd a E V RH I R)].
      * intros axis b ->. exact (R (proj1 (ti_cum _ _ _ _ TI a axis b E'))).
    + intros a W I EM. exact (unf_base (S F) a W EM).
    + intros a I. pose proof (in_h v nd a E I). apply v_shape_unf; lia.
  - apply (node_rel (vunf (S F)) unf v nd E V).
    + intros a I. pose proof (in_h v nd a E I). apply unfold_rel; [lia|lia|]. exact (plain_inputs v nd a E V I).
    + intros a EN I. exact (unf_fits (S F) v nd a E EN I).
Qed.
(** ** log-probabilities *)
Notation rvlp := (rv_logprob ddt fs dlp g req' y').
Notation vlp := (v_logprob ddt afs dlp h req y).
Fixpoint vec_logps (value : nd xr) (k : nat) (ms : list vexpr) : list (res (nd (res xr))) :=
  match ms with [] => [] | m :: ms => bind (item value k) (vlp m) :: vec_logps value (S k) ms end.
Fixpoint join_logps (ax : nat) (value : nd xr) (off : nat) (ms : list vexpr) (sizes : list nat) : list (res (nd (res xr))) :=
  match ms, sizes with m :: ms, n :: sizes => vlp m (part ax off n value) :: join_logps ax value (off + n) ms sizes | _, _ => [] end.
Lemma vlp_vec ms value : vlp (WVec ms) value = bind (rseq (vec_logps value 0 ms)) (fun logps => stack logps (Val NaN)).
Proof.
  cbn [v_logprob]. f_equal. f_equal. generalize 0. induction ms as [|m ms IH]; intros k; [reflexivity|]. cbn. f_equal. apply IH.
Qed.
Lemma vlp_join axis ms shs value : vlp (WJoin axis ms shs) value =
  match norm_axis (length (nshp value)) axis with
  | None => Raise
  | Some ax =>
      let sizes := map (fun s => nth ax s 0) shs in
      if list_sum sizes =? nth ax (nshp value) 0 then
        bind (rseq (join_logps ax value 0 ms sizes))
          (fun logps => match logps with
             | [] => Raise
             | l0 :: _ => if forallb (fun l => length (nshp l) =? length (nshp l0)) logps
                          then concatenate (axis - (Z.of_nat (length (nshp value)) - Z.of_nat (length (nshp l0)))) (map atleast_1d logps) (Val NaN) else Raise
             end)
      else Raise
  end.
Proof.
  cbn [v_logprob]. destruct (norm_axis (length (nshp value)) axis) as [ax|]; [|reflexivity]. cbn zeta. destruct (list_sum _ =? _); [|reflexivity]. f_equal. f_equal.
  generalize 0 at 1 3. generalize (map (fun s => nth ax s 0) shs). induction ms as [|m ms IH]; intros [|n sizes] off; try reflexivity. cbn. f_equal. apply IH.
Qed.
Lemma params_rel b d s0 ps s : nth_error h b = Some (VRv d s0 ps) -> broadcasts (sh b) s ->
  exists P, map (fun p => v_val (vunf (length h) p)) ps = map Val P /\ map nshp P = map sh ps /\
    forall i, inside s i -> map (fun p => nelt p (align (nshp p) i)) P = map (fun p => a_val (annotate sdt fs (unf (ix p (align (sh p) i))))) ps.
Proof.
  intros E B. destruct (WS b _ E) as [-> BP].
  assert (HL : forall p, In p ps -> p < length h /\ ~ hid p) by (intros a I; pose proof (in_h b _ a E I); split; [lia|exact (plain_inputs b _ a E (fun X => X) I)]). clear E. induction ps as [|p ps IH]; [exists []; repeat split|].
  destruct IH as (P & P1 & P2 & P3); [intros q I; apply BP; now right|intros q I; apply HL; now right|].
  destruct (HL p (or_introl eq_refl)) as [Lp Np]. destruct (unfold_rel (length h) p Lp Lp Np) as (_ & (r & Er & Ers & El) & _).
  exists (r :: P). cbn [map]. rewrite Er, P1, P2, Ers. repeat split. intros i I. rewrite P3 by exact I. f_equal. apply El.
  apply (align_inside (sh p) s i); [|exact I]. exact (bc_trans _ _ _ (BP p (or_introl eq_refl)) B).
Qed.
Lemma base_rel b d s0 ps value s : nth_error h b = Some (VRv d s0 ps) -> nshp value = s -> broadcasts (sh b) s ->
  exists r, v_rv_logprob ddt afs dlp h req y b value = Val r /\ nshp r = s /\ forall i, inside s i -> nelt r i = rvlp (ix b (align (sh b) i)) (nelt value i).
Proof.
  intros E Es B. destruct (WS b _ E) as [-> BP]. unfold v_rv_logprob. rewrite E.
  pose proof (params_rel b d _ ps s E B) as VP.
  destruct VP as (P & P1 & P2 & P3). rewrite P1, rseq_val. cbn [bind]. rewrite P2, Es.
  assert (BA : bcast_all (map sh ps ++ [s]) = Val s).
  { apply bcast_all_spec, bc_all. intros a I. apply in_map_iff in I as (p & <- & I). exact (bc_trans _ _ _ (BP p I) B). }
  rewrite BA. cbn [bind]. eexists. split; [reflexivity|]. split; [reflexivity|]. intros i I. cbn [nelt]. rewrite P3 by exact I.
  rewrite (align_self s i I). pose proof (align_inside _ _ _ B I) as I'. destruct (vs_node _ _ _ _ _ _ SO b _ _ E (plain_own b _ _ E (fun X => X) I')) as (e & Ee & l & -> & F).
  unfold rv_logprob. rewrite Ee. f_equal. rewrite (args_eq ps (sh b) (align (sh b) i) l BP I' F). rewrite map_map. apply map_ext_in. intros p Ip.
  now rewrite (align_align (sh p) (sh b) s i (BP p Ip) B (inside_length _ _ I)).
Qed.
Lemma logprob_rel M s' m : mrel h sh ix M s' m -> forall value s, nshp value = s -> broadcasts s' s -> (has_view M = true -> s' = s) ->
  exists r, vlp M value = Val r /\ nshp r = s /\ forall i, inside s i -> nelt r i = nested_logprob rvlp (m (align s' i)) (nelt value i).
Proof.
  induction 1 as [b d s0 ps m E Em|t M s'' s' m' m f R IH B V Tr Em|ms mk m NE H IH Em|axis ax ms shs sizes s' mk m J A L H IH Em|o M s1 m1 s' m RV H IH V Sh Em|t b d s0 ps m E Em]; intros value s Es Bs Vs.
  - destruct (base_rel b d s0 ps value s E Es Bs) as (r & Er & Ers & El). exists r. split; [exact Er|]. split; [exact Ers|].
    intros i I. rewrite Em by exact (align_inside _ _ _ Bs I). now apply El.
  - assert (X : exists a bv, gtr_eval t = Val a /\ arr_backward a value = Val bv /\ nshp bv = s /\
      broadcasts (nshp (arr_log_jac_det a value)) s /\ forall i, inside s i -> backward (f (align s' i)) (nelt value i) = Val (nelt bv i) /\
      log_jac_det (f (align s' i)) (nelt value i) = Val (nelt (arr_log_jac_det a value) (align (nshp (arr_log_jac_det a value)) i))).
    { destruct t as [c|c|u]; cbn [trel gtr_eval] in *.
      - destruct Tr as (a & -> & Ba & Ef). pose proof (bc_trans _ _ _ Ba Bs) as Bc. cbn [rmap]. exists (ALoc a). cbn [arr_backward arr_log_jac_det].
        rewrite (elemwise_at x_sub [value; a] s) by (cbn [map]; rewrite Es; now apply bcasts). eexists. split; [reflexivity|]. split; [reflexivity|]. split; [reflexivity|].
        cbn [nd_map nshp nelt]. rewrite Es. split; [apply broadcasts_refl|]. intros i I. rewrite Ef by exact (align_inside _ _ _ Bs I). cbn [backward log_jac_det map x_sub].
        rewrite (align_align _ _ _ _ Ba Bs (inside_length _ _ I)), ?Es, (align_self s i I). split; reflexivity.
      - destruct Tr as (a & -> & Ba & Ef). pose proof (bc_trans _ _ _ Ba Bs) as Bc. cbn [rmap]. exists (AScale a). cbn [arr_backward arr_log_jac_det].
        rewrite (elemwise_at x_div [value; a] s) by (cbn [map]; rewrite Es; now apply bcasts). eexists. split; [reflexivity|]. split; [reflexivity|]. split; [reflexivity|].
        cbn [nd_map nshp nelt]. rewrite ?Es. split; [exact Bc|]. intros i I. rewrite Ef by exact (align_inside _ _ _ Bs I). cbn [backward log_jac_det map x_div].
        rewrite (align_align _ _ _ _ Ba Bs (inside_length _ _ I)), ?Es, (align_self s i I). split; reflexivity.
      - destruct u; eexists; eexists; (split; [reflexivity|]); (split; [reflexivity|]); cbn [nd_map nshp nelt arr_log_jac_det]; rewrite ?Es; (split; [reflexivity|]);
          (split; [apply broadcasts_refl|]); intros i I; rewrite Tr by exact (align_inside _ _ _ Bs I); rewrite ?Es, (align_self s i I); split; reflexivity. }
    destruct X as (a & bv & E1 & E2 & E3 & E4 & E5). destruct (IH bv s E3 (bc_trans _ _ _ B Bs)) as (r & Er & Ers & El).
    { intros HV. rewrite (V HV). exact (Vs HV). }
    cbn [v_logprob]. rewrite E1. cbn [bind]. rewrite E2. cbn [bind]. rewrite Er. cbn [bind]. rewrite Ers. rewrite (proj1 (proj2 (bcasts _ _ E4))). cbn [bind].
    eexists. split; [reflexivity|]. split; [reflexivity|]. intros i I. cbn [nelt]. rewrite (align_self s i I), (El i I).
    rewrite Em by exact (align_inside _ _ _ Bs I). cbn [nested_logprob]. unfold elemwise_logprob. destruct (E5 i I) as [-> JJ]. cbn [bind]. rewrite JJ. cbn [bind].
    now rewrite (align_align _ _ _ _ B Bs (inside_length _ _ I)).
  - specialize (Vs eq_refl). subst s. clear Bs. rewrite vlp_vec.
    assert (G : forall suf k0, (forall k M, nth_error suf k = Some M -> nth_error ms (k0 + k) = Some M) -> exists R, vec_logps value k0 suf = map Val R /\
      length R = length suf /\ forall k r, nth_error R k = Some r -> nshp r = [] /\ nelt r [] = nested_logprob rvlp (mk (k0 + k) []) (nelt value [k0 + k])).
    { induction suf as [|M suf IHs]; intros k0 Hs; [exists []; split; [reflexivity|]; split; [reflexivity|]; intros [|k] r X; discriminate|].
      pose proof (Hs 0 M eq_refl) as E0. rewrite Nat.add_0_r in E0. assert (Lk : k0 < length ms) by (apply nth_error_Some; congruence).
      destruct (IHs (S k0)) as (R & R1 & R2 & R3); [intros k M' X; replace (S k0 + k) with (k0 + S k) by lia; exact (Hs (S k) M' X)|].
      destruct (IH k0 M E0 {| nshp := []; nelt := fun q => nelt value (k0 :: q) |} [] eq_refl (broadcasts_refl _) (fun _ => eq_refl)) as (r & Er & Ers & El).
      exists (r :: R). split; [|split; [cbn; lia|]].
      - cbn [vec_logps]. unfold item. rewrite <- Vs. rewrite (proj2 (Nat.ltb_lt _ _) Lk). cbn [bind map]. now rewrite Er, R1.
      - intros [|k] r' X; cbn in X; [injection X as <-; split; [exact Ers|]|].
        + rewrite Nat.add_0_r. rewrite (El [] ltac:(constructor)). reflexivity.
        + replace (k0 + S k) with (S k0 + k) by lia. exact (R3 k r' X). }
    destruct (G ms 0 (fun k M X => X)) as (R & R1 & R2 & R3). rewrite R1, rseq_val. cbn [bind].
    destruct (stack_ok R [] (Val NaN)) as (r & Er & Ers & El).
    { intros ->. destruct ms; [easy|discriminate]. }
    { intros a I. apply In_nth_error in I as (k & Ek). exact (proj1 (R3 k a Ek)). }
    exists r. split; [exact Er|]. split; [now rewrite Ers, R2, Vs|]. intros i I. rewrite <- Vs in I. pose proof I as I1. inversion I as [|k n i0 s0 Lk I0]; subst. inversion I0; subst.
    destruct (nth_error R k) as [a|] eqn:Ea; [|apply nth_error_None in Ea; lia]. rewrite (El k [] a Ea). destruct (R3 k a Ea) as [_ ->]. cbn [Nat.add].
    rewrite (align_self [length ms] [k] I1). now rewrite Em.
  - specialize (Vs eq_refl). rewrite <- Vs in Es |- *. clear s Vs Bs. rename s' into s. rewrite vlp_join. rewrite Es. rewrite (proj2 (norm_axis_spec _ _ _) A). cbn zeta.
    pose proof J as (NJ & Lax & FS & SB & ET).
    assert (ESZ : map (fun s0 => nth ax s0 0) shs = sizes).
    { clear - FS. induction FS as [|a n shs sizes X F IHF]; [reflexivity|]. cbn. now rewrite IHF, (nth_of _ _ _ 0 X). }
    rewrite ESZ. rewrite (nth_of _ _ _ 0 ET), Nat.eqb_refl.
    assert (LS : length sizes = length shs) by (rewrite <- ESZ; apply map_length).
    assert (G : forall suf ssz k0, length suf = length ssz -> (forall k M, nth_error suf k = Some M -> nth_error ms (k0 + k) = Some M) -> (forall k n, nth_error ssz k = Some n -> nth_error sizes (k0 + k) = Some n) ->
      exists R, join_logps ax value (list_sum (firstn k0 sizes)) suf ssz = map Val R /\ length R = length suf /\
      forall k r, nth_error R k = Some r -> exists sk, nth_error shs (k0 + k) = Some sk /\ nshp r = sk /\
        forall p, inside sk p -> nelt r p = nested_logprob rvlp (mk (k0 + k) p) (nelt value (set_nth ax (nth ax p 0 + list_sum (firstn (k0 + k) sizes)) p))).
    { induction suf as [|M suf IHs]; intros [|n ssz] k0 Ls Hs Hz; try discriminate; [exists []; split; [reflexivity|]; split; [reflexivity|]; intros [|k] r X; discriminate|].
      pose proof (Hs 0 M eq_refl) as E0. pose proof (Hz 0 n eq_refl) as Z0. rewrite Nat.add_0_r in E0, Z0. destruct (nth_sizes ax shs sizes k0 n FS Z0) as (sk & Ek & Esk).
      rewrite List.Forall_forall in SB. pose proof (SB sk (nth_error_In _ _ Ek)) as SBk.
      destruct (IHs ssz (S k0)) as (R & R1 & R2 & R3); [cbn in Ls; lia|intros k M' X; replace (S k0 + k) with (k0 + S k) by lia; exact (Hs (S k) M' X)|intros k m' X; replace (S k0 + k) with (k0 + S k) by lia; exact (Hz (S k) m' X)|].
      assert (SP : nshp (part ax (list_sum (firstn k0 sizes)) n value) = sk) by (cbn [part nshp]; rewrite Es; exact (set_nth_same ax s sk n Lax SBk Esk)).
      destruct (IH k0 M sk E0 Ek (part ax (list_sum (firstn k0 sizes)) n value) sk SP (broadcasts_refl _) (fun _ => eq_refl)) as (r & Er & Ers & El).
      assert (EO : list_sum (firstn (S k0) sizes) = list_sum (firstn k0 sizes) + n).
      { clear - Z0. revert k0 Z0. induction sizes as [|z sizes IHz]; intros [|k0] Z0; try discriminate; cbn [nth_error] in Z0.
        - injection Z0 as ->. cbn. lia.
        - change (firstn (S (S k0)) (z :: sizes)) with (z :: firstn (S k0) sizes). change (firstn (S k0) (z :: sizes)) with (z :: firstn k0 sizes).
          change (list_sum (z :: firstn (S k0) sizes)) with (z + list_sum (firstn (S k0) sizes)). change (list_sum (z :: firstn k0 sizes)) with (z + list_sum (firstn k0 sizes)). rewrite (IHz k0 Z0). lia. }
      exists (r :: R). split; [|split; [cbn; lia|]].
      - cbn [join_logps]. rewrite Er, <- EO, R1. reflexivity.
      - intros [|k] r' X; cbn in X; [injection X as <-|].
        + rewrite Nat.add_0_r. exists sk. split; [exact Ek|]. split; [exact Ers|]. intros p Ip. rewrite (El p Ip). rewrite (align_self sk p Ip). reflexivity.
        + replace (k0 + S k) with (S k0 + k) by lia. exact (R3 k r' X). }
    destruct (G ms sizes 0 ltac:(lia) (fun k M X => X) (fun k n X => X)) as (R & R1 & R2 & R3). change (list_sum (firstn 0 sizes)) with 0 in R1. rewrite R1, rseq_val. cbn [bind].
    assert (SR : map nshp R = shs).
    { apply nth_error_ext. intros k. destruct (nth_error R k) as [r|] eqn:Ek.
      - destruct (R3 k r Ek) as (sk & E1 & E2 & _). rewrite (map_nth_error nshp _ _ Ek), E2. now symmetry.
      - apply nth_error_None in Ek. rewrite !(proj2 (nth_error_None _ _)); auto; [lia|rewrite map_length; lia]. }
    assert (RL : forall r, In r R -> length (nshp r) = length s).
    { intros r I. assert (X : In (nshp r) shs) by (rewrite <- SR; now apply in_map). rewrite List.Forall_forall in SB. symmetry. exact (proj1 (SB _ X)). }
    assert (FB : forall r0, In r0 R -> forallb (fun l => length (nshp l) =? length (nshp r0)) R = true).
    { intros r0 I0. apply forallb_forall. intros r I. apply Nat.eqb_eq. rewrite (RL r I), (RL r0 I0). reflexivity. }
    assert (AT : map atleast_1d R = R).
    { rewrite <- (map_id R) at 2. apply map_ext_in. intros r I. apply atleast_1d_id. intros N. specialize (RL r I). rewrite N in RL. cbn in RL. lia. }
    rewrite <- SR in J. destruct (concat_ok axis ax R sizes s (Val NaN) J A) as (r & Er & Ers & El). exists r. split; [|split; [exact Ers|]].
    + destruct R as [|r0 R']; [exfalso; apply NJ; now rewrite <- SR|]. rewrite (FB r0 (or_introl eq_refl)), AT, (RL r0 (or_introl eq_refl)), Z.sub_diag, Z.sub_0_r. exact Er.
    + intros i I. rewrite SR in J. destruct (part_exists ax shs sizes s i J I) as (k & p & sk & Ek & Pk & Ip). assert (Lk : k < length ms) by (rewrite L; apply nth_error_Some; congruence).
      destruct (nth_error R k) as [a|] eqn:Ea; [|apply nth_error_None in Ea; lia]. rewrite (El k i p a Ea Pk). destruct (R3 k a Ea) as (sk' & E1 & _ & E3). cbn [Nat.add] in E1, E3.
      rewrite Ek in E1. injection E1 as <-. rewrite (E3 p Ip). rewrite (align_self s i I). rewrite (Em i k p I Lk Pk). f_equal. f_equal.
      destruct Pk as (SBp & n & x & En & Ex & Lx & Eq). rewrite (nth_of _ _ _ 0 Ex). apply (set_nth_same ax p i); [apply nth_error_Some; congruence|now apply same_but_sym|rewrite Eq; f_equal; lia].
  - specialize (Vs eq_refl). rewrite <- Vs in Es |- *. clear s Vs Bs. rename s' into s. cbn [v_logprob].
    assert (SU : nshp (unshuffled (length s1) o value) = s1) by (apply (unshuffled_shape (length s1) o V value s1 eq_refl); now rewrite Es).
    destruct (IH (unshuffled (length s1) o value) s1 SU (broadcasts_refl _) (fun _ => eq_refl)) as (raw & Er & Ers & El). rewrite Er. cbn [bind]. rewrite Ers, (redo_all _ _ V).
    eexists. split; [reflexivity|].
    assert (IS : is_shuffle o raw (dimshuffle o raw)) by (apply dimshuffle_is_shuffle; rewrite Ers; [exact V|apply Sh]). destruct IS as [S1 S2]. rewrite Ers in S1, S2.
    assert (ES : nshp (dimshuffle o raw) = s) by exact (shuffled_unique o s1 _ _ S1 Sh). split; [exact ES|]. intros i I.
    destruct (source_exists o s1 s i V Sh I) as (p & Pp & Ip). rewrite (S2 i p); [|now rewrite ES|exact Pp]. rewrite (El p Ip), (align_self _ _ Ip), (align_self s i I).
    rewrite (Em i p I Pp). f_equal. rewrite (unshuffled_elt (length s1) o V value p) by (rewrite Es; apply Sh).
    f_equal. exact (back_source (length s1) o V i p s1 eq_refl s Sh I Pp).
  - specialize (Vs eq_refl). rewrite <- Vs in Es |- *. clear s Vs Bs. cbn [v_logprob]. destruct (WS b _ E) as [-> BP]. unfold v_take_logprob. rewrite E.
    destruct (params_rel b d _ ps (sh b) E (broadcasts_refl _)) as (P & P1 & P2 & P3). rewrite P1, rseq_val. cbn [bind].
    assert (BA : bcast_all [nshp t; nshp value] = Val (nshp t)).
    { rewrite Es. apply bcast_all_spec. apply (bc_all [nshp t]). intros a [<-|[]]. apply broadcasts_refl. }
    rewrite BA. cbn [bind]. eexists. split; [reflexivity|]. split; [reflexivity|]. intros i I. cbn [nelt]. rewrite Es, (align_self _ _ I). destruct (Em i I) as [Ip ->]. cbn [nested_logprob].
    rewrite (P3 _ Ip). destruct (vs_node _ _ _ _ _ _ SO b _ _ E (plain_own b _ _ E (fun X => X) Ip)) as (e & Ee & l & -> & F).
    unfold rv_logprob. rewrite Ee. f_equal. rewrite (args_eq ps (sh b) (nelt t i) l BP Ip F). now rewrite map_map.
Qed.
(** ** cumulative sums *)
Lemma diff_at axis ax n (v : nd xr) : axis_is (length (nshp v)) axis ax -> nth_error (nshp v) ax = Some (S n) ->
  exists d, value_diff axis v = Val d /\ nshp d = nshp v /\
  forall p, inside (nshp v) p ->
    (nth_error p ax = Some 0 -> nelt d p = nelt v p) /\
    (forall k, nth_error p ax = Some (S k) -> nelt d p = xsub (nelt v p) (nelt v (set_nth ax k p))).
Proof.
  intros HA Hn. assert (Hax : ax < length (nshp v)) by (apply nth_error_Some; congruence).
  assert (Hsz : nth ax (nshp v) 0 = S n) by (now apply nth_of).
  destruct (concat_ok axis ax [take_first ax v; diff ax v] [1; n] (nshp v) NaN) as (d & E & Sh & Hel); auto.
  { split; [easy|]. split; [auto|]. cbn [map nshp take_first diff]. rewrite Hsz. cbn [Nat.sub]. rewrite Nat.sub_0_r. split.
    - constructor; [now apply set_nth_at|]. constructor; [now apply set_nth_at|constructor].
    - split; [|cbn; rewrite Hn; f_equal; lia].
      constructor; [now apply same_but_set|]. constructor; [now apply same_but_set|constructor]. }
  exists d. split.
  - unfold value_diff. rewrite (proj2 (norm_axis_spec _ _ _) HA), Hsz. exact E.
  - split; auto. intros p Hp. pose proof (inside_len _ _ Hp) as L. split.
    + intros H0. rewrite (Hel 0 p p _ eq_refl).
      * cbn [nelt take_first]. now rewrite (set_id _ _ _ H0).
      * split; [split; auto|]. exists 1, 0. repeat split; auto.
    + intros k Hk. rewrite (Hel 1 p (set_nth ax k p) _ eq_refl).
      * cbn [nelt diff]. rewrite (nth_of _ _ k 0) by (apply set_nth_at; lia). rewrite set_set by lia. now rewrite (set_id _ _ _ Hk).
      * pose proof (inside_nth _ _ _ _ _ Hp Hk Hn). split; [apply same_but_set; lia|]. exists n, k. repeat split; auto; [apply set_nth_at; lia|lia].
Qed.
Lemma cum_not v axis a ax k i : nth_error h v = Some (VCum axis a) -> ~ In a req -> axis_is (length (sh v)) axis ax -> nth_error i ax = Some (S k) -> own h sh a i -> mem (ix a i) req' = false.
Proof.
  intros E N A Ei O. apply mem_not. intros J. apply in_flat_map in J as (w & W & J). apply in_map_iff in J as (j & Ej & J). apply positions_in in J.
  destruct (RQ w W) as (Lw & _). destruct (resolve (S w) w j ltac:(lia) Lw J) as (u & p & Ou & Eu & _ & Q). destruct (vs_inj _ _ _ _ _ _ SO u a p i Ou O) as [-> ->]; [congruence|].
  destruct Q as [[-> ->]|(v' & nd & i' & E' & I' & S')]; [exact (N W)|]. destruct (same_inside v' nd i' a i E' I' S') as (_ & Ia & _).
  pose proof (proj2 (proj2 (proj2 (ti_cum _ _ _ _ TI v axis a E))) v' nd E' Ia) as ->. rewrite E in E'. injection E' as <-. destruct S' as (_ & <- & ax' & A' & Z). rewrite (axis_unique _ _ _ _ A A') in Ei. congruence.
Qed.
Lemma conditional_rel v r : In v req -> v_conditional ddt afs dlp h req y v = Some r ->
  exists a, r = Val a /\ nshp a = sh v /\ forall i, inside (sh v) i -> conditional ddt fs dlp g req' y' (ix v i) = Some (nelt a i).
Proof.
  intros R C. destruct (RQ v R) as (L & Es & Ey). destruct (some_node v L) as (nd & E).
  assert (D : (exists axis a, nd = VCum axis a) \/ forall axis a, nd <> VCum axis a) by (destruct nd as [| | | | | | | | | |axis a|]; try (right; discriminate); left; eauto).
  unfold v_conditional, v_top in C. destruct D as [(axis & a & ->)|NC].
  - unfold v_node in C. rewrite E in C. cbn [v_m] in C. destruct (v_m (vunf (length h) a)) as [M|] eqn:EM; [|discriminate]. cbn [option_map] in C. injection C as <-.
    pose proof (in_h v _ a E (or_introl eq_refl)) as [La _]. assert (EL : exists F, length h = S F) by (destruct (length h); [lia|eauto]). destruct EL as (F & EL). rewrite EL in EM. cbn [v_unfold] in EM. destruct (mem a req) eqn:Ra; [discriminate|]. apply mem_not in Ra.
    destruct (some_node a ltac:(lia)) as (nda & Ea). destruct (ti_cum _ _ _ _ TI v axis a E) as (_ & Pa & Da & Ua). specialize (Pa nda Ea).
    assert (Ha : hid a) by exact (hd_req h req v _ a E Logic.I R (or_introl eq_refl) Ra).
    destruct (top_rel F a nda ltac:(lia) Ea (or_intror Ha) ltac:(intros ? ? ->; exact (Pa Logic.I)) M EM) as (m & MR & MT).
    pose proof (node_ints (vunf F) a nda M Ea Pa Da EM) as NI.
    destruct (WS v _ E) as (Esa & ax & n & A & En). rewrite <- Es in A, En.
    destruct (diff_at axis ax n (y v) A En) as (d & Ed & Eds & Del). rewrite Es in A, En, Eds, Del.
    destruct (logprob_rel M (sh a) m MR d (sh a)) as (arr & Er & Ers & El); [congruence|apply broadcasts_refl|reflexivity|].
    exists arr. cbn [v_logprob]. rewrite Ed. cbn [bind]. split; [exact Er|]. split; [congruence|]. intros i I. assert (Ia : inside (sh a) i) by now rewrite <- Esa.
    rewrite (El i Ia), (align_self _ _ Ia). destruct (Del i I) as [D0 DS]. unfold conditional.
    destruct (nth_error i ax) as [[|k]|] eqn:Ei; [| |apply nth_error_None in Ei; rewrite (inside_len _ _ I) in Ei; assert (ax < length (sh v)) by (apply nth_error_Some; congruence); lia].
    + rewrite (vs_same _ _ _ _ _ _ SO v _ i a i E I) by (cbn; eauto 6). rewrite (MT i Ia), (D0 eq_refl). rewrite <- (vs_same _ _ _ _ _ _ SO v _ i a i E I) by (cbn; eauto 6). now rewrite (Ey i I).
    + assert (O : own h sh v i). { exists (VCum axis a). split; [exact E|]. split; [exact I|]. intros b j (_ & _ & ax' & A' & Z). rewrite <- (axis_unique _ _ _ _ A A') in Z. congruence. }
      destruct (vs_node _ _ _ _ _ _ SO v _ i E O) as (e & Ee & ax' & k' & i' & A' & Ek & SB & Ei' & ->). rewrite <- (axis_unique _ _ _ _ A A') in Ek, SB, Ei'. rewrite Ei in Ek. injection Ek as <-.
      assert (Li : ax < length i) by (apply nth_error_Some; congruence).
      assert (EI : set_nth ax k i = i') by exact (set_nth_same ax i i' k Li SB Ei').
      assert (I' : inside (sh v) i'). { rewrite <- EI. apply (inside_set (sh v) i ax k (S n) I En). pose proof (inside_nth _ _ _ _ _ I Ei En). lia. }
      assert (T : top g req' y' (ix v i) = NMany NAdd [unf (ix v i'); unf (ix a i)]) by (unfold top, expand; now rewrite Ee).
      rewrite T. rewrite (unf_step (ix v i')) by now apply ix_range. rewrite (req_elements v i' R I').
      rewrite (unf_step (ix a i)) by (apply ix_range; [lia|exact Ia]). rewrite (cum_not v axis a ax k i E Ra A Ei (plain_own a nda i Ea Pa Ia)).
      pose proof (MT i Ia) as Mi. unfold top in Mi. cbn [annotate map]. cbn [rw_nary a_m]. unfold construct, measurable_of, others_of. unfold con. cbn [flat_map filter a_m]. rewrite Mi. cbn [app existsb a_rand map a_val].
      rewrite (ints_rel ddt h sh g ix Dt M (sh a) m MR i Ia NI). cbn [tr_nary fold_others nested_logprob orb]. unfold elemwise_logprob. cbn [backward bind log_jac_det].
      rewrite (Ey i I), (Ey i' I'), (DS k eq_refl), EI. destruct (nested_logprob rvlp (m i) (xsub (nelt (y v) i) (nelt (y v) i'))) as [x|]; cbn [bind]; [|reflexivity]. now rewrite xadd_0_r.
  - destruct (v_m (v_node ddt afs h (vunf (length h)) v)) as [M|] eqn:EM; [|discriminate]. injection C as <-.
    destruct (top_rel (length h) v nd ltac:(lia) E (or_introl R) NC M EM) as (m & MR & MT).
    destruct (logprob_rel M (sh v) m MR (y v) (sh v) Es (broadcasts_refl _) (fun _ => eq_refl)) as (arr & Er & Ers & El). exists arr. split; [exact Er|]. split; [exact Ers|].
    intros i I. unfold conditional. rewrite (MT i I), (El i I), (align_self _ _ I). now rewrite (Ey i I).
Qed.
Lemma conditionals_rel l rs : incl l req -> v_conditionals ddt afs dlp h req y l = Some rs ->
  exists R, rs = map Val R /\ conditionals ddt fs dlp g req' y' (flat_map (elements_of sh ix) l) = Some (flat_map (fun r => map (nelt r) (positions (nshp r))) R).
Proof.
  revert rs. induction l as [|v l IH]; intros rs I C; [exists []; injection C as <-; split; reflexivity|]. cbn [v_conditionals flat_map] in *. rewrite (conditionals_flat ddt fs dlp sh g ix req y').
  assert (Iv : In v req) by (apply I; now left). destruct (v_conditional ddt afs dlp h req y v) as [r|] eqn:EC; [|discriminate].
  destruct (v_conditionals ddt afs dlp h req y l) as [rs'|]; [|discriminate]. injection C as <-. destruct (IH rs' (fun x X => I x (or_intror X)) eq_refl) as (R & -> & IHR). rewrite IHR.
  destruct (conditional_rel v r Iv EC) as (a & -> & Es & C). change (elements_of sh ix v) with (map (ix v) (positions (sh v))).
  rewrite (conditionals_map ddt fs dlp sh g ix req y' a v Es C) by (intros i J; now apply positions_in). exists (a :: R). cbn [map flat_map]. rewrite Es. split; reflexivity.
Qed.
Theorem v_elements r : v_joint ddt afs dlp h req y = Some r -> joint ddt fs dlp g req' y' = Some r.
Proof.
  unfold v_joint, joint. destruct (v_conditionals ddt afs dlp h req y req) as [rs|] eqn:EC; [|discriminate]. intros E. injection E as <-.
  destruct (conditionals_rel req rs (fun x X => X) EC) as (R & -> & C). rewrite C. f_equal. rewrite <- sums_flat. rewrite map_map. reflexivity.
Qed.
End Graphs.
