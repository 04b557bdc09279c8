(** Lemmas on models of arrays with stacks, joins, shuffles and cumulative sums:
    every model can be spelled out; the density. *)
From Coq Require Import Reals Lra Lia List Arith ZArith Bool.
From Coquelicot Require Import Coquelicot.
From Verif Require Import XR XTac SpecDist ModelDist LemDist LemDisc ModelVec SpecVec RMx ModelIdx SpecIdx LemIdx LemIdx2 ModelTen SpecTen LemMix LemTen LemTen2 ModelConv ModelSub LemSub LemUtil ModelTrans ModelElem SpecElem LemElem LemBatch
  ModelJoint LemJoint ModelNest ModelSys SpecSys LemSys LemSys3 ModelEls SpecEls LemEls LemEls2 LemEls3 ModelElsV SpecElsV LemElsV LemElsV2.
Import ListNotations.
Open Scope nat_scope.

(** ** positions are in row-major order *)
Lemma find_pos_miss i l m : ~ In i l -> find_pos i (l ++ m) = length l + find_pos i m.
Proof.
  induction l as [|j l IH]; intros N; [reflexivity|]. cbn. destruct (list_eq_dec Nat.eq_dec j i) as [->|_]; [exfalso; apply N; now left|]. rewrite IH; [lia|]. intros X. apply N. now right.
Qed.
Lemma find_pos_hit i l m : In i l -> find_pos i (l ++ m) = find_pos i l.
Proof. induction l as [|j l IH]; intros I; [destruct I|]. cbn. destruct (list_eq_dec Nat.eq_dec j i); [reflexivity|]. rewrite IH; [reflexivity|]. destruct I; [easy|auto]. Qed.
Lemma find_pos_cons k i l : find_pos (k :: i) (map (cons k) l) = find_pos i l.
Proof.
  induction l as [|j l IH]; [reflexivity|]. cbn [map find_pos]. destruct (list_eq_dec Nat.eq_dec j i) as [->|N].
  - destruct (list_eq_dec Nat.eq_dec (k :: i) (k :: i)); easy.
  - destruct (list_eq_dec Nat.eq_dec (k :: j) (k :: i)) as [E|_]; [congruence|]. now rewrite IH.
Qed.
Lemma find_pos_row n s k i : k < n -> inside s i -> find_pos (k :: i) (positions (n :: s)) = k * length (positions s) + find_pos i (positions s).
Proof.
  intros L I. apply positions_in in I. cbn [positions].
  assert (G : forall m a, a <= k < a + m -> find_pos (k :: i) (flat_map (fun k => map (cons k) (positions s)) (seq a m)) = (k - a) * length (positions s) + find_pos i (positions s)).
  { induction m as [|m IH]; intros a La; [lia|]. cbn [seq flat_map]. destruct (Nat.eq_dec a k) as [->|N].
    - rewrite find_pos_hit by now apply in_map. rewrite find_pos_cons, Nat.sub_diag. reflexivity.
    - rewrite find_pos_miss; [|intros X; apply in_map_iff in X as (z & Ez & _); congruence]. rewrite map_length, IH by lia.
      replace (k - a) with (S (k - S a)) by lia. cbn [Nat.mul]. lia. }
  rewrite G by lia. f_equal. f_equal. lia.
Qed.
Lemma find_pos_before s : forall i ax k i', inside s i -> nth_error i ax = Some (S k) -> same_but ax i i' -> nth_error i' ax = Some k ->
  find_pos i' (positions s) < find_pos i (positions s).
Proof.
  induction s as [|n s IH]; intros i ax k i' I E [L S] E'; [inversion I; subst; destruct ax; discriminate|].
  inversion I as [|x ? r ? Lx T]; subst. destruct i' as [|x' r']; [discriminate|]. destruct ax as [|ax]; cbn in E, E'.
  - injection E as ->. injection E' as ->. assert (r' = r) as ->. { apply nth_error_ext. intros j. symmetry. exact (S (Datatypes.S j) ltac:(discriminate)). }
    rewrite !find_pos_row by (assumption || lia). apply positions_in in T. pose proof (find_pos_lt r _ T). lia.
  - pose proof (S 0 ltac:(discriminate)) as X. cbn in X. injection X as <-.
    assert (SB : same_but ax r r') by (split; [cbn in L; lia|]; intros j J; exact (S (Datatypes.S j) ltac:(lia))).
    assert (T' : inside s r'). { rewrite <- (set_nth_same ax r r' k); [|apply nth_error_Some; congruence|exact SB|exact E'].
      assert (La : ax < length r) by (apply nth_error_Some; congruence). rewrite (inside_len _ _ T) in La. destruct (nth_error s ax) as [m|] eqn:Em; [|apply nth_error_None in Em; lia].
      apply (inside_set s r ax k m T Em). pose proof (inside_nth _ _ _ _ _ T E Em). lia. }
    rewrite !find_pos_row by assumption. pose proof (IH r ax k r' T E SB E'). lia.
Qed.
Lemma blocks_inv {B} (sh : nat -> list nat) (F : nat -> list nat -> B) N : forall n e, nth_error (flat_map (fun v => map (F v) (ps sh v)) (seq 0 N)) n = Some e ->
  exists v i, v < N /\ inside (sh v) i /\ n = eix sh v i /\ e = F v i.
Proof.
  induction N as [|N IH]; intros n e E; [destruct n; discriminate|]. rewrite seq_S, flat_map_app in E. cbn [Nat.add flat_map] in E. rewrite app_nil_r in E.
  destruct (lt_dec n (length (flat_map (fun v => map (F v) (ps sh v)) (seq 0 N)))) as [L|L].
  - rewrite nth_error_app1 in E by exact L. destruct (IH n e E) as (v & i & ? & ?). exists v, i. split; [lia|assumption].
  - rewrite nth_error_app2 in E by lia. change (length (flat_map (fun v => map (F v) (ps sh v)) (seq 0 N))) with (offset _ (fun v => map (F v) (ps sh v)) N) in *.
    rewrite (offset_map (ps sh) F) in *. set (k := n - offset _ (ps sh) N) in *.
    assert (Lk : k < length (ps sh N)) by (rewrite <- (map_length (F N)); apply nth_error_Some; congruence).
    destruct (nth_error (ps sh N) k) as [i|] eqn:Ei; [|apply nth_error_None in Ei; lia]. rewrite nth_error_map, Ei in E. injection E as <-.
    pose proof (nth_error_In _ _ Ei) as Ii. exists N, i. split; [lia|]. split; [now apply positions_in|]. split; [|reflexivity].
    unfold eix. replace (find_pos i (ps sh N)) with k; [lia|]. apply (proj1 (NoDup_nth_error (ps sh N)) (positions_nodup (sh N)) k _ Lk). rewrite Ei. symmetry. now apply find_pos_nth.
Qed.
Lemma blocks_at {B} (sh : nat -> list nat) (F : nat -> list nat -> B) N v i : v < N -> inside (sh v) i ->
  nth_error (flat_map (fun v => map (F v) (ps sh v)) (seq 0 N)) (eix sh v i) = Some (F v i).
Proof.
  intros L I. apply positions_in in I. unfold eix. rewrite <- (offset_map (ps sh) F). rewrite block_nth; [|exact L|rewrite map_length; now apply find_pos_lt].
  rewrite nth_error_map. unfold ps. rewrite find_pos_nth by exact I. reflexivity.
Qed.
Lemma eix_inj (sh : nat -> list nat) v w i j : inside (sh v) i -> inside (sh w) j -> eix sh v i = eix sh w j -> v = w /\ i = j.
Proof.
  intros Iv Iw E. pose proof (blocks_at sh (@pair nat (list nat)) (S (v + w)) v i ltac:(lia) Iv) as A. pose proof (blocks_at sh (@pair nat (list nat)) (S (v + w)) w j ltac:(lia) Iw) as B.
  rewrite E in A. rewrite A in B. injection B as -> ->. split; reflexivity.
Qed.

Section Spell.
Variables (afs : nat -> list (nd xr) -> nd xr) (h : list vnode) (sh : nat -> list nat).
Hypothesis GA : vacyclic h.
Hypothesis WS : v_well_shaped afs h sh.
Definition origin (v : nat) (i : list nat) : option (nat * list nat) :=
  match nth_error h v with
  | Some (VVec l) => match nth_error l (hd 0 i) with Some a => Some (a, []) | None => None end
  | Some (VJoin axis l) =>
      match norm_axis (length (sh v)) axis with
      | Some ax => let kp := locate_at ax (map (fun a => nth ax (sh a) 0) l) i in
          match nth_error l (fst kp) with Some a => Some (a, snd kp) | None => None end
      | None => None
      end
  | Some (VShuf o a) => Some (a, map (fun d => match axis_at d o with Some j => nth j i 0 | None => 0 end) (seq 0 (length (sh a))))
  | Some (VCum axis a) => match norm_axis (length (sh v)) axis with Some ax => if nth ax i 1 =? 0 then Some (a, i) else None | None => None end
  | Some (VTake _ t a) => Some (a, nelt t i)
  | _ => None
  end.
Lemma sizes_nth ax (l : list nat) sizes : Forall2 (size_along ax) (map sh l) sizes -> map (fun a => nth ax (sh a) 0) l = sizes.
Proof.
  revert sizes. induction l as [|a l IH]; intros sizes F; inversion F as [|? n ? r H F']; subst; [reflexivity|]. cbn. f_equal; [now apply nth_error_nth|now apply IH].
Qed.
Lemma origin_same v nd i : nth_error h v = Some nd -> inside (sh v) i -> forall a j, same_element sh (sh v) nd i a j <-> origin v i = Some (a, j).
Proof.
  intros E I a j. pose proof (WS v nd E) as W. unfold origin. rewrite E. destruct nd as [c|d s ps|u b|n l|b c|b c|k l|l|axis l|o b|axis b|xs t b]; try (split; [intros []|discriminate]).
  - destruct W as (_ & Es & _). rewrite Es in I. inversion I as [|k n i0 s0 Lk I0]; subst. inversion I0; subst. cbn [hd].
    destruct (nth_error l k) as [b|] eqn:Ek; [|apply nth_error_None in Ek; lia]. split.
    + intros (k' & Ei & Ek' & ->). injection Ei as <-. congruence.
    + intros X. injection X as <- <-. exists k. auto.
  - destruct W as (ax & sizes & A & J). rewrite (proj2 (norm_axis_spec _ _ _) A). pose proof J as (_ & _ & F & _). rewrite (sizes_nth ax l sizes F).
    pose proof (locate_part ax (map sh l) sizes (sh v) i J I) as P. destruct (locate_at ax sizes i) as [k p]. cbn [fst snd] in *. split.
    + intros (ax' & sizes' & k' & A' & J' & Ek & P'). pose proof (axis_unique _ _ _ _ A A') as <-. pose proof J' as (_ & _ & F' & _). pose proof (sizes_unique _ _ _ _ F F') as <-.
      destruct (part_unique _ _ _ _ _ _ _ P P') as [-> ->]. now rewrite Ek.
    + destruct (nth_error l k) as [b|] eqn:Ek; [|discriminate]. intros X. injection X as <- <-. exists ax, sizes, k. auto.
  - destruct W as (V & Sh). assert (L : length i = length o) by (rewrite (inside_len _ _ I); exact (proj1 Sh)). pose proof (shuffle_source (length (sh b)) o i L V) as P. cbn in P. split.
    + intros (-> & Q). f_equal. f_equal. exact (source_unique _ _ _ _ _ V P Q).
    + intros X. injection X as <- <-. split; [reflexivity|exact P].
  - destruct W as (Es & ax & n & A & En). rewrite (proj2 (norm_axis_spec _ _ _) A). assert (Lx : ax < length (sh v)) by (apply nth_error_Some; congruence).
    destruct (nth_error i ax) as [x|] eqn:Ex; [|apply nth_error_None in Ex; rewrite (inside_len _ _ I) in Ex; lia]. rewrite (nth_error_nth _ _ 1 Ex). split.
    + intros (-> & -> & ax' & A' & Z). pose proof (axis_unique _ _ _ _ A A') as <-. rewrite Z in Ex. injection Ex as <-. reflexivity.
    + destruct (Nat.eqb_spec x 0) as [->|]; [|discriminate]. intros X. injection X as <- <-. split; [reflexivity|]. split; [reflexivity|]. exists ax. auto.
  - split; [intros (-> & ->); reflexivity|]. intros X. injection X as <- <-. split; reflexivity.
Qed.
Lemma origin_lt v i a j : inside (sh v) i -> origin v i = Some (a, j) -> a < v /\ inside (sh a) j.
Proof.
  intros I O. destruct (nth_error h v) as [nd|] eqn:E; [|unfold origin in O; rewrite E in O; discriminate].
  destruct (same_inside afs h sh WS v nd i a j E I (proj2 (origin_same v nd i E I a j) O)) as (_ & Ia & Ij). split; [exact (GA v nd a E Ia)|exact Ij].
Qed.
Lemma origin_own v i : own h sh v i <-> v < length h /\ inside (sh v) i /\ origin v i = None.
Proof.
  split.
  - intros (nd & E & I & N). split; [apply nth_error_Some; congruence|]. split; [exact I|]. destruct (origin v i) as [[a j]|] eqn:O; [|reflexivity]. exfalso. apply (N a j). now apply (origin_same v nd i E I).
  - intros (L & I & O). destruct (nth_error h v) as [nd|] eqn:E; [|apply nth_error_None in E; lia]. exists nd. split; [exact E|]. split; [exact I|]. intros a j S. apply (origin_same v nd i E I) in S. congruence.
Qed.
Fixpoint vixf (fuel v : nat) (i : list nat) : nat :=
  match fuel with
  | 0 => 0
  | S f => match origin v i with Some (a, j) => vixf f a j | None => eix sh v i end
  end.
Definition vix (v : nat) (i : list nat) : nat := vixf (S v) v i.
Lemma vixf_fuel : forall f1 f2 v i, v < f1 -> v < f2 -> inside (sh v) i -> vixf f1 v i = vixf f2 v i.
Proof.
  induction f1 as [|f1 IH]; intros f2 v i L1 L2 I; [lia|]. destruct f2 as [|f2]; [lia|]. cbn. destruct (origin v i) as [[a j]|] eqn:O; [|reflexivity].
  destruct (origin_lt v i a j I O). apply IH; [lia|lia|assumption].
Qed.
Lemma vix_same v i a j : inside (sh v) i -> origin v i = Some (a, j) -> vix v i = vix a j.
Proof. intros I O. destruct (origin_lt v i a j I O). unfold vix at 1. cbn [vixf]. rewrite O. apply vixf_fuel; [assumption|lia|assumption]. Qed.
Lemma vix_own v i : origin v i = None -> vix v i = eix sh v i.
Proof. intros O. unfold vix. cbn. now rewrite O. Qed.
Lemma vix_lt v i : forall n a j, a < n -> a < v -> inside (sh a) j -> vix a j < eix sh v i.
Proof.
  induction n as [|n IH]; intros a j Ln La I; [lia|]. destruct (origin a j) as [[b k]|] eqn:O.
  - rewrite (vix_same a j b k I O). destruct (origin_lt a j b k I O). apply IH; [lia|lia|assumption].
  - rewrite (vix_own a j O). now apply eix_lt.
Qed.
Definition vnode_at (v : nat) (i : list nat) : snode :=
  match nth_error h v with
  | Some (VCon c) => SCon (nelt c i)
  | Some (VRv d _ l) => SRv d (map (fun p => vix p (align (sh p) i)) l)
  | Some (VOne u a) => SOne u (vix a i)
  | Some (VMany n l) => SMany n (map (fun p => vix p (align (sh p) i)) l)
  | Some (VSub a b) => SSub (vix a (align (sh a) i)) (vix b (align (sh b) i))
  | Some (VDiv a b) => SDiv (vix a (align (sh a) i)) (vix b (align (sh b) i))
  | Some (VOther _ l) => SOther (eix sh v i) (flat_map (elements_of sh vix) l)
  | Some (VCum axis a) =>
      match norm_axis (length (sh v)) axis with
      | Some ax => match nth ax i 0 with S k => SMany NAdd [vix v (set_nth ax k i); vix a i] | 0 => SCon NaN end
      | None => SCon NaN
      end
  | _ => SCon NaN
  end.
Definition vgraph : list snode := flat_map (fun v => map (vnode_at v) (ps sh v)) (seq 0 (length h)).
Definition vtable : list (nat * list nat) := flat_map (fun v => map (pair v) (ps sh v)) (seq 0 (length h)).
Definition vfs (n : nat) (xs : list xr) : xr :=
  match nth_error vtable n with
  | Some (v, i) => match nth_error h v with Some (VOther k l) => nelt (afs k (regroup (map sh l) xs)) i | _ => NaN end
  | None => NaN
  end.
Hypothesis RI : reads_inside afs.
Lemma v_spelled : v_spelled_out afs vfs h sh vgraph vix.
Proof.
  split.
  - intros v nd i E O. apply origin_own in O as (L & I & O). rewrite (vix_own v i O). exists (vnode_at v i). split; [exact (blocks_at sh vnode_at (length h) v i L I)|].
    pose proof (WS v nd E) as W. unfold vnode_at. rewrite E. destruct nd as [c|d s l|u a|n l|a b|a b|k l|l|axis l|o b|axis b|xs t b]; cbn [v_element].
    + reflexivity.
    + eexists. split; [reflexivity|]. apply F2_map. intros p P. exists (align (sh p) i). split; [|reflexivity]. exact (align_ok (sh p) (sh v) i (proj2 W p P) I).
    + reflexivity.
    + eexists. split; [reflexivity|]. apply F2_map. intros p P. exists (align (sh p) i). split; [|reflexivity].
      apply (align_ok (sh p) (sh v) i); [|exact I]. apply (bc_sub (map sh l)); [exact W|now apply in_map].
    + exists (align (sh a) i), (align (sh b) i). repeat split; try (apply align_ok with (sh v); [apply (bc_sub [sh a; sh b]); cbn; auto|exact I]).
    + exists (align (sh a) i), (align (sh b) i). repeat split; try (apply align_ok with (sh v); [apply (bc_sub [sh a; sh b]); cbn; auto|exact I]).
    + exists (eix sh v i). split; [reflexivity|]. intros args S. unfold vfs. change vtable with (flat_map (fun v => map (pair v) (ps sh v)) (seq 0 (length h))).
      rewrite (blocks_at sh (@pair nat (list nat)) (length h) v i L I). rewrite E. symmetry. apply RI; [now apply regroup_same|]. rewrite W by exact S. exact I.
    + unfold origin in O. rewrite E in O. destruct W as (_ & Es & _). rewrite Es in I. inversion I as [|k n i0 s0 Lk I0]; subst. cbn [hd] in O.
      destruct (nth_error l k) eqn:Ek; [discriminate|apply nth_error_None in Ek; lia].
    + destruct (element_cases afs (fun _ _ _ => Raise) h sh WS v _ i E I) as [(nd & E1 & _ & N)|(a & j & S)]; [|apply (origin_same v _ i E I) in S; congruence].
      destruct W as (ax & sizes & A & J). destruct (part_exists ax (map sh l) sizes (sh v) i J I) as (k & p & sk & Ek & P & _).
      destruct (nth_error l k) as [a|] eqn:Ea; [|apply nth_error_None in Ea; assert (k < length (map sh l)) by (apply nth_error_Some; congruence); rewrite map_length in *; lia].
      exfalso. assert (nd = VJoin axis l) by congruence. subst nd. apply (N a p). exists ax, sizes, k. auto.
    + unfold origin in O. rewrite E in O. discriminate.
    + destruct W as (Es & ax & n & A & En). unfold origin in O. rewrite E, (proj2 (norm_axis_spec _ _ _) A) in O. rewrite (proj2 (norm_axis_spec _ _ _) A).
      assert (Lx : ax < length (sh v)) by (apply nth_error_Some; congruence).
      destruct (nth_error i ax) as [x|] eqn:Ex; [|apply nth_error_None in Ex; rewrite (inside_len _ _ I) in Ex; lia]. rewrite (nth_error_nth _ _ 1 Ex) in O. rewrite (nth_error_nth _ _ 0 Ex).
      destruct x as [|k]; [discriminate|]. assert (Li : ax < length i) by (apply nth_error_Some; congruence). exists ax, k, (set_nth ax k i). split; [exact A|]. split; [exact Ex|]. split; [now apply same_but_set|]. split; [now apply set_nth_at|reflexivity].
    + unfold origin in O. rewrite E in O. discriminate.
  - intros v nd i a j E I S. apply vix_same; [exact I|]. now apply (origin_same v nd i E I).
  - intros v w i j Ov Ow E. apply origin_own in Ov as (_ & Iv & Ov). apply origin_own in Ow as (_ & Iw & Ow). rewrite !vix_own in E by assumption. exact (eix_inj sh v w i j Iv Iw E).
Qed.
Lemma v_spelled_acyclic : acyclic vgraph.
Proof.
  intros n e a E I. destruct (blocks_inv sh vnode_at (length h) n e E) as (v & i & L & J & -> & ->). unfold vnode_at in I.
  destruct (nth_error h v) as [nd|] eqn:EH; [|destruct I]. pose proof (WS v nd EH) as W.
  assert (LT : forall w j, In w (vinputs nd) -> inside (sh w) j -> vix w j < eix sh v i) by (intros w j Iw Ij; exact (vix_lt v i (S w) w j ltac:(lia) (GA v nd w EH Iw) Ij)).
  assert (AL : forall w, In w (vinputs nd) -> broadcasts (sh w) (sh v) -> vix w (align (sh w) i) < eix sh v i).
  { intros w Iw B. apply LT; [exact Iw|]. exact (align_inside _ _ _ B J). }
  destruct nd as [c|d s l|u b|m l|b c|b c|k l|l|axis l|o b|axis b|xs t b]; cbn [node_inputs vinputs] in *.
  - destruct I.
  - apply in_map_iff in I as (p & <- & P). apply AL; [exact P|]. exact (proj2 W p P).
  - destruct I as [<-|[]]. apply LT; [now left|]. now rewrite <- W.
  - apply in_map_iff in I as (p & <- & P). apply AL; [exact P|]. apply (bc_sub (map sh l)); [exact W|now apply in_map].
  - destruct I as [<-|[<-|[]]]; apply AL; cbn; auto; apply (bc_sub [sh b; sh c]); cbn; auto.
  - destruct I as [<-|[<-|[]]]; apply AL; cbn; auto; apply (bc_sub [sh b; sh c]); cbn; auto.
  - apply in_flat_map in I as (w & Iw & I). apply in_map_iff in I as (j & <- & Ij). apply LT; [exact Iw|]. now apply positions_in.
  - destruct I.
  - destruct I.
  - destruct I.
  - destruct W as (Es & ax & n & A & En). rewrite (proj2 (norm_axis_spec _ _ _) A) in I. destruct (nth ax i 0) as [|k] eqn:Ek; [destruct I|].
    assert (Lx : ax < length i) by (rewrite (inside_len _ _ J); apply nth_error_Some; congruence).
    assert (Ex : nth_error i ax = Some (S k)) by (rewrite (nth_error_nth' i 0 Lx); congruence).
    pose proof (inside_nth _ _ _ _ _ J Ex En) as Lk. assert (J' : inside (sh v) (set_nth ax k i)) by (apply (inside_set _ _ _ _ _ J En); lia).
    destruct I as [<-|[<-|[]]]; [|apply LT; [now left|now rewrite <- Es]]. destruct (origin v (set_nth ax k i)) as [[b' j']|] eqn:O.
    + rewrite (vix_same _ _ _ _ J' O). destruct (origin_lt _ _ _ _ J' O). apply (vix_lt v i (S b')); [lia|lia|assumption].
    + rewrite (vix_own _ _ O). unfold eix. pose proof (find_pos_before (sh v) i ax k _ J Ex (same_but_set ax k i Lx) (set_nth_at ax k i Lx)). unfold ps. lia.
  - destruct I.
Qed.
End Spell.
Lemma v_spell_out afs h sh : vacyclic h -> v_well_shaped afs h sh -> reads_inside afs -> exists fs g ix, v_spelled_out afs fs h sh g ix /\ acyclic g.
Proof.
  intros GA WS RI. exists (vfs afs h sh), (vgraph h sh), (vix h sh). split; [now apply v_spelled|]. exact (v_spelled_acyclic afs h sh GA WS).
Qed.
Lemma v_density ddt afs fs dlp pdf h sh g ix req y z base rho J ps r : vacyclic h -> acyclic g -> v_well_shaped afs h sh -> v_spelled_out afs fs h sh g ix -> tidy ddt h sh req ->
  (forall v, In v req -> v < length h /\ nshp (y v) = sh v /\ forall i, inside (sh v) i -> nelt (y v) i = Fin (z (ix v i))) ->
  let els := flat_map (elements_of sh ix) req in
  NoDup els ->
  (forall v, In v els -> svalue fs g rho v (z v)) ->
  (forall v, In v els -> smooth fs g els rho v (base v) /\ (rv_dtype ddt g (base v) <> DInt \/ base v = v)) ->
  (forall v w, In v els -> In w els -> base v = base w -> v = w) ->
  (forall v d l, In v els -> nth_error g (base v) = Some (SRv d l) -> List.Forall (known g els) l) ->
  Forall2 (fun v p => draw_density fs g pdf rho (base v) p) els ps ->
  (forall v d l rs, In v els -> nth_error g (base v) = Some (SRv d l) -> Forall2 (svalue fs g rho) l rs ->
    denotes (dlp d (map Fin rs) (Fin (rho (base v)))) (pdf d rs (rho (base v)))) ->
  (forall i j, i < length els -> j < length els -> partial fs g rho (nth i els 0) (base (nth j els 0)) (J i j)) ->
  v_joint ddt afs dlp h req y = Some r ->
  RMx.rdet (length els) J <> 0%R /\ denotes r (SpecVec.rprod ps / Rabs (RMx.rdet (length els) J))%R.
Proof.
  intros GA AC WS SO TI RQ els ND H1 H2 H3 H4 H5 H6 H7 V.
  destruct (sys_joint ddt fs dlp pdf g els z base rho J ps AC ND H1 H2 H3 H4 H5 H6 H7) as (D & r' & E & R).
  assert (E' : joint ddt fs dlp g els (fun v => Fin (z v)) = Some r).
  { apply (v_elements ddt afs fs dlp h sh g ix req y (fun v => Fin (z v)) GA AC WS SO TI); [|exact V].
    intros v I. destruct (RQ v I) as (L & S & X). split; [exact L|]. split; [exact S|]. intros i Ii. now rewrite X. }
  split; [exact D|]. congruence.
Qed.

(** ** K ~ Poisson(1) and X ~ N(0, 1) of shape (1,), E = exp(concatenate([K, X])) *)
Definition mj_num (c : R) : nd xr := {| nshp := []; nelt := fun _ => Fin c |}.
Definition mj_h : list vnode := [VCon (mj_num 0); VCon (mj_num 1); VRv 1 [1] [1]; VRv 0 [1] [0; 1]; VJoin 0 [2; 3]; VOne UExp 4].
Definition mj_dt (d : nat) : dtype := if d =? 1 then DInt else DFloat.
Definition mj_lp (d : nat) (ps : list xr) (x : xr) : res xr := match d, ps with 1, [m] => poisson_logprob m x | 0, [m; s] => normal_logprob m s x | _, _ => Raise end.
Definition mj_afs (_ : nat) (_ : list (nd xr)) : nd xr := mj_num 0.
Definition mj_y (k x : R) (_ : nat) : nd xr := {| nshp := [2]; nelt := fun i => Fin (exp (if hd 0 i =? 0 then k else x)) |}.
Lemma mj_eval dlp k x p q : dlp 1 [Fin 1] (Fin k) = Val (Fin p) -> dlp 0 [Fin 0; Fin 1] (Fin x) = Val (Fin q) ->
  v_joint mj_dt mj_afs dlp mj_h [5] (mj_y k x) = Some (Val (Fin ((p + - k) + ((q + - x) + 0) + 0))).
Proof.
  intros P Q. assert (XL : forall z, xlog (Fin (exp z)) = Fin z).
  { intros z. unfold xlog. destruct (Rlt_dec 0 (exp z)) as [_|N]; [now rewrite ln_exp|]. pose proof (exp_pos z). contradiction. }
  unfold v_joint. cbn -[xlog]. unfold factor_sum. cbn -[xlog]. rewrite !XL. rewrite P, Q. cbn -[xlog]. reflexivity.
Qed.
Lemma mixed_join : exists r,
  v_joint mj_dt mj_afs mj_lp mj_h [5] (mj_y (INR 1) 0) = Some r /\
  denotes r (poisson_pmf 1 1 * (normal_pdf 0 1 0 / exp 0) / exp (INR 1)) /\
  ~ denotes r (poisson_pmf 1 1 * (normal_pdf 0 1 0 / exp 0)).
Proof.
  pose proof (poisson_mass 1 1 ltac:(lra)) as P. pose proof (normal_ok 0 1 0 ltac:(lra)) as Q.
  assert (Pp : (0 < poisson_pmf 1 1)%R) by (unfold poisson_pmf; cbn; posi).
  assert (Qp : (0 < normal_pdf 0 1 0)%R) by (unfold normal_pdf; posi).
  destruct (poisson_logprob (Fin 1) (Fin (INR 1))) as [[p| | |]|] eqn:EP; cbn in P; try contradiction; [|lra].
  destruct (normal_logprob (Fin 0) (Fin 1) (Fin 0)) as [[q| | |]|] eqn:EQ; cbn in Q; try contradiction; [|lra].
  eexists. split; [exact (mj_eval mj_lp (INR 1) 0 p q EP EQ)|].
  assert (D : exp (p + - INR 1 + (q + - 0 + 0) + 0) = (poisson_pmf 1 1 * (normal_pdf 0 1 0 / exp 0) / exp (INR 1))%R).
  { rewrite <- P, <- Q. rewrite exp_0. replace (p + - INR 1 + (q + - 0 + 0) + 0)%R with (p + q + - INR 1)%R by ring. rewrite !exp_plus, exp_Ropp. pose proof (exp_pos (INR 1)). field. lra. }
  split; [exact D|]. unfold denotes. rewrite D. intros X. rewrite exp_0 in X. cbn [INR] in X. pose proof (exp_ineq1 1 ltac:(lra)) as E1.
  assert (M : (0 < poisson_pmf 1 1 * (normal_pdf 0 1 0 / 1))%R) by (apply Rmult_lt_0_compat; lra). set (m := (poisson_pmf 1 1 * (normal_pdf 0 1 0 / 1))%R) in *.
  assert (m = m * exp 1)%R by (rewrite <- X at 2; field; lra). nra.
Qed.
