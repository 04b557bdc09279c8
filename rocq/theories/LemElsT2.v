(** Lemmas on models of arrays in the transformed space. *)
From Coq Require Import Reals Lra Lia List Arith Bool.
From Coquelicot Require Import Coquelicot.
From Verif Require Import XR ModelDist ModelVec ModelIdx SpecIdx LemIdx LemIdx2 ModelTen ModelConv ModelSub LemSub ModelTrans ModelElem SpecElem LemElem ModelBatch LemBatch LemBatch2
  ModelJoint LemJoint ModelNest ModelSys SpecSys LemSys ModelSysT SpecSysT LemSysT ModelEls SpecEls LemEls LemEls2 ModelElsT SpecElsT LemElsT.
Import ListNotations.
Open Scope nat_scope.

Lemma g_operands_inputs h v nd : nth_error h v = Some nd -> g_operands h v = ginputs nd.
Proof. intros E. unfold g_operands. rewrite E. now destruct nd. Qed.

(** every element of an array is used when the array is broadcast *)
Lemma align_onto a s i : broadcasts a s -> ~ In 0 s -> inside a i -> exists j, inside s j /\ aligned a j i.
Proof.
  intros B NZ I. pose proof (bc_len a s B) as L.
  assert (G : exists j, length j = length s /\ forall r, r < length s -> rnth 0 j r < rnth 1 s r /\ (r < length a -> rnth 0 i r = if rnth 1 a r =? 1 then 0 else rnth 0 j r)).
  { exists (rev (map (fun r => if (r <? length a) && negb (rnth 1 a r =? 1) then rnth 0 i r else 0) (seq 0 (length s)))).
    split; [now rewrite rev_length, map_length, seq_length|]. intros r R. assert (LI : length i = length a) by exact (inside_length a i I).
    assert (Ej : rnth 0 (rev (map (fun r => if (r <? length a) && negb (rnth 1 a r =? 1) then rnth 0 i r else 0) (seq 0 (length s)))) r =
      if (r <? length a) && negb (rnth 1 a r =? 1) then rnth 0 i r else 0).
    { unfold rnth at 1. rewrite rev_involutive. rewrite (nth_indep _ 0 ((fun r => if (r <? length a) && negb (rnth 1 a r =? 1) then rnth 0 i r else 0) 0)) by (rewrite map_length, seq_length; lia).
      rewrite (map_nth (fun r => if (r <? length a) && negb (rnth 1 a r =? 1) then rnth 0 i r else 0)), seq_nth by lia. reflexivity. }
    rewrite Ej. assert (PS : 0 < rnth 1 s r).
    { unfold rnth. assert (X : In (nth r (rev s) 1) s) by (apply in_rev, nth_In; rewrite rev_length; lia). destruct (nth r (rev s) 1); [contradiction|lia]. }
    assert (IA : r < length a -> rnth 0 i r < rnth 1 a r).
    { intros Ra. unfold rnth. rewrite !rev_nth by lia. rewrite LI. clear - I Ra. assert (K : length a - S r < length a) by lia. generalize dependent (length a - S r). intros k K.
      unfold inside in I. clear Ra. revert k K. induction I as [|x d i a H I IH]; intros k K; cbn in K; [lia|]. destruct k; [exact H|]. cbn. apply IH. lia. }
    destruct (Nat.ltb_spec r (length a)) as [Ra|Ra]; cbn [andb]; [|split; [exact PS|lia]].
    specialize (IA Ra). destruct (bc_col [a; s] s a r B (or_introl eq_refl)) as [V|V].
    - rewrite V in *. cbn [Nat.eqb negb]. split; [exact PS|]. intros _. lia.
    - destruct (rnth 1 a r =? 1) eqn:E1; cbn [negb]; [apply Nat.eqb_eq in E1; rewrite E1 in IA; split; [exact PS|intros _; lia]|]. split; [lia|reflexivity]. }
  destruct G as (j & Lj & G). exists j. split.
  - unfold inside. assert (K : forall k, k < length s -> nth k j 0 < nth k s 1).
    { intros k Hk. destruct (G (length s - S k)) as [H _]; [lia|]. unfold rnth in H. rewrite !rev_nth in H by lia. rewrite Lj in H. now replace (length s - S (length s - S k)) with k in H by lia. }
    clear - Lj K. revert j Lj K. induction s as [|d s IH]; intros [|x j] Lj K; try discriminate; constructor; [exact (K 0 (Nat.lt_0_succ _))|].
    apply IH; [now injection Lj|]. intros k Hk. exact (K (S k) (proj1 (Nat.succ_lt_mono _ _) Hk)).
  - split; [exact (inside_length a i I)|]. intros r R. destruct (G r) as [_ H]; [lia|]. now apply H.
Qed.

Section Graphs.
Variables (ddt : nat -> dtype) (afs : nat -> list (nd xr) -> nd xr) (fs : nat -> list xr -> xr) (dlp : nat -> list xr -> xr -> res xr).
Variables (h : list gnode) (sh : nat -> list nat) (g : list snode) (ix : nat -> list nat -> nat).
Variables (req : list nat).
Hypothesis GA : gacyclic h.
Hypothesis AC : acyclic g.
Hypothesis WS : well_shaped afs h sh.
Hypothesis NE : nonempty h sh.
Hypothesis SO : spelled_out afs fs h sh g ix.
Notation req' := (flat_map (elements_of sh ix) req).
Notation sdt := (rv_dtype ddt g).

Lemma input_shape v nd a : nth_error h v = Some nd -> (forall k l, nd <> GOther k l) -> In a (ginputs nd) -> broadcasts (sh a) (sh v).
Proof.
  intros E NO I. pose proof (WS v nd E) as W. destruct nd as [c|d s ps|u b|n l|b c|b c|k l]; cbn [ginputs] in I.
  - destruct I.
  - now apply W.
  - destruct I as [<-|[]]. rewrite W. apply broadcasts_refl.
  - apply (bc_sub (map sh l)); [exact W|now apply in_map].
  - apply (bc_sub [sh b; sh c]); [exact W|]. destruct I as [<-|[<-|[]]]; cbn; auto.
  - apply (bc_sub [sh b; sh c]); [exact W|]. destruct I as [<-|[<-|[]]]; cbn; auto.
  - now elim (NO k l).
Qed.
(** the inputs of the node of an element *)
Lemma element_inputs v nd i e : nth_error h v = Some nd -> inside (sh v) i -> nth_error g (ix v i) = Some e -> element_node afs fs sh ix v i nd e ->
  node_inputs e = match nd with GOther _ l => flat_map (elements_of sh ix) l | _ => map (fun a => ix a (align (sh a) i)) (ginputs nd) end.
Proof.
  intros E I Ee N. assert (B : (forall k l, nd <> GOther k l) -> forall a, In a (ginputs nd) -> broadcasts (sh a) (sh v)) by (intros NO a; now apply input_shape).
  destruct nd as [c|d s ps|u b|n l|b c|b c|k l]; cbn [element_node ginputs map] in *.
  - now rewrite N.
  - destruct N as (l & -> & F). cbn [node_inputs]. apply (args_eq sh ix ps (sh v) i l); [|exact I|exact F]. apply B. discriminate.
  - rewrite N. cbn. rewrite <- (WS v _ E). now rewrite (align_self _ _ I).
  - destruct N as (m & -> & F). cbn [node_inputs]. apply (args_eq sh ix l (sh v) i m); [|exact I|exact F]. apply B. discriminate.
  - destruct N as (j & k & A1 & A2 & ->). cbn. rewrite (aligned_eq (sh b) (sh v) i j), (aligned_eq (sh c) (sh v) i k); auto; apply B; cbn; auto; discriminate.
  - destruct N as (j & k & A1 & A2 & ->). cbn. rewrite (aligned_eq (sh b) (sh v) i j), (aligned_eq (sh c) (sh v) i k); auto; apply B; cbn; auto; discriminate.
  - destruct N as (k' & -> & _). reflexivity.
Qed.

(** ** operands *)
Section Vals.
Variables (y : nat -> nd xr) (y' : nat -> xr).
Hypothesis RQ : forall v, In v req -> v < length h /\ nshp (y v) = sh v /\ forall i, inside (sh v) i -> y' (ix v i) = nelt (y v) i.
Lemma operand_rel v nd : nth_error h v = Some nd -> exists args, g_operand_values ddt afs h req y v = Val args /\ map nshp args = map sh (ginputs nd) /\
  forall i, inside (sh v) i -> operands_at nd i args (operand_values ddt fs g req' y' (ix v i)).
Proof.
  intros E. unfold g_operand_values. rewrite (g_operands_inputs h v nd E).
  assert (VL : forall l, (forall a, In a l -> a < length h) -> exists V, map (fun p => g_val (g_unfold ddt afs h req y (length h) p)) l = map Val V /\ map nshp V = map sh l /\
    Forall2 (fun p a => nshp a = sh p /\ forall j, inside (sh p) j -> nelt a j = a_val (annotate sdt fs (unfold g req' y' (length g) (ix p j)))) l V).
  { induction l as [|p l IH]; intros HL; [exists []; repeat split; constructor|]. destruct IH as (V & V1 & V2 & V3); [intros; apply HL; now right|].
    pose proof (HL p (or_introl eq_refl)) as Lp. destruct (unfold_rel ddt afs fs h sh g ix req y y' GA AC WS NE SO RQ (length h) p Lp Lp) as (_ & (r & Er & Es & El) & _).
    exists (r :: V). cbn [map]. rewrite Er, V1, V2, Es. split; [reflexivity|]. split; [reflexivity|]. constructor; [split; [exact Es|exact El]|exact V3]. }
  destruct (VL (ginputs nd)) as (V & V1 & V2 & V3). { intros a I. pose proof (in_h h GA v nd a E I). lia. }
  exists V. rewrite V1, rseq_val. split; [reflexivity|]. split; [exact V2|]. intros i I.
  destruct (so_node _ _ _ _ _ _ SO v nd i E I) as (e & Ee & N). unfold operand_values. rewrite (operands_inputs g _ e Ee), (element_inputs v nd i e E I Ee N).
  assert (K : (forall k l, nd <> GOther k l) -> Forall2 (fun a x => exists j, aligned (nshp a) i j /\ x = nelt a j) V
    (map (fun p => a_val (annotate sdt fs (unfold g req' y' (length g) p))) (map (fun a => ix a (align (sh a) i)) (ginputs nd)))).
  { intros NO. rewrite map_map. assert (B : forall a, In a (ginputs nd) -> broadcasts (sh a) (sh v)) by (intros a; now apply input_shape).
    clear - V3 B I. induction V3 as [|p a l V (Es & El) F IH]; [constructor|]. cbn [map]. constructor; [|apply IH; intros; apply B; now right].
    pose proof (B p (or_introl eq_refl)) as Bp. exists (align (sh p) i). rewrite Es. split; [apply aligned_iff; [rewrite (inside_length _ _ I); exact (bc_len _ _ Bp)|reflexivity]|].
    symmetry. apply El. exact (align_inside _ _ _ Bp I). }
  destruct nd as [c|d s ps|u b|n l|b c|b c|k l]; try (apply K; discriminate). cbn [operands_at ginputs] in *.
  clear - V3. induction V3 as [|p a l V (Es & El) F IH]; [reflexivity|]. cbn [flat_map]. rewrite map_app, IH. f_equal. unfold elements_of. rewrite Es, map_map. apply map_ext_in.
  intros j J. symmetry. apply El. now apply positions_in.
Qed.
End Vals.

Variables (tf : nat -> option (list (nd xr) -> atr)) (tf' : nat -> option (list xr -> tr)) (z : nat -> nd xr) (z' : nat -> xr).
Hypothesis TS : transforms_spelled_out h sh ix tf tf'.
Hypothesis EA : even_axes h sh tf.
Hypothesis RZ : forall v, In v req -> v < length h /\ nshp (z v) = sh v /\ forall i, inside (sh v) i -> z' (ix v i) = nelt (z v) i.
Notation YV := (g_value_of ddt afs h req tf z).
Notation yv := (value_of ddt fs g req' tf' z').

Lemma g_unfold_ext N y1 y2 : (forall q, In q req -> q < N -> y1 q = y2 q) -> forall fuel v, v < N -> g_unfold ddt afs h req y1 fuel v = g_unfold ddt afs h req y2 fuel v.
Proof.
  intros Q. induction fuel as [|fuel IH]; intros v L; [reflexivity|]. cbn [g_unfold]. destruct (mem v req) eqn:M; [apply mem_In in M; now rewrite Q|].
  unfold g_node. destruct (nth_error h v) as [nd|] eqn:E; [|reflexivity].
  assert (H : forall a, In a (ginputs nd) -> g_unfold ddt afs h req y1 fuel a = g_unfold ddt afs h req y2 fuel a) by (intros a I; apply IH; pose proof (GA v nd a E I); lia).
  destruct nd as [c|d s ps|u a|n l|a b|a b|k l]; cbn [ginputs] in H; try reflexivity.
  - now rewrite (H a) by (cbn; auto).
  - f_equal. apply map_ext_in. intros a I. now apply H.
  - now rewrite (H a), (H b) by (cbn; auto).
  - now rewrite (H a), (H b) by (cbn; auto).
  - assert (E1 : existsb (fun a => g_rand (g_unfold ddt afs h req y1 fuel a)) l = existsb (fun a => g_rand (g_unfold ddt afs h req y2 fuel a)) l).
    { clear - H. induction l as [|a l IH]; [reflexivity|]. cbn. rewrite IH by (intros; apply H; now right). now rewrite (H a) by now left. }
    rewrite E1. f_equal. f_equal. f_equal. apply map_ext_in. intros a I. now rewrite H.
Qed.
Lemma g_operand_ext y1 y2 v : (forall q, In q req -> q < v -> y1 q = y2 q) -> g_operand_values ddt afs h req y1 v = g_operand_values ddt afs h req y2 v.
Proof.
  intros Q. unfold g_operand_values. f_equal. apply map_ext_in. intros a I. f_equal.
  destruct (nth_error h v) as [nd|] eqn:E; [|unfold g_operands in I; rewrite E in I; destruct I]. rewrite (g_operands_inputs h v nd E) in I. apply (g_unfold_ext v); [exact Q|]. exact (GA v nd a E I).
Qed.
Lemma g_values_length n : length (g_values ddt afs h req tf z n) = n.
Proof. induction n as [|n IH]; [reflexivity|]. cbn [g_values]. rewrite app_length, IH. cbn. lia. Qed.
Lemma g_values_stable n d : forall m i, i < n -> n <= m -> nth i (g_values ddt afs h req tf z m) d = nth i (g_values ddt afs h req tf z n) d.
Proof.
  induction m as [|m IH]; intros i L M; [lia|]. destruct (Nat.eq_dec n (S m)) as [->|N]; [reflexivity|]. cbn [g_values]. rewrite app_nth1 by (rewrite g_values_length; lia). apply IH; lia.
Qed.
Lemma g_value_eq v : v < length h -> YV v = g_untransformed ddt afs h req tf z YV v.
Proof.
  intros L. unfold g_value_of at 1. rewrite (g_values_stable (S v)) by lia. cbn [g_values]. rewrite app_nth2 by (rewrite g_values_length; lia). rewrite g_values_length, Nat.sub_diag. cbn [nth].
  unfold g_untransformed. destruct (tf v) as [f|]; [|reflexivity]. rewrite (g_operand_ext (fun i => nth i (g_values ddt afs h req tf z v) (z i)) YV v); [reflexivity|].
  intros q _ Lq. unfold g_value_of. symmetry. apply g_values_stable; lia.
Qed.
(** what the transform of [v] is when the operands have the right values *)
Lemma transform_rel y y' v F : (forall v, In v req -> v < length h /\ nshp (y v) = sh v /\ forall i, inside (sh v) i -> y' (ix v i) = nelt (y v) i) -> In v req -> tf v = Some F ->
  exists args, g_operand_values ddt afs h req y v = Val args /\ fits (sh v) (F args) /\
    forall i, inside (sh v) i -> exists f, tf' (ix v i) = Some f /\ f (operand_values ddt fs g req' y' (ix v i)) = tr_at i (F args).
Proof.
  intros RQ I T. destruct (RZ v I) as (L & _). destruct (nth_error h v) as [nd|] eqn:E; [|apply nth_error_Some in L; congruence].
  destruct (operand_rel y y' RQ v nd E) as (args & A1 & A2 & A3). exists args. split; [exact A1|]. destruct (some_position (sh v) (NE v L)) as (i0 & I0).
  assert (G : forall i, inside (sh v) i -> exists f, tf' (ix v i) = Some f /\ fits (sh v) (F args) /\ f (operand_values ddt fs g req' y' (ix v i)) = tr_at i (F args)).
  { intros i J. pose proof (TS v nd i E J) as H. rewrite T in H. destruct H as (f & Ef & H). exists f. split; [exact Ef|]. destruct (H args _ A2 (A3 i J)) as [Fi Et].
    split; [split; [exact Fi|exact (EA v nd F args E T A2)]|]. exact (element_at (sh v) i _ _ J Et Fi). }
  split; [destruct (G i0 I0) as (_ & _ & Fi & _); exact Fi|]. intros i J. destruct (G i J) as (f & E1 & _ & E2). eauto.
Qed.
Lemma values_rel v : In v req -> v < length h /\ nshp (YV v) = sh v /\ forall i, inside (sh v) i -> yv (ix v i) = nelt (YV v) i.
Proof.
  induction v as [v IH] using lt_wf_ind. intros I. destruct (RZ v I) as (L & Ez & Ezi). split; [exact L|].
  set (y := fun q => if q <? v then YV q else {| nshp := sh q; nelt := fun i => yv (ix q i) |}).
  assert (RQ : forall q, In q req -> q < length h /\ nshp (y q) = sh q /\ forall i, inside (sh q) i -> yv (ix q i) = nelt (y q) i).
  { intros q Q. unfold y. destruct (Nat.ltb_spec q v) as [Lq|Lq]; [now apply IH|]. split; [now apply (RZ q Q)|]. split; reflexivity. }
  rewrite g_value_eq by exact L. unfold g_untransformed.
  assert (EE : forall i, inside (sh v) i -> yv (ix v i) = untransformed ddt fs g req' tf' z' yv (ix v i)).
  { intros i J. apply value_eq; [exact AC|]. now apply (ix_range afs fs h sh g ix SO). }
  destruct (tf v) as [F|] eqn:T.
  - rewrite (g_operand_ext YV y v) by (intros q _ Lq; unfold y; now apply Nat.ltb_lt in Lq; rewrite Lq).
    destruct (transform_rel y yv v F RQ I T) as (args & -> & Fi & H). cbn [bind]. destruct (back_rel (F args) (sh v) (z v) (proj1 Fi) Ez) as (bv & -> & Es & Eb).
    split; [exact Es|]. intros i J. rewrite (EE i J). unfold untransformed. destruct (H i J) as (f & -> & ->). rewrite (Ezi i J), (Eb i J). reflexivity.
  - split; [exact Ez|]. intros i J. rewrite (EE i J). unfold untransformed. destruct (nth_error h v) as [nd|] eqn:E; [|apply nth_error_Some in L; congruence].
    pose proof (TS v nd i E J) as H. rewrite T in H. rewrite H. now apply Ezi.
Qed.

(** ** which variables are below others *)
Notation gfrom := (array_from h).
Lemma g_below_sound v : forall fuel w, g_below h fuel w v = true -> gfrom w v.
Proof.
  induction fuel as [|fuel IH]; intros w B; [discriminate|]. cbn [g_below] in B. apply existsb_exists in B as (a & I & B).
  destruct (nth_error h w) as [nd|] eqn:E; [|unfold g_operands in I; rewrite E in I; destruct I]. rewrite (g_operands_inputs h w nd E) in I.
  apply orb_prop in B as [B|B]; [apply Nat.eqb_eq in B; subst; exact (af_here h w v nd E I)|exact (af_there h w a v nd E I (IH a B))].
Qed.
Lemma g_below_complete v w : gfrom w v -> forall fuel, w < fuel -> g_below h fuel w v = true.
Proof.
  induction 1 as [w v nd E I|w a v nd E I C IH]; intros fuel L; (destruct fuel as [|fuel]; [lia|]); cbn [g_below]; apply existsb_exists; rewrite (g_operands_inputs h w nd E).
  - exists v. split; [exact I|]. now rewrite Nat.eqb_refl.
  - exists a. split; [exact I|]. pose proof (GA w nd a E I). rewrite IH by lia. apply orb_true_r.
Qed.
Lemma gfrom_lt w v : gfrom w v -> v < w.
Proof. induction 1 as [w v nd E I|w a v nd E I C IH]; pose proof (GA w nd _ E I); lia. Qed.
(** the inputs of an element are elements of the inputs *)
Lemma input_element w nd j e x : nth_error h w = Some nd -> inside (sh w) j -> nth_error g (ix w j) = Some e -> In x (node_inputs e) ->
  exists a k, In a (ginputs nd) /\ a < length h /\ inside (sh a) k /\ x = ix a k.
Proof.
  intros E J Ee X. destruct (so_node _ _ _ _ _ _ SO w nd j E J) as (e' & Ee' & N). rewrite Ee in Ee'. injection Ee' as <-. rewrite (element_inputs w nd j e E J Ee N) in X.
  assert (LA : forall a, In a (ginputs nd) -> a < length h) by (intros a A; pose proof (in_h h GA w nd a E A); lia).
  assert (K : (forall k l, nd <> GOther k l) -> In x (map (fun a => ix a (align (sh a) j)) (ginputs nd)) -> exists a k, In a (ginputs nd) /\ a < length h /\ inside (sh a) k /\ x = ix a k).
  { intros NO Y. apply in_map_iff in Y as (a & <- & A). exists a, (align (sh a) j). repeat split; auto. apply (align_inside _ (sh w)); [|exact J]. now apply (input_shape w nd). }
  destruct nd as [c|d s ps|u b|n l|b c|b c|k l]; try (apply K; [discriminate|exact X]). cbn [ginputs] in *.
  apply in_flat_map in X as (a & A & X). unfold elements_of in X. apply in_map_iff in X as (i & <- & Y). apply positions_in in Y. exists a, i. auto.
Qed.
Lemma from_elements : forall x y, computed_from g x y -> forall w v j i, x = ix w j -> y = ix v i -> w < length h -> v < length h -> inside (sh w) j -> inside (sh v) i -> gfrom w v.
Proof.
  induction 1 as [x y e Ee I|x a y e Ee I C IH]; intros w v j i -> -> Lw Lv J K; (destruct (nth_error h w) as [nd|] eqn:E; [|apply nth_error_Some in Lw; congruence]).
  - destruct (input_element w nd j e _ E J Ee I) as (b & k & B & Lb & Ik & Eq). destruct (so_inj _ _ _ _ _ _ SO v b i k Lv Lb K Ik Eq) as [-> _]. exact (af_here h w b nd E B).
  - destruct (input_element w nd j e _ E J Ee I) as (b & k & B & Lb & Ik & Eq). apply (af_there h w b v nd E B). exact (IH b v k i Eq eq_refl Lb Lv Ik K).
Qed.
Lemma to_element w nd v i : nth_error h w = Some nd -> In v (ginputs nd) -> inside (sh v) i -> exists j e, inside (sh w) j /\ nth_error g (ix w j) = Some e /\ In (ix v i) (node_inputs e).
Proof.
  intros E V I. assert (Lw : w < length h) by (apply nth_error_Some; congruence).
  assert (K : (forall k l, nd <> GOther k l) -> exists j e, inside (sh w) j /\ nth_error g (ix w j) = Some e /\ In (ix v i) (node_inputs e)).
  { intros NO. pose proof (input_shape w nd v E NO V) as B. destruct (align_onto _ _ i B (NE w Lw) I) as (j & J & A).
    destruct (so_node _ _ _ _ _ _ SO w nd j E J) as (e & Ee & N). exists j, e. split; [exact J|]. split; [exact Ee|]. rewrite (element_inputs w nd j e E J Ee N).
    pose proof (aligned_eq _ _ _ _ B J A) as ->. destruct nd; try (apply in_map_iff; exists v; split; [reflexivity|exact V]). now elim (NO k l). }
  destruct nd as [c|d s ps|u b|n l|b c|b c|k l]; try (apply K; discriminate).
  destruct (some_position (sh w) (NE w Lw)) as (j & J). destruct (so_node _ _ _ _ _ _ SO w _ j E J) as (e & Ee & N). exists j, e. split; [exact J|]. split; [exact Ee|].
  rewrite (element_inputs w _ j e E J Ee N). apply in_flat_map. exists v. split; [exact V|]. unfold elements_of. apply in_map. now apply positions_in.
Qed.
Lemma to_elements w v : gfrom w v -> forall i, inside (sh v) i -> exists j, inside (sh w) j /\ computed_from g (ix w j) (ix v i).
Proof.
  induction 1 as [w v nd E V|w a v nd E A C IH]; intros i I.
  - destruct (to_element w nd v i E V I) as (j & e & J & Ee & X). exists j. split; [exact J|]. exact (c_here g _ _ e Ee X).
  - destruct (IH i I) as (k & K & F). destruct (to_element w nd a k E A K) as (j & e & J & Ee & X). exists j. split; [exact J|]. exact (c_there g _ _ _ e Ee X F).
Qed.
Lemma output_rel before v i pre : (forall w, In w before -> w < length h) -> v < length h -> inside (sh v) i -> (forall k, In k pre -> inside (sh v) k) ->
  output_transformed g (flat_map (elements_of sh ix) before ++ map (ix v) pre) (ix v i) = g_output_transformed h before v.
Proof.
  intros LB Lv I PR. unfold output_transformed, g_output_transformed. rewrite forallb_app.
  assert (X : forallb (fun w => negb (below g (length g) w (ix v i))) (map (ix v) pre) = true).
  { apply forallb_forall. intros x Hx. apply in_map_iff in Hx as (k & <- & K). apply negb_true_iff. destruct (below g (length g) (ix v k) (ix v i)) eqn:B; [|reflexivity].
    exfalso. apply below_sound in B. pose proof (from_elements _ _ B v v k i eq_refl eq_refl Lv Lv (PR k K) I) as G. apply gfrom_lt in G. lia. }
  rewrite X, andb_true_r. clear X. induction before as [|w before IH]; [reflexivity|]. cbn [flat_map forallb]. rewrite forallb_app, IH by (intros; apply LB; now right). f_equal.
  pose proof (LB w (or_introl eq_refl)) as Lw. destruct (g_below h (length h) w v) eqn:B; cbn [negb].
  - apply not_true_is_false. intros H. rewrite forallb_forall in H. apply g_below_sound in B. destruct (to_elements w v B i I) as (j & J & C).
    specialize (H (ix w j) ltac:(apply in_map; now apply positions_in)). apply negb_true_iff in H. rewrite (below_complete g AC _ _ C) in H; [discriminate|].
    now apply (ix_range afs fs h sh g ix SO).
  - apply forallb_forall. intros x Hx. apply in_map_iff in Hx as (j & <- & J). apply positions_in in J. apply negb_true_iff. destruct (below g (length g) (ix w j) (ix v i)) eqn:B'; [|reflexivity].
    exfalso. apply below_sound in B'. pose proof (from_elements _ _ B' w v j i eq_refl eq_refl Lw Lv J I) as G. rewrite (g_below_complete v w G (length h) Lw) in B. discriminate.
Qed.

(** ** factors *)
Variable uj : bool.
Notation gct := (g_conditional_trans ddt afs dlp h req tf uj z).
Notation ct := (conditional_trans ddt fs dlp g req' tf' uj z').
Lemma cond_trans_rel before v : In v req -> (forall w, In w before -> w < length h) ->
  match gct before v with
  | None => forall i pre, inside (sh v) i -> ct (flat_map (elements_of sh ix) before ++ map (ix v) pre) (ix v i) = None
  | Some r => exists a, r = Val a /\ nshp a = sh v /\ forall i pre, inside (sh v) i -> (forall k, In k pre -> inside (sh v) k) ->
      ct (flat_map (elements_of sh ix) before ++ map (ix v) pre) (ix v i) = Some (nelt a i)
  end.
Proof.
  intros I LB. pose proof (conditional_rel ddt afs fs dlp h sh g ix req YV yv GA AC WS NE SO values_rel v I) as C. unfold g_conditional_trans, conditional_trans.
  destruct (RZ v I) as (L & Ez & Ezi). destruct (g_conditional ddt afs dlp h req YV v) as [r|].
  - destruct C as (l & -> & El & C). destruct (tf v) as [F|] eqn:T.
    + destruct (transform_rel YV yv v F values_rel I T) as (args & -> & Fi & H). cbn [bind]. destruct (back_rel (F args) (sh v) (z v) (proj1 Fi) Ez) as (bv & -> & Es & Eb). cbn [bind].
      destruct (fits_rel (F args) (sh v) (z v) Fi Ez) as (j & J1 & J2 & J3). destruct (uj && g_output_transformed h before v) eqn:U.
      * rewrite J1. cbn [bind]. rewrite El, (proj1 (proj2 (bcasts _ _ J2))). cbn [bind]. eexists. split; [reflexivity|]. split; [reflexivity|]. intros i pre K PR. rewrite (C i K).
        destruct (H i K) as (f & -> & ->). rewrite (Ezi i K), (Eb i K). cbn [bind nelt]. rewrite (align_self _ _ K). rewrite (output_rel before v i pre LB L K PR), U.
        destruct (nelt l i) as [x|]; [|reflexivity]. cbn [bind]. rewrite (J3 i K). reflexivity.
      * exists l. split; [reflexivity|]. split; [exact El|]. intros i pre K PR. rewrite (C i K). destruct (H i K) as (f & -> & ->). rewrite (Ezi i K), (Eb i K). cbn [bind].
        rewrite (output_rel before v i pre LB L K PR), U. now destruct (nelt l i).
    + exists l. split; [reflexivity|]. split; [exact El|]. intros i pre K PR. rewrite (C i K). destruct (nth_error h v) as [nd|] eqn:E; [|apply nth_error_Some in L; congruence].
      pose proof (TS v nd i E K) as H. rewrite T in H. now rewrite H.
  - intros i pre K. now rewrite (C i K).
Qed.
Notation cts := (conditionals_trans ddt fs dlp g req' tf' uj z').
Lemma cts_app l : forall b m, cts b (l ++ m) = match cts b l, cts (b ++ l) m with Some x, Some y => Some (x ++ y) | _, _ => None end.
Proof.
  induction l as [|x l IH]; intros b m; [cbn; rewrite app_nil_r; now destruct (cts b m)|]. cbn [app conditionals_trans]. rewrite IH. rewrite <- app_assoc. cbn [app].
  destruct (ct b x); [|reflexivity]. destruct (cts (b ++ [x]) l); [|reflexivity]. now destruct (cts (b ++ x :: l) m).
Qed.
Lemma cts_elements b v (a : nd (res xr)) : (forall i pre, inside (sh v) i -> (forall k, In k pre -> inside (sh v) k) -> ct (b ++ map (ix v) pre) (ix v i) = Some (nelt a i)) ->
  forall l pre, (forall i, In i (pre ++ l) -> inside (sh v) i) -> cts (b ++ map (ix v) pre) (map (ix v) l) = Some (map (nelt a) l).
Proof.
  intros H. induction l as [|i l IH]; intros pre P; [reflexivity|]. cbn [map conditionals_trans]. rewrite H.
  - rewrite <- app_assoc. change ([ix v i]) with (map (ix v) [i]). rewrite <- map_app. rewrite IH; [reflexivity|]. rewrite <- app_assoc. exact P.
  - apply P, in_or_app. right. now left.
  - intros k K. apply P, in_or_app. now left.
Qed.
Lemma cts_none b l x : (forall b', ct b' x = None) -> In x l -> cts b l = None.
Proof.
  revert b. induction l as [|w l IH]; intros b H I; [destruct I|]. cbn. destruct I as [->|I]; [now rewrite H|]. rewrite IH by auto. now destruct (ct b w).
Qed.
Lemma cond_none b b' x : ct b x = None -> ct b' x = None.
Proof. unfold conditional_trans. destruct (conditional ddt fs dlp g req' yv x); [discriminate|reflexivity]. Qed.
Lemma conds_trans_rel l : forall before, incl l req -> (forall w, In w before -> w < length h) ->
  match g_conditionals_trans ddt afs dlp h req tf uj z before l with
  | None => cts (flat_map (elements_of sh ix) before) (flat_map (elements_of sh ix) l) = None
  | Some rs => exists R, rs = map Val R /\ cts (flat_map (elements_of sh ix) before) (flat_map (elements_of sh ix) l) = Some (flat_map (fun r => map (nelt r) (positions (nshp r))) R)
  end.
Proof.
  induction l as [|v l IH]; intros before I LB; [exists []; split; reflexivity|]. cbn [g_conditionals_trans flat_map]. rewrite cts_app.
  assert (Iv : In v req) by (apply I; now left). assert (Lv : v < length h) by apply (RZ v Iv).
  assert (EB : flat_map (elements_of sh ix) before ++ elements_of sh ix v = flat_map (elements_of sh ix) (before ++ [v])) by (rewrite flat_map_app; cbn; now rewrite app_nil_r).
  rewrite EB. specialize (IH (before ++ [v]) (fun x X => I x (or_intror X))). specialize (IH ltac:(intros w W; apply in_app_or in W as [W|[<-|[]]]; auto)).
  pose proof (cond_trans_rel before v Iv LB) as C. destruct (gct before v) as [r|].
  - destruct C as (a & -> & Es & C).
    assert (X : cts (flat_map (elements_of sh ix) before) (elements_of sh ix v) = Some (map (nelt a) (positions (nshp a)))).
    { rewrite Es. unfold elements_of at 2. pose proof (cts_elements (flat_map (elements_of sh ix) before) v a C (positions (sh v)) []) as P. cbn [map app] in P. rewrite app_nil_r in P. apply P. intros i J. now apply positions_in. }
    rewrite X. destruct (g_conditionals_trans ddt afs dlp h req tf uj z (before ++ [v]) l) as [rs|].
    + destruct IH as (R & -> & ->). exists (a :: R). split; reflexivity.
    + now rewrite IH.
  - destruct (some_position (sh v) (NE v Lv)) as (i & J). rewrite (cts_none _ (elements_of sh ix v) (ix v i)); [reflexivity| |apply in_map; now apply positions_in].
    intros b'. exact (cond_none _ b' _ (C i [] J)).
Qed.
Theorem els_joint_trans : g_joint_trans ddt afs dlp h req tf uj z = joint_trans ddt fs dlp g req' tf' uj z'.
Proof.
  unfold g_joint_trans, joint_trans. pose proof (conds_trans_rel req [] (fun x X => X) ltac:(intros w [])) as C. cbn [flat_map] in C.
  destruct (g_conditionals_trans ddt afs dlp h req tf uj z [] req) as [rs|].
  - destruct C as (R & -> & C). rewrite C. f_equal. rewrite <- sums_flat. rewrite map_map. reflexivity.
  - now rewrite C.
Qed.
End Graphs.
