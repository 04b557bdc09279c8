(** Lemmas on models of arrays: whole graphs, the joint log-probability. *)
From Coq Require Import Reals Lra Lia List Arith Bool.
From Coquelicot Require Import Coquelicot.
From Verif Require Import XR ModelDist ModelVec ModelIdx SpecIdx LemIdx LemIdx2 ModelTen ModelConv ModelSub LemSub ModelTrans ModelElem SpecElem LemElem LemBatch
  ModelJoint LemJoint ModelNest ModelSys SpecSys LemSys ModelEls SpecEls LemEls.
Import ListNotations.
Open Scope nat_scope.

Lemma bc_trans a b c : broadcasts a b -> broadcasts b c -> broadcasts a c.
Proof.
  intros A B. split; [|split].
  - intros x [<-|[<-|[]]]; [|lia]. pose proof (bc_len a b A). pose proof (bc_len b c B). lia.
  - right. exists c. cbn. auto.
  - intros r R. split; [|right; exists c; cbn; auto]. intros x [<-|[<-|[]]]; [|now right].
    destruct (bc_col _ _ a r A (or_introl eq_refl)) as [V|V]; [now left|]. destruct (bc_col _ _ b r B (or_introl eq_refl)) as [W|W]; [left|right]; congruence.
Qed.
Lemma bc_all l s : (forall a, In a l -> broadcasts a s) -> is_broadcast (l ++ [s]) s.
Proof.
  intros H. split; [|split].
  - intros x I. apply in_app_or in I as [I|[<-|[]]]; [exact (bc_len _ _ (H x I))|lia].
  - right. exists s. split; [apply in_or_app; right; now left|reflexivity].
  - intros r R. split; [|right; exists s; split; [apply in_or_app; right; now left|reflexivity]].
    intros x I. apply in_app_or in I as [I|[<-|[]]]; [exact (bc_col _ _ x r (H x I) (or_introl eq_refl))|now right].
Qed.
Lemma some_position s : ~ In 0 s -> exists i, inside s i.
Proof.
  induction s as [|n s IH]; intros H; [exists []; constructor|]. destruct IH as (i & I); [cbn in H; tauto|].
  exists (0 :: i). constructor; [|exact I]. destruct n; [exfalso; apply H; now left|lia].
Qed.
Lemma rseq_app' {A} (l m : list (res A)) : rseq (l ++ m) = bind (rseq l) (fun a => bind (rseq m) (fun b => Val (a ++ b))).
Proof.
  induction l as [|x l IH]; [cbn; now destruct (rseq m)|]. cbn. rewrite IH. destruct x as [x|]; [|reflexivity]. cbn.
  destruct (rseq l); cbn; [|reflexivity]. now destruct (rseq m).
Qed.
Lemma sums_flat (R : list (nd (res xr))) :
  rmap xsum (rseq (map factor_sum R)) = rmap xsum (rseq (flat_map (fun r => map (nelt r) (positions (nshp r))) R)).
Proof.
  induction R as [|r R IH]; [reflexivity|]. cbn [map flat_map rseq]. rewrite rseq_app'. unfold factor_sum at 1.
  destruct (rseq (map (nelt r) (positions (nshp r)))) as [a|]; [|reflexivity]. cbn [rmap bind].
  destruct (rseq (map factor_sum R)) as [b|], (rseq (flat_map _ R)) as [c|]; cbn in IH |- *; try discriminate; try reflexivity.
  injection IH as IH. change (fold_right xadd (Fin 0)) with xsum in *. rewrite LemJoint.xsum_app. now rewrite IH.
Qed.

Section Graphs.
Variables (ddt : nat -> dtype) (afs : nat -> list (nd xr) -> nd xr) (fs : nat -> list xr -> xr) (dlp : nat -> list xr -> xr -> res xr).
Variables (h : list gnode) (sh : nat -> list nat) (g : list snode) (ix : nat -> list nat -> nat).
Variables (req : list nat) (y : nat -> nd xr) (y' : nat -> xr).
Hypothesis GA : gacyclic h.
Hypothesis AC : acyclic g.
Hypothesis WS : well_shaped afs h sh.
Hypothesis NE : nonempty h sh.
Hypothesis SO : spelled_out afs fs h sh g ix.
Hypothesis RQ : forall v, In v req -> v < length h /\ nshp (y v) = sh v /\ forall i, inside (sh v) i -> y' (ix v i) = nelt (y v) i.
Notation req' := (flat_map (elements_of sh ix) req).
Notation sdt := (rv_dtype ddt g).
Notation unf := (unfold g req' y' (length g)).
Notation ar := (arel h sh ix).

Lemma in_h v nd a : nth_error h v = Some nd -> In a (ginputs nd) -> a < v /\ v < length h.
Proof. intros E I. split; [exact (GA v nd a E I)|]. apply nth_error_Some. congruence. Qed.
Lemma ix_range v i : v < length h -> inside (sh v) i -> ix v i < length g.
Proof.
  intros L I. destruct (nth_error h v) as [nd|] eqn:E; [|apply nth_error_Some in L; congruence].
  destruct (so_node _ _ _ _ _ _ SO v nd i E I) as (e & Ee & _). apply nth_error_Some. congruence.
Qed.
Lemma mem_elements v i : v < length h -> inside (sh v) i -> mem (ix v i) req' = mem v req.
Proof.
  intros L I. destruct (mem v req) eqn:M.
  - apply mem_In in M. apply mem_In. apply in_flat_map. exists v. split; [exact M|]. apply in_map. now apply positions_in.
  - apply mem_not in M. apply mem_not. intros J. apply in_flat_map in J as (w & W & J). apply in_map_iff in J as (j & Ej & J). apply positions_in in J.
    destruct (RQ w W) as (Lw & _). destruct (so_inj _ _ _ _ _ _ SO w v j i Lw L J I Ej) as [-> _]. auto.
Qed.
Lemma Dt : forall b d s ps i, nth_error h b = Some (GRv d s ps) -> inside (sh b) i -> sdt (ix b i) = ddt d.
Proof.
  intros b d s ps i E I. destruct (so_node _ _ _ _ _ _ SO b _ i E I) as (e & Ee & l & -> & _). unfold rv_dtype. now rewrite Ee.
Qed.
Lemma aligned_eq a s i j : broadcasts a s -> inside s i -> aligned a i j -> j = align a i.
Proof. intros B I A. apply aligned_iff; [|exact A]. rewrite (inside_length s i I). exact (bc_len a s B). Qed.

Lemma args_eq (l : list nat) s i m : (forall a, In a l -> broadcasts (sh a) s) -> inside s i ->
  Forall2 (fun a n => exists j, aligned (sh a) i j /\ n = ix a j) l m -> m = map (fun a => ix a (align (sh a) i)) l.
Proof.
  intros B I F. induction F as [|a n l m (j & A & ->) F IH]; [reflexivity|]. cbn. rewrite IH by (intros; apply B; now right). f_equal. f_equal.
  exact (aligned_eq (sh a) s i j (B a (or_introl eq_refl)) I A).
Qed.
Lemma node_rel go go' v nd : nth_error h v = Some nd ->
  (forall a, In a (ginputs nd) -> ar (go a) (sh a) (fun i => annotate sdt fs (go' (ix a i)))) ->
  ar (g_node ddt afs h go v) (sh v) (fun i => annotate sdt fs (expand g go' (ix v i))).
Proof.
  intros E H. unfold g_node. rewrite E. pose proof (WS v nd E) as W. pose proof (so_node _ _ _ _ _ _ SO v nd) as ND.
  assert (L : v < length h) by (apply nth_error_Some; congruence).
  destruct nd as [c|d s ps|u a|n l|a b|a b|k l]; cbn [ginputs] in H.
  - rewrite <- W. apply (arel_ext h sh ix _ _ (fun i => con (nelt c i))); [|apply con_rel]. intros i I. rewrite W in I.
    destruct (ND i E I) as (e & Ee & ->). unfold expand. now rewrite Ee.
  - destruct W as [-> _]. split; [|split].
    + intros i I. destruct (ND i E I) as (e & Ee & l & -> & _). unfold expand. now rewrite Ee.
    + cbn [g_val]. eexists. split; [reflexivity|]. split; [reflexivity|]. intros i I. destruct (ND i E I) as (e & Ee & l & -> & _). unfold expand. now rewrite Ee.
    + cbn [g_m]. exists (fun i => MBase (ix v i)). split; [exact (mr_base h sh ix v d (sh v) ps _ E (fun i _ => eq_refl))|].
      intros i I. destruct (ND i E I) as (e & Ee & l & -> & _). unfold expand. now rewrite Ee.
  - pose proof (unary_rel ddt h sh g ix Dt u _ _ _ (H a (or_introl eq_refl))) as R. rewrite W in *. revert R. apply arel_ext. intros i I.
    destruct (ND i E I) as (e & Ee & ->). unfold expand. now rewrite Ee.
  - set (T := map (fun a => (go a, (sh a, fun i => annotate sdt fs (go' (ix a i))))) l : list trip).
    assert (R : ar (g_rw_nary ddt h n (map tA T)) (sh v) (fun i => rw_nary sdt n (sub i T))).
    { apply nary_rel; [exact Dt| |unfold T; rewrite map_map; exact W]. unfold T. rewrite List.Forall_forall. intros t I. apply in_map_iff in I as (a & <- & I). exact (H a I). }
    unfold T in R at 1. rewrite map_map in R. revert R. apply arel_ext. intros i I.
    destruct (ND i E I) as (e & Ee & m & -> & F). unfold expand. rewrite Ee. cbn [annotate]. f_equal.
    rewrite (args_eq l (sh v) i m (fun a Ia => bc_sub (map sh l) (sh v) (sh a) W (in_map sh l a Ia)) I F).
    unfold sub, T. rewrite !map_map. reflexivity.
  - pose proof (sub_rel ddt h sh g ix Dt _ _ _ _ (sh v) _ _ (H a (or_introl eq_refl)) (H b (or_intror (or_introl eq_refl))) W) as R. revert R. apply arel_ext. intros i I.
    destruct (ND i E I) as (e & Ee & j & k & A & B & ->). unfold expand. rewrite Ee. cbn [annotate].
    rewrite (aligned_eq (sh a) (sh v) i j), (aligned_eq (sh b) (sh v) i k); auto; apply (bc_sub [sh a; sh b]); cbn; auto.
  - pose proof (div_rel ddt h sh g ix Dt _ _ _ _ (sh v) _ _ (H a (or_introl eq_refl)) (H b (or_intror (or_introl eq_refl))) W) as R. revert R. apply arel_ext. intros i I.
    destruct (ND i E I) as (e & Ee & j & k & A & B & ->). unfold expand. rewrite Ee. cbn [annotate].
    rewrite (aligned_eq (sh a) (sh v) i j), (aligned_eq (sh b) (sh v) i k); auto; apply (bc_sub [sh a; sh b]); cbn; auto.
  - assert (RL : existsb a_rand (map (annotate sdt fs) (map go' (flat_map (elements_of sh ix) l))) = existsb (fun a => g_rand (go a)) l).
    { assert (HL : forall a, In a l -> a < length h) by (intros a I; pose proof (in_h v _ a E I); lia). clear - H HL NE.
      induction l as [|a l IH]; [reflexivity|]. cbn [flat_map existsb]. rewrite !map_app, existsb_app. f_equal.
      - destruct (H a (or_introl eq_refl)) as (R & _). unfold elements_of. rewrite !map_map.
        destruct (some_position (sh a) (NE a (HL a (or_introl eq_refl)))) as (i0 & I0). destruct (g_rand (go a)).
        + apply existsb_exists. exists (annotate sdt fs (go' (ix a i0))). split; [|now apply R]. apply in_map_iff. exists i0. split; [reflexivity|now apply positions_in].
        + apply not_true_is_false. intros X. apply existsb_exists in X as (z & Z & X). apply in_map_iff in Z as (i & <- & I). apply positions_in in I. rewrite R in X by exact I. discriminate.
      - apply IH; intros b I; [apply H|apply HL]; now right. }
    assert (VL : exists V, map (fun a => g_val (go a)) l = map Val V /\ map nshp V = map sh l /\
      flat_map (fun a => map (nelt a) (positions (nshp a))) V = map a_val (map (annotate sdt fs) (map go' (flat_map (elements_of sh ix) l)))).
    { clear - H. induction l as [|a l IH]; [exists []; repeat split|]. destruct IH as (V & V1 & V2 & V3); [intros b I; apply H; now right|].
      destruct (H a (or_introl eq_refl)) as (_ & (r & Er & Es & El) & _). exists (r :: V). cbn [map flat_map]. rewrite Er, V1, V2, V3, Es. repeat split.
      rewrite !map_app. f_equal. unfold elements_of. rewrite !map_map. apply map_ext_in. intros i I. apply positions_in in I. now apply El. }
    destruct VL as (V & V1 & V2 & V3). split; [|split].
    + intros i I. destruct (ND i E I) as (e & Ee & k' & -> & _). unfold expand. rewrite Ee. cbn [annotate a_rand g_rand]. exact RL.
    + cbn [g_val]. rewrite V1, rseq_val. cbn [rmap]. exists (afs k V). split; [reflexivity|]. split; [now apply W|].
      intros i I. destruct (ND i E I) as (e & Ee & k' & -> & K). unfold expand. rewrite Ee. cbn [annotate a_val]. rewrite <- (K V V2). now rewrite V3.
    + cbn [g_m]. intros i I. destruct (ND i E I) as (e & Ee & k' & -> & K). unfold expand. now rewrite Ee.
Qed.

Lemma fuel_enough' : forall f1 f2 v, v < f1 -> v < f2 -> v < length g -> unfold g req' y' f1 v = unfold g req' y' f2 v.
Proof.
  induction f1 as [|f1 IH]; intros f2 v L1 L2 LN; [lia|]. destruct f2 as [|f2]; [lia|]. cbn [unfold]. destruct (mem v req'); [reflexivity|].
  unfold expand. destruct (nth_error g v) as [nd|] eqn:E; [|reflexivity].
  assert (G : forall a, In a (node_inputs nd) -> unfold g req' y' f1 a = unfold g req' y' f2 a). { intros a I. pose proof (in_range g AC v nd a E I). apply IH; lia. }
  destruct nd; cbn [node_inputs] in G; try reflexivity; f_equal; try (apply map_ext_in; exact G); apply G; cbn; auto.
Qed.
Lemma unf_step x : x < length g -> unf x = if mem x req' then NCon (y' x) else expand g unf x.
Proof.
  intros L. rewrite (fuel_enough' (length g) (S (length g)) x) by lia. reflexivity.
Qed.
Lemma unfold_rel : forall F v, v < F -> v < length h -> ar (g_unfold ddt afs h req y F v) (sh v) (fun i => annotate sdt fs (unf (ix v i))).
Proof.
  induction F as [|F IH]; intros v LF L; [lia|]. cbn [g_unfold]. destruct (mem v req) eqn:M.
  - pose proof (proj1 (mem_In v req) M) as I. destruct (RQ v I) as (_ & Es & Ey). rewrite <- Es.
    apply (arel_ext h sh ix _ _ (fun i => con (nelt (y v) i))); [|apply con_rel]. intros i J. rewrite Es in J.
    rewrite unf_step by now apply ix_range. rewrite mem_elements, M by auto. cbn [annotate]. now rewrite Ey.
  - destruct (nth_error h v) as [nd|] eqn:E; [|apply nth_error_Some in L; congruence].
    apply (arel_ext h sh ix _ _ (fun i => annotate sdt fs (expand g unf (ix v i)))).
    + intros i I. rewrite (unf_step (ix v i)) by now apply ix_range. now rewrite mem_elements, M.
    + apply (node_rel _ _ v nd E). intros a I. pose proof (in_h v nd a E I). apply IH; lia.
Qed.
Lemma top_rel v : v < length h -> ar (g_top ddt afs h req y v) (sh v) (fun i => annotate sdt fs (top g req' y' (ix v i))).
Proof.
  intros L. destruct (nth_error h v) as [nd|] eqn:E; [|apply nth_error_Some in L; congruence].
  apply (node_rel _ _ v nd E). intros a I. pose proof (in_h v nd a E I). apply unfold_rel; lia.
Qed.

(** ** log-probabilities *)
Notation rvlp := (rv_logprob ddt fs dlp g req' y').
Lemma base_rel b d s0 ps value s : nth_error h b = Some (GRv d s0 ps) -> nshp value = s -> broadcasts (sh b) s ->
  exists r, g_rv_logprob ddt afs dlp h req y b value = Val r /\ nshp r = s /\ forall i, inside s i -> nelt r i = rvlp (ix b (align (sh b) i)) (nelt value i).
Proof.
  intros E Es B. destruct (WS b _ E) as [-> BP]. unfold g_rv_logprob. rewrite E.
  assert (VP : exists P, map (fun p => g_val (g_unfold ddt afs h req y (length h) p)) ps = map Val P /\ map nshp P = map sh ps /\
    forall i, inside s i -> map (fun p => nelt p (align (nshp p) i)) P = map (fun p => a_val (annotate sdt fs (unf (ix p (align (sh p) i))))) ps).
  { assert (HL : forall p, In p ps -> p < length h) by (intros a I; pose proof (in_h b _ a E I); lia). clear E. induction ps as [|p ps IH]; [exists []; repeat split|].
    destruct IH as (P & P1 & P2 & P3); [intros q I; apply BP; now right|intros q I; apply HL; now right|].
    destruct (unfold_rel (length h) p) as (_ & (r & Er & Ers & El) & _); [apply HL; now left|apply HL; now left|].
    exists (r :: P). cbn [map]. rewrite Er, P1, P2, Ers. repeat split. intros i I. rewrite P3 by exact I. f_equal. apply El.
    apply (align_inside (sh p) s i); [|exact I]. exact (bc_trans _ _ _ (BP p (or_introl eq_refl)) B). }
  destruct VP as (P & P1 & P2 & P3). rewrite P1, rseq_val. cbn [bind]. rewrite P2, Es.
  assert (BA : bcast_all (map sh ps ++ [s]) = Val s).
  { apply bcast_all_spec, bc_all. intros a I. apply in_map_iff in I as (p & <- & I). exact (bc_trans _ _ _ (BP p I) B). }
  rewrite BA. cbn [bind]. eexists. split; [reflexivity|]. split; [reflexivity|]. intros i I. cbn [nelt]. rewrite P3 by exact I.
  rewrite (align_self s i I). pose proof (align_inside _ _ _ B I) as I'. destruct (so_node _ _ _ _ _ _ SO b _ _ E I') as (e & Ee & l & -> & F).
  unfold rv_logprob. rewrite Ee. f_equal. rewrite (args_eq ps (sh b) (align (sh b) i) l BP I' F). rewrite map_map. apply map_ext_in. intros p Ip.
  now rewrite (align_align (sh p) (sh b) s i (BP p Ip) B (inside_length _ _ I)).
Qed.
Lemma logprob_rel M s' m : mrel h sh ix M s' m -> forall value s, nshp value = s -> broadcasts s' s ->
  exists r, g_logprob ddt afs dlp h req y M value = Val r /\ nshp r = s /\ forall i, inside s i -> nelt r i = nested_logprob rvlp (m (align s' i)) (nelt value i).
Proof.
  induction 1 as [b d s0 ps m E Em|t M s'' s' m' m f R IH B Tr Em]; intros value s Es Bs.
  - destruct (base_rel b d s0 ps value s E Es Bs) as (r & Er & Ers & El). exists r. split; [exact Er|]. split; [exact Ers|].
    intros i I. rewrite Em by exact (align_inside _ _ _ Bs I). now apply El.
  - assert (X : exists a bv, gtr_eval t = Val a /\ arr_backward a value = Val bv /\ nshp bv = s /\
      broadcasts (nshp (arr_log_jac_det a value)) s /\ forall i, inside s i -> backward (f (align s' i)) (nelt value i) = Val (nelt bv i) /\
      log_jac_det (f (align s' i)) (nelt value i) = Val (nelt (arr_log_jac_det a value) (align (nshp (arr_log_jac_det a value)) i))).
    { destruct t as [c|c|u]; cbn [trel gtr_eval] in *.
      - destruct Tr as (a & -> & Ba & Ef). pose proof (bc_trans _ _ _ Ba Bs) as Bc. cbn [rmap]. exists (ALoc a). cbn [arr_backward arr_log_jac_det].
        rewrite (elemwise_at x_sub [value; a] s) by (cbn [map]; rewrite Es; now apply bcasts). eexists. split; [reflexivity|]. split; [reflexivity|]. split; [reflexivity|].
        cbn [nd_map nshp nelt]. rewrite Es. split; [apply broadcasts_refl|]. intros i I. rewrite Ef by exact (align_inside _ _ _ Bs I). cbn [backward log_jac_det map x_sub].
        rewrite (align_align _ _ _ _ Ba Bs (inside_length _ _ I)), ?Es, (align_self s i I). split; reflexivity.
      - destruct Tr as (a & -> & Ba & Ef). pose proof (bc_trans _ _ _ Ba Bs) as Bc. cbn [rmap]. exists (AScale a). cbn [arr_backward arr_log_jac_det].
        rewrite (elemwise_at x_div [value; a] s) by (cbn [map]; rewrite Es; now apply bcasts). eexists. split; [reflexivity|]. split; [reflexivity|]. split; [reflexivity|].
        cbn [nd_map nshp nelt]. rewrite ?Es. split; [exact Bc|]. intros i I. rewrite Ef by exact (align_inside _ _ _ Bs I). cbn [backward log_jac_det map x_div].
        rewrite (align_align _ _ _ _ Ba Bs (inside_length _ _ I)), ?Es, (align_self s i I). split; reflexivity.
      - destruct u; eexists; eexists; (split; [reflexivity|]); (split; [reflexivity|]); cbn [nd_map nshp nelt arr_log_jac_det]; rewrite ?Es; (split; [reflexivity|]);
          (split; [apply broadcasts_refl|]); intros i I; rewrite Tr by exact (align_inside _ _ _ Bs I); rewrite ?Es, (align_self s i I); split; reflexivity. }
    destruct X as (a & bv & E1 & E2 & E3 & E4 & E5). destruct (IH bv s E3 (bc_trans _ _ _ B Bs)) as (r & Er & Ers & El).
    cbn [g_logprob]. rewrite E1. cbn [bind]. rewrite E2. cbn [bind]. rewrite Er. cbn [bind]. rewrite Ers. rewrite (proj1 (proj2 (bcasts _ _ E4))). cbn [bind].
    eexists. split; [reflexivity|]. split; [reflexivity|]. intros i I. cbn [nelt]. rewrite (align_self s i I), (El i I).
    rewrite Em by exact (align_inside _ _ _ Bs I). cbn [nested_logprob]. unfold elemwise_logprob. destruct (E5 i I) as [-> J]. cbn [bind]. rewrite J. cbn [bind].
    now rewrite (align_align _ _ _ _ B Bs (inside_length _ _ I)).
Qed.
Lemma conditional_rel v : In v req ->
  match g_conditional ddt afs dlp h req y v with
  | None => forall i, inside (sh v) i -> conditional ddt fs dlp g req' y' (ix v i) = None
  | Some r => exists a, r = Val a /\ nshp a = sh v /\ forall i, inside (sh v) i -> conditional ddt fs dlp g req' y' (ix v i) = Some (nelt a i)
  end.
Proof.
  intros I. destruct (RQ v I) as (L & Es & Ey). destruct (top_rel v L) as (_ & _ & O). unfold g_conditional, conditional, orel in *.
  destruct (g_m (g_top ddt afs h req y v)) as [M|].
  - destruct O as (m & R & O). destruct (logprob_rel M (sh v) m R (y v) (sh v) Es (broadcasts_refl _)) as (r & Er & Ers & El). exists r. split; [exact Er|]. split; [exact Ers|].
    intros i J. rewrite O by exact J. rewrite El by exact J. now rewrite Ey, (align_self _ _ J).
  - intros i J. now rewrite O.
Qed.
Lemma conditionals_flat l m : conditionals ddt fs dlp g req' y' (l ++ m) =
  match conditionals ddt fs dlp g req' y' l, conditionals ddt fs dlp g req' y' m with Some a, Some b => Some (a ++ b) | _, _ => None end.
Proof.
  induction l as [|x l IH]; [cbn; now destruct (conditionals _ _ _ _ _ _ m)|]. cbn. rewrite IH. destruct (conditional ddt fs dlp g req' y' x); [|reflexivity].
  destruct (conditionals _ _ _ _ _ _ l); [|reflexivity]. now destruct (conditionals _ _ _ _ _ _ m).
Qed.
Lemma conditionals_some (c : nat -> res xr) l : (forall x, In x l -> conditional ddt fs dlp g req' y' x = Some (c x)) -> conditionals ddt fs dlp g req' y' l = Some (map c l).
Proof. induction l as [|x l IH]; intros H; [reflexivity|]. cbn. rewrite H by now left. rewrite IH by (intros; apply H; now right). reflexivity. Qed.
Lemma conditionals_none x l : In x l -> conditional ddt fs dlp g req' y' x = None -> conditionals ddt fs dlp g req' y' l = None.
Proof.
  induction l as [|z l IH]; intros I E; [destruct I|]. cbn. destruct I as [->|I]; [now rewrite E|]. rewrite IH by auto. now destruct (conditional ddt fs dlp g req' y' z).
Qed.
Lemma conditionals_map (a : nd (res xr)) v : nshp a = sh v -> (forall i, inside (sh v) i -> conditional ddt fs dlp g req' y' (ix v i) = Some (nelt a i)) ->
  forall l, (forall i, In i l -> inside (sh v) i) -> conditionals ddt fs dlp g req' y' (map (ix v) l) = Some (map (nelt a) l).
Proof.
  intros Es H. induction l as [|i l IH]; intros L; [reflexivity|]. cbn. rewrite H by (apply L; now left). rewrite IH by (intros; apply L; now right). reflexivity.
Qed.
Lemma conditionals_rel l : incl l req ->
  match g_conditionals ddt afs dlp h req y l with
  | None => conditionals ddt fs dlp g req' y' (flat_map (elements_of sh ix) l) = None
  | Some rs => exists R, rs = map Val R /\ conditionals ddt fs dlp g req' y' (flat_map (elements_of sh ix) l) = Some (flat_map (fun r => map (nelt r) (positions (nshp r))) R)
  end.
Proof.
  induction l as [|v l IH]; intros I; [exists []; split; reflexivity|]. cbn [g_conditionals flat_map]. rewrite conditionals_flat.
  assert (Iv : In v req) by (apply I; now left). specialize (IH (fun x X => I x (or_intror X))). pose proof (conditional_rel v Iv) as C.
  destruct (g_conditional ddt afs dlp h req y v) as [r|].
  - destruct C as (a & -> & Es & C). change (elements_of sh ix v) with (map (ix v) (positions (sh v))). rewrite (conditionals_map a v Es C) by (intros i J; now apply positions_in).
    destruct (g_conditionals ddt afs dlp h req y l) as [rs|].
    + destruct IH as (R & -> & IH). rewrite IH. exists (a :: R). cbn [map flat_map]. rewrite Es. split; reflexivity.
    + now rewrite IH.
  - destruct (some_position (sh v) (NE v (proj1 (RQ v Iv)))) as (i & J).
    rewrite (conditionals_none (ix v i)); [reflexivity| |now apply C]. apply in_map. now apply positions_in.
Qed.
Theorem els_joint : g_joint ddt afs dlp h req y = joint ddt fs dlp g req' y'.
Proof.
  unfold g_joint, joint. pose proof (conditionals_rel req (fun x X => X)) as C. destruct (g_conditionals ddt afs dlp h req y req) as [rs|].
  - destruct C as (R & -> & C). rewrite C. f_equal. rewrite <- sums_flat. rewrite map_map. reflexivity.
  - now rewrite C.
Qed.
End Graphs.
