(** Proofs about ModelElsMiss. *)
From Coq Require Import Reals List Arith ZArith Bool Lia FunctionalExtensionality.
From Verif Require Import XR ModelDist ModelVec ModelIdx ModelTen ModelConv ModelSub ModelTrans ModelElem ModelJoint ModelNest ModelSys ModelEls ModelElsV SpecElsV ModelElsMiss SpecElsMiss LemSys LemElsOrder.
Import ListNotations.
Open Scope nat_scope.

Lemma m_is_v ddt afs dlp h req y : m_logprob dlp h (fun p => v_val (v_unfold ddt afs h req y (length h) p)) = v_logprob ddt afs dlp h req y.
Proof. reflexivity. Qed.
Section Ext.
Variable dlp : nat -> list xr -> xr -> res xr.
Variable h : list vnode.
Variable pv pv' : nat -> res (nd xr).
Hypothesis PV : forall i d s ps p, nth_error h i = Some (VRv d s ps) -> In p ps -> pv p = pv' p.
Lemma params_ext i d s ps : nth_error h i = Some (VRv d s ps) -> map pv ps = map pv' ps.
Proof. intros E. apply map_ext_in. intros p I. exact (PV i d s ps p E I). Qed.
Lemma rv_ext i x : m_rv_logprob dlp h pv i x = m_rv_logprob dlp h pv' i x.
Proof. unfold m_rv_logprob. destruct (nth_error h i) as [[]|] eqn:E; try reflexivity. now rewrite (params_ext _ _ _ _ E). Qed.
Lemma take_ext t i x : m_take_logprob dlp h pv t i x = m_take_logprob dlp h pv' t i x.
Proof. unfold m_take_logprob. destruct (nth_error h i) as [[]|] eqn:E; try reflexivity. now rewrite (params_ext _ _ _ _ E). Qed.
Lemma logprob_ext : forall m x, m_logprob dlp h pv m x = m_logprob dlp h pv' m x.
Proof.
  fix IH 1. intros m x. destruct m as [i|t m|ms|axis ms shs|n o m|axis m|t i]; cbn [m_logprob].
  - apply rv_ext.
  - destruct (gtr_eval t) as [a|]; [|reflexivity]. cbn [bind]. destruct (arr_backward a x) as [bv|]; [|reflexivity]. cbn [bind]. now rewrite IH.
  - f_equal. f_equal. generalize 0. induction ms as [|m ms IHms]; intros k; [reflexivity|]. f_equal; [|apply IHms].
    destruct (item x k) as [z|]; [|reflexivity]. cbn [bind]. apply IH.
  - destruct (norm_axis (length (nshp x)) axis) as [ax|]; [|reflexivity]. cbn zeta. destruct (list_sum _ =? _); [|reflexivity]. f_equal. f_equal.
    generalize (map (fun s => nth ax s 0) shs). generalize 0. induction ms as [|m ms IHms]; intros k sizes; [reflexivity|]. destruct sizes as [|n sizes]; [reflexivity|]. f_equal; [|apply IHms].
    apply IH.
  - now rewrite IH.
  - destruct (value_diff axis x) as [z|]; [|reflexivity]. cbn [bind]. apply IH.
  - apply take_ext.
Qed.
End Ext.

Lemma distinct_iff l : distinct l = true <-> NoDup l.
Proof.
  induction l as [|x l IH]; cbn; [split; [constructor|reflexivity]|]. rewrite andb_true_iff, negb_true_iff, IH, mem_not. split.
  - intros (A & B). now constructor.
  - intros H. inversion H; subst. now split.
Qed.

Section Complete.
Variable ddt : nat -> dtype.
Variable afs : nat -> list (nd xr) -> nd xr.
Variable dlp : nat -> list xr -> xr -> res xr.
Variable puts : nat -> option (list (nd xr) -> nd xr).
Variable h : list vnode.
Variable req : list nat.
Variable y y' : nat -> nd xr.
Variable comp : nat -> nat.
Hypothesis Ac : vacyclic h.
Hypothesis ND : NoDup req.
Notation req' := (map comp req).
Notation cond' := (v_conditional ddt afs dlp h req' y').
Notation unf' := (v_unfold ddt afs h req' y').
Notation top' := (v_top ddt afs h req' y').
Notation unfm := (m_unfold ddt afs puts h req y).
Notation direct := (direct puts h).
Notation completes := (completes afs puts h req y req' y').
Hypothesis RQ : forall v, In v req -> v < length h /\ (direct v /\ comp v = v /\ y' v = y v \/ completes v (comp v) /\ cond' (comp v) <> None).

Definition isbase (x : nat) : Prop := exists v, In v req /\ comp v = x /\ completes v x /\ cond' x <> None.
Lemma not_both v x : direct v -> completes v x -> False.
Proof. intros D (k & l & over & ds & E & P & _). rewrite (D _ _ _ E) in P. discriminate P. Qed.
Lemma base_use x w nd : isbase x -> nth_error h w = Some nd -> In x (vinputs nd) -> In w req /\ comp w = x /\ completes w x /\ cond' x <> None.
Proof.
  intros (v & Iv & Cv & C & A) E I. pose proof C as (k & l & over & ds & _ & _ & _ & _ & U & _). rewrite (U w nd E I). now split.
Qed.
Lemma base_not x : isbase x -> ~ In x req.
Proof. intros (v & _ & _ & (k & l & over & ds & _ & _ & N & _) & _). exact N. Qed.
Lemma base_in x : isbase x -> In x req'.
Proof. intros (v & I & <- & _). now apply in_map. Qed.
Lemma fill_out v x : In v req -> completes v x -> ~ In v req'.
Proof.
  intros I C J. apply in_map_iff in J. destruct J as (w & E & Iw). destruct (RQ w Iw) as (_ & [(D & Ew & _)|(Cw & _)]).
  - rewrite Ew in E. subst w. exact (not_both v x D C).
  - rewrite E in Cw. destruct Cw as (k & l & over & ds & _ & _ & N & _). exact (N I).
Qed.
Lemma plain_out p : ~ In p req -> ~ isbase p -> ~ In p req'.
Proof.
  intros N B J. apply in_map_iff in J. destruct J as (w & E & Iw). destruct (RQ w Iw) as (_ & [(_ & Ew & _)|(Cw & A)]).
  - rewrite Ew in E. subst w. exact (N Iw).
  - apply B. exists w. rewrite E in Cw, A. auto.
Qed.
Lemma computed_con n : forall p d, computed afs h req' y' p d -> p < n -> unf' n p = v_con d.
Proof.
  induction n as [|n IH]; intros p d C L; [lia|]. cbn [v_unfold]. destruct C as [v I|v c N E|v k l xs N E F].
  - now rewrite (proj2 (mem_In _ _) I).
  - rewrite (proj2 (mem_not _ _) N). unfold v_node. now rewrite E.
  - rewrite (proj2 (mem_not _ _) N). unfold v_node. rewrite E.
    assert (G : forall a, In a l -> a < n) by (intros a Ia; pose proof (Ac v _ a E Ia); lia).
    assert (G2 : existsb (fun a => v_rand (unf' n a)) l = false /\ rseq (map (fun a => v_val (unf' n a)) l) = Val xs).
    { clear E N. induction F as [|a x l xs Ca F IHF]; [now split|]. cbn [existsb map]. rewrite (IH a x Ca (G a (or_introl eq_refl))). cbn [v_rand v_con v_val orb rseq bind].
      destruct IHF as (A & B); [intros b Ib; apply G; now right|]. rewrite A, B. now split. }
    destruct G2 as (-> & ->). reflexivity.
Qed.
Lemma node_same n p : (forall a, a < n -> ~ isbase a -> unfm n a = unf' n a) -> p <= n -> (forall x, ~ (In p req /\ completes p x)) -> v_node ddt afs h (unfm n) p = v_node ddt afs h (unf' n) p.
Proof.
  intros H L N. apply node_ext. intros nd a E Ia. pose proof (Ac p nd a E Ia). apply H; [lia|]. intros Ba. destruct (base_use a p nd Ba E Ia) as (I & _ & C & _). exact (N a (conj I C)).
Qed.
Lemma fill_main n p : (forall m a, m <= n -> a < m -> ~ isbase a -> unfm m a = unf' m a) -> p <= n -> In p req -> completes p (comp p) -> cond' (comp p) <> None ->
  exists m, v_m (top' (comp p)) = Some m /\ m_fill puts h req y (unfm n) p = Some (comp p, m, Val (y' (comp p))) /\ v_node ddt afs h (unf' n) p = v_con (y' (comp p)).
Proof.
  intros H L I C A. assert (BX : isbase (comp p)) by (exists p; auto). pose proof (base_in _ BX) as JX. pose proof (base_not _ BX) as NX. set (x := comp p) in *.
  destruct C as (k & l & over & ds & E & P & _ & Nl & U & F & Yx & Ag).
  assert (Lx : x < p) by (apply (Ac p _ x E); now left). pose proof (proj1 (RQ p I)) as Lp. destruct n as [|n]; [lia|].
  unfold v_conditional in A. destruct (v_m (top' x)) as [m|] eqn:M; [|congruence]. exists m. split; [reflexivity|].
  assert (Mx : v_m (unfm (Datatypes.S n) x) = Some m).
  { cbn [m_unfold]. rewrite (proj2 (mem_not _ _) NX), <- M. unfold v_top. f_equal. rewrite node_same; [| |lia|].
    - apply node_ext. intros nd a Ex Ia. pose proof (Ac x nd a Ex Ia). apply unf_fuel; [exact Ac|lia|lia].
    - intros a La Ba. apply H; auto.
    - intros z (J & _). exact (NX J). }
  assert (Lx' : unf' (Datatypes.S n) x = v_con (y' x)) by (cbn [v_unfold]; now rewrite (proj2 (mem_In _ _) JX)).
  assert (G : forall a d, In a l -> computed afs h req' y' a d -> unf' (Datatypes.S n) a = v_con d /\ unfm (Datatypes.S n) a = v_con d).
  { intros a d Ia Ca. assert (La : a < p) by (apply (Ac p _ a E); now right). assert (Q : unf' (Datatypes.S n) a = v_con d) by (apply computed_con; [exact Ca|lia]). split; [exact Q|].
    rewrite H; [exact Q|lia|lia|]. intros Ba. destruct (base_use a p _ Ba E (or_intror Ia)) as (_ & Ea & _). apply Nl. unfold x. rewrite Ea. exact Ia. }
  assert (V : rseq (map (fun a => v_val (unfm (Datatypes.S n) a)) l) = Val ds /\ rseq (map (fun a => v_val (unf' (Datatypes.S n) a)) l) = Val ds /\ existsb (fun a => v_rand (unf' (Datatypes.S n) a)) l = false).
  { clear -F G. induction F as [|a d l ds Ca F IHF]; [now repeat split|]. cbn [map existsb]. destruct (G a d (or_introl eq_refl) Ca) as (G1 & G2). rewrite G1, G2. cbn [v_val v_con v_rand rseq bind orb].
    destruct IHF as (A & B & R); [intros b e Ib; apply G; now right|]. rewrite A, B, R. now repeat split. }
  destruct V as (V1 & V2 & V3). split.
  - unfold m_fill. rewrite E, P, (proj2 (mem_not _ _) NX), Mx. cbn [rseq bind]. rewrite V1. cbn [bind rmap]. now rewrite Yx.
  - unfold v_node. rewrite E. cbn [existsb map rseq]. rewrite Lx'. cbn [v_rand v_con v_val orb bind]. rewrite V3, V2. cbn [bind rmap]. rewrite Yx, Ag. reflexivity.
Qed.
Lemma direct_fill go p : direct p -> m_fill puts h req y go p = None.
Proof. intros D. unfold m_fill. destruct (nth_error h p) as [[| | | | | |k [|x l]| | | | |]|] eqn:E; try reflexivity. now rewrite (D _ _ _ E). Qed.
Lemma main : forall n p, p < n -> ~ isbase p -> unfm n p = unf' n p.
Proof.
  induction n as [n IH] using lt_wf_ind. intros p L B. destruct n as [|n]; [lia|]. cbn [m_unfold v_unfold].
  destruct (in_dec Nat.eq_dec p req) as [I|I].
  - rewrite (proj2 (mem_In _ _) I). destruct (RQ p I) as (_ & [(D & Ep & Y)|(C & A)]).
    + rewrite (direct_fill _ p D). assert (J : In p req') by (rewrite <- Ep; now apply in_map). rewrite (proj2 (mem_In _ _) J). now rewrite Y.
    + rewrite (proj2 (mem_not _ _) (fill_out p _ I C)).
      destruct (fill_main n p) as (m & _ & -> & ->); auto; [intros k a Lk La Ba; apply IH; auto; lia|lia].
  - rewrite (proj2 (mem_not _ _) I), (proj2 (mem_not _ _) (plain_out p I B)). apply node_same; [intros a La Ba; apply IH; auto|lia|]. intros z (J & _). exact (I J).
Qed.
Lemma values_same i d s ps p : nth_error h i = Some (VRv d s ps) -> In p ps -> m_values ddt afs puts h req y p = v_val (unf' (length h) p).
Proof.
  intros E I. unfold m_values. rewrite main; [reflexivity| |].
  - pose proof (Ac i _ p E I). assert (i < length h) by (apply nth_error_Some; congruence). lia.
  - intros B. destruct (base_use p i _ B E I) as (_ & _ & (k & l & over & ds & E' & _) & _). congruence.
Qed.
Lemma filled v : In v req -> completes v (comp v) -> cond' (comp v) <> None -> exists m, v_m (top' (comp v)) = Some m /\ m_filled ddt afs puts h req y v = Some (comp v, m, Val (y' (comp v))).
Proof.
  intros I C A. destruct (fill_main (length h) v) as (m & M & Fi & _); auto; [intros k a _ La Ba; now apply main|pose proof (proj1 (RQ v I)); lia|]. exists m. now split.
Qed.
Lemma cond_same v : In v req -> m_conditional ddt afs dlp puts h req y v = cond' (comp v).
Proof.
  intros I. pose proof (RQ v I) as (L & [(D & Ev & Y)|(C & A)]); unfold m_conditional.
  - unfold m_filled. rewrite (direct_fill _ v D), Ev. rewrite node_same; [|intros a La Ba; now apply main|lia|intros z (_ & C); exact (not_both v z D C)].
    unfold v_conditional. change (v_node ddt afs h (unf' (length h)) v) with (top' v). destruct (v_m (top' v)) as [m|]; [|reflexivity]. f_equal. rewrite Y. rewrite <- m_is_v. apply logprob_ext. exact values_same.
  - destruct (filled v I C A) as (m & M & ->). unfold v_conditional. rewrite M. f_equal. cbn [bind]. rewrite <- m_is_v. apply logprob_ext. exact values_same.
Qed.
Lemma conds_same l : incl l req -> m_conditionals ddt afs dlp puts h req y l = v_conditionals ddt afs dlp h req' y' (map comp l).
Proof.
  induction l as [|v l IH]; intros H; [reflexivity|]. cbn [m_conditionals v_conditionals map]. rewrite (cond_same v) by (apply H; now left). rewrite IH; [reflexivity|]. intros w J. apply H. now right.
Qed.
Lemma base_list v : In v req -> match m_filled ddt afs puts h req y v with Some (x, _, _) => [x] | None => [] end = [] \/
  (match m_filled ddt afs puts h req y v with Some (x, _, _) => [x] | None => [] end = [comp v] /\ isbase (comp v) /\ completes v (comp v)).
Proof.
  intros I. destruct (RQ v I) as (_ & [(D & _)|(C & A)]).
  - left. unfold m_filled. now rewrite (direct_fill _ v D).
  - right. destruct (filled v I C A) as (m & _ & ->). split; [reflexivity|]. split; [exists v; auto|exact C].
Qed.
Lemma bases_ok : distinct (m_bases ddt afs puts h req y) = true.
Proof.
  apply distinct_iff. unfold m_bases. assert (G : forall l, incl l req -> NoDup l -> NoDup (flat_map (fun v => match m_filled ddt afs puts h req y v with Some (x, _, _) => [x] | None => [] end) l)).
  { induction l as [|v l IH]; intros H N; [constructor|]. inversion N as [|? ? Nv N']; subst. cbn [flat_map]. assert (H' : incl l req) by (intros w J; apply H; now right).
    destruct (base_list v (H v (or_introl eq_refl))) as [->|(-> & B & C)]; [exact (IH H' N')|]. cbn [app]. constructor; [|exact (IH H' N')].
    intros J. apply in_flat_map in J. destruct J as (w & Iw & J). destruct (base_list w (H' w Iw)) as [Ew|(Ew & _ & Cw)]; rewrite Ew in J; [exact J|]. destruct J as [J|[]].
    rewrite J in Cw. destruct Cw as (k & l' & over & ds & Enw & _). destruct C as (k2 & l2 & over2 & ds2 & _ & _ & _ & _ & U & _).
    apply Nv. rewrite <- (U w _ Enw); [exact Iw|]. now left. }
  apply G; [apply incl_refl|exact ND].
Qed.
Lemma miss_joint : m_joint ddt afs dlp puts h req y = v_joint ddt afs dlp h req' y'.
Proof. unfold m_joint, v_joint. rewrite bases_ok, (conds_same req) by apply incl_refl. reflexivity. Qed.
End Complete.

Section Refused.
Variable ddt : nat -> dtype.
Variable afs : nat -> list (nd xr) -> nd xr.
Variable dlp : nat -> list xr -> xr -> res xr.
Variable puts : nat -> option (list (nd xr) -> nd xr).
Variable h : list vnode.
Variable req : list nat.
Variable y : nat -> nd xr.
Lemma conds_none l v : In v l -> m_conditional ddt afs dlp puts h req y v = None -> m_conditionals ddt afs dlp puts h req y l = None.
Proof.
  induction l as [|w l IH]; intros I E; [contradiction|]. cbn [m_conditionals]. destruct I as [->|I]; [now rewrite E|]. rewrite (IH I E). now destruct (m_conditional ddt afs dlp puts h req y w).
Qed.
Lemma miss_requested v k x l : In v req -> nth_error h v = Some (VOther k (x :: l)) -> In x req -> m_joint ddt afs dlp puts h req y = None.
Proof.
  intros I E J. unfold m_joint. destruct (distinct _); [|reflexivity]. rewrite (conds_none req v I); [reflexivity|]. unfold m_conditional.
  assert (M : m_filled ddt afs puts h req y v = None). { unfold m_filled, m_fill. rewrite E. destruct (puts k); [|reflexivity]. now rewrite (proj2 (mem_In _ _) J). }
  rewrite M. unfold v_node. now rewrite E.
Qed.
Lemma filled_rv v k x l over d s ps : In v req -> v < length h -> vacyclic h -> nth_error h v = Some (VOther k (x :: l)) -> puts k = Some over -> ~ In x req -> nth_error h x = Some (VRv d s ps) ->
  match m_filled ddt afs puts h req y v with Some (z, _, _) => [z] | None => [] end = [x].
Proof.
  intros I L Ac E P N Ex. unfold m_filled, m_fill. rewrite E, P, (proj2 (mem_not _ _) N). assert (x < v) by (apply (Ac v _ x E); now left).
  destruct (length h) as [|n]; [lia|]. cbn [m_unfold]. rewrite (proj2 (mem_not _ _) N). unfold v_node at 1. rewrite Ex. reflexivity.
Qed.
Lemma two_in {A B} (f : A -> list B) b : forall l v w, In v l -> In w l -> v <> w -> In b (f v) -> In b (f w) -> ~ NoDup (flat_map f l).
Proof.
  induction l as [|u l IH]; intros v w Iv Iw D Bv Bw N; [contradiction|]. cbn [flat_map] in N.
  assert (Q : forall z, In z l -> In b (f z) -> In b (f u) -> False).
  { intros z Iz Bz Bu. clear -N Iz Bz Bu. assert (K : In b (flat_map f l)) by (apply in_flat_map; now exists z). revert Bu N. generalize (f u). induction l0 as [|c l0 IHl]; intros Bu N; [contradiction|].
    cbn [app] in N. inversion N as [|? ? N1 N2]; subst. destruct Bu as [->|Bu]; [apply N1; apply in_app_iff; now right|exact (IHl Bu N2)]. }
  destruct Iv as [->|Iv], Iw as [->|Iw]; [now apply D|exact (Q w Iw Bw Bv)|exact (Q v Iv Bv Bw)|]. apply (IH v w Iv Iw D Bv Bw). clear -N. induction (f u) as [|c l0 IHl]; [exact N|]. inversion N; auto.
Qed.
Lemma miss_two v w x k l over k' l' over' d s ps : vacyclic h -> (forall u, In u req -> u < length h) -> In v req -> In w req -> v <> w -> ~ In x req -> nth_error h x = Some (VRv d s ps) ->
  nth_error h v = Some (VOther k (x :: l)) -> puts k = Some over -> nth_error h w = Some (VOther k' (x :: l')) -> puts k' = Some over' -> m_joint ddt afs dlp puts h req y = None.
Proof.
  intros Ac L Iv Iw D N Ex Ev Pv Ew Pw. unfold m_joint. destruct (distinct _) eqn:Di; [|reflexivity]. exfalso. apply distinct_iff in Di. unfold m_bases in Di. revert Di.
  apply (two_in _ x req v w Iv Iw D).
  - rewrite (filled_rv v k x l over d s ps Iv (L v Iv) Ac Ev Pv N Ex). now left.
  - rewrite (filled_rv w k' x l' over' d s ps Iw (L w Iw) Ac Ew Pw N Ex). now left.
Qed.
End Refused.

(** setting the same entries to the same data again *)
Section Again.
Context {A : Type}.
Variable data : list nat -> A.
Definition puts_at (ts : list (list nat * list nat)) (dsh : list nat) (y : list nat -> A) : list nat -> A :=
  fold_left (fun y tc p => if pos_eqb p (fst tc) then data (align dsh (snd tc)) else y p) ts y.
Lemma put_hit dsh ts : forall y y' p, y p = y' p -> puts_at ts dsh y p = puts_at ts dsh y' p.
Proof. induction ts as [|t ts IH]; intros y y' p E; [exact E|]. cbn [puts_at fold_left]. apply IH. now destruct (pos_eqb p (fst t)). Qed.
Lemma put_cases dsh ts : forall y p, (forall y', puts_at ts dsh y' p = puts_at ts dsh y p) \/ (forall y', puts_at ts dsh y' p = y' p).
Proof.
  induction ts as [|t ts IH]; intros y p; [right; reflexivity|]. cbn [puts_at fold_left]. fold (puts_at ts dsh).
  destruct (IH (fun p => if pos_eqb p (fst t) then data (align dsh (snd t)) else y p) p) as [H|H].
  - left. intros y'. apply H.
  - destruct (pos_eqb p (fst t)) eqn:E.
    + left. intros y'. unfold puts_at in *. rewrite !H, E. reflexivity.
    + right. intros y'. unfold puts_at in *. rewrite H, E. reflexivity.
Qed.
Lemma put_again dsh ts y p : puts_at ts dsh (puts_at ts dsh y) p = puts_at ts dsh y p.
Proof. destruct (put_cases dsh ts y p) as [H|H]; [apply H|now rewrite H]. Qed.
End Again.
Lemma np_set_again {A} sh (y z : list nat -> A) ix dsh data : np_set sh y ix dsh data = Val z -> exists z', np_set sh z ix dsh data = Val z' /\ forall p, z' p = z p.
Proof.
  unfold np_set. destruct (expand_indices ix sh) as [advs|]; [|discriminate]. cbn [bind]. destruct (bcast_all _) as [s|]; [|discriminate]. cbn [bind]. destruct (pos_eqb s _); [|discriminate].
  destruct (all_val _) as [ts|]; [|discriminate]. cbn [bind]. intros E. injection E as <-. eexists. split; [reflexivity|]. intros p. exact (put_again data dsh _ y p).
Qed.
