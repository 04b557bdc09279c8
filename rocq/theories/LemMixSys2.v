(** The joint log-probability of models with mixtures and entries of stacks. *)
From Coq Require Import Reals Lra Lia List Arith Bool ZArith.
From Coquelicot Require Import Coquelicot.
From Verif Require Import XR XTac SpecDist ModelDist LemDist ModelVec SpecVec LemDisc ModelJoint LemJoint ModelTrans ModelNest SpecNest LemNest LemNest2 RMx
  ModelMix LemMix ModelGuard ModelSys SpecSys LemSys LemSys2 LemSys3 ModelStack SpecStack LemStack LemStack2 LemSysGiven LemSound LemSound2 ModelMixSys SpecMixSys LemMixSys.
Import ListNotations.
Open Scope nat_scope.
Notation fin f := (fun v : nat => Fin (f v : R)).

Lemma unfold_set h req req' y y' : (forall v, In v req <-> In v req') -> (forall v, In v req -> y v = y' v) ->
  forall fuel v, unfold h req y fuel v = unfold h req' y' fuel v.
Proof.
  intros S H. induction fuel as [|fuel IH]; intros v; [reflexivity|]. cbn [unfold].
  assert (E : mem v req' = mem v req). { destruct (mem v req) eqn:M; [apply mem_In in M; apply mem_In, S, M|]. apply mem_not in M. apply mem_not. now rewrite <- S. }
  rewrite E. destruct (mem v req) eqn:M.
  - apply mem_In in M. now rewrite H. - apply expand_ext. auto.
Qed.
Lemma q_sums_app ddt fs dlp h y rho qs l m : q_sums ddt fs dlp h y rho qs (l ++ m) =
  match q_sums ddt fs dlp h y rho qs l, q_sums ddt fs dlp h y rho qs m with Some a, Some b => Some (a ++ b) | _, _ => None end.
Proof.
  induction l as [|v l IH]; cbn [app q_sums]; [now destruct (q_sums ddt fs dlp h y rho qs m)|]. rewrite IH.
  destruct (q_sum ddt fs dlp h y rho qs v); [|reflexivity]. now destruct (q_sums ddt fs dlp h y rho qs l), (q_sums ddt fs dlp h y rho qs m).
Qed.

(** the computed side: entries and values *)
Section Entries.
Variable kind : nat -> role.
Variable h : list snode.
Variable qs : list request.
Fixpoint stacked (l : list nat) (ql : list request) : bool :=
  match ql with [] => false | QStack m _ :: ql => if list_eq_dec Nat.eq_dec l m then true else stacked l ql | _ :: ql => stacked l ql end.
Lemma stacked_in l ql : stacked l ql = true <-> exists xs, In (QStack l xs) ql.
Proof.
  induction ql as [|[v|m xs] ql IH]; cbn [stacked].
  - split; [discriminate|intros (xs & [])].
  - rewrite IH. split; intros (xs & H); exists xs; cbn in *; intuition discriminate.
  - destruct (list_eq_dec Nat.eq_dec l m) as [->|N].
    + split; [intros _; exists xs; now left|reflexivity].
    + rewrite IH. split; intros (zs & H); exists zs; cbn in *; [tauto|]. destruct H as [H|H]; [|exact H]. injection H as -> _. now destruct N.
Qed.
Definition entry_elem (a : nat) : option nat :=
  match nth_error h a with
  | Some (SOther k l) => match kind k with Entry i => if stacked l qs then nth_error l i else None | _ => None end
  | _ => None
  end.
Lemma entry_elem_of a e : entry_elem a = Some e <-> entry_of kind h qs a e.
Proof.
  unfold entry_elem, entry_of. split.
  - destruct (nth_error h a) as [[| | | | | |k l]|] eqn:E; try discriminate. destruct (kind k) as [| |i] eqn:K; try discriminate. destruct (stacked l qs) eqn:S; [|discriminate].
    intros H. apply stacked_in in S as (xs & S). exists k, l, xs, i. auto.
  - intros (k & l & xs & i & E & K & Q & N). rewrite E, K. assert (S : stacked l qs = true) by (apply stacked_in; eauto). now rewrite S.
Qed.
Variable y : nat -> R.
Hypothesis Vals : forall l xs, In (QStack l xs) qs -> xs = map (fin y) l.
Lemma stack_entry_val l i ql : incl ql qs -> stack_entry l i ql = if stacked l ql then option_map (fin y) (nth_error l i) else None.
Proof.
  induction ql as [|[v|m xs] ql IH]; intros I; cbn [stack_entry stacked]; [reflexivity|apply IH; intros x X; apply I; now right|].
  destruct (list_eq_dec Nat.eq_dec l m) as [<-|N]; [|apply IH; intros x X; apply I; now right].
  rewrite (Vals l xs) by (apply I; now left). apply nth_error_map.
Qed.
Lemma entry_value_val a : entry_value kind h qs a = option_map (fin y) (entry_elem a).
Proof.
  unfold entry_value, entry_elem. destruct (nth_error h a) as [[| | | | | |k l]|]; try reflexivity. destruct (kind k); try reflexivity.
  rewrite stack_entry_val by apply incl_refl. now destruct (stacked l qs).
Qed.
Definition mY (v : nat) : R := if mem v (q_req qs) then y v else match entry_elem v with Some e => y e | None => 0%R end.
Lemma valued_given v : In v (valued kind h qs) <-> In v (q_req qs) \/ exists e, entry_of kind h qs v e.
Proof.
  unfold valued. rewrite in_app_iff, filter_In. unfold is_entry. rewrite entry_value_val. split; (intros [H|H]; [now left|right]).
  - destruct H as [_ H]. destruct (entry_elem v) as [e|] eqn:E; [|discriminate]. exists e. now apply entry_elem_of.
  - destruct H as (e & H). split.
    + destruct H as (k & l & xs & i & E & _). apply in_seq. cbn. split; [lia|]. apply nth_error_Some. congruence.
    + apply entry_elem_of in H. now rewrite H.
Qed.
Lemma valued_as_val v : In v (valued kind h qs) -> valued_as kind h (fin y) qs v = Fin (mY v).
Proof.
  intros V. unfold valued_as, mY. destruct (mem v (q_req qs)) eqn:M; [reflexivity|]. rewrite entry_value_val. apply valued_given in V as [V|(e & V)].
  - apply mem_not in M. tauto. - apply entry_elem_of in V. now rewrite V.
Qed.
End Entries.

Section Density.
Variable kind : nat -> role.
Variable ddt : nat -> dtype.
Variable fs : nat -> list xr -> xr.
Variable dlp : nat -> list xr -> xr -> res xr.
Variable pdf : nat -> list R -> R -> R.
Variable h : list snode.
Variable qs : list request.
Variable M : list nat.
Variable y : nat -> R.
Variable base pick : nat -> nat.
Variable rho : nat -> R.
Variable rho0 : nat -> xr.
Notation vars := (q_vars qs).
Hypothesis Ac : acyclic h.
Hypothesis ND : NoDup vars.
Hypothesis Ro : roles_ok kind fs.
Hypothesis Gn : given_nodes kind h qs M.
Hypothesis Vals : forall l xs, In (QStack l xs) qs -> xs = map (fin y) l.
Hypothesis P_elem : forall v, In v (q_elems qs) -> pick v = v.
Hypothesis P_plain : forall v, In v (q_req qs) -> (forall idx comps, ~ mixture_node kind h v idx comps) -> pick v = v.
Hypothesis P_mix : forall v idx comps, In v (q_req qs) -> mixture_node kind h v idx comps ->
  known h M idx /\ (exists i, svalue fs h rho idx (INR i) /\ nth_error comps i = Some (pick v)) /\
  (forall w, In w vars -> exists D, partial fs h rho idx (base w) D) /\
  (forall c, In c comps -> ~ In c (q_req qs) /\ exists b, leads h M c b /\ (rv_dtype ddt h b <> DInt \/ b = c)).
Hypothesis Sep : forall v w, In v vars -> In w vars -> ~ In (pick w) (q_req qs) -> ~ needs h M (pick v) (pick w).
Hypothesis Val : forall v, In v vars -> svalue fs h rho v (y v).
Hypothesis Lead : forall v, In v vars -> leads h M (pick v) (base v).
Hypothesis Inj : forall v w, In v vars -> In w vars -> base v = base w -> v = w.
Hypothesis Own : forall v w, In v vars -> In w vars -> needs h M (base v) (base w) -> In (base w) (q_req qs).
Hypothesis Ag : forall i, ~ In i (map base vars) -> rho0 i = Fin (rho i).

Lemma mix_dec v : (exists idx comps, mixture_node kind h v idx comps) \/ forall idx comps, ~ mixture_node kind h v idx comps.
Proof.
  unfold mixture_node. destruct (nth_error h v) as [[c|d ps|u a|n l|a b|a b|k [|idx comps]]|] eqn:E; try (right; intros i c' (k' & H & _); discriminate).
  destruct (kind k) eqn:K; [right|left; exists idx, comps, k; auto|right]; intros i0 c0 (k' & H & K'); injection H as <- <- <-; congruence.
Qed.
Lemma leads_out a b : leads h M a b -> ~ exists e, entry_of kind h qs a e.
Proof. intros L (e & k & l & xs & i & E & _). inversion L; congruence. Qed.
Lemma leads_notM a b : leads h M a b -> ~ In a (q_req qs) -> ~ In a M.
Proof. intros L R H. apply Gn in H as [H|H]; [tauto|]. exact (leads_out a b L H). Qed.
Lemma Disj a : In a (q_elems qs) -> ~ In a M.
Proof.
  intros A. assert (V : In a vars) by (apply q_vars_in; auto). pose proof (Lead a V) as L. rewrite P_elem in L by exact A. apply (leads_notM a _ L). now apply (elems_apart qs).
Qed.
Lemma P_req v : In v (q_req qs) -> pick v = v \/
  exists idx comps i, mixture_node kind h v idx comps /\ nth_error comps i = Some (pick v) /\ ~ In (pick v) M.
Proof.
  intros R. destruct (mix_dec v) as [(idx & comps & Mx)|N]; [right|left; auto]. destruct (P_mix v idx comps R Mx) as (_ & (i & _ & C) & _ & Cs).
  exists idx, comps, i. split; [exact Mx|]. split; [exact C|]. destruct (Cs (pick v) (nth_error_In _ _ C)) as (Rc & b & L & _). exact (leads_notM _ b L Rc).
Qed.
Definition red (a : nat) : nat := if mem a (q_req qs) then pick a else match entry_elem kind h qs a with Some e => e | None => a end.
Lemma red_req a : In a (q_req qs) -> red a = pick a. Proof. intros R. unfold red. now rewrite (proj2 (mem_In a _) R). Qed.
Lemma red_entry a e : ~ In a (q_req qs) -> entry_of kind h qs a e -> red a = e.
Proof. intros R E. unfold red. rewrite (proj2 (mem_not a _) R). apply entry_elem_of in E. now rewrite E. Qed.
Lemma red_id a : ~ In a M -> red a = a.
Proof.
  intros N. unfold red. destruct (mem a (q_req qs)) eqn:R; [apply mem_In in R; destruct N; apply Gn; now left|].
  destruct (entry_elem kind h qs a) as [e|] eqn:E; [|reflexivity]. destruct N. apply Gn. right. exists e. now apply entry_elem_of.
Qed.
Lemma pick_inj v w : In v vars -> In w vars -> pick v = pick w -> v = w.
Proof. intros V W E. apply Inj; auto. pose proof (Lead v V) as L. rewrite E in L. exact (leads_fun h M y _ _ _ Ac L (Lead w W)). Qed.
Definition back (u : nat) : nat := match find (fun v => pick v =? u) vars with Some v => v | None => u end.
Lemma back_pick v : In v vars -> back (pick v) = v.
Proof.
  intros V. unfold back. destruct (find _ vars) as [w|] eqn:E.
  - apply find_some in E as [W Q]. apply Nat.eqb_eq in Q. now apply pick_inj.
  - pose proof (find_none _ _ E v V) as Q. cbn in Q. now rewrite Nat.eqb_refl in Q.
Qed.
Notation h' := (map (renode red) h).
Notation req' := (map pick vars).
Definition y' (u : nat) : R := y (back u).
Definition base' (u : nat) : nat := base (back u).
Lemma y'_pick v : In v vars -> y' (pick v) = y v. Proof. intros V. unfold y'. now rewrite back_pick. Qed.
Lemma base'_pick v : In v vars -> base' (pick v) = base v. Proof. intros V. unfold base'. now rewrite back_pick. Qed.
Lemma clear_pick v : In v vars -> clear_of h qs M pick (pick v).
Proof. intros V x (X & R). apply in_map_iff in X as (w & <- & W). now apply Sep. Qed.
Lemma clear_base v : In v vars -> clear_of h qs M pick (base v).
Proof.
  intros V x X N. destruct (leads_needs h M _ _ (Lead v V)) as [Q|[Q R]]; [rewrite Q in N; exact (clear_pick v V x X N)|].
  apply (clear_pick v V x X). exact (needs_tr h M _ _ _ Q R N).
Qed.
Lemma mix_index v idx comps : In v (q_req qs) -> mixture_node kind h v idx comps -> idx < v.
Proof. intros R (k & E & _). apply (Ac v _ idx E). now left. Qed.
Lemma steady_rho : steady kind fs h qs pick rho.
Proof. intros v idx comps R Mx _. destruct (P_mix v idx comps R Mx) as (_ & (i & V & C) & _). exists (INR i), i. split; [exact V|]. split; [|exact C]. rewrite Rminus_eq_0, Rabs_R0. lra. Qed.
Lemma near_index v idx comps w : In v (q_req qs) -> mixture_node kind h v idx comps -> In w vars ->
  locally (rho (base w)) (fun t => exists x i, svalue fs h (upd rho (base w) t) idx x /\ (Rabs (x - INR i) < / 2)%R /\ nth_error comps i = Some (pick v)).
Proof.
  intros R Mx W. destruct (P_mix v idx comps R Mx) as (_ & (i & V & C) & Pa & _). destruct (Pa w W) as (D & g & L & G).
  assert (E0 : g (rho (base w)) = INR i).
  { pose proof (locally_singleton _ _ L) as V0. cbn in V0. apply (svalue_fun fs h Ac rho idx); [|exact V].
    assert (U : forall j, upd rho (base w) (rho (base w)) j = rho j) by (intros j; unfold upd; destruct (Nat.eqb_spec j (base w)); congruence).
    assert (X : upd rho (base w) (rho (base w)) = rho) by (apply FunctionalExtensionality.functional_extensionality; exact U). now rewrite X in V0. }
  assert (Cg : continuous g (rho (base w))) by (apply (ex_derive_continuous g); exists D; exact G).
  assert (Near : locally (rho (base w)) (fun t => Rabs (g t - INR i) < / 2)%R).
  { assert (O : locally (g (rho (base w))) (fun z => Rabs (z - INR i) < / 2)%R).
    { rewrite E0. assert (Hp : (0 < / 2)%R) by lra. exists (mkposreal _ Hp). intros z Z. exact Z. }
    exact (Cg _ O). }
  generalize (filter_and _ _ L Near). apply filter_imp. intros t [A B]. exists (g t), i. auto.
Qed.
Lemma steady_near w : In w vars -> locally (rho (base w)) (fun t => steady kind fs h qs pick (upd rho (base w) t)).
Proof.
  intros W.
  assert (G : forall l, incl l (q_req qs) -> locally (rho (base w)) (fun t => forall v idx comps, In v l -> mixture_node kind h v idx comps ->
    exists x i, svalue fs h (upd rho (base w) t) idx x /\ (Rabs (x - INR i) < / 2)%R /\ nth_error comps i = Some (pick v))).
  { induction l as [|v l IH]; intros I; [apply filter_forall; intros t v idx comps []|].
    specialize (IH (fun z Z => I z (or_intror Z))). destruct (mix_dec v) as [(idx & comps & Mx)|N].
    - generalize (filter_and _ _ IH (near_index v idx comps w (I v (or_introl eq_refl)) Mx W)). apply filter_imp. intros t [A B] u i c [<-|U] Mu; [|now apply A].
      destruct Mx as (k & E & K), Mu as (k' & E' & K'). rewrite E in E'. injection E' as <- <- <-. exact B.
    - generalize IH. apply filter_imp. intros t A u i c [<-|U] Mu; [now destruct (N i c)|now apply A]. }
  generalize (G (q_req qs) (incl_refl _)). apply filter_imp. intros t A v idx comps R Mx _. now apply A.
Qed.
Notation my := (mY kind h qs y).
Lemma my_req v : In v (q_req qs) -> my v = y v. Proof. intros R. unfold mY. now rewrite (proj2 (mem_In v _) R). Qed.
Lemma my_entry a e : ~ In a (q_req qs) -> entry_of kind h qs a e -> my a = y e.
Proof. intros R E. unfold mY. rewrite (proj2 (mem_not a _) R). apply entry_elem_of in E. now rewrite E. Qed.
Lemma my_value q : In q M -> svalue fs h rho q (my q).
Proof.
  intros H. destruct (in_dec Nat.eq_dec q (q_req qs)) as [R|R]; [rewrite my_req by exact R; apply Val, q_vars_in; now left|].
  apply Gn in H as [H|(e & E)]; [tauto|]. rewrite (my_entry q e R E). destruct E as (k & l & xs & i & E & K & Q & C).
  apply (v_other fs h rho q k l (map y l) (y e) E).
  - assert (F : forall m, incl m l -> Forall2 (svalue fs h rho) m (map y m)).
    { induction m as [|a m IH]; intros I; cbn; constructor; [|apply IH; intros z Z; apply I; now right]. apply Val, q_vars_in. right. unfold q_elems. apply in_flat_map.
      exists (QStack l xs). split; [exact Q|]. apply I. now left. }
    apply F, incl_refl.
  - apply (proj2 Ro k i K). rewrite nth_error_map, C. reflexivity.
Qed.
Notation vd := (valued kind h qs).
Notation va := (valued_as kind h (fin y) qs).
Lemma node_val fuel v : unfold h vd va fuel v = unfold h M (fin my) fuel v.
Proof.
  apply unfold_set; [|intros w W; now apply valued_as_val]. intros w. rewrite (valued_given kind h qs y Vals w). symmetry. apply Gn.
Qed.
Lemma m_node_val v : m_node kind h (fin y) qs v = unfold h M (fin my) (length h) v.
Proof. unfold m_node, u_node. rewrite q_req_vars. apply node_val. Qed.
Lemma m_rv_val i x : m_rv_logprob kind ddt fs dlp h (fin y) rho0 qs i x = u_rv_logprob ddt fs dlp h (fin my) rho0 (map QVar M) i x.
Proof.
  unfold m_rv_logprob, u_rv_logprob. destruct (nth_error h i) as [[| d ps | | | | |]|]; try reflexivity. f_equal. apply map_ext. intros p. unfold u_node.
  rewrite !q_req_vars. now rewrite node_val.
Qed.
Lemma top_val v : top h vd va v = top h M (fin my) v.
Proof. apply expand_ext. intros. apply node_val. Qed.
Notation cond' := (u_conditional ddt fs dlp h' (fin y') rho0 (map QVar req')).
Notation measure v x := (match a_m (annotate (rv_dtype ddt h) fs (top h M (fin my) v)) with None => None
  | Some m => Some (nested_logprob (m_rv_logprob kind ddt fs dlp h (fin y) rho0 qs) m x) end).
Lemma measure_pick v : In v vars -> measure (pick v) (Fin (y v)) = cond' (pick v).
Proof.
  intros V. unfold u_conditional. rewrite q_req_vars, y'_pick by exact V.
  rewrite (measure_h' kind fs h qs M pick red Gn red_req red_entry red_id P_elem y y' y'_pick my my_req my_entry ddt dlp rho0 (pick v) (Fin (y v)) (clear_pick v V)).
  destruct (a_m _) as [m|]; [|reflexivity]. f_equal. apply nested_ext. intros z. apply m_rv_val.
Qed.
Lemma node_top a : ~ In a M -> a < length h -> m_node kind h (fin y) qs a = top h M (fin my) a.
Proof. intros N L. rewrite m_node_val. now apply (unfold_top h M my Ac). Qed.
Lemma leads_lt a b : leads h M a b -> a < length h.
Proof. intros L. apply (leads_chain h M my Ac) in L. tauto. Qed.
(** a requested node that is not a mixture *)
Lemma plain_cond v : In v (q_req qs) -> pick v = v -> u_conditional ddt fs dlp h va rho0 (map QVar vd) v = cond' v.
Proof.
  intros R P. assert (V : In v vars) by (apply q_vars_in; auto). pose proof (measure_pick v V) as E. rewrite P in E. rewrite <- E. unfold u_conditional. rewrite q_req_vars, top_val.
  destruct (a_m _) as [m|]; [|reflexivity]. f_equal. unfold valued_as. rewrite (proj2 (mem_In v _) R). reflexivity.
Qed.
(** a mixture *)
Lemma components_some l : (forall c, In c l -> ~ In c (q_req qs) /\ exists b, leads h M c b /\ (rv_dtype ddt h b <> DInt \/ b = c)) ->
  exists ms, components kind ddt fs h (fin y) qs l = Some ms /\
    forall i c, nth_error l i = Some c -> exists m, nth_error ms i = Some m /\ a_m (annotate (rv_dtype ddt h) fs (top h M (fin my) c)) = Some m.
Proof.
  induction l as [|c l IH]; intros H; [exists []; split; [reflexivity|intros [|i] c E; discriminate]|].
  destruct IH as (ms & E & N); [intros d D; apply H; now right|]. destruct (H c (or_introl eq_refl)) as (R & b & L & F).
  pose proof (leads_notM c b L R) as NM. cbn [components]. rewrite (node_top c NM (leads_lt c b L)).
  assert (A : conditional ddt fs dlp h M (fin my) c <> None) by (apply sys_accepted; [exact Ac|]; eauto). unfold conditional in A.
  destruct (a_m (annotate (rv_dtype ddt h) fs (top h M (fin my) c))) as [m|] eqn:Em; [|tauto]. rewrite E. exists (m :: ms). split; [reflexivity|].
  intros [|i] d D; cbn in D |- *; [injection D as <-; eauto|auto].
Qed.
Lemma index_val idx i : known h M idx -> svalue fs h rho idx (INR i) -> idx < length h ->
  index_of (a_val (annotate (rv_dtype ddt h) fs (draw rho0 (m_node kind h (fin y) qs idx)))) = Z.of_nat i.
Proof.
  intros K V L. rewrite m_node_val. assert (O : occs (unfold h M (fin my) (length h) idx) = []) by (apply (known_occs h M my Ac); auto).
  rewrite draw_closed by exact O.
  assert (Mn : means fs rho (unfold h M (fin my) (length h) idx) (INR i)).
  { apply (unfold_means fs h M my Ac rho (length h)); auto. intros q Q _. now apply my_value. }
  pose proof (vals_plain (rv_dtype ddt h) fs rho [unfold h M (fin my) (length h) idx] [INR i]) as P. cbn in P. rewrite app_nil_r in P. specialize (P O).
  assert (P' := P ltac:(constructor; [exact Mn|constructor])). injection P' as ->. cbn. apply Int_part_INR.
Qed.
Lemma mix_cond v idx comps : In v (q_req qs) -> mixture_node kind h v idx comps -> select_logprob kind ddt fs dlp h (fin y) rho0 qs idx comps (Fin (y v)) = cond' (pick v).
Proof.
  intros R Mx. destruct (P_mix v idx comps R Mx) as (K & (i & Vi & C) & _ & Cs). assert (V : In v vars) by (apply q_vars_in; auto).
  rewrite <- (measure_pick v V). unfold select_logprob. destruct (components_some comps Cs) as (ms & -> & N). destruct (N i (pick v) C) as (m & Nm & Em). rewrite Em. f_equal.
  assert (L : idx < length h). { pose proof (mix_index v idx comps R Mx). destruct Mx as (k & E & _). assert (v < length h) by (apply nth_error_Some; congruence). lia. }
  rewrite (index_val idx i K Vi L). apply (mixture_scalar_in _ i). rewrite nth_error_map, Nm. reflexivity.
Qed.
(** a stack *)
Lemma stack_cond l : incl l (q_elems qs) ->
  match stack_logprob ddt fs dlp h va rho0 (map QVar vd) l (map (fin y) l), q_sums ddt fs dlp h' (fin y') rho0 (map QVar req') (map QVar (map pick l)) with
  | Some a, Some b => a = b | None, None => True | _, _ => False end.
Proof.
  induction l as [|a l IH]; intros I; [reflexivity|]. specialize (IH (fun z Z => I z (or_intror Z))). assert (A : In a (q_elems qs)) by (apply I; now left).
  assert (V : In a vars) by (apply q_vars_in; auto). cbn [stack_logprob map tl q_sums q_sum]. rewrite <- (measure_pick a V). rewrite (P_elem a A).
  pose proof (Lead a V) as L. rewrite (P_elem a A) in L. pose proof (node_top a (Disj a A) (leads_lt a _ L)) as E. unfold m_node in E. rewrite E.
  destruct (a_m _) as [m|]; [|destruct (q_sums _ _ _ _ _ _ _ _); exact Logic.I].
  destruct (stack_logprob _ _ _ _ _ _ _ l _) as [rs|], (q_sums _ _ _ _ _ _ _ _) as [ss|]; auto. now rewrite IH.
Qed.
Lemma sums_all ql : incl ql qs -> match q_sums ddt fs dlp h' (fin y') rho0 (map QVar req') (map QVar (map pick (q_vars ql))), m_sums kind ddt fs dlp h (fin y) rho0 qs ql with
  | Some rs, Some ss => rmap xsum (rseq ss) = rmap xsum (rseq rs) | None, None => True | _, _ => False end.
Proof.
  induction ql as [|q ql IH]; intros I; [reflexivity|]. specialize (IH (fun x X => I x (or_intror X))). cbn [m_sums].
  assert (F : q_vars (q :: ql) = (match q with QVar v => [v] | QStack l _ => l end) ++ q_vars ql) by reflexivity.
  rewrite F, !map_app, q_sums_app. clear F.
  remember (q_sums ddt fs dlp h' (fin y') rho0 (map QVar req') (map QVar (map pick (q_vars ql)))) as A eqn:HA. clear HA.
  remember (m_sums kind ddt fs dlp h (fin y) rho0 qs ql) as B eqn:HB. clear HB.
  assert (Q : In q qs) by (apply I; now left). destruct q as [v|l xs].
  - assert (R : In v (q_req qs)) by (apply in_flat_map; exists (QVar v); cbn; auto).
    assert (E : m_sum kind ddt fs dlp h (fin y) rho0 qs (QVar v) = cond' (pick v)).
    { cbn [m_sum]. destruct (mix_dec v) as [(idx & comps & Mx)|N].
      - rewrite <- (mix_cond v idx comps R Mx). destruct Mx as (k & -> & ->). reflexivity.
      - rewrite (P_plain v R N), <- (plain_cond v R (P_plain v R N)). destruct (nth_error h v) as [[| | | | | |k [|idx comps]]|] eqn:En; try reflexivity.
        destruct (kind k) eqn:K; try reflexivity. destruct (N idx comps). exists k. auto. }
    rewrite E. cbn [map q_sums q_sum]. destruct (cond' (pick v)); [|destruct A, B; auto].
    destruct A, B; auto. cbn [app]. now rewrite !rsum_cons, IH.
  - cbn [m_sum]. rewrite (Vals l xs Q). pose proof (stack_cond l) as S. specialize (S ltac:(intros a A0; apply in_flat_map; exists (QStack l xs); auto)).
    destruct (stack_logprob _ _ _ _ _ _ _ l _) as [rl|], (q_sums _ _ _ _ _ _ _ (map QVar (map pick l))) as [sl|]; try tauto.
    + subst sl. destruct A as [rr|], B as [ss|]; auto. now rewrite rsum_cons, rsum_app, IH.
Qed.
Lemma joint_h' : mixed_joint kind ddt fs dlp h (fin y) rho0 qs = stack_joint ddt fs dlp h' (fin y') rho0 (map QVar req').
Proof.
  unfold mixed_joint, stack_joint. pose proof (sums_all qs (incl_refl _)) as Q. destruct (q_sums _ _ _ _ _ _ _ _), (m_sums _ _ _ _ _ _ _ _ _); try easy. now rewrite Q.
Qed.

Hypothesis Dlp : forall v d l rs, In v vars -> nth_error h (base v) = Some (SRv d l) -> Forall2 (svalue fs h rho) l rs ->
  denotes (dlp d (map Fin rs) (Fin (rho (base v)))) (pdf d rs (rho (base v))).
Variable J : nat -> nat -> R.
Variable ps : list R.
Hypothesis Den : Forall2 (fun v p => draw_density fs h pdf rho (base v) p) vars ps.
Hypothesis Pa : forall i j, i < length vars -> j < length vars -> partial fs h rho (nth i vars 0) (base (nth j vars 0)) (J i j).
Lemma red_value r a x : steady kind fs h qs pick r -> svalue fs h r a x -> svalue fs h' r (red a) x.
Proof. apply (sval_h' kind fs h qs M pick red); auto using red_req, red_entry, red_id, P_req. Qed.
Lemma red_acyclic : acyclic h'.
Proof. apply (h'_acyclic kind h qs M pick red); auto using red_req, red_entry, red_id, P_req. Qed.
Lemma pick_value r v x : In v vars -> steady kind fs h qs pick r -> svalue fs h r v x -> svalue fs h' r (pick v) x.
Proof.
  intros V St H. apply q_vars_in in V as [R|E]; [rewrite <- red_req by exact R; now apply red_value|]. rewrite P_elem by exact E.
  rewrite <- (red_id v) by (now apply Disj). now apply red_value.
Qed.
Lemma base_rv v : In v vars -> exists d l, nth_error h (base v) = Some (SRv d l).
Proof. intros V. exact (leads_rv h M (pick v) (base v) (Lead v V)). Qed.
Lemma base_req v : In v vars -> In (base v) (q_req qs) -> In (base v) req'.
Proof.
  intros V R. destruct (base_rv v V) as (d & l & E). rewrite <- (P_plain (base v) R); [apply in_map, q_vars_in; now left|]. intros idx comps (k & E' & _). congruence.
Qed.
Lemma nth_pick i : i < length vars -> nth i req' 0 = pick (nth i vars 0).
Proof. intros L. rewrite (nth_indep req' 0 (pick 0)) by (now rewrite map_length). apply map_nth. Qed.
Lemma in_req' u : In u req' -> exists v, In v vars /\ u = pick v.
Proof. intros H. apply in_map_iff in H as (v & <- & V). eauto. Qed.
Lemma base_params v d l : In v vars -> nth_error h' (base v) = Some (SRv d l) -> exists l0 rs, nth_error h (base v) = Some (SRv d l0) /\ l = map red l0 /\
  Forall2 (svalue fs h rho) l0 rs /\ Forall2 (svalue fs h' rho) l rs.
Proof.
  intros V E. apply h'_inv in E as (nd & E & Q). destruct nd as [| d0 l0 | | | | |]; try discriminate. injection Q as -> ->.
  assert (D : exists p, draw_density fs h pdf rho (base v) p).
  { clear - Den V. induction Den as [|w p l ps' D F IH]; [destruct V|]. destruct V as [->|V]; [eauto|auto]. }
  destruct D as (p & d1 & l1 & rs & E1 & F & _). rewrite E in E1. injection E1 as <- <-. exists l0, rs. repeat split; auto.
  apply (svals_h' kind fs h qs M pick red); auto using red_req, red_entry, red_id, P_req, steady_rho.
Qed.
Lemma bases_pick : map base' req' = map base vars.
Proof. rewrite map_map. apply map_ext_in. intros v V. now apply base'_pick. Qed.
Lemma nodup_pick : NoDup req'.
Proof.
  assert (U : forall l, incl l vars -> NoDup l -> NoDup (map pick l)).
  { induction l as [|v l IH]; intros L D; cbn [map]; constructor; inversion D as [|? ? D1 D2]; subst; [|apply IH; auto; intros z Z; apply L; now right].
    intros H. apply in_map_iff in H as (w & E & W). apply D1. rewrite <- (pick_inj w v); auto; apply L; [now right|now left]. }
  apply U; [apply incl_refl|exact ND].
Qed.
Lemma val_pick u : In u req' -> svalue fs h' rho u (y' u).
Proof. intros U. apply in_req' in U as (v & V & ->). rewrite y'_pick by exact V. apply pick_value; auto using steady_rho. Qed.
Lemma inj_pick u w : In u req' -> In w req' -> base' u = base' w -> u = w.
Proof. intros U W. apply in_req' in U as (v & V & ->), W as (x & X & ->). rewrite !base'_pick by assumption. intros E. f_equal. now apply Inj. Qed.
Lemma own_pick u w : In u req' -> In w req' -> needs h' req' (base' u) (base' w) -> In (base' w) req'.
Proof.
  intros U W. apply in_req' in U as (v & V & ->), W as (x & X & ->). rewrite !base'_pick by assumption. intros N.
  apply (needs_h' kind h qs M pick red) in N as [N|N]; auto using red_req, red_entry, red_id, clear_base. apply base_req; auto. exact (Own v x V X N).
Qed.
Lemma ag_pick i : ~ In i (map base' req') -> rho0 i = Fin (rho i).
Proof. intros I. rewrite bases_pick in I. now apply Ag. Qed.
Lemma den_pick : Forall2 (fun v p => draw_density fs h' pdf rho (base' v) p) req' ps.
Proof.
  assert (G : forall l qs', incl l vars -> Forall2 (fun v p => draw_density fs h pdf rho (base v) p) l qs' -> Forall2 (fun v p => draw_density fs h' pdf rho (base' v) p) (map pick l) qs').
  { intros l qs' I F. induction F as [|v p l qs' D F IH]; cbn [map]; constructor.
    - rewrite base'_pick by (apply I; now left). destruct D as (d & l0 & rs & E & Fs & ->). exists d, (map red l0), rs. split; [now rewrite h'_nth, E|]. split; [|reflexivity].
      apply (svals_h' kind fs h qs M pick red); auto using red_req, red_entry, red_id, P_req, steady_rho.
    - apply IH. intros z Z. apply I. now right. }
  apply G; [apply incl_refl|exact Den].
Qed.
Lemma dlp_pick u d l rs : In u req' -> nth_error h' (base' u) = Some (SRv d l) -> Forall2 (svalue fs h' rho) l rs ->
  denotes (dlp d (map Fin rs) (Fin (rho (base' u)))) (pdf d rs (rho (base' u))).
Proof.
  intros U. apply in_req' in U as (v & V & ->). rewrite base'_pick by exact V. intros E F. destruct (base_params v d l V E) as (l0 & rs0 & E0 & -> & F0 & F1).
  assert (rs = rs0) as ->; [|exact (Dlp v d l0 rs0 V E0 F0)].
  assert (U : forall l m rs', Forall2 (svalue fs h' rho) l m -> Forall2 (svalue fs h' rho) l rs' -> rs' = m); [|exact (U _ _ _ F1 F)].
  intros l m rs' G. revert rs'. induction G as [|a x l m A G IH]; intros rs' G'; inversion G' as [|? z ? rs'' B G'']; subst; [reflexivity|]. f_equal; [|now apply IH].
  exact (svalue_fun fs h' red_acyclic rho a z x B A).
Qed.
Lemma pa_pick i j : i < length req' -> j < length req' -> partial fs h' rho (nth i req' 0) (base' (nth j req' 0)) (J i j).
Proof.
  rewrite map_length. intros Li Lj. rewrite !nth_pick by assumption. assert (Vi := nth_In vars 0 Li). assert (Vj := nth_In vars 0 Lj).
  rewrite base'_pick by exact Vj. destruct (Pa i j Li Lj) as (g & L & G). exists g. split; [|exact G].
  generalize (filter_and _ _ L (steady_near _ Vj)). apply filter_imp. intros t [A B]. now apply pick_value.
Qed.
Lemma lead_pick u : In u req' -> leads h' req' u (base' u).
Proof.
  intros U. apply in_req' in U as (v & V & ->). rewrite base'_pick by exact V. apply (leads_h' kind h qs M pick red); auto using red_req, red_entry, red_id, P_req, clear_pick.
Qed.
Lemma mixed_sound r d : mixed_joint kind ddt fs dlp h (fin y) rho0 qs = Some r -> denotes r d ->
  rdet (length vars) J <> 0%R /\ d = (rprod ps / Rabs (rdet (length vars) J))%R.
Proof.
  rewrite joint_h'. intros Ej Dr. rewrite <- (map_length pick vars).
  apply (sound_vars ddt fs dlp pdf h' req' y' base' rho rho0 J ps r d);
    auto using red_acyclic, nodup_pick, val_pick, lead_pick, inj_pick, ag_pick, den_pick, pa_pick; [exact own_pick|exact dlp_pick].
Qed.
Hypothesis Sm : forall v, In v vars -> smooth fs h M rho (pick v) (base v) /\ (rv_dtype ddt h (base v) <> DInt \/ base v = pick v).
Lemma mixed_here : rdet (length vars) J <> 0%R /\
  exists r, mixed_joint kind ddt fs dlp h (fin y) rho0 qs = Some r /\ denotes r (rprod ps / Rabs (rdet (length vars) J)).
Proof.
  rewrite joint_h'. rewrite <- (map_length pick vars).
  apply (given_vars ddt fs dlp pdf h' req' y' base' rho rho0 J ps); auto using red_acyclic, nodup_pick, val_pick, inj_pick, ag_pick, den_pick, pa_pick; [|exact own_pick|exact dlp_pick].
  intros u U. apply in_req' in U as (v & V & ->). rewrite base'_pick by exact V. destruct (Sm v V) as [S1 S2]. split.
  - apply (smooth_h' kind fs h qs M pick red); auto using red_req, red_entry, red_id, P_req, steady_rho, clear_pick.
  - rewrite h'_dtype. exact S2.
Qed.
End Density.
Lemma mixed_density : forall kind ddt fs dlp pdf h qs M y base pick rho (rho0 : nat -> xr),
  acyclic h -> NoDup (q_vars qs) -> roles_ok kind fs -> given_nodes kind h qs M ->
  (forall l xs, In (QStack l xs) qs -> xs = map (fun v => Fin (y v)) l) ->
  (forall v, In v (q_elems qs) -> pick v = v) ->
  (forall v, In v (q_req qs) -> (forall idx comps, ~ mixture_node kind h v idx comps) -> pick v = v) ->
  (forall v idx comps, In v (q_req qs) -> mixture_node kind h v idx comps ->
    known h M idx /\ (exists i, svalue fs h rho idx (INR i) /\ nth_error comps i = Some (pick v)) /\
    (forall w, In w (q_vars qs) -> exists D, partial fs h rho idx (base w) D) /\
    (forall c, In c comps -> ~ In c (q_req qs) /\ exists b, leads h M c b /\ (rv_dtype ddt h b <> DInt \/ b = c))) ->
  (forall v w, In v (q_vars qs) -> In w (q_vars qs) -> ~ In (pick w) (q_req qs) -> ~ needs h M (pick v) (pick w)) ->
  (forall v, In v (q_vars qs) -> svalue fs h rho v (y v)) ->
  (forall v, In v (q_vars qs) -> smooth fs h M rho (pick v) (base v) /\ (rv_dtype ddt h (base v) <> DInt \/ base v = pick v)) ->
  (forall v w, In v (q_vars qs) -> In w (q_vars qs) -> base v = base w -> v = w) ->
  (forall v w, In v (q_vars qs) -> In w (q_vars qs) -> needs h M (base v) (base w) -> In (base w) (q_req qs)) ->
  (forall i, ~ In i (map base (q_vars qs)) -> rho0 i = Fin (rho i)) ->
  (forall v d l rs, In v (q_vars qs) -> nth_error h (base v) = Some (SRv d l) -> Forall2 (svalue fs h rho) l rs ->
    denotes (dlp d (map Fin rs) (Fin (rho (base v)))) (pdf d rs (rho (base v)))) ->
  forall J ps, Forall2 (fun v p => draw_density fs h pdf rho (base v) p) (q_vars qs) ps ->
  (forall i j, i < length (q_vars qs) -> j < length (q_vars qs) -> partial fs h rho (nth i (q_vars qs) 0) (base (nth j (q_vars qs) 0)) (J i j)) ->
  rdet (length (q_vars qs)) J <> 0%R /\
  exists r, mixed_joint kind ddt fs dlp h (fun v => Fin (y v)) rho0 qs = Some r /\ denotes r (rprod ps / Rabs (rdet (length (q_vars qs)) J)).
Proof.
  intros kind ddt fs dlp pdf h qs M y base pick rho rho0 Ac ND Ro Gn Vs P1 P2 P3 Sep V Sm Inj Own Ag Dlp J ps Den Pa.
  apply (mixed_here kind ddt fs dlp pdf h qs M y base pick rho rho0); auto. intros v I. eapply smooth_leads, Sm, I.
Qed.

(** which mixtures get a factor *)
Lemma mixture_accepted kind ddt fs dlp h y rho qs M v idx comps : acyclic h -> given_nodes kind h qs M ->
  (forall l xs, In (QStack l xs) qs -> xs = map (fin y) l) -> mixture_node kind h v idx comps ->
  (m_sum kind ddt fs dlp h (fin y) rho qs (QVar v) <> None <->
   forall c, In c comps -> ~ In c M /\ exists b, leads h M c b /\ (rv_dtype ddt h b <> DInt \/ b = c)).
Proof.
  intros Ac Gn Vals (k & E & K). cbn [m_sum]. rewrite E, K. unfold select_logprob.
  assert (Un : forall a, m_node kind h (fin y) qs a = u_node h (fin (mY kind h qs y)) (map QVar M) a).
  { intros a. unfold m_node, u_node. rewrite !q_req_vars. apply unfold_set; [intros w; rewrite (valued_given kind h qs y Vals w); symmetry; apply Gn|]. intros w W. now apply valued_as_val. }
  assert (C : components kind ddt fs h (fin y) qs comps <> None <-> forall c, In c comps -> ~ In c M /\ exists b, leads h M c b /\ (rv_dtype ddt h b <> DInt \/ b = c)).
  { clear E. induction comps as [|c l IH]; cbn [components]; [split; [intros _ c []|discriminate]|]. rewrite Un.
    pose proof (elem_accepted ddt fs h (mY kind h qs y) (map QVar M) c Ac) as Q. rewrite q_req_vars in Q. destruct (a_m _) as [m|].
    - assert (A : Some m <> None) by discriminate. apply Q in A. destruct (components _ _ _ _ _ _ l) as [rs|].
      + split; [|discriminate]. intros _ b [<-|I]; [exact A|]. revert b I. apply IH. discriminate.
      + split; [tauto|]. intros H. exfalso. apply (proj2 IH); [|reflexivity]. intros b B. apply H. now right.
    - split; [tauto|]. intros H. exfalso. apply (proj2 Q); [|reflexivity]. apply H. now left. }
  rewrite <- C. destruct (components _ _ _ _ _ _ comps); split; try discriminate; tauto.
Qed.
