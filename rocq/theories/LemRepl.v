(** Lemmas for C39. *)
From Coq Require Import List Arith Bool Lia.
From Verif Require Import ModelJoint ModelWalk SpecWalk LemWalk ModelRepl SpecRepl.
Import ListNotations.
Open Scope nat_scope.

Scheme stands_mut := Induction for stands Sort Prop with stands_all_mut := Induction for stands_all Sort Prop.

Lemma view_args : forall h v, args_of (view h) v =
  match nth_error h v with Some nd => if r_is_in (r_op nd) then [] else r_args nd | None => [] end.
Proof.
  intros h v. unfold args_of, owner_of, view. rewrite nth_error_map. destruct (nth_error h v) as [[[|f m] ps]|]; easy.
Qed.
Lemma members_spec : forall h outs v, In v (members h outs) <-> exists u, In u outs /\ reach (args_of (view h)) u v.
Proof.
  intros h outs v. unfold members.
  destruct (walk_reach (args_of (view h)) (fun (_ : unit) v => (args_of (view h) v, tt)) tt (fun v => eq_refl) (length h) (fun v => length (args_of (view h) v)))
    with (fuel := walk_fuel (length h) (fun v => length (args_of (view h) v)) outs) (stack := outs) as (_ & _ & R).
  - lia.
  - intros u L. rewrite view_args, (proj2 (nth_error_None h u) L). easy.
  - unfold walk_fuel. lia.
  - apply R.
Qed.
Lemma members_out : forall h outs v, In v outs -> In v (members h outs).
Proof. intros h outs v I. apply members_spec. exists v. split; [exact I|constructor]. Qed.
Lemma reach_trans1 : forall e u w v, reach e u w -> In v (e w) -> reach e u v.
Proof. intros e u w v R. induction R as [w|u x w I R IH]; intros J; [eapply re_step; [exact J|constructor]|eapply re_step; eauto]. Qed.
Lemma members_arg : forall h outs v a, In v (members h outs) -> In a (args_of (view h) v) -> In a (members h outs).
Proof.
  intros h outs v a I J. apply members_spec in I as (u & Iu & R). apply members_spec. exists u. split; [exact Iu|].
  eapply reach_trans1; eauto.
Qed.

(** ** the walk leaves the dictionary as it is *)
Lemma dset_same : forall A (d : list (nat * A)) k a, dget d k = Some a -> dset d k a = d.
Proof.
  intros A d k a. induction d as [|[k' a'] d IH]; [easy|]. cbn. destruct (k =? k') eqn:E.
  - intros X. injection X as ->. apply Nat.eqb_eq in E as ->. easy.
  - intros X. rewrite (IH X). easy.
Qed.
Lemma walk_replace_id : forall h graphs past stop initial, walk_replace h graphs past stop initial = initial.
Proof.
  intros h graphs past stop initial. unfold walk_replace.
  set (e := fun v => fst (expand_replace h initial v) ++ expands (view h) past stop v).
  assert (EX : forall v, (let (new, d) := expand_replace h initial v in (new ++ expands (view h) past stop v, d)) = (e v, initial)).
  { intros v. unfold e, expand_replace. destruct (owner_of (view h) v) as [o|]; [|easy]. destruct (o_meas o); [|easy].
    destruct (dget initial v) as [r|] eqn:D; [|easy]. rewrite (dset_same _ _ _ _ D). easy. }
  assert (BD : forall v, length (e v) <= 1 + length (args_of (view h) v)).
  { intros v. unfold e. rewrite app_length. assert (L := length_expands (view h) past stop v).
    assert (K : length (fst (expand_replace h initial v)) <= 1); [|lia]. unfold expand_replace.
    destruct (owner_of (view h) v) as [o|]; [|cbn; lia]. destruct (o_meas o); [|cbn; lia]. destruct (dget initial v); cbn; lia. }
  assert (OUT : forall v, length h <= v -> e v = []).
  { intros v L. unfold e. rewrite expands_out by (unfold view; rewrite map_length; exact L). unfold expand_replace, owner_of, view.
    rewrite nth_error_map, (proj2 (nth_error_None h v) L). easy. }
  assert (F : length (rev graphs) + list_sum (map (fun v => 1 + length (args_of (view h) v)) (seq 0 (length h))) <= walk_fuel (length h) (fun v => 1 + length (args_of (view h) v)) graphs).
  { unfold walk_fuel. rewrite rev_length. lia. }
  apply (walk_reach e _ initial EX (length h) _ BD OUT _ _ F).
Qed.

(** ** one replacement *)
Definition wf_in (h : rheap) : Prop := forall v nd, nth_error h v = Some nd -> r_op nd = NIn -> r_args nd = [].
Definition upd (ms : list nat) (a r v : nat) (nd : rnode) : rnode :=
  if mem v ms then rn (r_op nd) (map (subst1 a r) (r_args nd)) else nd.
Lemma nth_combine_seq : forall A (l : list A) k v, nth_error (combine (seq k (length l)) l) v = option_map (fun x => (k + v, x)) (nth_error l v).
Proof.
  intros A l. induction l as [|x l IH]; intros k v; [destruct v; easy|]. destruct v; cbn; [rewrite Nat.add_0_r; easy|].
  rewrite IH. replace (S k + v) with (k + S v) by lia. easy.
Qed.
Lemma map_subst_id : forall a r l, ~ In a l -> map (subst1 a r) l = l.
Proof.
  intros a r l. induction l as [|x l IH]; intros N; [easy|]. cbn. rewrite IH by (intros I; apply N; right; exact I).
  unfold subst1. rewrite (proj2 (Nat.eqb_neq x a)); [easy|]. intros ->. apply N. left. easy.
Qed.
Lemma fg_nth : forall h outs a r, wf_in h -> let (h', outs') := fg_replace (h, outs) (a, r) in
  outs' = map (subst1 a r) outs /\ forall v, nth_error h' v = option_map (upd (members h outs) a r v) (nth_error h v).
Proof.
  intros h outs a r W. unfold fg_replace. cbn [fst snd]. destruct (mem a (members h outs)) eqn:M.
  - split; [easy|]. intros v. rewrite nth_error_map, nth_combine_seq. destruct (nth_error h v); easy.
  - apply mem_false in M. split; [rewrite map_subst_id; [easy|]; intros I; apply M, members_out, I|].
    intros v. destruct (nth_error h v) as [nd|] eqn:E; [|easy]. cbn. unfold upd. destruct (mem v (members h outs)) eqn:Mv; [|easy].
    apply mem_spec in Mv. rewrite map_subst_id; [destruct nd; easy|]. intros I. apply M. eapply members_arg; [exact Mv|]. rewrite view_args, E.
    destruct (r_op nd) eqn:O; [|exact I]. rewrite (W v nd E O) in I. easy.
Qed.

(** variables met when every variable of [cur] is read as its replacement *)
Inductive sw (h : rheap) (cur : list (nat * nat)) (outs : list nat) : nat -> Prop :=
| sw_out : forall v, In v outs -> sw h cur outs v
| sw_arg : forall v nd a, sw h cur outs v -> dget cur v = None -> nth_error h v = Some nd -> In a (r_args nd) -> sw h cur outs a
| sw_rep : forall v r, sw h cur outs v -> dget cur v = Some r -> sw h cur outs r.

Lemma dget_in : forall A (d : list (nat * A)) k a, dget d k = Some a -> In (k, a) d.
Proof.
  intros A d k a. induction d as [|[k' a'] d IH]; [easy|]. cbn. destruct (k =? k') eqn:E; [|intros X; right; auto].
  intros X. injection X as ->. apply Nat.eqb_eq in E as ->. left. easy.
Qed.
Lemma dget_none : forall A (d : list (nat * A)) k, dget d k = None <-> ~ In k (map fst d).
Proof.
  intros A d k. induction d as [|[k' a'] d IH]; [easy|]. cbn. destruct (k =? k') eqn:E.
  - apply Nat.eqb_eq in E as ->. split; [easy|]. intros N. exfalso. apply N. left. easy.
  - apply Nat.eqb_neq in E. rewrite IH. intuition.
Qed.
Lemma leads_trans1 : forall h keys u v nd a, leads h keys u v -> nth_error h v = Some nd -> ~ In v keys -> In a (r_args nd) -> leads h keys u a.
Proof.
  intros h keys u v nd a L. induction L as [v|v nd' b w E N I L IH]; intros E' N' I'.
  - eapply le_step; [exact E'|exact N'|exact I'|constructor].
  - eapply le_step; eauto.
Qed.

Section Fix.
Variables (h : rheap) (R : list (nat * nat)).
Let keys := map fst R.
Hypothesis G : rgraph h.
Hypothesis RP : replacements h R.
Hypothesis LO : later_only h R.

Record J (done cur : list (nat * nat)) (hh : rheap) (outs : list nat) (graphs : list nat) : Prop := {
  j_split : R = done ++ cur;
  j_wf : wf_in hh;
  j_w : forall a r u, In (a, r) cur -> leads h keys r u -> ~ In u keys -> nth_error hh u = nth_error h u;
  j_len : length outs = length graphs;
  j_tree : forall i o v t, nth_error outs i = Some o -> nth_error graphs i = Some v -> (stands hh cur o t <-> stands h R v t);
  j_sw : forall u, sw hh cur outs u -> ~ In u (map fst done) }.

Section Step.
Variables (done rest : list (nat * nat)) (a r : nat) (hh : rheap) (outs graphs : list nat).
Hypothesis JJ : J done ((a, r) :: rest) hh outs graphs.
Let cur := (a, r) :: rest.
Let M := members hh outs.
Definition W (u : nat) : Prop := exists a' r', In (a', r') cur /\ leads h keys r' u.

Lemma w_early : forall u, W u -> ~ In u (map fst (done ++ [(a, r)])).
Proof.
  intros u (a' & r' & I & L) K. apply in_map_iff in K as ((x & rx) & <- & K). cbn in L.
  apply In_nth_error in I as (k & Ek). apply In_nth_error in K as (j & Ej).
  assert (Lj : j < length (done ++ [(a, r)])) by (apply nth_error_Some; congruence). rewrite app_length in Lj. cbn in Lj.
  apply (LO (length done + k) j a' r' x rx); [| |lia|exact L]; rewrite (j_split _ _ _ _ _ JJ).
  - rewrite nth_error_app2 by lia. replace (length done + k - length done) with k by lia. exact Ek.
  - change ((a, r) :: rest) with ([(a, r)] ++ rest). rewrite app_assoc, nth_error_app1; [exact Ej|]. rewrite app_length. cbn. lia.
Qed.
Lemma w_not_a : forall u, W u -> u <> a.
Proof. intros u H ->. apply (w_early a H). rewrite map_app. apply in_or_app. right. left. easy. Qed.
Lemma w_rep : forall v x, dget cur v = Some x -> W x.
Proof. intros v x D. apply dget_in in D. exists v, x. split; [exact D|constructor]. Qed.
Lemma w_nonkey : forall u, W u -> dget cur u = None -> ~ In u keys.
Proof.
  intros u H D. apply dget_none in D. unfold keys. rewrite (j_split _ _ _ _ _ JJ), map_app. intros K. apply in_app_or in K as [K|K]; [|exact (D K)].
  apply (w_early u H). rewrite map_app. apply in_or_app. left. exact K.
Qed.
Lemma w_arg : forall u nd b, W u -> dget cur u = None -> nth_error hh u = Some nd -> In b (r_args nd) -> W b.
Proof.
  intros u nd b H D E I. assert (K := w_nonkey u H D). destruct H as (a' & r' & Ia & L).
  exists a', r'. split; [exact Ia|]. rewrite (j_w _ _ _ _ _ JJ a' r' u Ia L K) in E. eapply leads_trans1; eauto.
Qed.
Definition D (u : nat) : Prop := In u M \/ W u.
Lemma m_arg : forall u nd b, In u M -> nth_error hh u = Some nd -> In b (r_args nd) -> In b M.
Proof.
  intros u nd b I E Ib. eapply members_arg; [exact I|]. rewrite view_args, E. destruct (r_op nd) eqn:O; [|exact Ib].
  rewrite (j_wf _ _ _ _ _ JJ u nd E O) in Ib. easy.
Qed.
Lemma sw_D : forall u, sw hh cur outs u -> D u.
Proof.
  intros u S. induction S as [v I|v nd b S IH Dv E I|v x S IH Dv].
  - left. apply members_out, I.
  - destruct IH as [IH|IH]; [left; eapply m_arg; eauto|right; eapply w_arg; eauto].
  - right. eapply w_rep, Dv.
Qed.

Variables (hh' : rheap) (outs' : list nat).
Hypothesis FG : fg_replace (hh, outs) (a, r) = (hh', outs').
Lemma new_outs : outs' = map (subst1 a r) outs.
Proof. assert (F := fg_nth hh outs a r (j_wf _ _ _ _ _ JJ)). rewrite FG in F. apply F. Qed.
Lemma new_nth : forall v, nth_error hh' v = option_map (upd M a r v) (nth_error hh v).
Proof. assert (F := fg_nth hh outs a r (j_wf _ _ _ _ _ JJ)). rewrite FG in F. apply F. Qed.
Lemma new_wf : wf_in hh'.
Proof.
  intros v nd E O. rewrite new_nth in E. destruct (nth_error hh v) as [nd0|] eqn:E0; [|easy]. cbn in E. injection E as <-.
  unfold upd in *. destruct (mem v M); cbn in *; rewrite (j_wf _ _ _ _ _ JJ v nd0 E0 O); easy.
Qed.
Lemma dget_cur : forall v, v <> a -> dget cur v = dget rest v.
Proof. intros v N. cbn. rewrite (proj2 (Nat.eqb_neq v a) N). easy. Qed.
Lemma r_W : W r.
Proof. exists a, r. split; [left; easy|constructor]. Qed.

Lemma old_of_new : forall v t, stands hh' rest v t -> D v -> v <> a -> stands hh cur v t.
Proof.
  apply (stands_mut hh' rest (fun v t _ => D v -> v <> a -> stands hh cur v t)
    (fun ps' l _ => forall ps, (forall p, In p ps -> D p) -> ps' = map (subst1 a r) ps -> stands_all hh cur ps l)).
  - intros v x t Dv S IH Dd N. assert (C : dget cur v = Some x) by (rewrite dget_cur; assumption). assert (Wx := w_rep v x C).
    eapply st_rep; [exact C|]. apply IH; [right; exact Wx|apply w_not_a, Wx].
  - intros v ps Dv E Dd N. rewrite new_nth in E. destruct (nth_error hh v) as [nd|] eqn:E0; [|easy]. cbn in E. injection E as E.
    assert (O : r_op nd = NIn). { unfold upd in E. destruct (mem v M); destruct nd; cbn in *; congruence. }
    destruct nd as [o q]. cbn in O. subst o. eapply st_in; [rewrite dget_cur; assumption|exact E0].
  - intros v f m ps l Dv E S IH Dd N. rewrite new_nth in E. destruct (nth_error hh v) as [[o q]|] eqn:E0; [|easy]. cbn in E. injection E as E.
    assert (C : dget cur v = None) by (rewrite dget_cur; assumption).
    unfold upd in E. destruct (mem v M) eqn:Mv; cbn in E; injection E as -> E.
    + apply mem_spec in Mv. eapply st_op; [exact C|exact E0|]. apply IH; [|symmetry; exact E].
      intros p Ip. left. eapply (m_arg v (rn (NOp f m) q)); eauto.
    + apply mem_false in Mv. destruct Dd as [Dd|Dd]; [contradiction|]. eapply st_op; [exact C|exact E0|].
      assert (Wq : forall p, In p q -> W p) by (intros p Ip; eapply (w_arg v (rn (NOp f m) q)); eauto).
      apply IH; [intros p Ip; right; auto|]. rewrite map_subst_id; [easy|]. intros I. apply (w_not_a a (Wq a I)). easy.
  - intros ps _ E. destruct ps; [constructor|discriminate].
  - intros p' ps' t l S IH Sl IHl ps Dp E. destruct ps as [|p ps]; [discriminate|]. cbn in E. injection E as E1 E2. constructor.
    + unfold subst1 in E1. destruct (p =? a) eqn:Pa.
      * apply Nat.eqb_eq in Pa as ->. eapply st_rep; [cbn; rewrite Nat.eqb_refl; reflexivity|]. rewrite <- E1.
        apply IH; rewrite E1; [right; exact r_W|apply w_not_a, r_W].
      * apply Nat.eqb_neq in Pa. rewrite <- E1. apply IH; rewrite E1; [apply Dp; left; easy|exact Pa].
    + apply IHl; [intros x I; apply Dp; right; exact I|exact E2].
Qed.
Lemma new_of_old : forall v t, stands hh cur v t -> D v -> stands hh' rest (subst1 a r v) t.
Proof.
  apply (stands_mut hh cur (fun v t _ => D v -> stands hh' rest (subst1 a r v) t)
    (fun ps l _ => (forall p, In p ps -> D p) -> stands_all hh' rest (map (subst1 a r) ps) l)).
  - intros v x t Dv S IH Dd. assert (Wx := w_rep v x Dv). specialize (IH (or_intror Wx)).
    unfold subst1 in IH. rewrite (proj2 (Nat.eqb_neq x a) (w_not_a x Wx)) in IH. unfold subst1. destruct (v =? a) eqn:Va.
    + apply Nat.eqb_eq in Va as ->. cbn in Dv. rewrite Nat.eqb_refl in Dv. injection Dv as <-. exact IH.
    + apply Nat.eqb_neq in Va. eapply st_rep; [rewrite <- dget_cur; eassumption|exact IH].
  - intros v ps Dv E Dd. assert (N : v <> a) by (intros ->; cbn in Dv; rewrite Nat.eqb_refl in Dv; discriminate).
    unfold subst1. rewrite (proj2 (Nat.eqb_neq v a) N). rewrite dget_cur in Dv by exact N.
    assert (E' := new_nth v). rewrite E in E'. cbn in E'. unfold upd in E'. destruct (mem v M); eapply st_in; eauto.
  - intros v f m ps l Dv E S IH Dd. assert (N : v <> a) by (intros ->; cbn in Dv; rewrite Nat.eqb_refl in Dv; discriminate).
    assert (C := Dv). rewrite dget_cur in Dv by exact N.
    unfold subst1. rewrite (proj2 (Nat.eqb_neq v a) N). assert (E' := new_nth v). rewrite E in E'. cbn in E'. unfold upd in E'. destruct (mem v M) eqn:Mv; cbn in E'.
    + apply mem_spec in Mv. eapply st_op; [exact Dv|exact E'|]. apply IH. intros p Ip. left. eapply (m_arg v (rn (NOp f m) ps)); eauto.
    + apply mem_false in Mv. destruct Dd as [Dd|Dd]; [contradiction|].
      assert (Wq : forall p, In p ps -> W p) by (intros p Ip; eapply (w_arg v (rn (NOp f m) ps)); eauto).
      eapply st_op; [exact Dv|exact E'|]. rewrite <- (map_subst_id a r ps) by (intros I; apply (w_not_a a (Wq a I)); easy).
      apply IH. intros p Ip. right. auto.
  - constructor.
  - intros p ps t l S IH Sl IHl Dp. constructor; [apply IH, Dp; left; easy|]. apply IHl. intros x I. apply Dp. right. exact I.
Qed.
Lemma sw_new : forall u, sw hh' rest outs' u -> sw hh cur outs u /\ u <> a.
Proof.
  assert (SR : sw hh cur outs a -> sw hh cur outs r) by (intros S; eapply sw_rep; [exact S|cbn; rewrite Nat.eqb_refl; reflexivity]).
  assert (T : forall p, sw hh cur outs p -> sw hh cur outs (subst1 a r p) /\ subst1 a r p <> a).
  { intros p S. unfold subst1. destruct (p =? a) eqn:E; [|apply Nat.eqb_neq in E; auto]. apply Nat.eqb_eq in E as ->. split; [auto|apply w_not_a, r_W]. }
  intros u S. induction S as [v I|v nd b S IH Dv E I|v x S IH Dv].
  - rewrite new_outs in I. apply in_map_iff in I as (o & <- & I). apply T. constructor. exact I.
  - destruct IH as (Sv & N). assert (C : dget cur v = None) by (rewrite dget_cur; assumption).
    rewrite new_nth in E. destruct (nth_error hh v) as [nd0|] eqn:E0; [|easy]. cbn in E. injection E as <-.
    unfold upd in I. destruct (mem v M) eqn:Mv; cbn in I.
    + apply in_map_iff in I as (p & <- & I). apply T. eapply sw_arg; eauto.
    + split; [eapply sw_arg; eauto|]. apply mem_false in Mv. destruct (sw_D v Sv) as [Q|Q]; [contradiction|].
      apply w_not_a. eapply w_arg; eauto.
  - destruct IH as (Sv & N). assert (C : dget cur v = Some x) by (rewrite dget_cur; assumption).
    split; [eapply sw_rep; eauto|]. apply w_not_a. eapply w_rep, C.
Qed.
Lemma step_J : J (done ++ [(a, r)]) rest hh' outs' graphs.
Proof.
  constructor.
  - rewrite <- app_assoc. apply (j_split _ _ _ _ _ JJ).
  - exact new_wf.
  - intros a' r' u I L K. assert (I' : In (a', r') cur) by (right; exact I). rewrite <- (j_w _ _ _ _ _ JJ a' r' u I' L K), new_nth.
    destruct (nth_error hh u) as [nd|] eqn:E; [|easy]. cbn. unfold upd. destruct (mem u M); [|easy].
    rewrite map_subst_id; [destruct nd; easy|]. intros Ia. apply (w_not_a a); [|easy].
    eapply w_arg; [exists a', r'; eauto| |exact E|exact Ia]. apply dget_none. intros Q. apply K. unfold keys. rewrite (j_split _ _ _ _ _ JJ), map_app. apply in_or_app. right. exact Q.
  - rewrite new_outs, map_length. apply (j_len _ _ _ _ _ JJ).
  - intros i o v t Eo Ev. rewrite new_outs, nth_error_map in Eo. destruct (nth_error outs i) as [o0|] eqn:E0; [|easy]. cbn in Eo. injection Eo as <-.
    rewrite <- (j_tree _ _ _ _ _ JJ i o0 v t E0 Ev). assert (Do : D o0) by (left; apply members_out; eapply nth_error_In, E0). split.
    + intros S. unfold subst1 in S. destruct (o0 =? a) eqn:Q.
      * apply Nat.eqb_eq in Q as ->. eapply st_rep; [cbn; rewrite Nat.eqb_refl; reflexivity|]. apply old_of_new; [exact S|right; exact r_W|apply w_not_a, r_W].
      * apply Nat.eqb_neq in Q. apply old_of_new; assumption.
    + intros S. apply new_of_old; assumption.
  - intros u S. destruct (sw_new u S) as (So & N). rewrite map_app. intros I. apply in_app_or in I as [I|[I|[]]]; [|cbn in I; congruence].
    apply (j_sw _ _ _ _ _ JJ u So I).
Qed.
End Step.

Lemma all_steps : forall rest done hh outs graphs, J done rest hh outs graphs ->
  let (h', outs') := fold_left fg_replace rest (hh, outs) in J R [] h' outs' graphs.
Proof.
  induction rest as [|[a r] rest IH]; intros done hh outs graphs JJ.
  - cbn. assert (E := j_split _ _ _ _ _ JJ). rewrite app_nil_r in E. rewrite E. exact JJ.
  - cbn [fold_left]. destruct (fg_replace (hh, outs) (a, r)) as [hh' outs'] eqn:F. apply (IH (done ++ [(a, r)])). eapply step_J; eauto.
Qed.

(** ** the clone *)
Let n := length h.
Lemma clone_lo : forall v, v < n -> nth_error (clone h keys) v = nth_error h v.
Proof. intros v L. unfold clone. apply nth_error_app1. exact L. Qed.
Lemma clone_hi : forall v, nth_error (clone h keys) (v + n) = option_map (fun nd => rn (r_op nd) (map (equiv h keys) (r_args nd))) (nth_error h v).
Proof. intros v. unfold clone. fold n. rewrite nth_error_app2 by (fold n; lia). fold n. rewrite Nat.add_sub, nth_error_map. easy. Qed.
Lemma key_lt : forall v r, dget R v = Some r -> v < n /\ r < n.
Proof. intros v r D. apply dget_in in D. apply (proj2 RP) in D. exact D. Qed.
Lemma arg_lt : forall v nd b, nth_error h v = Some nd -> In b (r_args nd) -> b < n.
Proof. intros v nd b E I. assert (L : v < n) by (apply nth_error_Some; congruence). apply (proj2 (G v nd E)) in I. lia. Qed.
Lemma clone_orig : forall v t, v < n -> (stands (clone h keys) R v t <-> stands h R v t).
Proof.
  intros v t L. split.
  - intros S. revert v t S L.
    apply (stands_mut (clone h keys) R (fun v t _ => v < n -> stands h R v t) (fun ps l _ => (forall p, In p ps -> p < n) -> stands_all h R ps l)).
    + intros v r t D S IH L. eapply st_rep; [exact D|]. apply IH, (key_lt v r D).
    + intros v ps D E L. rewrite clone_lo in E by exact L. eapply st_in; eauto.
    + intros v f m ps l D E S IH L. rewrite clone_lo in E by exact L. eapply st_op; [exact D|exact E|]. apply IH. intros p I. apply (arg_lt v (rn (NOp f m) ps) p E I).
    + constructor.
    + intros p ps t l S IH Sl IHl Lp. constructor; [apply IH, Lp; left; easy|]. apply IHl. intros x I. apply Lp. right. exact I.
  - intros S. revert v t S L.
    apply (stands_mut h R (fun v t _ => v < n -> stands (clone h keys) R v t) (fun ps l _ => (forall p, In p ps -> p < n) -> stands_all (clone h keys) R ps l)).
    + intros v r t D S IH L. eapply st_rep; [exact D|]. apply IH, (key_lt v r D).
    + intros v ps D E L. eapply st_in; [exact D|]. rewrite clone_lo; eauto.
    + intros v f m ps l D E S IH L. eapply st_op; [exact D|rewrite clone_lo; eauto|]. apply IH. intros p I. apply (arg_lt v (rn (NOp f m) ps) p E I).
    + constructor.
    + intros p ps t l S IH Sl IHl Lp. constructor; [apply IH, Lp; left; easy|]. apply IHl. intros x I. apply Lp. right. exact I.
Qed.
Lemma equiv_cases : forall v, v < n -> (equiv h keys v = v /\ ((exists ps, nth_error h v = Some (rn NIn ps)) \/ In v keys)) \/
  (equiv h keys v = v + n /\ ~ In v keys /\ exists f m ps, nth_error h v = Some (rn (NOp f m) ps)).
Proof.
  intros v L. unfold equiv. destruct (nth_error h v) as [[o ps]|] eqn:E; [|apply nth_error_None in E; fold n in E; lia]. cbn.
  destruct o as [|f m]; [left; eauto|]. cbn. destruct (mem v keys) eqn:K; [left; apply mem_spec in K; auto|].
  right. apply mem_false in K. split; [easy|]. split; [exact K|]. eauto.
Qed.
Lemma hi_none : forall v, dget R (v + n) = None.
Proof. intros v. destruct (dget R (v + n)) eqn:D; [|easy]. apply key_lt in D. lia. Qed.
Lemma clone_equiv : forall v t, v < n -> (stands (clone h keys) R (equiv h keys v) t <-> stands h R v t).
Proof.
  intros v t L. split.
  - intros S. remember (equiv h keys v) as w eqn:Ew. revert v L Ew. revert w t S.
    apply (stands_mut (clone h keys) R (fun w t _ => forall v, v < n -> w = equiv h keys v -> stands h R v t)
       (fun qs l _ => forall ps, (forall p, In p ps -> p < n) -> qs = map (equiv h keys) ps -> stands_all h R ps l)).
    + intros w r t D S IH v L E. destruct (equiv_cases v L) as [(E' & _)|(E' & _)]; rewrite E' in E; subst w.
      * apply clone_orig; [exact L|]. eapply st_rep; eauto.
      * rewrite hi_none in D. discriminate.
    + intros w ps D Ew v L E. destruct (equiv_cases v L) as [(E' & _)|(E' & _ & f & m & qs & Ev)]; rewrite E' in E; subst w.
      * apply clone_orig; [exact L|]. eapply st_in; eauto.
      * rewrite clone_hi, Ev in Ew. discriminate.
    + intros w f m ps l D Ew S IH v L E. destruct (equiv_cases v L) as [(E' & _)|(E' & K & f' & m' & qs & Ev)]; rewrite E' in E; subst w.
      * apply clone_orig; [exact L|]. eapply st_op; eauto.
      * rewrite clone_hi, Ev in Ew. cbn in Ew. injection Ew as -> -> Ew. eapply st_op; [apply dget_none, K|exact Ev|].
        apply IH; [|symmetry; exact Ew]. intros p I. apply (arg_lt v (rn (NOp f m) qs) p Ev I).
    + intros [|p ps] _ E; [constructor|discriminate].
    + intros q qs t l S IH Sl IHl [|p ps] Lp E; [discriminate|]. cbn in E. injection E as E1 E2. constructor; [apply IH; [apply Lp; left; easy|exact E1]|].
      apply IHl; [intros x I; apply Lp; right; exact I|exact E2].
  - intros S. revert v t S L.
    apply (stands_mut h R (fun v t _ => v < n -> stands (clone h keys) R (equiv h keys v) t) (fun ps l _ => (forall p, In p ps -> p < n) -> stands_all (clone h keys) R (map (equiv h keys) ps) l)).
    + intros v r t D S IH L. destruct (equiv_cases v L) as [(E' & _)|(E' & K & _)]; [|exfalso; apply dget_none in K; congruence].
      rewrite E'. apply clone_orig; [exact L|]. eapply st_rep; eauto.
    + intros v ps D E L. destruct (equiv_cases v L) as [(E' & _)|(E' & K & f & m & qs & Ev)]; [|congruence].
      rewrite E'. apply clone_orig; [exact L|]. eapply st_in; eauto.
    + intros v f m ps l D E S IH L. destruct (equiv_cases v L) as [(E' & [(qs & Ev)|K])|(E' & K & _)].
      * congruence.
      * exfalso. apply (proj1 (dget_none _ R v) D), K.
      * rewrite E'. eapply st_op; [apply hi_none|rewrite clone_hi, E; reflexivity|]. apply IH. intros p I. apply (arg_lt v (rn (NOp f m) ps) p E I).
    + constructor.
    + intros p ps t l S IH Sl IHl Lp. constructor; [apply IH, Lp; left; easy|]. apply IHl. intros x I. apply Lp. right. exact I.
Qed.
Lemma init_J : forall graphs, (forall v, In v graphs -> v < n) -> J [] R (clone h keys) (map (equiv h keys) graphs) graphs.
Proof.
  intros graphs L. constructor.
  - easy.
  - intros v nd E O. destruct (lt_dec v n) as [Lv|Lv]; [rewrite clone_lo in E by exact Lv; apply (proj1 (G v nd E) O)|].
    replace v with (v - n + n) in E by lia. rewrite clone_hi in E. destruct (nth_error h (v - n)) as [nd0|] eqn:E0; [|easy].
    cbn in E. injection E as <-. cbn in *. rewrite (proj1 (G _ nd0 E0) O). easy.
  - intros a r u I Ld K. apply clone_lo. clear K. apply (proj2 RP) in I as [_ I]. induction Ld as [v|v nd b w E N Ib Ld IH]; [exact I|]. apply IH.
    eapply arg_lt; eauto.
  - apply map_length.
  - intros i o v t Eo Ev. rewrite nth_error_map, Ev in Eo. cbn in Eo. injection Eo as <-. apply clone_equiv. apply L. eapply nth_error_In, Ev.
  - intros u _. easy.
Qed.
Lemma sw_leads : forall hh outs o u, In o outs -> leads hh [] o u -> sw hh [] outs u.
Proof.
  intros hh outs o u I L. assert (S : sw hh [] outs o) by (constructor; exact I). clear I.
  induction L as [v|v nd a w E N Ia L IH]; [exact S|]. apply IH. eapply sw_arg; eauto.
Qed.

(** ** every variable stands for an expression *)
Definition from (k v : nat) : Prop := forall j a r, nth_error R j = Some (a, r) -> leads h keys v a -> k <= j.
Lemma stands_list : forall ps, (forall p, In p ps -> exists t, stands h R p t) -> exists l, stands_all h R ps l.
Proof.
  induction ps as [|p ps IH]; intros H; [exists []; constructor|]. destruct (H p) as (t & T); [left; easy|].
  destruct IH as (l & Hl); [intros q I; apply H; right; exact I|]. exists (t :: l). constructor; assumption.
Qed.
Lemma stands_from : forall d k v, k + d = S (length R) -> v < n -> from k v -> exists t, stands h R v t.
Proof.
  induction d as [|d IH]; intros k v Kd.
  - intros L F. revert L F. induction v as [v IHv] using lt_wf_ind. intros L F.
    destruct (dget R v) as [r|] eqn:D.
    + exfalso. apply dget_in in D. apply In_nth_error in D as (j & Ej). assert (Q := F j v r Ej (le_refl _ _ v)).
      assert (j < length R) by (apply nth_error_Some; congruence). lia.
    + destruct (nth_error h v) as [[o ps]|] eqn:E; [|apply nth_error_None in E; fold n in E; lia]. destruct o as [|f m].
      * exists (Leaf v). eapply st_in; eauto.
      * destruct (stands_list ps) as (l & Hl); [|exists (Node f m l); eapply st_op; eauto]. intros p I.
        assert (Lp := proj2 (G v _ E) p I). apply IHv; [exact Lp|lia|]. intros j a r Ej Ld. apply (F j a r Ej).
        eapply le_step; [exact E|apply dget_none, D|exact I|exact Ld].
  - revert k Kd. induction v as [v IHv] using lt_wf_ind. intros k Kd L F.
    destruct (dget R v) as [r|] eqn:D.
    + assert (D' := D). apply dget_in in D. assert (Lr := proj2 (proj2 RP v r D)). apply In_nth_error in D as (j & Ej). assert (Q := F j v r Ej (le_refl _ _ v)).
      assert (Fr : from (S j) r). { intros j' a' r' Ej' Ld. destruct (le_lt_dec j' j) as [Q'|Q']; [|lia]. exfalso. apply (LO j j' v r a' r' Ej Ej' Q' Ld). }
      assert (T : exists t, stands h R r t); [|destruct T as (t & T); exists t; eapply st_rep; eauto].
      apply (IH (S k) r); [lia|exact Lr|]. intros j' a' r' Ej' Ld. specialize (Fr j' a' r' Ej' Ld). lia.
    + destruct (nth_error h v) as [[o ps]|] eqn:E; [|apply nth_error_None in E; fold n in E; lia]. destruct o as [|f m].
      * exists (Leaf v). eapply st_in; eauto.
      * destruct (stands_list ps) as (l & Hl); [|exists (Node f m l); eapply st_op; eauto]. intros p I.
        assert (Lp := proj2 (G v _ E) p I). apply (IHv p Lp k Kd); [lia|]. intros j a r Ej Ld. apply (F j a r Ej).
        eapply le_step; [exact E|apply dget_none, D|exact I|exact Ld].
Qed.
Lemma stands_total : forall v, v < n -> exists t, stands h R v t.
Proof. intros v L. apply (stands_from (S (length R)) 0); [lia|exact L|]. intros j a r _ _. lia. Qed.
End Fix.

Lemma repl_main : forall h graphs past stop R h' graphs' R', rgraph h -> replacements h R -> later_only h R ->
  (forall v, In v graphs -> v < length h) ->
  rvs_to_value_vars h graphs past stop R = (h', graphs', R') ->
  R' = R /\ length graphs' = length graphs /\
  (forall i o v, nth_error graphs' i = Some o -> nth_error graphs i = Some v -> forall t, stands h' [] o t <-> stands h R v t) /\
  (forall o a, In o graphs' -> In a (map fst R) -> ~ leads h' [] o a) /\
  (forall v, In v graphs -> exists t, stands h R v t).
Proof.
  intros h graphs past stop R h' graphs' R' G RP LO L E. unfold rvs_to_value_vars in E. rewrite walk_replace_id in E. cbv zeta in E.
  split; [destruct R; [injection E as <- <- <-; easy|destruct (fold_left _ _ _) in E; injection E as _ _ <-; easy]|].
  assert (JJ : J h R R [] h' graphs' graphs).
  { destruct R as [|p R0] eqn:ER.
    - injection E as <- <- <-. constructor; try easy.
      + intros v nd En. apply (proj1 (G v nd En)).
      + intros i o v t E1 E2. replace v with o by congruence. easy.
    - rewrite <- ER in *. clear ER p R0. assert (S := all_steps h R LO R [] _ _ _ (init_J h R G RP graphs L)).
      destruct (fold_left fg_replace R (clone h (map fst R), map (equiv h (map fst R)) graphs)) as [h2 o2]. injection E as <- <- _. exact S. }
  split; [apply (j_len _ _ _ _ _ _ _ JJ)|]. split; [intros i o v E1 E2 t; apply (j_tree _ _ _ _ _ _ _ JJ i o v t E1 E2)|].
  split; [intros o a I Ia Ld; apply (j_sw _ _ _ _ _ _ _ JJ a); [eapply sw_leads; eauto|exact Ia]|].
  intros v I. apply (stands_total h R G RP LO). apply L, I.
Qed.
