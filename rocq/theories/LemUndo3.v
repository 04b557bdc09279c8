(** The measurable rewrites keep an assignment of intended values. *)
From Coq Require Import List Arith Bool Lia.
From Verif Require Import ModelJoint ModelUndo SpecUndo LemUndo1 LemUndo2.
Import ListNotations.
Open Scope nat_scope.

Lemma reach_app h l outs v : (forall o, In o outs -> o < length h) -> (forall u a, In a (node_args h u) -> a < length h) ->
  reach (h ++ l) outs v -> reach h outs v.
Proof.
  intros Ho Hb. induction 1 as [v Iv L|v a _ IH Ia L].
  - apply r_out; auto.
  - pose proof (reach_lt _ _ _ IH) as Lv. rewrite node_args_app1 in Ia by easy. eapply r_arg; eauto.
Qed.
Lemma below_used h v a : below h v a -> exists u, node_op h u <> UVal /\ In a (node_args h u).
Proof. induction 1; eauto. Qed.
Lemma copy_length h l : length (copy_nodes h l) = length l.
Proof. apply map_length. Qed.
Lemma copy_nth h l i : node_op (copy_nodes h l) i = match nth_error l i with Some (w, o) => o | None => UIn end /\
  node_args (copy_nodes h l) i = match nth_error l i with Some (w, o) => node_args h w | None => [] end.
Proof.
  unfold node_op at 1, node_args at 1, copy_nodes. rewrite nth_error_map. destruct (nth_error l i) as [[w o]|]; cbn; auto.
Qed.

Section Conversions.
Context {A : Type}.
Variable env : nat -> A.
Variable sem : uop -> list A -> option A.
Variable s0 : ustate.
Variable M0 : nat -> option A.
Notation h0 := (u_heap s0).
Notation n0 := (length (u_heap s0)).
Hypothesis P0 : prepared env s0.
Hypothesis E0 : forall v, eqn env sem M0 h0 v.

(** [olds]: the variables rewritten so far, with the kinds of their new nodes; [tau]: the variable of the original
    graph that a node belongs to *)
Record converted (olds : list (nat * nat)) (s : ustate) (M : nat -> option A) (tau : nat -> nat) : Prop := {
  ci_len : n0 <= length (u_heap s);
  ci_bound : forall v a, In a (node_args (u_heap s) v) -> a < length (u_heap s);
  ci_tau0 : forall v, v < n0 -> tau v = v;
  ci_op : forall v, v < n0 -> node_op (u_heap s) v = node_op h0 v;
  ci_new : forall v, n0 <= v < length (u_heap s) -> exists k, node_op (u_heap s) v = UMeas k;
  ci_below : forall v a, node_op (u_heap s) v <> UVal -> In a (node_args (u_heap s) v) -> below h0 (tau v) (tau a);
  ci_val : forall v, node_op (u_heap s) v = UVal -> exists r0 r x,
           node_args h0 v = [r0; x] /\ node_args (u_heap s) v = [r; x] /\ tau r = r0 /\
           node_op (u_heap s) r <> UIn /\ node_op (u_heap s) r <> UVal /\ node_op (u_heap s) x = UIn /\
           ~ In r (map snd (u_conv s)) /\
           (forall u, In r (node_args (u_heap s) u) \/ In x (node_args (u_heap s) u) -> u = v) /\
           (~ In r0 (map fst olds) -> r = r0) /\
           (In r0 (map fst olds) -> n0 <= r /\ exists k, In (r0, k) olds /\ node_op (u_heap s) r = UMeas k);
  ci_outs : u_outs s = u_outs s0;
  ci_vals : u_vals s = u_vals s0;
  ci_conv : forall r n, In (r, n) (u_conv s) -> n0 <= n < length (u_heap s) /\ tau n = r /\ r < n0 /\
            (exists k, node_op h0 r = UFun k) /\ M n = M r;
  ci_keys : NoDup (map fst (u_conv s));
  ci_eqn : forall v, v < length (u_heap s) -> ~ In v (map snd (u_conv s)) -> eqn env sem M (u_heap s) v;
  ci_M0 : forall v, v < n0 -> M v = M0 v;
  ci_args : forall v, v < n0 -> node_op h0 v <> UVal -> map M (node_args (u_heap s) v) = map M0 (node_args h0 v);
  ci_unused : forall x b u, In (x, b) (u_vals s0) -> ~ In b (node_args (u_heap s) u) }.

Lemma converted_start : converted [] s0 M0 (fun v => v).
Proof.
  destruct P0. constructor; try easy.
  - intros v L. lia.
  - intros v a Nv Ia. now apply b_arg.
  - intros v Ev. destruct (p_val v Ev) as (_ & r & x & Ea & H1 & H2 & H3 & _ & H4).
    exists r, r, x. repeat (split; [easy|]). rewrite p_conv. cbn. tauto.
  - now rewrite p_conv.
  - rewrite p_conv. constructor.
  - intros x b u I. destruct (p_vals x b I) as (_ & _ & _ & _ & _ & _ & H). apply H.
Qed.

Section Step.
Variables (olds : list (nat * nat)) (s : ustate) (M : nat -> option A) (tau : nat -> nat) (c : conversion).
Hypothesis I : converted olds s M tau.
Hypothesis V : valid_conversion s c.
Notation h := (u_heap s).
Notation len := (length (u_heap s)).
Notation m := (length (c_copies c)).
Notation r := (c_old c).
Notation n := (c_new s c).
Let H : uheap := h ++ copy_nodes h (c_copies c) ++ [mku (UMeas (c_kind c)) (c_args c)].
Let sH : ustate := with_heap s H.

Lemma cH_len : length H = len + m + 1.
Proof. unfold H. rewrite !app_length, copy_length. cbn. lia. Qed.
Lemma cH_old v : v < len -> node_op H v = node_op h v /\ node_args H v = node_args h v.
Proof. intros L. unfold H. now rewrite node_op_app1, node_args_app1. Qed.
Lemma cH_copy i w o : nth_error (c_copies c) i = Some (w, o) -> node_op H (len + i) = o /\ node_args H (len + i) = node_args h w.
Proof.
  intros E. assert (L : i < m) by (apply nth_error_Some; congruence). unfold H.
  rewrite node_op_app2, node_args_app2 by lia. replace (len + i - len) with i by lia.
  rewrite node_op_app1, node_args_app1 by (rewrite copy_length; lia).
  destruct (copy_nth h (c_copies c) i) as (-> & ->). now rewrite E.
Qed.
Lemma cH_new : node_op H n = UMeas (c_kind c) /\ node_args H n = c_args c.
Proof.
  unfold H, c_new. rewrite node_op_app2, node_args_app2 by lia. replace (len + m - len) with m by lia.
  rewrite node_op_app2, node_args_app2 by (rewrite copy_length; lia). rewrite copy_length.
  replace (m - m) with 0 by lia. easy.
Qed.
(** every node is an old one, a copy or the new one *)
Lemma cH_cases v : v < length H -> v < len \/ (exists i w o, v = len + i /\ i < m /\ nth_error (c_copies c) i = Some (w, o)) \/ v = n.
Proof.
  rewrite cH_len. intros L. destruct (Nat.lt_ge_cases v len) as [?|G]; [now left|]. right.
  destruct (Nat.eq_dec v n) as [?|N]; [now right|]. left. exists (v - len). unfold c_new in N.
  destruct (nth_error (c_copies c) (v - len)) as [[w o]|] eqn:E.
  - exists w, o. split; [lia|]. split; [lia|easy].
  - apply nth_error_None in E. lia.
Qed.
Lemma c_r_lt : r < len.
Proof. destruct (v_fun _ _ V) as (k & E). apply node_op_lt. congruence. Qed.
Lemma c_r_old : r < n0.
Proof.
  destruct (Nat.lt_ge_cases r n0) as [?|G]; [easy|]. destruct (v_fun _ _ V) as (k & E).
  destruct (ci_new _ _ _ _ I r) as (k' & E'); [split; [easy|apply c_r_lt]|]. congruence.
Qed.
Lemma below_tau v a : below h v a -> below h0 (tau v) (tau a).
Proof.
  induction 1; [now apply (ci_below _ _ _ _ I)|]. eapply below_trans; [|eassumption]. now apply (ci_below _ _ _ _ I).
Qed.
Lemma c_below a : below h r a -> a < len /\ below h0 r (tau a).
Proof.
  intros B. split.
  - destruct (below_used _ _ _ B) as (u & _ & Iu). eapply ci_bound; eauto.
  - rewrite <- (ci_tau0 _ _ _ _ I r c_r_old). now apply below_tau.
Qed.
Lemma c_copy_in i w o : nth_error (c_copies c) i = Some (w, o) ->
  below h r w /\ (exists k, node_op h w = UMeas k) /\ exists k, o = UMeas k.
Proof. intros E. apply (v_copies _ _ V). eapply nth_error_In; eauto. Qed.
Lemma cH_bound v a : In a (node_args H v) -> a < length H - 1.
Proof.
  intros Ia. pose proof (node_in_lt _ _ _ Ia) as Lv. pose proof cH_len as EL.
  destruct (cH_cases v Lv) as [L|[(i & w & o & -> & Li & Ei)| ->]].
  - rewrite (proj2 (cH_old v L)) in Ia. apply (ci_bound _ _ _ _ I) in Ia. lia.
  - rewrite (proj2 (cH_copy _ _ _ Ei)) in Ia. apply (ci_bound _ _ _ _ I) in Ia. lia.
  - rewrite (proj2 cH_new) in Ia. destruct (v_args _ _ V a Ia) as [?|B]; [lia|]. apply c_below in B. lia.
Qed.
Lemma cH_live v : In v (u_live sH) -> v < len.
Proof.
  intros L. apply live_reach in L. cbn in L. apply reach_app in L.
  - now apply reach_lt in L.
  - intros o Io. rewrite (ci_outs _ _ _ _ I) in Io. pose proof (p_outs _ _ P0 o Io) as Eo.
    assert (o < n0) by (apply node_op_lt; congruence). pose proof (ci_len _ _ _ _ I). lia.
  - apply (ci_bound _ _ _ _ I).
Qed.
Lemma cH_live_out o : In o (u_outs s) -> In o (u_live sH).
Proof.
  intros Io. apply live_reach. apply r_out; [easy|]. cbn. rewrite cH_len.
  rewrite (ci_outs _ _ _ _ I) in Io. pose proof (p_outs _ _ P0 o Io) as Eo.
  assert (o < n0) by (apply node_op_lt; congruence). pose proof (ci_len _ _ _ _ I). lia.
Qed.
Lemma val_old v : node_op h v = UVal -> v < n0 /\ In v (u_outs s).
Proof.
  intros E. assert (L : v < len) by (apply node_op_lt; congruence).
  destruct (Nat.lt_ge_cases v n0) as [?|G].
  - split; [easy|]. rewrite (ci_op _ _ _ _ I) in E by easy. rewrite (ci_outs _ _ _ _ I). now apply (p_val _ _ P0).
  - destruct (ci_new _ _ _ _ I v) as (k & E'); [easy|congruence].
Qed.
Lemma cH_val v : node_op H v = UVal -> v < len /\ node_op h v = UVal.
Proof.
  intros E. assert (L : v < length H) by (apply node_op_lt; congruence).
  destruct (cH_cases v L) as [L'|[(i & w & o & -> & Li & Ei)| ->]].
  - rewrite (proj1 (cH_old v L')) in E. auto.
  - rewrite (proj1 (cH_copy _ _ _ Ei)) in E. destruct (c_copy_in _ _ _ Ei) as (_ & _ & k & ->). easy.
  - rewrite (proj1 cH_new) in E. easy.
Qed.
(** a variable below [r] is not the private input of a ValuedVariable *)
Lemma below_not_private a : below h r a -> forall v rr x, node_op h v = UVal -> node_args h v = [rr; x] -> a <> rr /\ a <> x.
Proof.
  intros B v rr x Ev Ea. destruct (below_used _ _ _ B) as (u & Nu & Iu).
  destruct (ci_val _ _ _ _ I v Ev) as (r0 & r1 & x1 & _ & Ea' & _ & _ & _ & _ & _ & Pr & _). rewrite Ea in Ea'. injection Ea' as <- <-.
  split; intros ->; apply Nu; rewrite (Pr u); auto.
Qed.
(** a copied node or the new node does not use the private inputs *)
Lemma cH_private v rr x : node_op h v = UVal -> node_args h v = [rr; x] -> forall u, In rr (node_args H u) \/ In x (node_args H u) -> u = v.
Proof.
  intros Ev Ea u Iu. destruct (ci_val _ _ _ _ I v Ev) as (r0 & r1 & x1 & _ & Ea' & _ & _ & _ & _ & _ & Pr & _). rewrite Ea in Ea'. injection Ea' as <- <-.
  assert (Lu : u < length H) by (destruct Iu as [Iu|Iu]; eapply node_in_lt; eauto).
  assert (B : rr < len /\ x < len) by (split; apply (ci_bound _ _ _ _ I v); rewrite Ea; cbn; auto).
  destruct (cH_cases u Lu) as [L'|[(i & w & o & -> & Li & Ei)| ->]].
  - rewrite (proj2 (cH_old u L')) in Iu. auto.
  - exfalso. rewrite (proj2 (cH_copy _ _ _ Ei)) in Iu. apply Pr in Iu. subst w.
    destruct (c_copy_in _ _ _ Ei) as (_ & (k & E) & _). congruence.
  - exfalso. rewrite (proj2 cH_new) in Iu.
    destruct Iu as [Iu|Iu]; apply (v_args _ _ V) in Iu; destruct Iu as [?|Bl]; try lia;
      destruct (below_not_private _ Bl v rr x Ev Ea); congruence.
Qed.

(** what is recorded *)
Lemma clients_new : clients H (u_live sH) n = [].
Proof.
  unfold clients. destruct (filter _ _) as [|u l] eqn:E; [easy|]. exfalso.
  assert (Iu : In u (u :: l)) by now left. rewrite <- E in Iu. apply filter_In in Iu as (_ & Q).
  apply andb_true_iff in Q as (_ & Q). apply mem_In in Q. apply cH_bound in Q. rewrite cH_len in Q. unfold c_new in Q. lia.
Qed.
Let t : bool := tracked H (u_live sH) r n.
Lemma t_eq : t = negb (valued_in H (firstn 1 (clients H (u_live sH) r))).
Proof.
  unfold t, tracked. destruct (v_fun _ _ V) as (k & E). rewrite (proj1 (cH_old r c_r_lt)), E, (proj1 cH_new), clients_new. cbn. easy.
Qed.
Lemma r_val_first v x y : node_op h v = UVal -> node_args h v = [x; y] -> In r (node_args h v) -> x = r.
Proof.
  intros Ev Ea Ir. rewrite Ea in Ir. destruct Ir as [?|[->|[]]]; [easy|]. exfalso.
  destruct (ci_val _ _ _ _ I v Ev) as (r0 & r1 & x1 & _ & Ea' & _ & _ & _ & Ex & _). rewrite Ea in Ea'. injection Ea' as <- <-.
  destruct (v_fun _ _ V) as (k & E). congruence.
Qed.
Lemma t_true : t = true -> forall v, node_op h v = UVal -> ~ In r (node_args h v).
Proof.
  rewrite t_eq, negb_true_iff. intros T v Ev Ir.
  destruct (val_old v Ev) as (Lv & Ov). assert (Lv' : v < len) by (apply node_op_lt; congruence).
  destruct (ci_val _ _ _ _ I v Ev) as (r0 & r1 & x1 & _ & Ea & _).
  pose proof (r_val_first v r1 x1 Ev Ea Ir) as ->.
  assert (Iv : In v (clients H (u_live sH) r)).
  { unfold clients. apply filter_In. split; [apply in_seq; rewrite cH_len; lia|]. apply andb_true_iff. split; apply mem_In; [now apply cH_live_out|].
    now rewrite (proj2 (cH_old v Lv')). }
  destruct (clients H (u_live sH) r) as [|u l] eqn:E; [easy|]. cbn in T.
  assert (Iu : In u (u :: l)) by now left. rewrite <- E in Iu. apply filter_In in Iu as (_ & Q).
  apply andb_true_iff in Q as (_ & Q). apply mem_In in Q.
  assert (u = v) by (eapply cH_private; eauto). subst u.
  rewrite (proj1 (cH_old v Lv')), Ev in T. easy.
Qed.
Lemma t_false : t = false -> exists v x, node_op h v = UVal /\ node_args h v = [r; x] /\ forall u, In r (node_args H u) -> u = v.
Proof.
  rewrite t_eq, negb_false_iff. intros T. destruct (clients H (u_live sH) r) as [|v l] eqn:E; [easy|]. cbn in T.
  rewrite orb_false_r in T. assert (Iv : In v (v :: l)) by now left. rewrite <- E in Iv. apply filter_In in Iv as (_ & Q).
  apply andb_true_iff in Q as (_ & Q). apply mem_In in Q.
  destruct (node_op H v) eqn:Ev; try easy. destruct (cH_val v Ev) as (Lv & Ev').
  rewrite (proj2 (cH_old v Lv)) in Q. destruct (ci_val _ _ _ _ I v Ev') as (r0 & r1 & x1 & _ & Ea & _).
  pose proof (r_val_first v r1 x1 Ev' Ea Q) as ->. exists v, x1. split; [easy|]. split; [easy|].
  intros u Iu. eapply cH_private; eauto.
Qed.

Definition M1 (v : nat) : option A :=
  if v <? len then M v
  else match nth_error (c_copies c) (v - len) with Some (w, o) => sem_at sem M o (node_args h w) | None => None end.
Definition M' (v : nat) : option A :=
  if v =? n then (if t then M r else sem_at sem M1 (UMeas (c_kind c)) (c_args c)) else M1 v.
Definition tau' (v : nat) : nat :=
  if v <? len then tau v else match nth_error (c_copies c) (v - len) with Some (w, _) => tau w | None => r end.
Lemma M'_old v : v < len -> M' v = M v.
Proof.
  intros L. unfold M', M1. destruct (v =? n) eqn:E; [apply Nat.eqb_eq in E; unfold c_new in E; lia|].
  apply Nat.ltb_lt in L. now rewrite L.
Qed.
Lemma M'_copy i w o : nth_error (c_copies c) i = Some (w, o) -> M' (len + i) = sem_at sem M o (node_args h w).
Proof.
  intros E. assert (L : i < m) by (apply nth_error_Some; congruence). unfold M', M1.
  destruct (len + i =? n) eqn:Q; [apply Nat.eqb_eq in Q; unfold c_new in Q; lia|].
  destruct (len + i <? len) eqn:Q'; [apply Nat.ltb_lt in Q'; lia|]. replace (len + i - len) with i by lia. now rewrite E.
Qed.
Lemma M'_new : M' n = if t then M r else sem_at sem M1 (UMeas (c_kind c)) (c_args c).
Proof. unfold M'. now rewrite Nat.eqb_refl. Qed.
Lemma M'_M1 a : a <> n -> M' a = M1 a.
Proof. intros N. unfold M'. apply Nat.eqb_neq in N. now rewrite N. Qed.
Lemma tau'_old v : v < len -> tau' v = tau v.
Proof. intros L. unfold tau'. apply Nat.ltb_lt in L. now rewrite L. Qed.
Lemma tau'_copy i w o : nth_error (c_copies c) i = Some (w, o) -> tau' (len + i) = tau w.
Proof.
  intros E. unfold tau'. destruct (len + i <? len) eqn:Q'; [apply Nat.ltb_lt in Q'; lia|].
  replace (len + i - len) with i by lia. now rewrite E.
Qed.
Lemma tau'_new : tau' n = r.
Proof.
  unfold tau', c_new. destruct (len + m <? len) eqn:Q'; [apply Nat.ltb_lt in Q'; lia|].
  replace (len + m - len) with m by lia. destruct (nth_error (c_copies c) m) as [[w o]|] eqn:E; [|easy].
  assert (m < m) by (apply nth_error_Some; congruence). lia.
Qed.
Lemma map_M'_old v : v < len -> map M' (node_args h v) = map M (node_args h v).
Proof. intros _. apply map_ext_in. intros a Ia. apply M'_old. eapply ci_bound; eauto. Qed.

(** the heap before the replacement *)
Lemma cH_below v a : node_op H v <> UVal -> In a (node_args H v) -> below h0 (tau' v) (tau' a).
Proof.
  intros Nv Ia. pose proof (node_in_lt _ _ _ Ia) as Lv.
  destruct (cH_cases v Lv) as [L|[(i & w & o & -> & Li & Ei)| ->]].
  - rewrite (proj1 (cH_old v L)) in Nv. rewrite (proj2 (cH_old v L)) in Ia. pose proof (ci_bound _ _ _ _ I v a Ia).
    rewrite !tau'_old by easy. now apply (ci_below _ _ _ _ I).
  - rewrite (proj2 (cH_copy _ _ _ Ei)) in Ia. pose proof (ci_bound _ _ _ _ I w a Ia).
    rewrite (tau'_copy _ _ _ Ei), tau'_old by easy. apply (ci_below _ _ _ _ I); [|easy].
    destruct (c_copy_in _ _ _ Ei) as (_ & (k & E) & _). congruence.
  - rewrite (proj2 cH_new) in Ia. rewrite tau'_new. destruct (v_args _ _ V a Ia) as [La|B].
    + destruct (nth_error (c_copies c) (a - len)) as [[w o]|] eqn:E.
      * replace a with (len + (a - len)) by lia. rewrite (tau'_copy _ _ _ E).
        destruct (c_copy_in _ _ _ E) as (B & _). now apply c_below.
      * apply nth_error_None in E. lia.
    + destruct (c_below a B) as (La & B'). now rewrite tau'_old.
Qed.
Lemma cH_eqn v : v < length H -> ~ In v (map snd (u_conv s)) -> v <> n \/ t = false -> eqn env sem M' H v.
Proof.
  intros Lv Nv Nn. unfold eqn. destruct (cH_cases v Lv) as [L|[(i & w & o & -> & Li & Ei)| ->]].
  - destruct (cH_old v L) as (-> & ->). rewrite M'_old by easy. rewrite (ci_eqn _ _ _ _ I v L Nv).
    apply value_of_ext. now rewrite map_M'_old.
  - destruct (cH_copy _ _ _ Ei) as (-> & ->). rewrite (M'_copy _ _ _ Ei). destruct (c_copy_in _ _ _ Ei) as (B & _ & k & ->). cbn.
    apply sem_at_ext. rewrite map_M'_old; [easy|]. apply c_below in B. tauto.
  - destruct cH_new as (-> & ->). rewrite M'_new. destruct Nn as [?| ->]; [easy|]. cbn. apply sem_at_ext.
    apply map_ext_in. intros a Ia. symmetry. apply M'_M1. intros ->.
    enough (n < length H - 1) by (rewrite cH_len in *; unfold c_new in *; lia).
    apply (cH_bound n). now rewrite (proj2 cH_new).
Qed.

Lemma convert_eq : convert s c = ureplace r n sH.
Proof. reflexivity. Qed.
Lemma r_live : In r (u_live sH).
Proof.
  apply live_reach. pose proof (v_live _ _ V) as L. apply live_reach in L. cbn.
  clear - L I P0. induction L as [v Iv L|v a _ IH Ia L].
  - apply r_out; [easy|]. unfold H. rewrite app_length. lia.
  - eapply r_arg; [exact IH| |unfold H; rewrite app_length; lia]. unfold H. rewrite node_args_app1; [easy|].
    eapply node_in_lt; eauto.
Qed.
Lemma conv_eq : u_conv (convert s c) = if t then dset (u_conv s) r n else u_conv s.
Proof. rewrite convert_eq. unfold ureplace. rewrite (proj2 (mem_In _ _) r_live). reflexivity. Qed.
Lemma conv_app : t = true -> u_conv (convert s c) = u_conv s ++ [(r, n)].
Proof. intros T. rewrite conv_eq, T. apply dset_append, (v_once _ _ V). Qed.
Lemma snd_lt v : In v (map snd (u_conv s)) -> v < len.
Proof. intros Iv. apply in_map_iff in Iv as ([r' n'] & <- & Ip). apply (ci_conv _ _ _ _ I) in Ip. cbn. lia. Qed.
Lemma conv_snd v : In v (map snd (u_conv (convert s c))) <-> In v (map snd (u_conv s)) \/ t = true /\ v = n.
Proof.
  destruct t eqn:T.
  - rewrite conv_app by easy. rewrite map_app, in_app_iff. cbn. intuition.
  - rewrite conv_eq, T. intuition discriminate.
Qed.
Lemma op_new v : node_op (u_heap (convert s c)) v = node_op H v.
Proof. rewrite convert_eq. apply ureplace_op. Qed.
Lemma len_new : length (u_heap (convert s c)) = len + m + 1.
Proof. rewrite convert_eq, ureplace_length. apply cH_len. Qed.
Lemma args_in v a : In a (node_args (u_heap (convert s c)) v) -> In a (node_args H v) \/ a = n /\ In r (node_args H v) /\ v < len.
Proof.
  rewrite convert_eq. intros Ia. apply ureplace_args_in in Ia as [?|(-> & ? & ?)]; [now left|]. right.
  split; [easy|]. split; [easy|]. now apply cH_live.
Qed.
Lemma M_r_n : t = true -> M' r = M' n.
Proof. intros T. rewrite M'_new, T. apply M'_old, c_r_lt. Qed.

Lemma converted_step : converted ((r, c_kind c) :: olds) (convert s c) M' tau'.
Proof.
  pose proof c_r_lt as Lr. pose proof c_r_old as Lr0. pose proof (ci_len _ _ _ _ I) as Ln.
  assert (Hn : n < len + m + 1) by (unfold c_new; lia).
  assert (Hn0 : len <= n) by (unfold c_new; lia).
  constructor.
  - rewrite len_new. lia.
  - intros v a Ia. rewrite len_new. apply args_in in Ia as [Ia|(-> & _)]; [|easy]. apply cH_bound in Ia. rewrite cH_len in Ia. lia.
  - intros v L. rewrite tau'_old by lia. now apply (ci_tau0 _ _ _ _ I).
  - intros v L. rewrite op_new. rewrite (proj1 (cH_old v ltac:(lia))). now apply (ci_op _ _ _ _ I).
  - intros v (L1 & L2). rewrite len_new in L2. rewrite op_new.
    destruct (cH_cases v ltac:(rewrite cH_len; lia)) as [L|[(i & w & o & -> & Li & Ei)| ->]].
    + rewrite (proj1 (cH_old v L)). now apply (ci_new _ _ _ _ I).
    + rewrite (proj1 (cH_copy _ _ _ Ei)). now destruct (c_copy_in _ _ _ Ei).
    + rewrite (proj1 cH_new). eauto.
  - intros v a Nv Ia. rewrite op_new in Nv. apply args_in in Ia as [Ia|(-> & Ia & _)]; [now apply cH_below|].
    rewrite tau'_new. replace r with (tau' r); [now apply cH_below|]. rewrite tau'_old by easy. now apply (ci_tau0 _ _ _ _ I).
  - intros v Ev. rewrite op_new in Ev. destruct (cH_val v Ev) as (Lv & Ev'). destruct (val_old v Ev') as (_ & Ov).
    destruct (ci_val _ _ _ _ I v Ev') as (r0 & r1 & x & Ea0 & Ea & Et & N1 & N2 & Ex & Nc & Pr & Old & Conv).
    assert (Lx : r1 < len /\ x < len) by (split; apply (ci_bound _ _ _ _ I v); rewrite Ea; cbn; auto).
    assert (EA : node_args (u_heap (convert s c)) v = map (usub r n) [r1; x]).
    { rewrite convert_eq, ureplace_args_live; [cbn; now rewrite (proj2 (cH_old v Lv)), Ea|now apply cH_live_out|].
      intros a. cbn. intros Ia. apply cH_bound in Ia. lia. }
    assert (Nx : x <> r) by (intros ->; destruct (v_fun _ _ V) as (k & E); congruence).
    cbn in EA. unfold usub at 2 in EA. rewrite (proj2 (Nat.eqb_neq _ _) Nx) in EA. unfold usub in EA.
    assert (Pp : forall u, In r1 (node_args H u) \/ In x (node_args H u) -> u = v) by (apply cH_private; easy).
    destruct (r1 =? r) eqn:Q.
    + apply Nat.eqb_eq in Q. subst r1. exists r0, n, x. split; [easy|]. split; [easy|].
      split; [rewrite tau'_new, <- Et; symmetry; now apply (ci_tau0 _ _ _ _ I)|].
      rewrite !op_new, (proj1 cH_new), (proj1 (cH_old x (proj2 Lx))). split; [easy|]. split; [easy|]. split; [easy|].
      assert (T : t = false).
      { destruct t eqn:T; [|easy]. exfalso. apply (t_true T v Ev'). rewrite Ea. now left. }
      split.
      { rewrite conv_snd. intros [In|(T' & _)]; [apply snd_lt in In; lia|congruence]. }
      split.
      { intros u [Iu|Iu]; apply args_in in Iu.
        - destruct Iu as [Iu|(_ & Iu & _)]; [apply cH_bound in Iu; rewrite cH_len in Iu; unfold c_new in Iu; lia|]. apply Pp. now left.
        - destruct Iu as [Iu|(-> & _)]; [|lia]. apply Pp. now right. }
      assert (Er0 : r0 = r) by (rewrite <- Et; now apply (ci_tau0 _ _ _ _ I)). split.
      { intros No. exfalso. apply No. now left. }
      intros _. split; [lia|]. exists (c_kind c). split; [left; congruence|easy].
    + apply Nat.eqb_neq in Q. exists r0, r1, x. split; [easy|]. split; [easy|].
      split; [now rewrite tau'_old|]. rewrite !op_new, (proj1 (cH_old x (proj2 Lx))), (proj1 (cH_old r1 (proj1 Lx))).
      split; [easy|]. split; [easy|]. split; [easy|]. split.
      { rewrite conv_snd. intros [In|(_ & E)]; [easy|lia]. }
      split.
      { intros u [Iu|Iu]; apply args_in in Iu; (destruct Iu as [Iu|(-> & _)]; [|lia]); apply Pp; auto. }
      split; [intros No; apply Old; intros ?; apply No; now right|].
      intros Yes. destruct (in_dec Nat.eq_dec r0 (map fst olds)) as [Io|No].
      { destruct (Conv Io) as (? & k & Ik & Ek). split; [easy|]. exists k. split; [now right|easy]. }
      exfalso. destruct Yes as [E|Io]; [|easy]. cbn in E. specialize (Old No). congruence.
  - rewrite convert_eq, ureplace_outs; [apply (ci_outs _ _ _ _ I)|]. cbn. rewrite (ci_outs _ _ _ _ I). intros Io.
    apply (p_outs _ _ P0) in Io. destruct (v_fun _ _ V) as (k & E). rewrite (ci_op _ _ _ _ I) in E by easy. congruence.
  - rewrite convert_eq, ureplace_vals. apply (ci_vals _ _ _ _ I).
  - intros r' n' Ip. rewrite len_new. assert (C : In (r', n') (u_conv s) \/ t = true /\ r' = r /\ n' = n).
    { destruct t eqn:T; [|rewrite conv_eq, T in Ip; now left]. rewrite conv_app in Ip by easy. apply in_app_iff in Ip as [?|[[= <- <-]|[]]]; auto. }
    destruct C as [C|(T & -> & ->)].
    + destruct (ci_conv _ _ _ _ I _ _ C) as (L1 & E1 & L2 & K & E2). rewrite tau'_old, !M'_old by lia. split; [lia|]. auto.
    + rewrite tau'_new. split; [lia|]. split; [easy|]. split; [easy|]. split; [|symmetry; now apply M_r_n].
      destruct (v_fun _ _ V) as (k & E). exists k. now rewrite (ci_op _ _ _ _ I) in E.
  - destruct t eqn:T; [|rewrite conv_eq, T; apply (ci_keys _ _ _ _ I)]. rewrite conv_app by easy. rewrite map_app. cbn.
    apply NoDup_rev in T || idtac. pose proof (ci_keys _ _ _ _ I) as K. pose proof (v_once _ _ V) as O.
    clear - K O. induction (map fst (u_conv s)) as [|a l IH]; cbn; [constructor; [easy|constructor]|].
    inversion K; subst. constructor; [|apply IH; [easy|intros ?; apply O; now right]].
    rewrite in_app_iff. cbn. intros [?|[<-|[]]]; [easy|]. apply O. now left.
  - intros v Lv Nv. rewrite conv_snd in Nv. rewrite len_new in Lv.
    assert (E : eqn env sem M' H v).
    { apply cH_eqn; [rewrite cH_len; lia|tauto|]. destruct t eqn:T; [|now right]. left. intros ->. apply Nv. now right. }
    unfold eqn in *. rewrite op_new, E. destruct t eqn:T.
    + apply value_of_ext. rewrite convert_eq. symmetry. now apply ureplace_map, M_r_n.
    + destruct (t_false T) as (v' & x & Ev' & Ea' & Pr). destruct (Nat.eq_dec v v') as [->|N].
      * assert (L' : v' < len) by (apply node_op_lt; congruence). rewrite (proj1 (cH_old v' L')), Ev', (proj2 (cH_old v' L')), Ea'.
        rewrite convert_eq, ureplace_args. destruct (_ && _); cbn; rewrite (proj2 (cH_old v' L')), Ea'; [|easy].
        cbn. unfold usub. destruct (x =? r) eqn:Q; [|easy]. exfalso. apply Nat.eqb_eq in Q. subst x.
        destruct (ci_val _ _ _ _ I v' Ev') as (r0 & r1 & x & _ & Ea & _ & _ & _ & Ex & _). rewrite Ea' in Ea. injection Ea as <- <-.
        destruct (v_fun _ _ V) as (k & E1). congruence.
      * f_equal. rewrite convert_eq, ureplace_args. destruct (_ && _); [|easy]. symmetry. apply map_usub_id. cbn. intros Ir. apply N. now apply Pr.
  - intros v L. rewrite M'_old by lia. now apply (ci_M0 _ _ _ _ I).
  - intros v L Nv. rewrite <- (ci_args _ _ _ _ I v L Nv). rewrite <- map_M'_old by lia. rewrite <- (proj2 (cH_old v ltac:(lia))).
    destruct t eqn:T.
    + rewrite convert_eq. now apply ureplace_map, M_r_n.
    + destruct (t_false T) as (v' & x & Ev' & Ea' & Pr). f_equal. rewrite convert_eq, ureplace_args. destruct (_ && _); [|easy].
      apply map_usub_id. cbn. intros Ir. apply Pr in Ir. subst v'. apply Nv. now rewrite <- (ci_op _ _ _ _ I).
  - intros x b u Ip Iu. destruct (p_vals _ _ P0 x b Ip) as (_ & Lb & _). apply args_in in Iu as [Iu|(-> & _)]; [|lia].
    pose proof (node_in_lt _ _ _ Iu) as Lu. destruct (cH_cases u Lu) as [L'|[(i & w & o & -> & Li & Ei)| ->]].
    + rewrite (proj2 (cH_old u L')) in Iu. eapply (ci_unused _ _ _ _ I); eauto.
    + rewrite (proj2 (cH_copy _ _ _ Ei)) in Iu. eapply (ci_unused _ _ _ _ I); eauto.
    + rewrite (proj2 cH_new) in Iu. destruct (v_args _ _ V b Iu) as [?|B]; [lia|].
      destruct (below_used _ _ _ B) as (u & _ & Iu'). eapply (ci_unused _ _ _ _ I); eauto.
Qed.
End Step.

Lemma converted_all cs : forall olds s M tau, converted olds s M tau -> valid_conversions s cs ->
  exists M' tau', converted (rev (map (fun c => (c_old c, c_kind c)) cs) ++ olds) (fold_left convert cs s) M' tau'.
Proof.
  induction cs as [|c cs IH]; intros olds s M tau I V; cbn.
  - eauto.
  - inversion V; subst. destruct (IH ((c_old c, c_kind c) :: olds) (convert s c) _ _ (converted_step olds s M tau c I H2) H3) as (M2 & t2 & I2).
    exists M2, t2. now rewrite <- app_assoc.
Qed.
End Conversions.
