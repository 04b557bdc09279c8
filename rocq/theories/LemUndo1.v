(** The graph of [ModelUndo]: what is in it, and what a replacement changes. *)
From Coq Require Import List Arith Bool Lia.
From Verif Require Import ModelJoint ModelUndo SpecUndo.
Import ListNotations.
Open Scope nat_scope.

Lemma mem_In x l : mem x l = true <-> In x l.
Proof.
  unfold mem. rewrite existsb_exists. split; [intros (y & ? & E); apply Nat.eqb_eq in E; now subst|].
  intros H; exists x; split; [easy|apply Nat.eqb_refl].
Qed.
Lemma mem_false x l : mem x l = false <-> ~ In x l.
Proof. rewrite <- mem_In. destruct (mem x l); intuition congruence. Qed.

Lemma fresh_in_spec h seen l a : In a (fresh_in h seen l) <-> In a l /\ a < length h /\ ~ In a seen.
Proof.
  unfold fresh_in. rewrite nodup_In, filter_In, andb_true_iff, Nat.ltb_lt, negb_true_iff, mem_false. tauto.
Qed.
Lemma fresh_in_nodup h seen l : NoDup seen -> NoDup (seen ++ fresh_in h seen l).
Proof.
  intros H. unfold fresh_in. set (f := nodup _ _).
  assert (D : forall a, In a f -> ~ In a seen).
  { intros a Ia. apply (proj1 (fresh_in_spec h seen l a)) in Ia. tauto. }
  assert (N : NoDup f) by apply NoDup_nodup. clearbody f.
  induction H as [|s seen' Hs _ IH]; cbn; [easy|]. constructor.
  - rewrite in_app_iff. intros [?|I]; [now apply Hs|]. apply (D _ I). now left.
  - apply IH. intros a Ia Ib. apply (D a Ia). now right.
Qed.

Lemma grow_incl fuel : forall h seen a, In a seen -> In a (grow fuel h seen).
Proof. induction fuel as [|f IH]; intros; cbn; [easy|]. apply IH. rewrite in_app_iff. now left. Qed.
Lemma grow_reach outs fuel : forall h seen, (forall a, In a seen -> reach h outs a) -> forall a, In a (grow fuel h seen) -> reach h outs a.
Proof.
  induction fuel as [|f IH]; intros h seen H a; cbn; [apply H|]. apply IH. intros b Ib.
  apply in_app_iff in Ib as [Ib|Ib]; [now apply H|]. apply fresh_in_spec in Ib as (Ib & L & _).
  apply in_flat_map in Ib as (v & Iv & Ib). eapply r_arg; [apply H; exact Iv|exact Ib|easy].
Qed.
Lemma fresh_nil_closed h seen : fresh_in h seen (flat_map (node_args h) seen) = [] ->
  forall v a, In v seen -> In a (node_args h v) -> a < length h -> In a seen.
Proof.
  intros E v a Iv Ia L. destruct (in_dec Nat.eq_dec a seen) as [?|Na]; [easy|]. exfalso.
  enough (I : In a (fresh_in h seen (flat_map (node_args h) seen))) by (rewrite E in I; easy).
  apply fresh_in_spec. split; [apply in_flat_map; eauto|easy].
Qed.
Lemma grow_fix fuel : forall h seen, fresh_in h seen (flat_map (node_args h) seen) = [] -> grow fuel h seen = seen.
Proof. induction fuel as [|f IH]; intros h seen E; cbn; [easy|]. rewrite E, app_nil_r. now apply IH. Qed.
Lemma grow_closed fuel : forall h seen, NoDup seen -> (forall a, In a seen -> a < length h) -> length h <= fuel + length seen ->
  forall v a, In v (grow fuel h seen) -> In a (node_args h v) -> a < length h -> In a (grow fuel h seen).
Proof.
  induction fuel as [|f IH]; intros h seen N B L v a; cbn.
  - intros _ _ La. assert (I : incl (seq 0 (length h)) seen).
    { apply NoDup_length_incl; [easy|now rewrite seq_length|]. intros b Ib. apply in_seq. specialize (B b Ib). lia. }
    apply I, in_seq. lia.
  - set (f' := fresh_in h seen (flat_map (node_args h) seen)). destruct f' as [|c l] eqn:E.
    + rewrite app_nil_r. rewrite grow_fix by exact E. now apply fresh_nil_closed.
    + rewrite <- E. apply IH.
      * now apply fresh_in_nodup.
      * intros b Ib. apply in_app_iff in Ib as [?|Ib]; [auto|]. apply fresh_in_spec in Ib. tauto.
      * rewrite app_length, E. cbn. lia.
Qed.
Lemma live_reach h outs v : In v (live h outs) <-> reach h outs v.
Proof.
  unfold live. split.
  - apply grow_reach. intros a Ia. apply fresh_in_spec in Ia as (? & ? & _). now apply r_out.
  - induction 1 as [v Iv L|v a _ IH Ia L].
    + apply grow_incl, fresh_in_spec. easy.
    + eapply grow_closed; [| | |exact IH|exact Ia|exact L]; try lia.
      * apply NoDup_nodup.
      * intros b Ib. apply fresh_in_spec in Ib. tauto.
Qed.
Lemma reach_lt h outs v : reach h outs v -> v < length h.
Proof. now destruct 1. Qed.

(** replacement *)
Lemma nth_sub_live l a b h : forall i v, nth_error (sub_live l a b i h) v =
  match nth_error h v with
  | Some nd => Some (if mem (i + v) l then mku (uopr nd) (map (usub a b) (uargs nd)) else nd)
  | None => None
  end.
Proof.
  induction h as [|nd h IH]; intros i [|v]; cbn; try easy.
  - now rewrite Nat.add_0_r.
  - rewrite IH, <- plus_n_Sm. reflexivity.
Qed.
Lemma sub_live_length l a b h : forall i, length (sub_live l a b i h) = length h.
Proof. induction h; intros; cbn; auto. Qed.
Lemma node_op_sub l a b h v : node_op (sub_live l a b 0 h) v = node_op h v.
Proof. unfold node_op. rewrite nth_sub_live. cbn. destruct (nth_error h v); [|easy]. now destruct mem. Qed.
Lemma node_args_sub l a b h v : node_args (sub_live l a b 0 h) v =
  if mem v l then map (usub a b) (node_args h v) else node_args h v.
Proof. unfold node_args. rewrite nth_sub_live. cbn. destruct (nth_error h v); cbn; destruct mem; easy. Qed.
Lemma node_args_sub_in l a b h v c : In c (node_args (sub_live l a b 0 h) v) ->
  In c (node_args h v) \/ c = b /\ In a (node_args h v) /\ In v l.
Proof.
  rewrite node_args_sub. destruct (mem v l) eqn:E; [|auto]. apply mem_In in E. rewrite in_map_iff.
  intros (d & Ed & Id). unfold usub in Ed. destruct (d =? a) eqn:Q; subst; [|auto]. apply Nat.eqb_eq in Q. subst. auto.
Qed.
Lemma map_usub_id a b l : ~ In a l -> map (usub a b) l = l.
Proof.
  induction l as [|c l IH]; intros H; cbn; [easy|]. rewrite IH by (intros ?; apply H; now right).
  unfold usub. destruct (c =? a) eqn:E; [|easy]. apply Nat.eqb_eq in E. subst. exfalso. apply H. now left.
Qed.
Lemma map_usub_map {B} (M : nat -> B) a b l : M a = M b -> map M (map (usub a b) l) = map M l.
Proof.
  intros E. rewrite map_map. apply map_ext. intros c. unfold usub. destruct (c =? a) eqn:Q; [|easy]. apply Nat.eqb_eq in Q. now subst.
Qed.
Lemma usub_gone a b l : a <> b -> ~ In a (map (usub a b) l).
Proof.
  intros N I. apply in_map_iff in I as (c & E & _). unfold usub in E. destruct (c =? a) eqn:Q; [now subst|].
  subst. rewrite Nat.eqb_refl in Q. easy.
Qed.

(** one replacement *)
Lemma ureplace_op a b s v : node_op (u_heap (ureplace a b s)) v = node_op (u_heap s) v.
Proof. unfold ureplace. destruct mem; cbn; [apply node_op_sub|easy]. Qed.
Lemma ureplace_length a b s : length (u_heap (ureplace a b s)) = length (u_heap s).
Proof. unfold ureplace. destruct mem; cbn; [apply sub_live_length|easy]. Qed.
Lemma ureplace_vals a b s : u_vals (ureplace a b s) = u_vals s.
Proof. unfold ureplace. now destruct mem. Qed.
(** either nothing happens to the inputs of [v], or [v] is in the graph and
    they are replaced *)
Lemma ureplace_args a b s v : node_args (u_heap (ureplace a b s)) v =
  if mem v (u_live s) && mem a (u_live s) then map (usub a b) (node_args (u_heap s) v) else node_args (u_heap s) v.
Proof.
  unfold ureplace. destruct (mem a (u_live s)) eqn:E; cbn; [|now rewrite andb_false_r].
  rewrite node_args_sub, andb_true_r. reflexivity.
Qed.
(** if [v] is in the graph, its inputs are replaced (in any case) *)
Lemma ureplace_args_live a b s v : In v (u_live s) -> (forall c, In c (node_args (u_heap s) v) -> c < length (u_heap s)) ->
  node_args (u_heap (ureplace a b s)) v = map (usub a b) (node_args (u_heap s) v).
Proof.
  intros L B. rewrite ureplace_args, (proj2 (mem_In _ _) L). cbn. destruct (mem a (u_live s)) eqn:E; [easy|].
  symmetry. apply map_usub_id. intros I. apply mem_false in E. apply E. apply live_reach. apply live_reach in L.
  eapply r_arg; eauto.
Qed.
Lemma ureplace_args_in a b s v c : In c (node_args (u_heap (ureplace a b s)) v) ->
  In c (node_args (u_heap s) v) \/ c = b /\ In a (node_args (u_heap s) v) /\ In v (u_live s).
Proof.
  rewrite ureplace_args. destruct (mem v (u_live s)) eqn:E; cbn; [|auto]. apply mem_In in E.
  destruct (mem a (u_live s)); [|auto]. rewrite in_map_iff. intros (d & Ed & Id). unfold usub in Ed.
  destruct (d =? a) eqn:Q; subst; [|auto]. apply Nat.eqb_eq in Q. subst. auto.
Qed.
Lemma ureplace_map {B} (M : nat -> B) a b s v : M a = M b -> map M (node_args (u_heap (ureplace a b s)) v) = map M (node_args (u_heap s) v).
Proof. intros E. rewrite ureplace_args. destruct (_ && _); [now apply map_usub_map|easy]. Qed.
Lemma ureplace_outs a b s : ~ In a (u_outs s) -> u_outs (ureplace a b s) = u_outs s.
Proof. intros H. unfold ureplace. destruct mem; cbn; [now apply map_usub_id|easy]. Qed.

Lemma ureplace_conv a b s : (forall k, node_op (u_heap s) a <> UFun k) -> u_conv (ureplace a b s) = u_conv s.
Proof.
  intros N. unfold ureplace. destruct mem; [|easy]. cbn. unfold tracked. destruct (node_op (u_heap s) a) eqn:E; try easy. now destruct (N k).
Qed.

(** appended nodes *)
Lemma node_op_app1 h l v : v < length h -> node_op (h ++ l) v = node_op h v.
Proof. intros L. unfold node_op. now rewrite nth_error_app1. Qed.
Lemma node_args_app1 h l v : v < length h -> node_args (h ++ l) v = node_args h v.
Proof. intros L. unfold node_args. now rewrite nth_error_app1. Qed.
Lemma node_op_app2 h l v : length h <= v -> node_op (h ++ l) v = node_op l (v - length h).
Proof. intros L. unfold node_op. now rewrite nth_error_app2. Qed.
Lemma node_args_app2 h l v : length h <= v -> node_args (h ++ l) v = node_args l (v - length h).
Proof. intros L. unfold node_args. now rewrite nth_error_app2. Qed.
Lemma node_op_out h v : length h <= v -> node_op h v = UIn.
Proof. intros L. unfold node_op. apply nth_error_None in L. now rewrite L. Qed.
Lemma node_args_out h v : length h <= v -> node_args h v = [].
Proof. intros L. unfold node_args. apply nth_error_None in L. now rewrite L. Qed.
Lemma node_in_lt h v a : In a (node_args h v) -> v < length h.
Proof. intros I. destruct (Nat.lt_ge_cases v (length h)); [easy|]. rewrite node_args_out in I; easy. Qed.
Lemma node_op_lt h v : node_op h v <> UIn -> v < length h.
Proof. intros I. destruct (Nat.lt_ge_cases v (length h)); [easy|]. rewrite node_op_out in I; easy. Qed.
Lemma nth_node h v : v < length h -> nth_error h v = Some (mku (node_op h v) (node_args h v)).
Proof.
  intros L. unfold node_op, node_args. destruct (nth_error h v) as [[]|] eqn:E; [easy|]. apply nth_error_None in E. lia.
Qed.
Lemma below_trans h a b c : below h a b -> below h b c -> below h a c.
Proof. induction 1; intros; [eapply b_step|eapply b_step]; eauto. Qed.

(** lookup of dictionaries *)
Lemma dset_in {B} (d : list (nat * B)) k b p : In p (dset d k b) -> In p d \/ p = (k, b).
Proof.
  induction d as [|[k' b'] d IH]; cbn; [intuition|]. destruct (k =? k'); cbn; intuition.
Qed.
Lemma dset_new {B} (d : list (nat * B)) k b : In (k, b) (dset d k b).
Proof. induction d as [|[k' b'] d IH]; cbn; [now left|]. destruct (k =? k'); cbn; auto. Qed.
Lemma dset_old {B} (d : list (nat * B)) k b p : In p d -> fst p <> k -> In p (dset d k b).
Proof.
  induction d as [|[k' b'] d IH]; cbn; [easy|]. intros [E|I] N.
  - subst. cbn in N. destruct (k =? k') eqn:Q; [apply Nat.eqb_eq in Q; congruence|now left].
  - destruct (k =? k'); right; auto.
Qed.
Lemma dset_keys {B} (d : list (nat * B)) k b : In k (map fst d) -> map fst (dset d k b) = map fst d.
Proof.
  induction d as [|[k' b'] d IH]; cbn; [easy|]. destruct (k =? k') eqn:Q; cbn; [apply Nat.eqb_eq in Q; now subst|].
  intros [->|I]; [rewrite Nat.eqb_refl in Q; easy|now rewrite IH].
Qed.
Lemma dset_append {B} (d : list (nat * B)) k b : ~ In k (map fst d) -> dset d k b = d ++ [(k, b)].
Proof.
  induction d as [|[k' b'] d IH]; cbn; [easy|]. intros H. destruct (k =? k') eqn:Q; [apply Nat.eqb_eq in Q; subst; exfalso; auto|].
  rewrite IH; auto.
Qed.
