(** Proofs for C14, C35, C36, part 1: the structure of the rewritten graph. *)
From Coq Require Import List Arith Bool Lia.
From Verif Require Import XR ModelJoint SpecJoint LemJoint ModelGraph SpecGraph.
Import ListNotations.
Open Scope nat_scope.

(** ** Replacement *)
Definition suball (l : list (nat * nat)) (v : nat) : nat := fold_left (fun v p => sub1 (fst p) (snd p) v) l v.
Lemma nth_rewire : forall f h i, nth_error (rewire f h) i = option_map (fun nd => mk (nop nd) (map f (nargs nd))) (nth_error h i).
Proof. intros f h i. unfold rewire. apply nth_error_map. Qed.
Lemma nth_replace : forall a b h i, nth_error (replace a b h) i = option_map (fun nd => mk (nop nd) (map (sub1 a b) (nargs nd))) (nth_error h i).
Proof. intros a b h i. unfold replace. apply nth_error_map. Qed.
Lemma nth_replace_all : forall l h i, nth_error (replace_all l h) i = option_map (fun nd => mk (nop nd) (map (suball l) (nargs nd))) (nth_error h i).
Proof.
  induction l as [|[a b] l IH]; intros h i; cbn [replace_all fold_left].
  - destruct (nth_error h i) as [[o ps]|]; cbn; [|easy]. do 2 f_equal. unfold suball. cbn. rewrite map_id. easy.
  - fold (replace_all l (replace a b h)). cbn [fst snd]. rewrite IH, nth_replace.
    destruct (nth_error h i) as [[o ps]|]; cbn; [|easy]. do 2 f_equal. rewrite map_map. easy.
Qed.
Lemma len_replace : forall a b h, length (replace a b h) = length h.
Proof. intros. apply map_length. Qed.
Lemma len_replace_all : forall l h, length (replace_all l h) = length h.
Proof. induction l as [|p l IH]; intros h; cbn; [easy|]. fold (replace_all l (replace (fst p) (snd p) h)). rewrite IH. apply len_replace. Qed.
Lemma sub1_other : forall a b v, v <> a -> sub1 a b v = v.
Proof. intros a b v H. unfold sub1. destruct (v =? a) eqn:E; [apply Nat.eqb_eq in E; easy|easy]. Qed.
Lemma sub1_same : forall a b, sub1 a b a = b.
Proof. intros. unfold sub1. rewrite Nat.eqb_refl. easy. Qed.
Lemma suball_other : forall l v, ~ In v (map fst l) -> suball l v = v.
Proof.
  unfold suball. induction l as [|[a b] l IH]; intros v H; cbn in *; [easy|].
  rewrite sub1_other by (intros ->; tauto). apply IH. tauto.
Qed.
Lemma suball_hit : forall l v w, NoDup (map fst l) -> In (v, w) l -> ~ In w (map fst l) -> suball l v = w.
Proof.
  unfold suball. induction l as [|[a b] l IH]; intros v w N I H; cbn in *; [easy|].
  inversion N as [|? ? N1 N2]; subst. destruct I as [E|I].
  - injection E as -> ->. rewrite sub1_same. apply (suball_other l w). tauto.
  - rewrite sub1_other; [apply IH; tauto|]. intros ->. apply N1. apply (in_map fst) in I. exact I.
Qed.
Lemma map_fix : forall (f : nat -> nat) l, (forall x, In x l -> f x = x) -> map f l = l.
Proof. intros f l H. rewrite <- (map_id l) at 2. apply map_ext_in, H. Qed.
Lemma nth_lt : forall A (l : list A) i x, nth_error l i = Some x -> i < length l.
Proof. intros A l i x H. apply nth_error_Some. congruence. Qed.
Lemma nth_at : forall A (l m : list A) i, nth_error (l ++ m) (length l + i) = nth_error m i.
Proof. intros. rewrite nth_error_app2 by lia. f_equal. lia. Qed.
Lemma nth_at0 : forall A (l m : list A), nth_error (l ++ m) (length l) = nth_error m 0.
Proof. intros. rewrite nth_error_app2 by lia. f_equal. lia. Qed.
Lemma F2_map_r : forall A B C (R : A -> C -> Prop) (f : B -> C) l m, Forall2 (fun a b => R a (f b)) l m -> Forall2 R l (map f m).
Proof. intros A B C R f l m H. induction H; cbn; constructor; auto. Qed.
Lemma F2_impl : forall A B (R R' : A -> B -> Prop) l m, (forall a b, In a l -> R a b -> R' a b) -> Forall2 R l m -> Forall2 R' l m.
Proof.
  intros A B R R' l m H F. induction F; constructor; [apply H; cbn; auto|]. apply IHF. intros. apply H; cbn; auto.
Qed.
Lemma F2_map_l : forall A B (R : A -> B -> Prop) (f : A -> B) l, (forall a, In a l -> R a (f a)) -> Forall2 R l (map f l).
Proof. induction l as [|a l IH]; intros H; cbn; constructor; [apply H; cbn; auto|]. apply IH. intros. apply H. cbn. auto. Qed.
Lemma F2_in_r : forall A B (R : A -> B -> Prop) l m b, Forall2 R l m -> In b m -> exists a, In a l /\ R a b.
Proof.
  intros A B R l m b H. induction H; intros I; cbn in *; [easy|]. destruct I as [->|I]; [eauto|].
  destruct (IHForall2 I) as (a & J & Q). eauto.
Qed.

(** ** Traversal *)
Lemma dfs_adds : forall fuel h done v, exists l, dfs fuel h done v = done ++ l /\ forall u, In u l -> depends h v u.
Proof.
  induction fuel as [|fuel IH]; intros h done v; cbn.
  - exists []. rewrite app_nil_r. easy.
  - destruct (mem v done); [exists []; rewrite app_nil_r; easy|].
    destruct (nth_error h v) as [nd|] eqn:E; [|exists []; rewrite app_nil_r; easy].
    destruct (is_in (nop nd)); [exists []; rewrite app_nil_r; easy|].
    assert (P : forall as_ d, incl as_ (nargs nd) -> exists l, fold_left (dfs fuel h) as_ d = d ++ l /\ forall u, In u l -> depends h v u).
    { induction as_ as [|a as_ IHa]; intros d I; cbn; [exists []; rewrite app_nil_r; easy|].
      destruct (IH h d a) as (l1 & -> & L1). destruct (IHa (d ++ l1)) as (l2 & -> & L2); [intros x Hx; apply I; cbn; auto|].
      exists (l1 ++ l2). rewrite app_assoc. split; [easy|]. intros u J. apply in_app_iff in J as [J|J]; [|auto].
      eapply dep_step; eauto. apply I. cbn. auto. }
    destruct (P (nargs nd) done) as (l & -> & Q); [easy|]. exists (l ++ [v]). rewrite app_assoc. split; [easy|].
    intros u J. apply in_app_iff in J as [J|[<-|[]]]; [auto|constructor].
Qed.
Lemma dfs_self : forall fuel h done v nd, nth_error h v = Some nd -> is_in (nop nd) = false -> In v (dfs (S fuel) h done v).
Proof.
  intros fuel h done v nd E I. cbn. destruct (mem v done) eqn:Q; [apply mem_In, Q|]. rewrite E, I. apply in_or_app. cbn. auto.
Qed.

Lemma nth_ext_o : forall A (l m : list A), (forall k, nth_error l k = nth_error m k) -> l = m.
Proof.
  induction l as [|a l IH]; intros [|b m] H; [easy|specialize (H 0); discriminate|specialize (H 0); discriminate|].
  f_equal; [specialize (H 0); cbn in H; congruence|]. apply IH. intros k. apply (H (S k)).
Qed.
Lemma bindings_nth : forall h olds outs vals bs, bindings_of h olds outs vals = Some bs ->
  length outs = length olds -> length vals = length olds ->
  length bs = length olds /\ forall k o u v, nth_error olds k = Some o -> nth_error outs k = Some u -> nth_error vals k = Some v ->
    exists b, nth_error bs k = Some b /\ binding_of h o u v = Some b.
Proof.
  induction olds as [|o olds IH]; intros [|u outs] [|v vals] bs B L1 L2; cbn in *; try discriminate.
  - injection B as <-. split; [easy|]. intros [|k] o u v H; discriminate.
  - destruct (binding_of h o u v) as [b|] eqn:E; [|discriminate]. destruct (bindings_of h olds outs vals) as [bs'|] eqn:E'; [|discriminate].
    injection B as <-. destruct (IH _ _ _ E') as (I1 & I2); try lia. split; [cbn; lia|].
    intros [|k] o' u' v' A1 A2 A3; cbn in *; [|eauto]. injection A1 as <-. injection A2 as <-. injection A3 as <-. eauto.
Qed.
Lemma all_some_in : forall A B (l : list (A * option B)) m, all_some l = Some m ->
  map fst m = map fst l /\ (forall a b, In (a, Some b) l <-> In (a, b) m) /\ forall a, ~ In (a, None) l.
Proof.
  induction l as [|[a [b|]] l IH]; intros m H; cbn in H; try discriminate.
  - injection H as <-. cbn. tauto.
  - destruct (all_some l) as [m'|]; [|discriminate]. injection H as <-. destruct (IH _ eq_refl) as (I1 & I2 & I3).
    split; [cbn; congruence|]. split.
    + intros a' b'. cbn. rewrite I2. split; (intros [E|I]; [injection E as -> ->; auto|auto]).
    + intros a' [E|I]; [discriminate|]. apply (I3 _ I).
Qed.
Lemma nodup_fst_fun : forall A B (l : list (A * B)) a b b', NoDup (map fst l) -> In (a, b) l -> In (a, b') l -> b = b'.
Proof.
  induction l as [|[x y] l IH]; intros a b b' H I J; [destruct I|]. cbn in H. inversion H as [|? ? N D]; subst.
  destruct I as [I|I], J as [J|J]; try congruence; eauto.
  - injection I as -> ->. apply (in_map fst) in J. easy.
  - injection J as -> ->. apply (in_map fst) in I. easy.
Qed.
Lemma own_blocks : forall bs, NoDup (map b_var bs) -> (forall b, In b bs -> b_node b = Some (b_var b)) ->
  (forall b, In b bs -> filter (of_node (b_var b)) bs = [b]) /\ flat_map (fun n => filter (of_node n) bs) (map b_var bs) = bs.
Proof.
  intros bs ND NV. assert (P : forall b, In b bs -> filter (of_node (b_var b)) bs = [b]).
  { induction bs as [|b0 bs IH]; intros b I; [destruct I|]. inversion ND as [|? ? N D]; subst. cbn.
    assert (NB : of_node (b_var b) b0 = (b_var b0 =? b_var b)) by (unfold of_node; rewrite NV by (cbn; auto); easy).
    rewrite NB. destruct I as [->|I].
    - rewrite Nat.eqb_refl. f_equal. clear IH NB. rewrite <- (app_nil_l (filter _ bs)).
      assert (Q : forall b', In b' bs -> of_node (b_var b) b' = false).
      { intros b' J. unfold of_node. rewrite NV by (cbn; auto). apply Nat.eqb_neq. intros E. apply N. rewrite <- E. apply in_map, J. }
      cbn. clear -Q. induction bs as [|b' bs IH]; [easy|]. cbn. rewrite Q by (cbn; auto). apply IH. intros. apply Q. cbn. auto.
    - destruct (b_var b0 =? b_var b) eqn:E; [apply Nat.eqb_eq in E; destruct N; rewrite E; apply in_map, I|].
      apply IH; auto. intros. apply NV. cbn. auto. }
  split; [exact P|]. rewrite flat_map_concat_map, map_map.
  rewrite (map_ext_in _ (fun b => [b])) by (intros b I; apply P, I). clear. induction bs as [|b bs IH]; cbn; congruence.
Qed.
Lemma unrealized_first : forall requested realized bs, map b_old bs = requested ++ realized -> NoDup (requested ++ realized) ->
  unrealized_values realized bs = map b_val (firstn (length requested) bs).
Proof.
  intros requested realized bs E ND. unfold unrealized_values. f_equal.
  assert (Q : forall (f : binding -> bool) l, (forall b, In b l -> f b = false) -> filter f l = []).
  { intros f l H. induction l as [|b l IH]; [easy|]. cbn. rewrite H by (cbn; auto). apply IH. intros. apply H. cbn. auto. }
  assert (Q2 : forall (f : binding -> bool) l, (forall b, In b l -> f b = true) -> filter f l = l).
  { intros f l H. induction l as [|b l IH]; [easy|]. cbn. rewrite H by (cbn; auto). f_equal. apply IH. intros. apply H. cbn. auto. }
  rewrite <- (firstn_skipn (length requested) bs) at 1. rewrite filter_app, Q2, Q, app_nil_r; [easy| |].
  - intros b I. apply (in_map b_old) in I. rewrite <- skipn_map, E in I.
    rewrite skipn_app, skipn_all, Nat.sub_diag in I. cbn in I. destruct (in_dec _ _ _); easy.
  - intros b I. apply (in_map b_old) in I. rewrite <- firstn_map, E in I.
    rewrite firstn_app, firstn_all, Nat.sub_diag in I. cbn in I. rewrite app_nil_r in I.
    destruct (in_dec _ _ _) as [J|J]; [|easy]. exfalso. clear -ND I J. induction requested as [|r l IH]; [destruct I|].
    cbn in ND. inversion ND as [|? ? N D]; subst. destruct I as [->|I]; [apply N, in_or_app; auto|auto].
Qed.
Lemma one_node : forall h n, NoDup (node_measurable h n) /\ forall v, In v (node_measurable h n) -> v = n.
Proof.
  intros h n. unfold node_measurable. destruct (nth_error h n) as [[[] ps]|]; split; try constructor; cbn; auto; try constructor; try tauto;
    intros v [->|[]]; easy.
Qed.
Lemma node_one_each : forall uj h, one_each (node_measurable h) (node_logprob uj h).
Proof.
  intros uj h n vs. unfold node_measurable, node_logprob. destruct (nth_error h n) as [[[] ps]|]; cbn; try easy;
    destruct vs as [|v [|w vs]]; cbn; try discriminate; try easy. destruct (nth_error h v) as [[[] [|c [|b [|? ?]]]]|]; easy.
Qed.

Lemma bindings_total : forall h olds outs vals, length outs = length olds -> length vals = length olds ->
  (forall k o u v, nth_error olds k = Some o -> nth_error outs k = Some u -> nth_error vals k = Some v -> binding_of h o u v <> None) ->
  exists bs, bindings_of h olds outs vals = Some bs.
Proof.
  induction olds as [|o olds IH]; intros [|u outs] [|v vals] L1 L2 H; cbn in *; try discriminate; eauto.
  destruct (binding_of h o u v) as [b|] eqn:E; [|destruct (H 0 o u v eq_refl eq_refl eq_refl E)].
  destruct (IH outs vals) as (bs & ->); try lia; [|eauto]. intros k. apply (H (S k)).
Qed.
Lemma all_some_total : forall A B (l : list (A * option B)), (forall a, ~ In (a, None) l) -> exists m, all_some l = Some m.
Proof.
  induction l as [|[a [b|]] l IH]; intros H; cbn; [eauto| |destruct (H a); cbn; auto].
  destruct IH as (m & ->); [|eauto]. intros a' I. apply (H a'). cbn. auto.
Qed.
(** fresh value variables are distinct *)
Definition fresh_vals (c : nat) (s : gstate) : Prop := NoDup (map fst (g_vals s)) /\ (forall p, In p (g_vals s) -> snd p < length (g_heap s)) /\
  (forall p q, In p (g_vals s) -> In q (g_vals s) -> c <= snd p -> snd p = snd q -> p = q).
Lemma in_dset : forall (d : list (nat * nat)) x b p, In p (dset d x b) -> p = (x, b) \/ In p d.
Proof.
  induction d as [|[k a] d IH]; intros x b p; cbn; [intuition|]. destruct (x =? k); cbn; [intuition|].
  intros [<-|I]; [auto|]. apply IH in I. tauto.
Qed.
Lemma fresh_step : forall c T s v, fresh_vals c s -> fresh_vals c (transform_values T s v).
Proof.
  intros c T s v (F1 & F2 & F3). unfold transform_values. destruct (nth_error (g_heap s) v) as [[[] [|r [|x [|? ?]]]]|]; try (split; auto; fail).
  destruct (dget T x) as [tr|]; [|split; auto]. destruct (nth_error (g_heap s) r) as [[[] ps]|]; try (split; auto; fail).
  split; cbn [g_vals g_heap]; [apply nodup_dset, F1|]. rewrite !len_replace, app_length. cbn [length]. split.
  - intros p I. apply in_dset in I as [->|I]; [cbn; lia|]. apply F2 in I. lia.
  - intros p q I J C E. apply in_dset in I as [->|I]; apply in_dset in J as [->|J]; auto; cbn in *.
    + apply F2 in J. lia.
    + apply F2 in I. lia.
Qed.
Lemma fresh_pass : forall c T ord s, fresh_vals c s -> fresh_vals c (fold_left (transform_values T) ord s).
Proof. intros c T. induction ord as [|v ord IH]; intros s F; cbn; [exact F|]. apply IH, fresh_step, F. Qed.
Lemma measure_total : forall rvs h, (forall rv val, In (rv, val) rvs -> exists nd, nth_error h rv = Some nd /\ is_in (nop nd) = false) ->
  exists r, measure h rvs = Ok r.
Proof.
  induction rvs as [|[rv val] rvs IH]; intros h H; cbn; [eauto|].
  destruct (H rv val) as (nd & E & I); [cbn; auto|]. rewrite E, I.
  destruct (IH (h ++ [nd; mk OIn []; mk OVal [length h; length h + 1]])) as ([h' ms] & ->); [|eauto].
  intros rv' val' J. destruct (H rv' val') as (nd' & E' & I'); [cbn; auto|]. exists nd'. split; [|exact I'].
  rewrite nth_error_app1; [exact E'|eapply nth_lt, E'].
Qed.

(** ** The clones and value variables *)
Section G.
Context (g0 : heap) (rvs : list (nat * nat)).
Let n0 := length g0.
Let N := n0 + 3 * length rvs.
Definition cid k := n0 + 3 * k.
Definition xid k := n0 + 3 * k + 1.
Definition vid k := n0 + 3 * k + 2.

Hypothesis WF : model_graph g0.
Hypothesis KEYS : NoDup (map fst rvs).
Hypothesis BELOW : forall rv val, In (rv, val) rvs -> rv < n0 /\ val < n0.

Definition met k rv val := {| m_rv := rv; m_val := val; m_clone := cid k; m_vclone := xid k; m_out := vid k |}.

Lemma measure_spec : forall h1 ms, measure g0 rvs = Ok (h1, ms) ->
  length h1 = N /\ length ms = length rvs /\
  (forall v, v < n0 -> nth_error h1 v = nth_error g0 v) /\
  (forall k rv val, nth_error rvs k = Some (rv, val) ->
     nth_error ms k = Some (met k rv val) /\
     exists nd, nth_error g0 rv = Some nd /\ is_in (nop nd) = false /\ nth_error h1 (cid k) = Some nd /\
       nth_error h1 (xid k) = Some (mk OIn []) /\ nth_error h1 (vid k) = Some (mk OVal [cid k; xid k])).
Proof.
  unfold cid, xid, vid, met, N.
  assert (P : forall rvs h h1 ms j, (forall rv val, In (rv, val) rvs -> rv < n0) -> length h = n0 + 3 * j ->
    (forall v, v < n0 -> nth_error h v = nth_error g0 v) ->
    measure h rvs = Ok (h1, ms) ->
    length h1 = n0 + 3 * (j + length rvs) /\ length ms = length rvs /\
    (forall v, v < length h -> nth_error h1 v = nth_error h v) /\
    (forall k rv val, nth_error rvs k = Some (rv, val) ->
     nth_error ms k = Some {| m_rv := rv; m_val := val; m_clone := n0 + 3 * (j + k); m_vclone := n0 + 3 * (j + k) + 1; m_out := n0 + 3 * (j + k) + 2 |} /\
     exists nd, nth_error g0 rv = Some nd /\ is_in (nop nd) = false /\ nth_error h1 (n0 + 3 * (j + k)) = Some nd /\
       nth_error h1 (n0 + 3 * (j + k) + 1) = Some (mk OIn []) /\
       nth_error h1 (n0 + 3 * (j + k) + 2) = Some (mk OVal [n0 + 3 * (j + k); n0 + 3 * (j + k) + 1]))).
  { clear. induction rvs as [|[rv val] l IH]; intros h h1 ms j B Lh A M; cbn [measure] in M.
    - injection M as <- <-. cbn [length]. split; [lia|]. split; [easy|]. split; [auto|]. intros [|k]; discriminate.
    - destruct (nth_error h rv) as [nd|] eqn:E; [|discriminate].
      destruct (is_in (nop nd)) eqn:EI; [discriminate|].
      destruct (measure _ l) as [[h1' ms']|] eqn:M'; [|discriminate]. injection M as <- <-.
      pose proof (fun a b c => IH _ _ _ (S j) a b c M') as IH'. clear IH.
      destruct IH' as (I1 & I2 & I3 & I4).
      + intros rv' val' I. apply (B rv' val'). cbn. auto.
      + rewrite app_length. cbn [length]. lia.
      + intros v Hv. rewrite nth_error_app1 by lia. auto.
      + cbn [length]. split; [lia|]. split; [lia|].
        rewrite app_length in I3. cbn [length] in I3. split.
        { intros v Hv. rewrite I3 by lia. apply nth_error_app1, Hv. }
        intros [|k] rv' val' Hk.
        * cbn in Hk. injection Hk as <- <-. rewrite Nat.add_0_r, <- Lh. split; [cbn; do 2 f_equal; lia|].
          exists nd. split; [rewrite <- A by (apply (B rv val); cbn; auto); exact E|]. split; [exact EI|].
          split; [rewrite I3 by lia; rewrite nth_at0; easy|].
          split; rewrite I3 by lia; rewrite nth_at; easy.
        * cbn in Hk. destruct (I4 k rv' val' Hk) as (J1 & J2).
          replace (S j + k) with (j + S k) in * by lia. cbn [nth_error]. split; [exact J1|]. exact J2. }
  intros h1 ms M. destruct (P rvs g0 h1 ms 0) as (P1 & P2 & P3 & P4); auto.
  - intros rv val I. apply BELOW in I. easy.
  - unfold n0. lia.
Qed.

(** [u] stands for the model variable [a] in the rewritten graph *)
Inductive rep : nat -> nat -> Prop :=
| rep_req : forall k rv val, nth_error rvs k = Some (rv, val) -> rep rv (vid k)
| rep_in : forall a nd, ~ In a (map fst rvs) -> nth_error g0 a = Some nd -> is_in (nop nd) = true -> rep a a
| rep_copy : forall a nd, ~ In a (map fst rvs) -> nth_error g0 a = Some nd -> is_in (nop nd) = false -> rep a (a + N).

Lemma key_lt : forall k rv val, nth_error rvs k = Some (rv, val) -> rv < n0 /\ val < n0 /\ k < length rvs /\ In rv (map fst rvs).
Proof.
  intros k rv val H. assert (I := nth_error_In _ _ H). destruct (BELOW _ _ I). apply nth_lt in H.
  repeat split; auto. apply (in_map fst) in I. exact I.
Qed.
Lemma key_nth : forall rv, In rv (map fst rvs) -> exists k val, nth_error rvs k = Some (rv, val).
Proof.
  intros rv I. apply in_map_iff in I as ([rv' val] & <- & I). apply In_nth_error in I as [k I]. eauto.
Qed.
Lemma key_inj : forall k k' rv val val', nth_error rvs k = Some (rv, val) -> nth_error rvs k' = Some (rv, val') -> k = k'.
Proof.
  intros k k' rv val val' H H'. apply (NoDup_nth_error (map fst rvs)); auto.
  - rewrite map_length. apply nth_lt in H. exact H.
  - rewrite !nth_error_map, H, H'. easy.
Qed.
Lemma rep_bounds : forall a u, rep a u -> a < n0 /\ ((exists k, k < length rvs /\ u = vid k) \/ u < n0 \/ (N <= u < N + n0)).
Proof.
  intros a u [k rv val H|a' nd _ H _|a' nd _ H _].
  - destruct (key_lt _ _ _ H) as (A & _ & B & _). eauto 6.
  - apply nth_lt in H. fold n0 in H. auto.
  - apply nth_lt in H. fold n0 in H. split; [auto|]. right. right. lia.
Qed.

Section S3.
Context (h1 : heap) (ms : list measured).
Hypothesis M : measure g0 rvs = Ok (h1, ms).
Let L3 := map (fun m => (memo h1 (m_rv m), m_out m)) ms.

Lemma N_h1 : length h1 = N.
Proof. apply (measure_spec _ _ M). Qed.
Lemma ms_nth : forall k m, nth_error ms k = Some m -> exists rv val, nth_error rvs k = Some (rv, val) /\ m = met k rv val.
Proof.
  intros k m H. destruct (measure_spec _ _ M) as (_ & Lm & _ & P).
  destruct (nth_error rvs k) as [[rv val]|] eqn:E.
  - destruct (P _ _ _ E) as (Q & _). exists rv, val. split; [easy|congruence].
  - apply nth_error_None in E. apply nth_lt in H. lia.
Qed.
Lemma memo_orig : forall a nd, nth_error g0 a = Some nd -> memo h1 a = if is_in (nop nd) then a else a + N.
Proof.
  intros a nd H. unfold memo. destruct (measure_spec _ _ M) as (LN & _ & A & _).
  rewrite A, H, LN by (apply nth_lt in H; exact H). easy.
Qed.
Lemma memo_rv : forall k rv val, nth_error rvs k = Some (rv, val) -> memo h1 rv = rv + N.
Proof.
  intros k rv val H. destruct (measure_spec _ _ M) as (LN & _ & _ & P). destruct (P _ _ _ H) as (_ & nd & G & I & _).
  rewrite (memo_orig _ _ G), I. easy.
Qed.
Lemma L3_in : forall p, In p L3 <-> exists k rv val, nth_error rvs k = Some (rv, val) /\ p = (rv + N, vid k).
Proof.
  intros p. unfold L3. rewrite in_map_iff. split.
  - intros (m & <- & I). apply In_nth_error in I as [k I]. destruct (ms_nth _ _ I) as (rv & val & H & ->).
    exists k, rv, val. split; [easy|]. cbn. rewrite (memo_rv _ _ _ H). easy.
  - intros (k & rv & val & H & ->). destruct (measure_spec _ _ M) as (_ & _ & _ & P). destruct (P _ _ _ H) as (Q & _).
    exists (met k rv val). cbn. rewrite (memo_rv _ _ _ H). split; [easy|]. apply nth_error_In in Q. exact Q.
Qed.
Lemma L3_keys : map fst L3 = map (fun p => fst p + N) rvs.
Proof.
  unfold L3. rewrite map_map. cbn. destruct (measure_spec _ _ M) as (_ & Lm & _ & P).
  apply (nth_ext _ _ 0 0); [rewrite !map_length; exact Lm|]. intros k Hk. rewrite map_length in Hk.
  destruct (nth_error ms k) as [m|] eqn:E; [|apply nth_error_None in E; lia].
  destruct (ms_nth _ _ E) as (rv & val & H & ->).
  rewrite (nth_error_nth _ k 0 (x := rv + N)), (nth_error_nth _ k 0 (x := rv + N)); [easy| |].
  - rewrite nth_error_map, H. easy.
  - rewrite nth_error_map, E. cbn. rewrite (memo_rv _ _ _ H). easy.
Qed.
Lemma L3_nodup : NoDup (map fst L3).
Proof.
  rewrite L3_keys. rewrite <- (map_map fst (fun x => x + N)).
  apply FinFun.Injective_map_NoDup; [intros x y; lia|exact KEYS].
Qed.
Lemma s3_low : forall v, v < N -> suball L3 v = v.
Proof.
  intros v H. apply suball_other. rewrite L3_keys, in_map_iff. intros ([rv val] & E & _). cbn in E. lia.
Qed.
Lemma s3_key : forall k rv val, nth_error rvs k = Some (rv, val) -> suball L3 (rv + N) = vid k.
Proof.
  intros k rv val H. apply suball_hit; [exact L3_nodup|apply L3_in; eauto|].
  rewrite L3_keys, in_map_iff. intros ([rv' val'] & E & _). cbn in E.
  destruct (key_lt _ _ _ H) as (_ & _ & K & _). unfold vid, N in *. lia.
Qed.
Lemma s3_other : forall a, ~ In a (map fst rvs) -> suball L3 (a + N) = a + N.
Proof.
  intros a H. apply suball_other. rewrite L3_keys, in_map_iff. intros ([rv val] & E & I). cbn in E.
  assert (rv = a) as -> by lia. apply (in_map fst) in I. easy.
Qed.
Lemma rep3 : forall a, a < n0 -> rep a (suball L3 (memo h1 a)).
Proof.
  intros a H. destruct (nth_error g0 a) as [nd|] eqn:E; [|apply nth_error_None in E; unfold n0 in H; lia].
  destruct (in_dec Nat.eq_dec a (map fst rvs)) as [I|I].
  - destruct (key_nth _ I) as (k & val & K). rewrite (memo_rv _ _ _ K), (s3_key _ _ _ K). econstructor; eauto.
  - rewrite (memo_orig _ _ E). destruct (is_in (nop nd)) eqn:Ei.
    + rewrite s3_low by (unfold N; lia). eapply rep_in; eauto.
    + rewrite s3_other by auto. eapply rep_copy; eauto.
Qed.
Lemma clone_low : forall v, v < N -> nth_error (clone_all h1) v = nth_error h1 v.
Proof. intros v H. unfold clone_all. apply nth_error_app1. rewrite N_h1. exact H. Qed.
Lemma clone_high : forall v nd, nth_error h1 v = Some nd -> nth_error (clone_all h1) (v + N) = Some (mk (nop nd) (map (memo h1) (nargs nd))).
Proof.
  intros v nd H. unfold clone_all. rewrite <- N_h1, Nat.add_comm, nth_at, nth_error_map, H. easy.
Qed.
Definition h3 := value_non_outputs h1 ms.
Lemma h3_nth : forall i, nth_error h3 i = option_map (fun nd => mk (nop nd) (map (suball L3) (nargs nd))) (nth_error (clone_all h1) i).
Proof. intros i. unfold h3, value_non_outputs. apply nth_replace_all. Qed.
Lemma h3_len : length h3 = N + N.
Proof. unfold h3, value_non_outputs. rewrite len_replace_all. unfold clone_all. rewrite app_length, map_length, N_h1. easy. Qed.
Lemma h3_orig : forall a nd, nth_error g0 a = Some nd -> nth_error h3 a = Some nd.
Proof.
  intros a nd H. assert (Ha : a < n0) by (apply nth_lt in H; exact H).
  destruct (measure_spec _ _ M) as (_ & _ & A & _).
  rewrite h3_nth, clone_low, A, H by (unfold N; lia). destruct nd as [o ps]. cbn. do 2 f_equal.
  apply map_fix. intros x I. apply s3_low. apply (WF a (mk o ps) H) in I. unfold N. lia.
Qed.
Lemma h3_args : forall a nd, nth_error g0 a = Some nd -> Forall2 rep (nargs nd) (map (suball L3) (map (memo h1) (nargs nd))).
Proof.
  intros a nd H. rewrite map_map. apply (F2_map_l _ _ rep (fun x => suball L3 (memo h1 x))). intros x I. apply rep3.
  apply (WF a nd H) in I. apply nth_lt in H. unfold n0. lia.
Qed.
Lemma h3_copy : forall a nd, nth_error g0 a = Some nd ->
  exists args, nth_error h3 (a + N) = Some (mk (nop nd) args) /\ Forall2 rep (nargs nd) args.
Proof.
  intros a nd H. assert (Ha : a < n0) by (apply nth_lt in H; exact H).
  destruct (measure_spec _ _ M) as (_ & _ & A & _).
  eexists. split; [|apply (h3_args a nd H)]. rewrite h3_nth, (clone_high a nd) by (rewrite A by auto; exact H). easy.
Qed.
Lemma h3_req : forall k rv val, nth_error rvs k = Some (rv, val) ->
  exists nd args, nth_error g0 rv = Some nd /\ is_in (nop nd) = false /\
    nth_error h3 (vid k) = Some (mk OVal [cid k; xid k]) /\
    nth_error h3 (vid k + N) = Some (mk OVal [cid k + N; xid k]) /\
    nth_error h3 (cid k + N) = Some (mk (nop nd) args) /\ Forall2 rep (nargs nd) args /\
    nth_error h3 (xid k) = Some (mk OIn []).
Proof.
  intros k rv val H. destruct (measure_spec _ _ M) as (LN & _ & A & P). destruct (P _ _ _ H) as (_ & nd & G & Ei & H1 & H2 & H3).
  destruct (key_lt _ _ _ H) as (Hr & Hv & Hk & I).
  assert (B : cid k < N /\ xid k < N /\ vid k < N) by (unfold cid, xid, vid, N; lia). destruct B as (B1 & B2 & B3).
  exists nd, (map (suball L3) (map (memo h1) (nargs nd))).
  split; [exact G|]. split; [exact Ei|].
  split; [rewrite h3_nth, clone_low, H3 by auto; cbn; rewrite !s3_low by auto; easy|].
  split.
  { rewrite h3_nth, (clone_high _ _ H3). cbn.
    assert (M1 : memo h1 (cid k) = cid k + N) by (unfold memo; rewrite H1, Ei, LN; easy).
    assert (M2 : memo h1 (xid k) = xid k) by (unfold memo; rewrite H2; easy).
    rewrite M1, M2, (s3_low (xid k)) by auto.
    rewrite s3_other; [easy|]. intros J. apply key_nth in J as (k' & val' & J). apply key_lt in J as (J & _). unfold cid in J. lia. }
  split; [rewrite h3_nth, (clone_high _ _ H1); easy|].
  split; [apply (h3_args rv nd G)|].
  rewrite h3_nth, clone_low, H2 by auto. easy.
Qed.
Lemma h3_clone : forall k rv val nd, nth_error rvs k = Some (rv, val) -> nth_error g0 rv = Some nd -> nth_error h3 (cid k) = Some nd.
Proof.
  intros k rv val nd H G'. destruct (measure_spec _ _ M) as (LN & _ & A & P). destruct (P _ _ _ H) as (_ & nd' & G & Ei & H1 & H2 & H3).
  rewrite G in G'. injection G' as ->. assert (K := nth_lt _ _ _ _ H).
  rewrite h3_nth, clone_low, H1 by (unfold cid, N; lia). destruct nd as [o ps]. cbn. do 2 f_equal.
  apply map_fix. intros x I. apply s3_low. apply (WF _ _ G) in I. apply nth_lt in G. unfold N, n0. lia.
Qed.
Lemma h3_vals : forall v r x, nth_error h3 v = Some (mk OVal [r; x]) -> exists k, k < length rvs /\ x = xid k /\ (v = vid k \/ v = vid k + N).
Proof.
  intros v r x H. destruct (measure_spec _ _ M) as (LN & _ & A & P).
  assert (Q : forall w nd, nth_error h1 w = Some nd -> nop nd = OVal -> exists k, k < length rvs /\ w = vid k).
  { intros w nd Hw Ho. assert (Hl := nth_lt _ _ _ _ Hw). rewrite LN in Hl.
    destruct (lt_dec w n0) as [Hn|Hn].
    - rewrite A in Hw by auto. destruct (WF _ _ Hw) as [W _]. rewrite Ho in W. easy.
    - assert (exists k, k < length rvs /\ (w = cid k \/ w = xid k \/ w = vid k)) as (k & Hk & E).
      { exists ((w - n0) / 3). unfold cid, xid, vid, N in *. pose proof (Nat.div_mod (w - n0) 3). pose proof (Nat.mod_upper_bound (w - n0) 3). lia. }
      destruct (nth_error rvs k) as [[rv val]|] eqn:Er; [|apply nth_error_None in Er; lia].
      destruct (P _ _ _ Er) as (_ & nd' & G & _ & H1 & H2 & H3). destruct E as [->|[->| ->]].
      + rewrite H1 in Hw. injection Hw as ->. destruct (WF _ _ G) as [W _]. rewrite Ho in W. easy.
      + rewrite H2 in Hw. injection Hw as <-. discriminate.
      + eauto. }
  rewrite h3_nth in H. destruct (nth_error (clone_all h1) v) as [nd|] eqn:E; [|discriminate]. cbn in H.
  assert (exists k, k < length rvs /\ (v = vid k \/ v = vid k + N)) as (k & Hk & Ev).
  { assert (Ho : nop nd = OVal) by congruence.
    destruct (lt_dec v N) as [Hv|Hv].
    - rewrite clone_low in E by auto. destruct (Q _ _ E Ho) as (k & Hk & ->). eauto.
    - assert (Hv' : v = (v - N) + N) by lia. rewrite Hv' in E.
      destruct (nth_error h1 (v - N)) as [nd'|] eqn:E'.
      + rewrite (clone_high _ _ E') in E. injection E as <-. cbn in Ho. destruct (Q _ _ E' Ho) as (k & Hk & K). exists k. split; [auto|]. right. lia.
      + apply nth_error_None in E'. apply nth_lt in E. unfold clone_all in E. rewrite app_length, map_length in E. lia. }
  exists k. destruct (nth_error rvs k) as [[rv val]|] eqn:Er; [|apply nth_error_None in Er; lia].
  destruct (h3_req _ _ _ Er) as (nd' & args & _ & _ & V1 & V2 & _). rewrite <- h3_nth in H || idtac.
  assert (H' : nth_error h3 v = Some (mk OVal [r; x])) by (rewrite h3_nth, E; exact H).
  split; [auto|]. destruct Ev as [-> | ->].
  - rewrite V1 in H'. injection H' as _ <-. auto.
  - rewrite V2 in H'. injection H' as _ <-. auto.
Qed.
End S3.

(** ** The state of each requested variable during TransformValuesRewrite *)
Definition untr (s : gstate) (k rv val : nat) : Prop := exists nd args r,
  nth_error g0 rv = Some nd /\ is_in (nop nd) = false /\
  nth_error (g_heap s) (vid k) = Some (mk OVal [r; xid k]) /\
  nth_error (g_outs s) k = Some (vid k + N) /\
  nth_error (g_heap s) (vid k + N) = Some (mk OVal [cid k + N; xid k]) /\
  nth_error (g_heap s) (cid k + N) = Some (mk (nop nd) args) /\ Forall2 rep (nargs nd) args /\
  nth_error (g_heap s) (xid k) = Some (mk OIn []) /\
  nth_error (g_vals s) k = Some (xid k, val).
Definition trd (s : gstate) (k rv tr : nat) : Prop := exists rng dist ps args r b,
  nth_error g0 rv = Some (mk (ORv rng dist) ps) /\
  nth_error (g_heap s) (vid k) = Some (mk OVal [r; b + 3]) /\
  nth_error (g_outs s) k = Some (b + 4) /\
  nth_error (g_heap s) (b + 4) = Some (mk OVal [b + 1; b + 3]) /\
  nth_error (g_heap s) (b + 3) = Some (mk OTransd [b + 2; b]) /\
  nth_error (g_heap s) (b + 2) = Some (mk (OBack tr) (b :: args)) /\
  nth_error (g_heap s) (b + 1) = Some (mk (OTrv tr rng dist) args) /\
  nth_error (g_heap s) b = Some (mk OIn []) /\ Forall2 rep ps args /\
  nth_error (g_vals s) k = Some (xid k, b) /\ N + N <= b /\
  (forall v nd, nth_error (g_heap s) v = Some nd -> ~ In (xid k) (nargs nd)).
Record inv (T : list (nat * nat)) (s : gstate) : Prop := {
  i_len : N + N <= length (g_heap s);
  i_orig : forall a nd, nth_error g0 a = Some nd -> nth_error (g_heap s) a = Some nd;
  i_copy : forall a nd, nth_error g0 a = Some nd -> exists args, nth_error (g_heap s) (a + N) = Some (mk (nop nd) args) /\ Forall2 rep (nargs nd) args;
  i_ov : forall v r k, nth_error (g_heap s) v = Some (mk OVal [r; xid k]) -> k < length rvs -> v = vid k \/ v = vid k + N;
  i_lenv : length (g_vals s) = length rvs;
  i_leno : length (g_outs s) = length rvs;
  i_keys : forall j p, nth_error (g_vals s) j = Some p -> fst p = xid j;
  i_req : forall k rv val, nth_error rvs k = Some (rv, val) ->
            untr s k rv val \/ exists tr, dget T (xid k) = Some tr /\ trd s k rv tr }.

Lemma dset_nth : forall (d : list (nat * nat)) k x y b, NoDup (map fst d) -> nth_error d k = Some (x, y) ->
  nth_error (dset d x b) k = Some (x, b) /\ (forall j, j <> k -> nth_error (dset d x b) j = nth_error d j) /\ length (dset d x b) = length d.
Proof.
  induction d as [|[k0 y0] d IH]; intros [|k] x y b H E; cbn in *; try discriminate.
  - injection E as -> ->. rewrite Nat.eqb_refl. split; [easy|]. split; [|easy]. intros [|j] J; easy.
  - inversion H as [|? ? N1 N2]; subst. destruct (x =? k0) eqn:Q.
    + apply Nat.eqb_eq in Q as ->. apply nth_error_In in E. apply (in_map fst) in E. easy.
    + destruct (IH k x y b N2 E) as (I1 & I2 & I3). split; [easy|]. split; [|cbn; congruence].
      intros [|j] J; cbn; [easy|]. apply I2. lia.
Qed.
Lemma keys_nodup : forall T s, inv T s -> NoDup (map fst (g_vals s)).
Proof.
  intros T s I. apply NoDup_nth_error. intros i j Hi E. rewrite map_length in Hi. rewrite !nth_error_map in E.
  destruct (nth_error (g_vals s) i) as [p|] eqn:Ei; [|apply nth_error_None in Ei; lia].
  destruct (nth_error (g_vals s) j) as [q|] eqn:Ej; [|discriminate]. cbn in E. injection E as E.
  rewrite (i_keys _ _ I _ _ Ei), (i_keys _ _ I _ _ Ej) in E. unfold xid in E. lia.
Qed.

Section Step.
Context (T : list (nat * nat)).
Hypothesis TK : forall x tr, dget T x = Some tr -> exists k, k < length rvs /\ x = xid k.

(** one visit: either nothing happens, or the output of a not yet transformed variable is transformed *)
Lemma step_inv : forall s v, inv T s -> (forall k, k < length rvs -> v = vid k -> dget T (xid k) <> None -> exists rv tr, trd s k rv tr) ->
  inv T (transform_values T s v) /\
  (forall k rv val tr, nth_error rvs k = Some (rv, val) -> trd s k rv tr -> trd (transform_values T s v) k rv tr) /\
  (forall k rv val tr rng dist ps, nth_error rvs k = Some (rv, val) -> dget T (xid k) = Some tr -> v = vid k + N ->
     nth_error g0 rv = Some (mk (ORv rng dist) ps) -> exists tr', trd (transform_values T s v) k rv tr').
Proof.
  intros s v I G.
  assert (Triv : (forall k rv val tr rng dist ps, nth_error rvs k = Some (rv, val) -> dget T (xid k) = Some tr -> v = vid k + N ->
     nth_error g0 rv = Some (mk (ORv rng dist) ps) -> exists tr', trd s k rv tr') ->
     inv T s /\ (forall k rv val tr, nth_error rvs k = Some (rv, val) -> trd s k rv tr -> trd s k rv tr) /\
  (forall k rv val tr rng dist ps, nth_error rvs k = Some (rv, val) -> dget T (xid k) = Some tr -> v = vid k + N ->
     nth_error g0 rv = Some (mk (ORv rng dist) ps) -> exists tr', trd s k rv tr')) by (intros; auto).
  (* what is at v when it is an output *)
  assert (At : forall k rv val, nth_error rvs k = Some (rv, val) -> v = vid k + N -> untr s k rv val \/ exists tr, trd s k rv tr).
  { intros k rv val E Ev. destruct (i_req _ _ I _ _ _ E) as [U|(tr & _ & U)]; eauto. }
  unfold transform_values.
  destruct (nth_error (g_heap s) v) as [[o ps]|] eqn:Ev.
  2:{ apply Triv. intros k rv val tr rng dist ps E D Hv Hg. destruct (At _ _ _ E Hv) as [(nd & args & r & _ & _ & _ & _ & U & _)|U]; [|exact U]. subst v. congruence. }
  assert (NotVal : (forall r x, mk o ps <> mk OVal [r; x]) -> forall k rv val tr rng dist ps, nth_error rvs k = Some (rv, val) -> dget T (xid k) = Some tr -> v = vid k + N ->
     nth_error g0 rv = Some (mk (ORv rng dist) ps) -> exists tr', trd s k rv tr').
  { intros Q k rv val tr rng dist qs E D Hv Hg. destruct (At _ _ _ E Hv) as [(nd & args & r & _ & _ & _ & _ & U & _)|U]; [|exact U].
    subst v. rewrite Ev in U. injection U as -> ->. destruct (Q _ _ eq_refl). }
  destruct o; try (apply Triv, NotVal; intros; discriminate).
  destruct ps as [|r [|x [|? ?]]]; try (apply Triv, NotVal; intros; discriminate).
  destruct (dget T x) as [tr|] eqn:D.
  2:{ apply Triv. intros k rv val tr rng dist ps E Dk Hv Hg. destruct (At _ _ _ E Hv) as [(nd & args & r' & _ & _ & _ & _ & U & _)|U]; [|exact U].
      subst v. rewrite Ev in U. injection U as -> ->. congruence. }
  destruct (TK _ _ D) as (k & Hk & ->).
  destruct (nth_error rvs k) as [[rv val]|] eqn:Er; [|apply nth_error_None in Er; lia].
  (* v is an output of a variable not yet transformed *)
  assert (Hv : v = vid k + N /\ untr s k rv val).
  { assert (U : untr s k rv val).
    { destruct (i_req _ _ I _ _ _ Er) as [U|(tr' & _ & U)]; [exact U|].
      destruct U as (? & ? & ? & ? & ? & ? & _ & _ & _ & _ & _ & _ & _ & _ & _ & _ & _ & NX).
      destruct (NX _ _ Ev). cbn. auto. }
    split; [|exact U]. destruct (i_ov _ _ I _ _ _ Ev Hk) as [Q|Q]; [|exact Q].
    destruct (G k Hk Q) as (rv' & tr' & X); [congruence|].
    destruct X as (? & ? & ? & ? & ? & ? & _ & _ & _ & _ & _ & _ & _ & _ & _ & _ & _ & NX).
    destruct (NX _ _ Ev). cbn. auto. }
  destruct Hv as (-> & U).
  assert (U' := U). destruct U' as (nd & args & r0 & U1 & U2 & U3 & U4 & U5 & U6 & U7 & U8 & U9).
  rewrite U5 in Ev. injection Ev as <-. rewrite U6.
  destruct nd as [od ps]. cbn [nop nargs] in *.
  destruct od as [|rng dist|f| | | |];
    try (apply Triv; intros k' rv' val' tr' rng' dist' ps' E' D' Hv' Hg'; assert (k' = k) as -> by (unfold vid in Hv'; lia);
         rewrite Er in E'; injection E' as <- <-; rewrite U1 in Hg'; discriminate).
  clear Triv At NotVal G. cbv zeta.
  set (b := length (g_heap s)). set (x := xid k). set (v := vid k + N).
  set (five := [mk OIn []; mk (OTrv tr rng dist) args; mk (OBack tr) (b :: args); mk OTransd [b + 2; b]; mk OVal [b + 1; b + 3]]).
  set (sg := fun u => sub1 v (b + 4) (sub1 x (b + 3) u)).
  set (s' := {| g_heap := _; g_outs := _; g_vals := _ |}).
  assert (HN : length (g_heap s) = b) by easy. assert (Hb := i_len _ _ I). rewrite HN in Hb.
  assert (Hx : x < N) by (unfold x, xid, N; lia). assert (Hv2 : N <= v < N + N) by (unfold v, vid, N; lia).
  assert (Nth : forall i, nth_error (g_heap s') i = option_map (fun nd => mk (nop nd) (map sg (nargs nd))) (nth_error (g_heap s ++ five) i)).
  { intros i. cbn [s' g_heap]. rewrite !nth_replace. unfold five. destruct (nth_error _ i) as [nd|]; cbn; [|easy]. rewrite map_map. easy. }
  assert (Old : forall i nd, nth_error (g_heap s) i = Some nd -> nth_error (g_heap s') i = Some (mk (nop nd) (map sg (nargs nd)))).
  { intros i nd H. rewrite Nth, nth_error_app1 by (apply nth_lt in H; exact H). rewrite H. easy. }
  assert (New : forall i, nth_error (g_heap s') (b + i) = option_map (fun nd => mk (nop nd) (map sg (nargs nd))) (nth_error five i)).
  { intros i. rewrite Nth. unfold b at 1. rewrite nth_at. easy. }
  assert (Sfix : forall u, u <> x -> u <> v -> sg u = u).
  { intros u A B. unfold sg. rewrite (sub1_other x) by auto. apply sub1_other, B. }
  assert (Sx : sg (xid k) = b + 3). { unfold sg. fold x. rewrite sub1_same. apply sub1_other. lia. }
  assert (Srep : forall a u, rep a u -> sg u = u).
  { intros a u R. apply rep_bounds in R as (_ & R). apply Sfix; unfold x, v, xid, vid, N in *;
      destruct R as [(j & Hj & ->)|[R|R]]; unfold vid in *; lia. }
  assert (Frep : forall l m, Forall2 rep l m -> Forall2 rep l (map sg m)).
  { intros l m F. apply F2_map_r. eapply F2_impl; [|exact F]. intros a u _ R. cbn. rewrite (Srep _ _ R). exact R. }
  assert (Fid : forall l m, Forall2 rep l m -> map sg m = m).
  { intros l m F. apply map_fix. intros u Hu. destruct (F2_in_r _ _ _ _ _ _ F Hu) as (a & _ & R). apply (Srep _ _ R). }
  assert (Sbig : forall u, N + N <= u -> sg u = u). { intros u Hu. apply Sfix; lia. }
  assert (ND := keys_nodup _ _ I). destruct (dset_nth _ _ _ _ b ND U9) as (D1 & D2 & D3). fold x in D1, D2, D3.
  assert (Sout : forall j, nth_error (g_outs s') j = option_map (sub1 v (b + 4)) (nth_error (g_outs s) j)).
  { intros j. cbn [s' g_outs]. apply nth_error_map. }
  (* no node uses x any more *)
  assert (NXk : forall i nd, nth_error (g_heap s') i = Some nd -> ~ In x (nargs nd)).
  { intros i nd H. rewrite Nth in H. destruct (nth_error (g_heap s ++ five) i) as [nd0|]; [|discriminate]. cbn in H. injection H as <-.
    cbn. intros J. apply in_map_iff in J as (y & E & _). unfold sg in E.
    destruct (Nat.eq_dec y x) as [->|Q]; [rewrite sub1_same, sub1_other in E; lia|].
    rewrite (sub1_other x) in E by auto. unfold sub1 in E. destruct (y =? v); lia. }
  assert (TRk : trd s' k rv tr).
  { exists rng, dist, ps, args, (sg r0), b. split; [exact U1|].
    split; [rewrite (Old _ _ U3); cbn; rewrite Sx; easy|].
    split; [rewrite Sout, U4; cbn; unfold v; rewrite sub1_same; easy|].
    split; [rewrite New; cbn; rewrite !Sbig by lia; easy|].
    split; [rewrite New; cbn; rewrite !Sbig by lia; easy|].
    split; [rewrite New; cbn; rewrite Sbig, (Fid _ _ U7) by lia; easy|].
    split; [rewrite New; cbn; rewrite (Fid _ _ U7); easy|].
    split; [rewrite <- (Nat.add_0_r b), New; easy|].
    split; [exact U7|]. split; [exact D1|]. split; [exact Hb|exact NXk]. }
  assert (Keep : forall j rvj trj valj, nth_error rvs j = Some (rvj, valj) -> trd s j rvj trj -> trd s' j rvj trj).
  { intros j rvj trj valj Ej (rng' & dist' & ps' & args' & r' & b' & T1 & T2 & T3 & T4 & T5 & T6 & T7 & T8 & T9 & T10 & T11 & T12).
    exists rng', dist', ps', args', (sg r'), b'. split; [exact T1|].
    split; [rewrite (Old _ _ T2); cbn; rewrite (Sbig (b' + 3)) by lia; easy|].
    split; [rewrite Sout, T3; cbn; rewrite sub1_other by lia; easy|].
    split; [rewrite (Old _ _ T4); cbn; rewrite !Sbig by lia; easy|].
    split; [rewrite (Old _ _ T5); cbn; rewrite !Sbig by lia; easy|].
    split; [rewrite (Old _ _ T6); cbn; rewrite Sbig, (Fid _ _ T9) by lia; easy|].
    split; [rewrite (Old _ _ T7); cbn; rewrite (Fid _ _ T9); easy|].
    split; [rewrite (Old _ _ T8); easy|]. split; [exact T9|].
    assert (jk : j <> k). { intros ->. destruct (T12 _ _ U5). cbn. auto. }
    split; [cbn [s' g_vals]; rewrite D2; auto|]. split; [exact T11|].
    intros i nd H. rewrite Nth in H. destruct (nth_error (g_heap s ++ five) i) as [nd0|] eqn:E0; [|discriminate]. cbn in H. injection H as <-.
    cbn. intros J. apply in_map_iff in J as (y & E & J).
    assert (xj : xid j < N). { destruct (key_lt _ _ _ Ej) as (_ & _ & Hj & _). unfold xid, N. lia. }
    assert (y = xid j) as ->.
    { unfold sg in E. destruct (Nat.eq_dec y x) as [->|Q]; [rewrite sub1_same, sub1_other in E; lia|].
      rewrite (sub1_other x) in E by auto. unfold sub1 in E. destruct (y =? v); lia. }
    destruct (lt_dec i b) as [Hi|Hi].
    - rewrite nth_error_app1 in E0 by lia. apply (T12 _ _ E0 J).
    - rewrite nth_error_app2 in E0 by lia. fold b in E0.
      assert (NA : ~ In (xid j) args) by (apply (T12 _ _ U6)).
      destruct (i - b) as [|[|[|[|[|q]]]]]; cbn in E0; try (injection E0 as <-; cbn in J; intuition lia).
      destruct q; discriminate. }
  split; [|split].
  - constructor.
    + cbn [s' g_heap]. rewrite !len_replace, app_length. lia.
    + intros a nd H. rewrite (Old _ _ (i_orig _ _ I _ _ H)). destruct nd as [o qs]. cbn. do 2 f_equal. apply map_fix.
      intros y J. apply (WF _ _ H) in J. apply nth_lt in H. fold n0 in H. apply Sfix; unfold x, v, xid, vid, N; lia.
    + intros a nd H. destruct (i_copy _ _ I _ _ H) as (qs & Q & F). exists (map sg qs). split; [apply (Old _ _ Q)|apply Frep, F].
    + intros u r' j H Hj. rewrite Nth in H. destruct (nth_error (g_heap s ++ five) u) as [[o0 q0]|] eqn:E0; [|discriminate].
      cbn in H. injection H as -> E. destruct q0 as [|r1 [|x1 [|? ?]]]; try discriminate. cbn in E. injection E as _ E.
      assert (xj : xid j < N) by (unfold xid, N; lia).
      assert (x1 = xid j) as ->.
      { unfold sg in E. destruct (Nat.eq_dec x1 x) as [->|Q]; [rewrite sub1_same, sub1_other in E; lia|].
        rewrite (sub1_other x) in E by auto. unfold sub1 in E. destruct (x1 =? v); lia. }
      destruct (lt_dec u b) as [Hi|Hi].
      * rewrite nth_error_app1 in E0 by lia. apply (i_ov _ _ I _ _ _ E0 Hj).
      * rewrite nth_error_app2 in E0 by lia. fold b in E0.
        destruct (u - b) as [|[|[|[|[|q]]]]]; cbn in E0; try discriminate; [injection E0 as _ E0; lia|destruct q; discriminate].
    + cbn [s' g_vals]. rewrite D3. apply (i_lenv _ _ I).
    + cbn [s' g_outs]. rewrite map_length. apply (i_leno _ _ I).
    + intros j p H. cbn [s' g_vals] in H. destruct (Nat.eq_dec j k) as [->|Q].
      * rewrite D1 in H. injection H as <-. easy.
      * rewrite D2 in H by auto. apply (i_keys _ _ I _ _ H).
    + intros j rvj valj Ej. destruct (Nat.eq_dec j k) as [->|jk].
      { rewrite Er in Ej. injection Ej as <- <-. right. exists tr. auto. }
      destruct (i_req _ _ I _ _ _ Ej) as [Uj|(trj & Dj & Tj)]; [|right; exists trj; split; [auto|eapply Keep; eauto]].
      left. destruct Uj as (nd' & args' & r' & V1 & V2 & V3 & V4 & V5 & V6 & V7 & V8 & V9).
      destruct (key_lt _ _ _ Ej) as (_ & _ & Hj & _).
      assert (Sxj : sg (xid j) = xid j) by (apply Sfix; unfold x, v, xid, vid, N in *; lia).
      exists nd', args', (sg r'). split; [exact V1|]. split; [exact V2|].
      split; [rewrite (Old _ _ V3); cbn; rewrite Sxj; easy|].
      split; [rewrite Sout, V4; cbn; rewrite sub1_other by (unfold v, vid; lia); easy|].
      assert (Scj : sg (cid j + N) = cid j + N).
      { apply Sfix; unfold x, v, xid, vid, cid; [unfold N; lia|lia]. }
      split; [rewrite (Old _ _ V5); cbn; rewrite Sxj, Scj; easy|].
      split; [rewrite (Old _ _ V6); cbn; rewrite (Fid _ _ V7); easy|]. split; [exact V7|].
      split; [rewrite (Old _ _ V8); easy|]. cbn [s' g_vals]. rewrite D2 by auto. exact V9.
  - intros j rvj valj trj Ej Tj. eapply Keep; eauto.
  - intros j rvj valj trj rng' dist' ps' Ej Dj Hvj Hg. assert (j = k) as -> by (unfold v, vid in Hvj; lia).
    rewrite Er in Ej. injection Ej as <- <-. eauto.
Qed.
End Step.

(** ** The start of the pass *)
Section Pass.
Context (h1 : heap) (ms : list measured) (trs T : list (nat * nat)).
Hypothesis M : measure g0 rvs = Ok (h1, ms).
Hypothesis VT : values_to_transforms ms trs = Ok T.

Lemma ms_dget : forall rv v, dget (map (fun m => (m_rv m, m_vclone m)) ms) rv = Some v -> exists k val, nth_error rvs k = Some (rv, val) /\ v = xid k.
Proof.
  intros rv v H. apply dget_in in H. apply in_map_iff in H as (m & E & I). apply In_nth_error in I as [k I].
  destruct (ms_nth _ _ M _ _ I) as (rv' & val & Ek & ->). cbn in E. injection E as <- <-. eauto.
Qed.
Lemma T_get : forall k rv val, nth_error rvs k = Some (rv, val) -> dget T (xid k) = dget trs rv.
Proof.
  intros k rv val E. revert T VT. induction trs as [|[rv' tr] l IH]; intros T VT; cbn in VT.
  - injection VT as <-. easy.
  - destruct (dget _ rv') as [v|] eqn:D; [|discriminate]. destruct (values_to_transforms ms l) as [T'|]; [|discriminate].
    injection VT as <-. cbn. destruct (ms_dget _ _ D) as (k' & val' & E' & ->).
    rewrite (IH T' eq_refl). destruct (rv =? rv') eqn:Q.
    + apply Nat.eqb_eq in Q as ->. rewrite (key_inj _ _ _ _ _ E E'), Nat.eqb_refl. easy.
    + destruct (xid k =? xid k') eqn:Q2; [|easy]. apply Nat.eqb_eq in Q2. assert (k = k') as -> by (unfold xid in Q2; lia).
      rewrite E in E'. injection E' as -> _. rewrite Nat.eqb_refl in Q. discriminate.
Qed.
Lemma T_keys : forall x tr, dget T x = Some tr -> exists k, k < length rvs /\ x = xid k.
Proof.
  intros x tr D. revert T VT D. induction trs as [|[rv' tr'] l IH]; intros T VT D; cbn in VT.
  - injection VT as <-. discriminate.
  - destruct (dget _ rv') as [v|] eqn:G; [|discriminate]. destruct (values_to_transforms ms l) as [T'|]; [|discriminate].
    injection VT as <-. cbn in D. destruct (x =? v) eqn:Q; [|eauto].
    apply Nat.eqb_eq in Q as ->. destruct (ms_dget _ _ G) as (k & val & E & ->). apply nth_lt in E. eauto.
Qed.
Definition s3 : gstate := {| g_heap := value_non_outputs h1 ms; g_outs := map (fun m => memo h1 (m_out m)) ms;
                             g_vals := map (fun m => (m_vclone m, m_val m)) ms |}.
Lemma s3_outs : forall k rv val, nth_error rvs k = Some (rv, val) -> nth_error (g_outs s3) k = Some (vid k + N).
Proof.
  intros k rv val E. destruct (measure_spec _ _ M) as (LN & _ & _ & P). destruct (P _ _ _ E) as (Q & nd & _ & _ & _ & _ & V).
  cbn. rewrite nth_error_map, Q. cbn. unfold memo. rewrite V, LN. easy.
Qed.
Lemma s3_inv : inv T s3.
Proof.
  destruct (measure_spec _ _ M) as (LN & LM & A & P). constructor.
  - cbn [s3 g_heap]. fold (h3 h1 ms). rewrite h3_len; auto.
  - intros a nd H. apply (h3_orig _ _ M _ _ H).
  - intros a nd H. apply (h3_copy _ _ M _ _ H).
  - intros v r k H Hk. destruct (h3_vals _ _ M _ _ _ H) as (k' & Hk' & Ex & Ev). assert (k' = k) as -> by (unfold xid in Ex; lia). exact Ev.
  - cbn. rewrite map_length. exact LM.
  - cbn. rewrite map_length. exact LM.
  - intros j p H. cbn in H. rewrite nth_error_map in H. destruct (nth_error ms j) as [m|] eqn:E; [|discriminate].
    destruct (ms_nth _ _ M _ _ E) as (rv & val & _ & ->). cbn in H. injection H as <-. easy.
  - intros k rv val E. left. destruct (h3_req _ _ M _ _ _ E) as (nd & args & H1 & H2 & H3 & H4 & H5 & H6 & H7).
    exists nd, args, (cid k). split; [exact H1|]. split; [exact H2|]. split; [exact H3|]. split; [apply (s3_outs _ _ _ E)|].
    split; [exact H4|]. split; [exact H5|]. split; [exact H6|]. split; [exact H7|].
    cbn. rewrite nth_error_map. destruct (P _ _ _ E) as (-> & _). easy.
Qed.

(** a visiting order in which the output of every transformed variable comes before its other ValuedVariable *)
Definition good_order (ord : list nat) : Prop :=
  forall k rv val, nth_error rvs k = Some (rv, val) -> dget trs rv <> None ->
    In (vid k + N) ord /\ forall l1 l2, ord = l1 ++ vid k :: l2 -> In (vid k + N) l1.
Hypothesis TRV : forall k rv val, nth_error rvs k = Some (rv, val) -> dget trs rv <> None ->
  exists rng dist ps, nth_error g0 rv = Some (mk (ORv rng dist) ps).

Lemma pass_inv : forall ord, good_order ord -> let s := fold_left (transform_values T) ord s3 in
  inv T s /\ forall k rv val tr, nth_error rvs k = Some (rv, val) -> dget trs rv = Some tr -> trd s k rv tr.
Proof.
  intros ord GO.
  assert (P : forall l1 l2, ord = l1 ++ l2 -> let s := fold_left (transform_values T) l1 s3 in
     inv T s /\ forall k rv val, nth_error rvs k = Some (rv, val) -> dget trs rv <> None -> In (vid k + N) l1 -> exists tr, trd s k rv tr).
  { induction l1 as [|v l1 IH] using rev_ind; intros l2 E; cbn.
    - split; [exact s3_inv|]. intros k rv val _ _ [].
    - rewrite <- app_assoc in E. cbn in E. destruct (IH _ E) as (I & J). rewrite fold_left_app. cbn.
      set (s := fold_left (transform_values T) l1 s3) in *.
      destruct (step_inv T T_keys s v I) as (I1 & I2 & I3).
      + intros k Hk -> D. destruct (nth_error rvs k) as [[rv val]|] eqn:Er; [|apply nth_error_None in Er; lia].
        rewrite (T_get _ _ _ Er) in D. exists rv. apply (J k rv val Er D). apply (GO _ _ _ Er D) with (l2 := l2). exact E.
      + split; [exact I1|]. intros k rv val Er D Q. apply in_app_iff in Q as [Q|[->|[]]].
        * destruct (J _ _ _ Er D Q) as (tr & X). exists tr. eapply I2; eauto.
        * destruct (TRV _ _ _ Er D) as (rng & dist & ps & Hg). destruct (dget trs rv) as [tr|] eqn:Dt; [|congruence].
          eapply I3; eauto. rewrite (T_get _ _ _ Er). exact Dt. }
  destruct (P ord []) as (I & J); [rewrite app_nil_r; easy|]. split; [exact I|].
  intros k rv val tr Er D. destruct (J k rv val Er) as (tr' & X); [congruence|apply (GO _ _ _ Er); congruence|].
  destruct (i_req _ _ I _ _ _ Er) as [U|(tr2 & D2 & X2)].
  - exfalso. destruct U as (? & ? & ? & _ & _ & U & _).
    destruct X as (? & ? & ? & ? & ? & ? & _ & _ & _ & _ & _ & _ & _ & _ & _ & _ & _ & NX). apply (NX _ _ U). cbn. auto.
  - rewrite (T_get _ _ _ Er), D in D2. injection D2 as <-. exact X2.
Qed.

(** ** The traversal visits outputs first when transformed variables are requested first *)
Lemma reach_low : forall u w, u < n0 -> depends (h3 h1 ms) u w -> w < n0.
Proof.
  intros u w H D. induction D as [u|u nd a w E I D IH]; [exact H|]. apply IH.
  destruct (nth_error g0 u) as [nd'|] eqn:G; [|apply nth_error_None in G; unfold n0 in H; lia].
  rewrite (h3_orig _ _ M _ _ G) in E. injection E as ->. apply (WF _ _ G) in I. lia.
Qed.
Lemma reach_vid : forall k' w, k' < length rvs -> depends (h3 h1 ms) (vid k') w -> forall k, w = vid k -> k = k'.
Proof.
  intros k' w Hk D k ->. destruct (nth_error rvs k') as [[rv val]|] eqn:Er; [|apply nth_error_None in Er; lia].
  destruct (h3_req _ _ M _ _ _ Er) as (nd & args & G & _ & V & _ & _ & _ & X).
  assert (K := h3_clone _ _ M _ _ _ _ Er G).
  inversion D as [u E1 E2|u nd' a w E I D' E1 E2]; subst; [unfold vid in *; lia|].
  rewrite V in E. injection E as <-. cbn in I. exfalso. destruct I as [<-|[<-|[]]].
  - inversion D' as [u E1 E2|u nd' a w E I D'' E1 E2]; subst; [unfold vid, cid in *; lia|].
    rewrite K in E. injection E as <-. apply (WF _ _ G) in I. apply nth_lt in G. apply reach_low in D''; unfold vid, n0 in *; lia.
  - inversion D' as [u E1 E2|u nd' a w E I D'' E1 E2]; subst; [unfold vid, xid in *; lia|].
    rewrite X in E. injection E as <-. destruct I.
Qed.
Lemma reach_rep : forall a u, rep a u -> forall k rv val, nth_error rvs k = Some (rv, val) -> depends (h3 h1 ms) u (vid k) -> depends g0 a rv.
Proof.
  induction a as [a IH] using lt_wf_ind. intros u R k rv val Er D.
  destruct R as [k' rv' val' Er'|a nd Q G Gi|a nd Q G Gi].
  - apply nth_lt in Er' as K. pose proof (reach_vid _ _ K D k eq_refl) as <-. rewrite Er in Er'. injection Er' as <- <-. constructor.
  - exfalso. assert (Ha : a < n0) by (apply nth_lt in G; exact G). apply reach_low in D; unfold vid in *; lia.
  - destruct (h3_copy _ _ M _ _ G) as (args & E & F). inversion D as [u E1 E2|u nd' b w E' I D' E1 E2]; subst.
    + exfalso. apply nth_lt in Er. unfold vid, N in *. lia.
    + rewrite E in E'. injection E' as <-. cbn in I. destruct (F2_in_r _ _ _ _ _ _ F I) as (p & J & Rp).
      eapply dep_step; [exact G|exact J|]. eapply IH; eauto. apply (WF _ _ G), J.
Qed.
Lemma dep_le : forall a b, depends g0 a b -> b <= a.
Proof. intros a b D. induction D as [|u nd a v E I D IH]; [lia|]. apply (WF _ _ E) in I. lia. Qed.
Lemma reach_out : forall j rvj valj k rv val, nth_error rvs j = Some (rvj, valj) -> nth_error rvs k = Some (rv, val) ->
  depends (h3 h1 ms) (vid j + N) (vid k) -> depends g0 rvj rv /\ rvj <> rv.
Proof.
  intros j rvj valj k rv val Ej Ek D. destruct (h3_req _ _ M _ _ _ Ej) as (nd & args & G & _ & _ & V & C & F & X).
  apply nth_lt in Ej as Kj. apply nth_lt in Ek as Kk.
  inversion D as [u E1 E2|u nd' a w E I D' E1 E2]; subst; [unfold vid, N in *; lia|].
  rewrite V in E. injection E as <-. cbn in I. destruct I as [<-|[<-|[]]].
  - inversion D' as [u E1 E2|u nd' a w E I D'' E1 E2]; subst; [unfold vid, cid, N in *; lia|].
    rewrite C in E. injection E as <-. cbn in I. destruct (F2_in_r _ _ _ _ _ _ F I) as (p & J & Rp).
    assert (Dp := reach_rep _ _ Rp _ _ _ Ek D''). split; [eapply dep_step; eauto|].
    apply dep_le in Dp. apply (WF _ _ G) in J. lia.
  - inversion D' as [u E1 E2|u nd' a w E I D'' E1 E2]; subst; [unfold vid, xid in *; lia|].
    rewrite X in E. injection E as <-. destruct I.
Qed.
Hypothesis FIRST : forall j k rvj valj rv val, nth_error rvs j = Some (rvj, valj) -> nth_error rvs k = Some (rv, val) ->
  dget trs rv <> None -> rv <> rvj -> depends g0 rvj rv -> k < j.
Lemma app_split : forall A (D l l1 l2 : list A) x, D ++ l = l1 ++ x :: l2 ->
  (exists l2', D = l1 ++ x :: l2') \/ (exists m, l1 = D ++ m /\ In x l).
Proof.
  induction D as [|d D IH]; intros l l1 l2 x E; cbn in E.
  - right. exists l1. split; [easy|]. subst. apply in_or_app. cbn. auto.
  - destruct l1 as [|y l1]; cbn in E; injection E as <- E.
    + left. exists D. easy.
    + destruct (IH _ _ _ _ E) as [(l2' & ->)|(m & -> & I)]; [left; exists l2'; easy|right; exists m; split; [easy|exact I]].
Qed.
Lemma toposort_good : good_order (toposort (g_heap s3) (g_outs s3)).
Proof.
  unfold toposort. set (F := dfs _ _). cbn [s3 g_heap g_outs] in F.
  assert (O : forall k v, nth_error (g_outs s3) k = Some v -> v = vid k + N /\ exists rv val, nth_error rvs k = Some (rv, val)).
  { intros k v E. destruct (nth_error rvs k) as [[rv val]|] eqn:Er.
    - rewrite (s3_outs _ _ _ Er) in E. injection E as <-. eauto.
    - apply nth_error_None in Er. apply nth_lt in E. rewrite (i_leno _ _ s3_inv) in E. lia. }
  assert (P : forall l l', g_outs s3 = l ++ l' ->
     (forall k v, nth_error l k = Some v -> In v (fold_left F l [])) /\
     (forall k rv val, nth_error rvs k = Some (rv, val) -> dget trs rv <> None ->
        forall l1 l2, fold_left F l [] = l1 ++ vid k :: l2 -> In (vid k + N) l1)).
  { induction l as [|o l IH] using rev_ind; intros l' E.
    - split; [intros [|k] v Q; discriminate|]. intros k rv val _ _ [|a l1] l2 Q; discriminate.
    - rewrite <- app_assoc in E. cbn [app] in E. destruct (IH _ E) as (I1 & I2). rewrite !fold_left_app. cbn [fold_left].
      set (D := fold_left F l []) in *. destruct (dfs_adds (S (length (value_non_outputs h1 ms))) (value_non_outputs h1 ms) D o) as (m & Em & Q).
      fold F in Em. assert (Eo : nth_error (g_outs s3) (length l) = Some o) by (rewrite E, nth_at0; easy).
      destruct (O _ _ Eo) as (-> & rvj & valj & Ej).
      split.
      + intros k v Hk. destruct (Nat.eq_dec k (length l)) as [->|Hne].
        * rewrite nth_at0 in Hk. injection Hk as <-. destruct (h3_req _ _ M _ _ _ Ej) as (nd & args & _ & _ & _ & V & _).
          unfold F. eapply dfs_self; [exact V|easy].
        * rewrite Em. apply in_or_app. left. apply (I1 k). rewrite nth_error_app1 in Hk; [exact Hk|].
          apply nth_lt in Hk. rewrite app_length in Hk. cbn in Hk. lia.
      + intros k rv val Er D1 l1 l2 Es. rewrite Em in Es. destruct (app_split _ _ _ _ _ _ Es) as [(l2' & El)|(m' & -> & Im)].
        * eapply I2; eauto.
        * apply Q in Im. destruct (reach_out _ _ _ _ _ _ Ej Er Im) as (Dp & Ne).
          assert (Lt : k < length l) by (eapply FIRST; eauto).
          apply in_or_app. left. apply (I1 k). rewrite <- (nth_error_app1 l ((vid (length l) + N) :: l')) by auto.
          rewrite <- E. apply (s3_outs _ _ _ Er). }
  destruct (P (g_outs s3) []) as (P1 & P2); [rewrite app_nil_r; easy|].
  intros k rv val Er D. split; [apply (P1 k), (s3_outs _ _ _ Er)|]. intros l1 l2. apply (P2 k rv val Er D).
Qed.

(** ** The end of construct_ir_fgraph *)
Section End6.
Context (ord : list nat) (GO : good_order ord).
Let s5 := fold_left (transform_values T) ord s3.
Definition h6 := replace_all (g_vals s5) (g_heap s5).
Let I5 : inv T s5 := proj1 (pass_inv ord GO).
Let R6 := suball (g_vals s5).
Lemma R6_other : forall u, (forall k, k < length rvs -> u <> xid k) -> R6 u = u.
Proof.
  intros u H. apply suball_other. intros J. apply in_map_iff in J as (p & <- & J). apply In_nth_error in J as [j J].
  rewrite (i_keys _ _ I5 _ _ J) in H. apply (H j); [|easy]. apply nth_lt in J. rewrite (i_lenv _ _ I5) in J. exact J.
Qed.
Lemma R6_rep : forall a u, rep a u -> R6 u = u.
Proof.
  intros a u R. apply R6_other. intros k Hk. apply rep_bounds in R as (_ & R). unfold xid, vid, N in *.
  destruct R as [(j & Hj & ->)|[R|R]]; unfold vid; lia.
Qed.
Lemma R6_big : forall u, N <= u -> R6 u = u.
Proof. intros u H. apply R6_other. intros k Hk. unfold xid, N in *. lia. Qed.
Lemma R6_low : forall u, u < n0 -> R6 u = u.
Proof. intros u H. apply R6_other. intros k Hk. unfold xid, N in *. lia. Qed.
Lemma R6_args : forall l m, Forall2 rep l m -> map R6 m = m.
Proof. intros l m F. apply map_fix. intros u Hu. destruct (F2_in_r _ _ _ _ _ _ F Hu) as (a & _ & R). apply (R6_rep _ _ R). Qed.
Lemma R6_val : forall k rv val, nth_error rvs k = Some (rv, val) -> nth_error (g_vals s5) k = Some (xid k, val) -> R6 (xid k) = val.
Proof.
  intros k rv val Er E. apply suball_hit; [apply (keys_nodup _ _ I5)|apply nth_error_In in E; exact E|].
  intros J. apply in_map_iff in J as (p & Q & J). apply In_nth_error in J as [j J]. rewrite (i_keys _ _ I5 _ _ J) in Q.
  destruct (key_lt _ _ _ Er) as (_ & V & _). unfold xid in Q. lia.
Qed.
Lemma h6_nth : forall i, nth_error h6 i = option_map (fun nd => mk (nop nd) (map R6 (nargs nd))) (nth_error (g_heap s5) i).
Proof. intros i. apply nth_replace_all. Qed.
Lemma h6_orig : forall a nd, nth_error g0 a = Some nd -> nth_error h6 a = Some nd.
Proof.
  intros a nd H. rewrite h6_nth, (i_orig _ _ I5 _ _ H). destruct nd as [o ps]. cbn. do 2 f_equal. apply map_fix.
  intros y J. apply (WF _ _ H) in J. apply nth_lt in H. apply R6_low. unfold n0. lia.
Qed.
Lemma h6_copy : forall a nd, nth_error g0 a = Some nd -> exists args, nth_error h6 (a + N) = Some (mk (nop nd) args) /\ Forall2 rep (nargs nd) args.
Proof.
  intros a nd H. destruct (i_copy _ _ I5 _ _ H) as (args & E & F). exists args. split; [|exact F].
  rewrite h6_nth, E. cbn. rewrite (R6_args _ _ F). easy.
Qed.
Lemma h6_untr : forall k rv val, nth_error rvs k = Some (rv, val) -> dget trs rv = None ->
  exists nd args r, nth_error g0 rv = Some nd /\ is_in (nop nd) = false /\
    nth_error h6 (vid k) = Some (mk OVal [r; val]) /\ nth_error (g_outs s5) k = Some (vid k + N) /\
    nth_error h6 (vid k + N) = Some (mk OVal [cid k + N; val]) /\
    nth_error h6 (cid k + N) = Some (mk (nop nd) args) /\ Forall2 rep (nargs nd) args /\
    nth_error (g_vals s5) k = Some (xid k, val).
Proof.
  intros k rv val Er D. destruct (i_req _ _ I5 _ _ _ Er) as [U|(tr & Q & _)]; [|rewrite (T_get _ _ _ Er) in Q; congruence].
  destruct U as (nd & args & r & U1 & U2 & U3 & U4 & U5 & U6 & U7 & U8 & U9).
  exists nd, args, (R6 r). assert (RV := R6_val _ _ _ Er U9).
  split; [exact U1|]. split; [exact U2|].
  split; [rewrite h6_nth, U3; cbn; rewrite RV; easy|]. split; [exact U4|].
  split; [rewrite h6_nth, U5; cbn; rewrite RV, (R6_big (cid k + N)) by (unfold cid; lia); easy|].
  split; [rewrite h6_nth, U6; cbn; rewrite (R6_args _ _ U7); easy|]. split; [exact U7|exact U9].
Qed.
Lemma h6_trd : forall k rv val tr, nth_error rvs k = Some (rv, val) -> dget trs rv = Some tr ->
  exists rng dist ps args r b, nth_error g0 rv = Some (mk (ORv rng dist) ps) /\
    nth_error h6 (vid k) = Some (mk OVal [r; b + 3]) /\ nth_error (g_outs s5) k = Some (b + 4) /\
    nth_error h6 (b + 4) = Some (mk OVal [b + 1; b + 3]) /\ nth_error h6 (b + 3) = Some (mk OTransd [b + 2; b]) /\
    nth_error h6 (b + 2) = Some (mk (OBack tr) (b :: args)) /\ nth_error h6 (b + 1) = Some (mk (OTrv tr rng dist) args) /\
    nth_error h6 b = Some (mk OIn []) /\ Forall2 rep ps args /\ nth_error (g_vals s5) k = Some (xid k, b) /\ N + N <= b.
Proof.
  intros k rv val tr Er D. pose proof (proj2 (pass_inv ord GO)) as Q. destruct (Q _ _ _ _ Er D) as
    (rng & dist & ps & args & r & b & T1 & T2 & T3 & T4 & T5 & T6 & T7 & T8 & T9 & T10 & T11 & _).
  fold s5 in T2, T3, T4, T5, T6, T7, T8, T10.
  exists rng, dist, ps, args, (suball (g_vals s5) r), b. split; [exact T1|].
  split; [rewrite h6_nth, T2; cbn; rewrite (R6_big (b + 3)) by lia; easy|]. split; [exact T3|].
  split; [rewrite h6_nth, T4; cbn; rewrite !R6_big by lia; easy|].
  split; [rewrite h6_nth, T5; cbn; rewrite !R6_big by lia; easy|].
  split; [rewrite h6_nth, T6; cbn; rewrite R6_big, (R6_args _ _ T9) by lia; easy|].
  split; [rewrite h6_nth, T7; cbn; rewrite (R6_args _ _ T9); easy|].
  split; [rewrite h6_nth, T8; easy|]. auto.
Qed.

(** ** The clean-up *)
Definition h7 := rewire (skip_valued h6) h6.
Definition clean (u : nat) : nat := skip_transd h7 (skip_valued h6 u).
Definition hF := rewire (skip_transd h7) h7.
Lemma hF_nth : forall i, nth_error hF i = option_map (fun nd => mk (nop nd) (map clean (nargs nd))) (nth_error h6 i).
Proof.
  intros i. unfold hF. rewrite nth_rewire. unfold h7 at 2. rewrite nth_rewire. destruct (nth_error h6 i) as [nd|]; cbn; [|easy].
  rewrite map_map. easy.
Qed.
Lemma clean_plain : forall u nd, nth_error h6 u = Some nd -> match nop nd with OVal | OTransd => False | _ => True end -> clean u = u.
Proof.
  intros u [o ps] H W. unfold clean. assert (E : skip_valued h6 u = u) by (unfold skip_valued; rewrite H; destruct o; easy).
  rewrite E. unfold skip_transd, h7. rewrite nth_rewire, H. cbn. destruct o; easy.
Qed.
Lemma clean_g0 : forall u, u < n0 -> clean u = u.
Proof.
  intros u H. destruct (nth_error g0 u) as [nd|] eqn:E; [|apply nth_error_None in E; unfold n0 in H; lia].
  apply (clean_plain u nd); [apply (h6_orig _ _ E)|]. destruct (WF _ _ E) as [W _]. destruct (nop nd); easy.
Qed.
Lemma clean_copy : forall a nd, nth_error g0 a = Some nd -> clean (a + N) = a + N.
Proof.
  intros a nd E. destruct (h6_copy _ _ E) as (args & H & _). apply (clean_plain _ _ H). cbn.
  destruct (WF _ _ E) as [W _]. destruct (nop nd); easy.
Qed.
Lemma clean_untr : forall k rv val, nth_error rvs k = Some (rv, val) -> dget trs rv = None -> clean (vid k) = val.
Proof.
  intros k rv val Er D. destruct (h6_untr _ _ _ Er D) as (nd & args & r & _ & _ & H & _).
  unfold clean. unfold skip_valued at 1. rewrite H. change (clean val = val) || idtac.
  destruct (key_lt _ _ _ Er) as (_ & V & _).
  destruct (nth_error g0 val) as [nv|] eqn:E; [|apply nth_error_None in E; unfold n0 in V; lia].
  unfold skip_transd, h7. rewrite nth_rewire, (h6_orig _ _ E). cbn. destruct (WF _ _ E) as [W _]. destruct (nop nv); easy.
Qed.
Lemma clean_trd : forall b, nth_error h6 (b + 3) = Some (mk OTransd [b + 2; b]) -> forall args tr, nth_error h6 (b + 2) = Some (mk (OBack tr) args) ->
  skip_transd h7 (b + 3) = b + 2.
Proof.
  intros b H args tr H'. unfold skip_transd, h7. rewrite nth_rewire, H. cbn. unfold skip_valued. rewrite H'. easy.
Qed.
Lemma hF_orig : forall a nd, nth_error g0 a = Some nd -> nth_error hF a = Some nd.
Proof.
  intros a nd H. rewrite hF_nth, (h6_orig _ _ H). destruct nd as [o ps]. cbn. do 2 f_equal. apply map_fix.
  intros y J. apply (WF _ _ H) in J. apply nth_lt in H. apply clean_g0. unfold n0. lia.
Qed.

(** ** Draws *)
Hypothesis INDEP : forall k rv val, nth_error rvs k = Some (rv, val) -> dget trs rv = None ->
  forall a, depends g0 val a -> ~ In a (map fst rvs).
Definition okn (u : nat) : Prop :=
  (exists a u', rep a u' /\ u = clean u') \/ nth_error h6 u = Some (mk OIn []) \/
  (exists k rv val, nth_error rvs k = Some (rv, val) /\ dget trs rv = None /\ depends g0 val u).
Lemma dep_lt : forall u w, depends g0 u w -> u < n0 -> w < n0.
Proof. intros u w D H. apply dep_le in D. lia. Qed.
Lemma dep_right : forall u w nd p, depends g0 u w -> nth_error g0 w = Some nd -> In p (nargs nd) -> depends g0 u p.
Proof. intros u w nd p D. induction D; intros E I; [eapply dep_step; eauto; constructor|eapply dep_step; eauto]. Qed.
Lemma okn_node : forall u nd, okn u -> nth_error hF u = Some nd ->
  (forall p, In p (nargs nd) -> okn p) /\
  (forall rng dist, draws nd rng dist -> exists a ps, ~ In a (map fst rvs) /\ nth_error g0 a = Some (mk (ORv rng dist) ps)).
Proof.
  intros u nd [(a & u' & R & ->)|[E|(k & rv & val & Er & D & Dp)]] H.
  - destruct R as [k rv val Er|a nd0 Q G Gi|a nd0 Q G Gi].
    + destruct (dget trs rv) as [tr|] eqn:D.
      * destruct (h6_trd _ _ _ _ Er D) as (rng & dist & ps & args & r & b & G & H1 & H2 & H3 & H4 & H5 & H6 & H7 & F & B & Bb).
        assert (C : clean (vid k) = b + 2). { unfold clean. unfold skip_valued at 1. rewrite H1. eapply clean_trd; eauto. }
        rewrite C, hF_nth, H5 in H. cbn in H. injection H as <-. split.
        -- cbn. intros p [<-|I]; [right; left; rewrite (clean_plain b _ H7) by easy; exact H7|].
           apply in_map_iff in I as (q & <- & I). destruct (F2_in_r _ _ _ _ _ _ F I) as (a & _ & Ra). left. eauto.
        -- intros rng' dist' [X|(tr' & X)]; discriminate.
      * rewrite (clean_untr _ _ _ Er D) in H. destruct (key_lt _ _ _ Er) as (_ & Hv & _).
        destruct (nth_error g0 val) as [nv|] eqn:E; [|apply nth_error_None in E; unfold n0 in Hv; lia].
        rewrite (hF_orig _ _ E) in H. injection H as ->. split.
        -- intros p I. right. right. exists k, rv, val. split; [auto|]. split; [auto|]. eapply dep_step; eauto. constructor.
        -- intros rng dist X. exists val, (nargs nd). destruct (WF _ _ E) as [W _]. destruct X as [X|(tr & X)]; rewrite X in W; [|easy].
           split; [apply (INDEP _ _ _ Er D); constructor|]. rewrite E. destruct nd; cbn in *. congruence.
    + assert (Ha : a < n0) by (apply nth_lt in G; exact G). rewrite (clean_g0 a Ha), (hF_orig _ _ G) in H. injection H as ->.
      destruct (WF _ _ G) as [W _]. split.
      * destruct (nop nd); try discriminate. rewrite W. easy.
      * intros rng dist [X|(tr & X)]; rewrite X in Gi; discriminate.
    + rewrite (clean_copy _ _ G) in H. destruct (h6_copy _ _ G) as (args & E & F). rewrite hF_nth, E in H. cbn in H. injection H as <-. split.
      * cbn. intros p I. apply in_map_iff in I as (q & <- & I). destruct (F2_in_r _ _ _ _ _ _ F I) as (p & _ & Rp). left. eauto.
      * intros rng dist X. cbn in X. destruct (WF _ _ G) as [W _]. exists a, (nargs nd0). split; [exact Q|].
        destruct X as [X|(tr & X)]; cbn in X; rewrite X in W; [|easy]. rewrite G. destruct nd0; cbn in *. congruence.
  - rewrite hF_nth, E in H. injection H as <-. split; [easy|]. intros rng dist [X|(tr & X)]; discriminate.
  - destruct (key_lt _ _ _ Er) as (_ & Hv & _). apply dep_lt in Dp as Hu; [|exact Hv].
    destruct (nth_error g0 u) as [nv|] eqn:E; [|apply nth_error_None in E; unfold n0 in Hu; lia].
    rewrite (hF_orig _ _ E) in H. injection H as ->. split.
    + intros p I. right. right. exists k, rv, val. split; [auto|]. split; [auto|]. eapply dep_right; eauto.
    + intros rng dist X. exists u, (nargs nd). destruct (WF _ _ E) as [W _]. destruct X as [X|(tr & X)]; rewrite X in W; [|easy].
      split; [apply (INDEP _ _ _ Er D); exact Dp|]. rewrite E. destruct nd; cbn in *. congruence.
Qed.
Lemma okn_draws : forall u w nd rng dist, depends hF u w -> okn u -> nth_error hF w = Some nd -> draws nd rng dist ->
  exists a ps, ~ In a (map fst rvs) /\ nth_error g0 a = Some (mk (ORv rng dist) ps).
Proof.
  intros u w nd rng dist D. induction D as [u|u nd' a w E I D IH]; intros O H X.
  - eapply okn_node; eauto.
  - apply IH; auto. apply (okn_node u nd' O E). exact I.
Qed.

(** ** Semantics *)
Context {V L : Type} (S : sem V L) (rho : nat -> option V).
Hypothesis PU : forall k rv val, nth_error rvs k = Some (rv, val) -> dget trs rv = None -> exists x, ev S g0 val x /\ rho rv = Some x.
Hypothesis PT : forall k rv val tr b, nth_error rvs k = Some (rv, val) -> dget trs rv = Some tr -> nth_error (g_vals s5) k = Some (xid k, b) ->
  exists rng dist ps xs, nth_error g0 rv = Some (mk (ORv rng dist) ps) /\ meanss S g0 rho ps xs /\ rho rv = Some (s_back S tr (s_in S b) xs).
Hypothesis PN : forall rv, rho rv <> None -> In rv (map fst rvs).

Scheme ev_mind := Induction for ev Sort Prop with evs_mind := Induction for evs Sort Prop.
Lemma ev_hF : forall v x, ev S g0 v x -> ev S hF v x.
Proof.
  intros v x H. induction H using ev_mind with (P0 := fun vs xs _ => evs S hF vs xs).
  - eapply ev_in. apply hF_orig. eauto.
  - eapply ev_op; eauto. apply hF_orig. eauto.
  - constructor.
  - constructor; auto.
Qed.
Lemma rho_key : forall rv, In rv (map fst rvs) -> rho rv <> None.
Proof.
  intros rv I. destruct (key_nth _ I) as (k & val & Er). destruct (dget trs rv) as [tr|] eqn:D.
  - destruct (h6_trd _ _ _ _ Er D) as (rng & dist & ps & args & r & b & _ & _ & _ & _ & _ & _ & _ & _ & _ & B & _).
    destruct (PT _ _ _ _ _ Er D B) as (? & ? & ? & ? & _ & _ & Q). congruence.
  - destruct (PU _ _ _ Er D) as (x & _ & Q). congruence.
Qed.
Lemma means_ev : forall a, (forall x, means S g0 rho a x -> forall u, rep a u -> ev S hF (clean u) x).
Proof.
  induction a as [a IH] using lt_wf_ind.
  assert (ARGS : forall ps xs args, (forall p, In p ps -> p < a) -> meanss S g0 rho ps xs -> Forall2 rep ps args -> evs S hF (map clean args) xs).
  { intros ps xs args B MS. revert args. induction MS as [|p ps x xs Mp MS' IHm]; intros args F; inversion F; subst; cbn; constructor.
    - eapply IH; eauto. apply B. cbn. auto.
    - apply IHm; auto. intros q Hq. apply B. cbn. auto. }
  intros x Mx u R. destruct (in_dec Nat.eq_dec a (map fst rvs)) as [I|I].
  - destruct (rho a) as [x'|] eqn:Er0; [|destruct (rho_key a I Er0)].
    assert (x' = x) as ->. { inversion Mx; congruence. }
    destruct R as [k rv val Er|a nd Q _ _|a nd Q _ _]; try easy.
    destruct (dget trs rv) as [tr|] eqn:D.
    + destruct (h6_trd _ _ _ _ Er D) as (rng & dist & ps & args & r & b & G & H1 & H2 & H3 & H4 & H5 & H6 & H7 & F & B & Bb).
      destruct (PT _ _ _ _ _ Er D B) as (rng' & dist' & ps' & xs & G' & MS & Q). rewrite G in G'. injection G' as <- <- <-.
      rewrite Q in Er0. injection Er0 as <-.
      assert (C : clean (vid k) = b + 2).
      { unfold clean. unfold skip_valued at 1. rewrite H1. eapply clean_trd; eauto. }
      rewrite C. eapply ev_op with (xs := s_in S b :: xs).
      * rewrite hF_nth, H5. cbn. rewrite (clean_plain b _ H7) by easy. reflexivity.
      * constructor; [eapply ev_in; rewrite hF_nth, H7; reflexivity|].
        eapply ARGS; eauto. intros p Hp. apply (WF _ _ G). exact Hp.
      * easy.
    + rewrite (clean_untr _ _ _ Er D). destruct (PU _ _ _ Er D) as (x0 & E & Q). rewrite Q in Er0. injection Er0 as ->. apply ev_hF, E.
  - assert (Er0 : rho a = None). { destruct (rho a) eqn:E; [|easy]. destruct I. apply PN. congruence. }
    destruct R as [k rv val Er|a nd Q G Gi|a nd Q G Gi].
    + destruct I. apply (key_lt _ _ _ Er).
    + rewrite (clean_g0 a) by (apply nth_lt in G; exact G).
      inversion Mx; subst; try congruence; (eapply ev_in; apply hF_orig; eauto) || (exfalso; rewrite G in *;
        match goal with H : Some _ = Some _ |- _ => injection H as -> end; discriminate).
    + rewrite (clean_copy _ _ G). destruct (h6_copy _ _ G) as (args & Hc & F).
      assert (HF : nth_error hF (a + N) = Some (mk (nop nd) (map clean args))) by (rewrite hF_nth, Hc; easy).
      assert (B : forall p, In p (nargs nd) -> p < a) by (intros p Hp; apply (WF _ _ G), Hp).
      inversion Mx as [? ? Q1|? ? Q1 Q2|? rng dist ps xs Q1 Q2 Q3|? f ps xs Q1 Q2 Q3]; subst; try congruence;
        rewrite G in Q2; injection Q2 as ->; cbn in *; try discriminate;
        (eapply ev_op; [exact HF|eapply ARGS; eauto|easy]).
Qed.
Lemma meanss_evs : forall ps xs args, meanss S g0 rho ps xs -> Forall2 rep ps args -> evs S hF (map clean args) xs.
Proof.
  intros ps xs args MS. revert args. induction MS as [|p ps x xs Mp MS IH]; intros args F; inversion F; subst; cbn; constructor.
  - eapply means_ev; eauto.
  - auto.
Qed.

(** ** The loops succeed *)
Section Total.
Context (uj : bool) (realized : list nat).
Hypothesis ALL : forall k rv val, nth_error rvs k = Some (rv, val) -> exists rng dist ps, nth_error g0 rv = Some (mk (ORv rng dist) ps).
Lemma bs_total : exists bs, bindings_of h6 (map fst rvs) (g_outs s5) (map snd (g_vals s5)) = Some bs.
Proof.
  apply bindings_total; rewrite ?map_length; [apply (i_leno _ _ I5)|apply (i_lenv _ _ I5)|].
  intros k o u v H1 H2 H3. rewrite nth_error_map in H1. destruct (nth_error rvs k) as [[rv val]|] eqn:Er; [|discriminate]. injection H1 as <-.
  unfold binding_of. destruct (dget trs rv) as [tr|] eqn:D.
  - destruct (h6_trd _ _ _ _ Er D) as (rng & dist & ps & args & r & b & G & _ & X2 & X3 & _ & _ & X6 & _).
    rewrite X2 in H2. injection H2 as <-. rewrite X3. discriminate.
  - destruct (h6_untr _ _ _ Er D) as (nd & args & r & G & Gi & _ & X2 & X3 & _). rewrite X2 in H2. injection H2 as <-. rewrite X3. discriminate.
Qed.
Lemma s3_fresh : fresh_vals (N + N) s3.
Proof.
  split; [apply (keys_nodup _ _ s3_inv)|].
  assert (Q : forall p, In p (g_vals s3) -> snd p < n0).
  { intros p I. cbn in I. apply in_map_iff in I as (m & <- & I). apply In_nth_error in I as [k I].
    destruct (ms_nth _ _ M _ _ I) as (rv & val & Er & ->). cbn. apply (key_lt _ _ _ Er). }
  split.
  - intros p I. apply Q in I. pose proof (i_len _ _ s3_inv). unfold N in *. lia.
  - intros p q I J C E. apply Q in I. unfold N in C. lia.
Qed.
Lemma loops_total : exists bs out vv fs, bindings_of h6 (map fst rvs) (g_outs s5) (map snd (g_vals s5)) = Some bs /\
  assign (node_measurable h6) (node_logprob uj h6) realized bs = Ok (out, vv) /\ all_some out = Some fs.
Proof.
  destruct bs_total as (bs & B). exists bs.
  destruct (bindings_nth _ _ _ _ _ B) as (LB & Q); rewrite ?map_length; [apply (i_leno _ _ I5)|apply (i_lenv _ _ I5)|]. rewrite map_length in LB.
  (* the bindings *)
  assert (P : forall k b, nth_error bs k = Some b -> exists rv val, nth_error rvs k = Some (rv, val) /\ b_old b = rv /\ b_node b = Some (b_var b) /\
     node_measurable h6 (b_var b) = [b_var b] /\ (exists f, node_logprob uj h6 (b_var b) [b_valvar b] = [Some f]) /\
     (b_var b = cid k + N \/ (N + N <= b_val b /\ b_var b = b_val b + 1 /\ nth_error (g_vals s5) k = Some (xid k, b_val b)))).
  { intros k b Eb. apply nth_lt in Eb as K. rewrite LB in K.
    destruct (nth_error rvs k) as [[rv val]|] eqn:Er; [|apply nth_error_None in Er; lia]. exists rv, val. split; [easy|].
    assert (E1 : nth_error (map fst rvs) k = Some rv) by (rewrite nth_error_map, Er; easy).
    destruct (ALL _ _ _ Er) as (rng' & dist' & ps' & G').
    destruct (dget trs rv) as [tr|] eqn:D.
    - destruct (h6_trd _ _ _ _ Er D) as (rng & dist & ps & args & r & c & G & H1 & H2 & H3 & H4 & H5 & H6 & H7 & F & Bv & Bb).
      assert (E2 : nth_error (map snd (g_vals s5)) k = Some c) by (rewrite nth_error_map, Bv; easy).
      destruct (Q _ _ _ _ E1 H2 E2) as (b' & Ec & Bc). rewrite Eb in Ec. injection Ec as <-.
      unfold binding_of in Bc. rewrite H3, H6 in Bc. cbn in Bc. injection Bc as <-. cbn.
      unfold node_measurable, node_logprob. rewrite H6, H4. split; [easy|]. split; [easy|]. split; [easy|]. split; [eauto|]. right. auto.
    - destruct (h6_untr _ _ _ Er D) as (nd & args & r & G & Gi & H1 & H2 & H3 & H4 & F & Bv).
      assert (E2 : nth_error (map snd (g_vals s5)) k = Some val) by (rewrite nth_error_map, Bv; easy).
      destruct (Q _ _ _ _ E1 H2 E2) as (b' & Ec & Bc). rewrite Eb in Ec. injection Ec as <-.
      rewrite G' in G. injection G as <-. unfold binding_of in Bc. rewrite H3, H4 in Bc. cbn in Bc. injection Bc as <-. cbn.
      unfold node_measurable, node_logprob. cbn in H4. rewrite H4. split; [easy|]. split; [easy|]. split; [easy|]. split; [eauto|]. left. easy. }
  assert (PI : forall b, In b bs -> exists k, nth_error bs k = Some b) by (intros b I; apply In_nth_error in I; exact I).
  assert (BN : forall b, In b bs -> b_node b = Some (b_var b)).
  { intros b I. destruct (PI _ I) as (k & Eb). destruct (P _ _ Eb) as (rv & val & _ & _ & X & _). exact X. }
  assert (ND : NoDup (map b_var bs)).
  { apply NoDup_nth_error. intros i j Hi E. rewrite map_length in Hi. rewrite !nth_error_map in E.
    destruct (nth_error bs i) as [b|] eqn:Ei; [|apply nth_error_None in Ei; lia]. cbn in E.
    destruct (nth_error bs j) as [b'|] eqn:Ej; [|discriminate]. injection E as E.
    destruct (P _ _ Ei) as (rvi & vali & Er & _ & _ & _ & _ & C). destruct (P _ _ Ej) as (rvj & valj & Er' & _ & _ & _ & _ & C').
    apply nth_lt in Er as Ki. apply nth_lt in Er' as Kj. unfold cid in *.
    assert (FV := fresh_pass (N + N) T ord s3 s3_fresh). fold s5 in FV. destruct FV as (_ & _ & FI).
    destruct C as [C|(C1 & C2 & C3)], C' as [C'|(C1' & C2' & C3')]; unfold N in *; try lia.
    assert (X : (xid i, b_val b) = (xid j, b_val b')).
    { apply FI; [eapply nth_error_In; eauto|eapply nth_error_In; eauto| |]; cbn; lia. }
    injection X as X _. unfold xid in X. lia. }
  destruct (assign_total (node_measurable h6) (node_logprob uj h6) realized bs) as (out & vv & A).
  - intros n. apply one_node.
  - exact ND.
  - intros b I. exists (b_var b). destruct (PI _ I) as (k & Eb). destruct (P _ _ Eb) as (rv & val & _ & _ & X & Y & _).
    rewrite Y. split; [exact X|]. split; [cbn; auto|]. intros o [<-|[]]. eauto.
  - exists out, vv.
    assert (WO : well_owned (node_measurable h6) bs).
    { split; [apply one_node|]. intros b n I J. apply one_node in J as <-. apply BN, I. }
    assert (OLD : map b_old bs = map fst rvs).
    { apply nth_ext_o. intros k. rewrite !nth_error_map. destruct (nth_error bs k) as [b|] eqn:Eb; cbn.
      - destruct (P _ _ Eb) as (rv & val & -> & -> & _). easy.
      - apply nth_error_None in Eb. rewrite LB in Eb. apply nth_error_None in Eb. rewrite Eb. easy. }
    assert (NO : NoDup (map b_old bs)) by (rewrite OLD; exact KEYS).
    destruct (all_some_total _ _ out) as (fs & AS); [|eauto].
    intros a I. assert (Ia : In a (map b_old bs)).
    { apply (assign_keys _ _ realized bs out vv WO (node_one_each uj h6) A). apply (in_map fst) in I. exact I. }
    apply in_map_iff in Ia as (b & <- & Ib).
    destruct (assign_value _ _ realized bs out vv WO (node_one_each uj h6) NO A b Ib) as (n & i & l & Hn & Hi & Hl & Ho & Hf).
    rewrite (BN b Ib) in Hn. injection Hn as <-. destruct (own_blocks bs ND BN) as (OB & _). rewrite (OB b Ib) in Hl, Hf. cbn in Hl, Hf.
    destruct (PI _ Ib) as (k & Eb). destruct (P _ _ Eb) as (rv & val & _ & _ & _ & Y & (f & Z) & _).
    rewrite Z in Hl. destruct i as [|[|i]]; try discriminate. injection Hl as <-.
    pose proof (nodup_fst_fun _ _ _ _ _ _ (assign_nodup _ _ realized bs out vv WO (node_one_each uj h6) A) I Ho). discriminate.
Qed.
End Total.

(** ** conditional_logprob's loops on the result *)
Section Asm.
Context (uj : bool) (requested realized : list nat) (bs : list binding) (out : list (nat * option factor)) (vv : list nat) (fs : list (nat * factor)).
Hypothesis RR : map fst rvs = requested ++ realized.
Hypothesis B : bindings_of h6 (map fst rvs) (g_outs s5) (map snd (g_vals s5)) = Some bs.
Hypothesis A : assign (node_measurable h6) (node_logprob uj h6) realized bs = Ok (out, vv).
Hypothesis AS : all_some out = Some fs.

Lemma bs_len : length bs = length rvs.
Proof.
  destruct (bindings_nth _ _ _ _ _ B) as (Q & _); rewrite ?map_length; [apply (i_leno _ _ I5)|apply (i_lenv _ _ I5)|].
  rewrite map_length in Q. exact Q.
Qed.
Lemma bind_k : forall k rv val, nth_error rvs k = Some (rv, val) -> exists b, nth_error bs k = Some b /\ b_old b = rv /\
  b_node b = Some (b_var b) /\ nth_error (map snd (g_vals s5)) k = Some (b_val b) /\ nth_error h6 (b_var b) <> None /\
  (dget trs rv = None -> b_var b = cid k + N /\ b_valvar b = val) /\
  (forall tr, dget trs rv = Some tr -> b_var b = b_val b + 1 /\ b_valvar b = b_val b + 3).
Proof.
  intros k rv val Er.
  destruct (bindings_nth _ _ _ _ _ B) as (_ & Q); rewrite ?map_length; [apply (i_leno _ _ I5)|apply (i_lenv _ _ I5)|].
  assert (E1 : nth_error (map fst rvs) k = Some rv) by (rewrite nth_error_map, Er; easy).
  destruct (dget trs rv) as [tr|] eqn:D.
  - destruct (h6_trd _ _ _ _ Er D) as (rng & dist & ps & args & r & b & G & H1 & H2 & H3 & H4 & H5 & H6 & H7 & F & Bv & Bb).
    assert (E2 : nth_error (map snd (g_vals s5)) k = Some b) by (rewrite nth_error_map, Bv; easy).
    destruct (Q _ _ _ _ E1 H2 E2) as (c & Ec & Bc). unfold binding_of in Bc. rewrite H3, H6 in Bc. cbn in Bc. injection Bc as <-.
    eexists. split; [exact Ec|]. cbn. rewrite H6. repeat (split; auto); try easy.
  - destruct (h6_untr _ _ _ Er D) as (nd & args & r & G & Gi & H1 & H2 & H3 & H4 & F & Bv).
    assert (E2 : nth_error (map snd (g_vals s5)) k = Some val) by (rewrite nth_error_map, Bv; easy).
    destruct (Q _ _ _ _ E1 H2 E2) as (c & Ec & Bc). unfold binding_of in Bc. rewrite H3, H4 in Bc. cbn in Bc. rewrite Gi in Bc. injection Bc as <-.
    eexists. split; [exact Ec|]. cbn. rewrite H4. repeat (split; auto); try easy.
Qed.
Lemma bs_all : forall b, In b bs -> exists k rv val, nth_error rvs k = Some (rv, val) /\ nth_error bs k = Some b.
Proof.
  intros b I. apply In_nth_error in I as [k E]. apply nth_lt in E as K. rewrite bs_len in K.
  destruct (nth_error rvs k) as [[rv val]|] eqn:Er; [|apply nth_error_None in Er; lia]. eauto.
Qed.
Lemma bs_node : forall b, In b bs -> b_node b = Some (b_var b).
Proof.
  intros b I. destruct (bs_all b I) as (k & rv & val & Er & E). destruct (bind_k _ _ _ Er) as (b' & E' & _ & P & _).
  rewrite E in E'. injection E' as <-. exact P.
Qed.
Lemma bs_old : map b_old bs = map fst rvs.
Proof.
  apply nth_ext_o. intros k. rewrite !nth_error_map. destruct (nth_error rvs k) as [[rv val]|] eqn:Er; cbn.
  - destruct (bind_k _ _ _ Er) as (b & -> & <- & _). easy.
  - apply nth_error_None in Er. rewrite <- bs_len in Er. apply nth_error_None in Er. rewrite Er. easy.
Qed.
Lemma bs_owned : well_owned (node_measurable h6) bs.
Proof.
  split; [apply one_node|]. intros b n I J. apply one_node in J as <-. apply bs_node, I.
Qed.
Lemma bs_vars : NoDup (map b_var bs).
Proof. eapply assign_bound; eauto using bs_owned, node_one_each. Qed.
Lemma bs_nodup : NoDup (map b_old bs).
Proof. rewrite bs_old. exact KEYS. Qed.
Lemma fs_keys : map fst fs = map fst out.
Proof. apply (all_some_in _ _ _ _ AS). Qed.
Lemma fs_nodup : NoDup (map fst fs).
Proof. rewrite fs_keys. eapply assign_nodup; eauto using bs_owned, node_one_each. Qed.
Lemma fs_in : forall k, In k (map fst fs) <-> In k (map fst rvs).
Proof.
  intros k. rewrite fs_keys, <- bs_old. eapply assign_keys; eauto using bs_owned, node_one_each.
Qed.
Lemma bs_lp : forall b, In b bs -> exists f, In (b_old b, f) fs /\ node_logprob uj h6 (b_var b) [b_valvar b] = [Some f] /\ node_measurable h6 (b_var b) <> [].
Proof.
  intros b I. destruct (assign_value _ _ realized bs out vv bs_owned (node_one_each uj h6) bs_nodup A b I) as (n & i & l & Hn & Hi & Hl & Ho & Hf).
  rewrite (bs_node b I) in Hn. injection Hn as <-. destruct (own_blocks bs bs_vars bs_node) as (OB & _). rewrite (OB b I) in Hl, Hf. cbn in Hf, Hl.
  destruct (all_some_in _ _ _ _ AS) as (_ & I2 & I3). destruct l as [f|]; [|destruct (I3 _ Ho)].
  exists f. split; [apply I2, Ho|]. apply nth_error_In in Hi as Hin.
  assert (Lp := node_one_each uj h6 (b_var b) [b_valvar b] Hf). rewrite <- Hf in Lp.
  destruct (node_logprob _ _ _ _) as [|x [|y ?]]; try discriminate. destruct i as [|[|i]]; cbn in Hl; try discriminate. injection Hl as ->.
  split; [easy|]. intros E. rewrite E in Hin. destruct Hin.
Qed.
Lemma vv_values : vv = map b_val (firstn (length requested) bs).
Proof.
  rewrite <- (unrealized_first requested realized bs); [|rewrite bs_old; exact RR|rewrite <- RR; exact KEYS].
  destruct (own_blocks bs bs_vars bs_node) as (OB & OF).
  assert (Q := value_order (node_measurable h6) (node_logprob uj h6) realized (fun n => filter (of_node n) bs) (map b_var bs) out vv). cbv zeta in Q.
  rewrite OF in Q. apply Q; auto using bs_vars, bs_owned, node_one_each, bs_nodup.
  intros n J. apply in_map_iff in J as (b & <- & J). rewrite (OB b J). split; [discriminate|]. split.
  - destruct (bs_lp b J) as (f & _ & _ & Nm). cbn. assert (O := one_node h6 (b_var b)).
    unfold node_measurable in *. destruct (nth_error h6 (b_var b)) as [[[] ps]|]; easy.
  - intros b' [<-|[]]. apply bs_node, J.
Qed.
Lemma vv_nth : forall k rv val, nth_error rvs k = Some (rv, val) -> k < length requested ->
  nth_error vv k = nth_error (map snd (g_vals s5)) k.
Proof.
  intros k rv val Er Hk. destruct (bind_k _ _ _ Er) as (b & Eb & _ & _ & -> & _).
  rewrite vv_values, nth_error_map. enough (nth_error (firstn (length requested) bs) k = Some b) as -> by easy.
  rewrite <- Eb. rewrite <- (firstn_skipn (length requested) bs) at 2. rewrite nth_error_app1; [easy|].
  rewrite firstn_length, bs_len. apply nth_lt in Er. lia.
Qed.
Lemma vv_len : length vv = length requested.
Proof.
  rewrite vv_values, map_length, firstn_length, bs_len. rewrite <- (map_length fst rvs), RR, app_length. lia.
Qed.
Lemma factor_k : forall k rv val, nth_error rvs k = Some (rv, val) -> exists f, In (rv, f) fs /\
  exists rng dist ps args, nth_error g0 rv = Some (mk (ORv rng dist) ps) /\ Forall2 rep ps args /\
  (dget trs rv = None -> f = {| f_dist := dist; f_params := args; f_value := val; f_trans := None |} /\ nth_error (g_vals s5) k = Some (xid k, val)) /\
  (forall tr, dget trs rv = Some tr -> exists b, nth_error (g_vals s5) k = Some (xid k, b) /\
     nth_error h6 (b + 2) = Some (mk (OBack tr) (b :: args)) /\ nth_error h6 b = Some (mk OIn []) /\
     f = {| f_dist := dist; f_params := args; f_value := b + 2; f_trans := if uj then Some (tr, b) else None |}).
Proof.
  intros k rv val Er. destruct (bind_k _ _ _ Er) as (b & Eb & <- & Nb & Vb & _ & P1 & P2). apply nth_error_In in Eb as Ib.
  destruct (bs_lp b Ib) as (f & If & Lf & Nm). exists f. split; [exact If|].
  destruct (dget trs (b_old b)) as [tr|] eqn:D.
  - destruct (P2 _ eq_refl) as (Q1 & Q2).
    destruct (h6_trd _ _ _ _ Er D) as (rng & dist & ps & args & r & c & G & H1 & H2 & H3 & H4 & H5 & H6 & H7 & F & Bv & Bb).
    rewrite nth_error_map, Bv in Vb. cbn in Vb. injection Vb as Vb. rewrite <- Vb in *. unfold node_logprob in Lf. rewrite Q1, Q2, H6, H4 in Lf. injection Lf as <-.
    exists rng, dist, ps, args. split; [exact G|]. split; [exact F|]. split; [easy|]. intros tr' E. injection E as <-. eauto 8.
  - destruct (P1 eq_refl) as (Q1 & Q2). destruct (h6_untr _ _ _ Er D) as (nd & args & r & G & Gi & H1 & H2 & H3 & H4 & F & Bv).
    unfold node_logprob in Lf. rewrite Q1, Q2, H4 in Lf. destruct (WF _ _ G) as [W _]. destruct nd as [o ps]. cbn in *.
    destruct o as [|rng dist| | | | |]; try discriminate; try easy.
    injection Lf as <-. exists rng, dist, ps, args. split; [exact G|]. split; [exact F|]. split; [|easy]. intros _. auto.
Qed.
Definition finish (f : factor) : factor := refactor (skip_transd h7) (refactor (skip_valued h6) f).
Lemma finish_eq : forall f, finish f = {| f_dist := f_dist f; f_params := map clean (f_params f); f_value := clean (f_value f);
  f_trans := option_map (fun p => (fst p, clean (snd p))) (f_trans f) |}.
Proof.
  intros [d ps v t]. unfold finish, refactor. cbn. rewrite map_map. destruct t as [[tr b]|]; easy.
Qed.
Lemma factor_value : forall k rv val f v y, nth_error rvs k = Some (rv, val) -> In (rv, f) fs -> nth_error (map snd (g_vals s5)) k = Some v ->
  model_factor S g0 rho rv (trans_of S uj trs rv v) y -> fvalue S hF (finish f) y.
Proof.
  intros k rv val f v y Er If Hv (rng & dist & ps & xs & x & G & MS & Rx & Y).
  destruct (factor_k _ _ _ Er) as (f' & If' & rng' & dist' & ps' & args & G' & F & U & Tt).
  pose proof (nodup_fst_fun _ _ _ _ _ _ fs_nodup If If') as ->. rewrite G in G'. injection G' as <- <- <-.
  unfold trans_of in Y. rewrite finish_eq. destruct (dget trs rv) as [tr|] eqn:D.
  - destruct (Tt _ eq_refl) as (b & Bv & H2 & H0 & ->). cbn. rewrite nth_error_map, Bv in Hv. cbn in Hv. injection Hv as <-.
    destruct (PT _ _ _ _ _ Er D Bv) as (? & ? & ? & xs' & G' & MS' & Rx'). rewrite G in G'. injection G' as <- <- <-.
    assert (CB : clean b = b) by (apply (clean_plain b _ H0); easy). assert (CB2 : clean (b + 2) = b + 2) by (apply (clean_plain _ _ H2); easy).
    assert (EB : ev S hF b (s_in S b)) by (eapply ev_in; rewrite hF_nth, H0; reflexivity).
    exists xs, x. cbn. rewrite CB2. split; [eapply meanss_evs; eauto|]. split.
    + rewrite Rx' in Rx. injection Rx as <-. eapply ev_op with (xs := s_in S b :: xs').
      * rewrite hF_nth, H2. cbn. rewrite CB. reflexivity.
      * constructor; [exact EB|]. eapply meanss_evs; eauto.
      * easy.
    + destruct uj; cbn; [|exact Y]. rewrite CB. eauto.
  - destruct (U eq_refl) as (-> & Bv). cbn. destruct (PU _ _ _ Er D) as (x' & E & Rx'). rewrite Rx in Rx'. injection Rx' as <-.
    destruct (key_lt _ _ _ Er) as (_ & Hv' & _).
    exists xs, x. cbn. split; [eapply meanss_evs; eauto|]. split; [|exact Y]. rewrite (clean_g0 _ Hv'). apply ev_hF, E.
Qed.
Lemma factor_draws : forall f rv w nd rng dist, In (rv, f) fs -> fdepends hF (finish f) w -> nth_error hF w = Some nd -> draws nd rng dist ->
  exists a ps, ~ In a (map fst rvs) /\ nth_error g0 a = Some (mk (ORv rng dist) ps).
Proof.
  intros f rv w nd rng dist If (u & Hu & Dp) Hw X. eapply okn_draws; eauto. clear Dp Hw X.
  assert (Ik : In rv (map fst rvs)) by (apply fs_in; apply (in_map fst) in If; exact If).
  destruct (key_nth _ Ik) as (k & val & Er).
  destruct (factor_k _ _ _ Er) as (f' & If' & rng' & dist' & ps' & args & G' & F & U & Tt).
  pose proof (nodup_fst_fun _ _ _ _ _ _ fs_nodup If If') as ->. rewrite finish_eq in Hu.
  destruct (dget trs rv) as [tr|] eqn:D.
  - destruct (Tt _ eq_refl) as (b & Bv & H2 & H0 & ->). cbn in Hu.
    assert (CB : clean b = b) by (apply (clean_plain b _ H0); easy).
    destruct Hu as [I|[->|(tr' & E)]].
    + apply in_map_iff in I as (q & <- & I). destruct (F2_in_r _ _ _ _ _ _ F I) as (p & _ & Rp). left. eauto.
    + left. exists rv, (vid k). split; [econstructor; eauto|].
      destruct (h6_trd _ _ _ _ Er D) as (rng1 & dist1 & ps1 & args1 & r & c & G & H1 & _ & _ & H4 & H5 & _ & _ & _ & Bv' & _).
      rewrite Bv in Bv'. injection Bv' as <-. rewrite (clean_plain _ _ H2) by easy.
      unfold clean. unfold skip_valued at 1. rewrite H1. symmetry. eapply clean_trd; eauto.
    + destruct uj; [|discriminate]. cbn in E. injection E as _ <-. right. left. rewrite CB. exact H0.
  - destruct (U eq_refl) as (-> & Bv). cbn in Hu. destruct Hu as [I|[->|(tr' & E)]]; [| |discriminate].
    + apply in_map_iff in I as (q & <- & I). destruct (F2_in_r _ _ _ _ _ _ F I) as (p & _ & Rp). left. eauto.
    + right. right. exists k, rv, val. split; [auto|]. split; [auto|].
      destruct (key_lt _ _ _ Er) as (_ & Hv' & _). rewrite (clean_g0 _ Hv'). constructor.
Qed.
End Asm.
End End6.
End Pass.
End G.
