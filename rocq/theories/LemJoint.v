(** Proofs for C32 - C34, C37, C38. *)
From Coq Require Import Reals Lra List Arith Bool Lia Permutation ListDec.
From Verif Require Import XR ModelVec ModelJoint SpecJoint.
Import ListNotations.
Open Scope nat_scope.

(** ** Dictionaries *)
Lemma dget_dset : forall A (d : list (nat * A)) k a k', dget (dset d k a) k' = if k' =? k then Some a else dget d k'.
Proof.
  induction d as [|[k0 a0] d IH]; intros k a k'; cbn.
  - reflexivity.
  - destruct (k =? k0) eqn:E; cbn.
    + apply Nat.eqb_eq in E as ->. destruct (k' =? k0); reflexivity.
    + rewrite IH. destruct (k' =? k0) eqn:F, (k' =? k) eqn:G; auto.
      apply Nat.eqb_eq in F as ->. apply Nat.eqb_eq in G as ->. rewrite Nat.eqb_refl in E. discriminate.
Qed.
Lemma keys_dset : forall A (d : list (nat * A)) k a x, In x (map fst (dset d k a)) <-> x = k \/ In x (map fst d).
Proof.
  induction d as [|[k0 a0] d IH]; intros k a x; cbn.
  - intuition.
  - destruct (k =? k0) eqn:E; cbn.
    + apply Nat.eqb_eq in E as ->. intuition.
    + rewrite IH. intuition.
Qed.
Lemma nodup_dset : forall A (d : list (nat * A)) k a, NoDup (map fst d) -> NoDup (map fst (dset d k a)).
Proof.
  induction d as [|[k0 a0] d IH]; intros k a H; cbn in *.
  - repeat constructor. easy.
  - inversion H as [|? ? N D]; subst. destruct (k =? k0) eqn:E; cbn.
    + apply Nat.eqb_eq in E as ->. constructor; auto.
    + constructor; [|auto]. rewrite keys_dset. intros [->|I]; [rewrite Nat.eqb_refl in E; discriminate|auto].
Qed.
Lemma dset_fresh : forall A (d : list (nat * A)) k a, ~ In k (map fst d) -> dset d k a = d ++ [(k, a)].
Proof.
  induction d as [|[k0 a0] d IH]; intros k a H; cbn in *; [easy|].
  destruct (k =? k0) eqn:E; [apply Nat.eqb_eq in E; subst; tauto|]. rewrite IH by tauto. easy.
Qed.
Lemma dget_in : forall A (d : list (nat * A)) k a, dget d k = Some a -> In (k, a) d.
Proof.
  induction d as [|[k0 a0] d IH]; intros k a H; cbn in *; [discriminate|].
  destruct (k =? k0) eqn:E; [apply Nat.eqb_eq in E; left; congruence|auto].
Qed.
Lemma dget_none : forall A (d : list (nat * A)) k, dget d k = None <-> ~ In k (map fst d).
Proof.
  induction d as [|[k0 a0] d IH]; intros k; cbn; [tauto|].
  destruct (k =? k0) eqn:E.
  - apply Nat.eqb_eq in E as ->. split; [discriminate|tauto].
  - rewrite IH. apply Nat.eqb_neq in E. intuition.
Qed.
Lemma in_dget : forall A (d : list (nat * A)) k a, NoDup (map fst d) -> In (k, a) d -> dget d k = Some a.
Proof.
  induction d as [|[k0 a0] d IH]; intros k a N H; cbn in *; [easy|].
  inversion N as [|? ? N1 D]; subst. destruct H as [E|H].
  - injection E as -> ->. rewrite Nat.eqb_refl. easy.
  - destruct (k =? k0) eqn:E; [|auto]. apply Nat.eqb_eq in E as ->.
    destruct N1. apply (in_map fst) in H. easy.
Qed.
Lemma dupdate_nodup : forall A (e d : list (nat * A)), NoDup (map fst d) -> NoDup (map fst (dupdate d e)).
Proof. unfold dupdate. induction e as [|p e IH]; intros d H; cbn; auto. apply IH, nodup_dset, H. Qed.
Lemma dupdate_keys : forall A (e d : list (nat * A)) x, In x (map fst (dupdate d e)) <-> In x (map fst d) \/ In x (map fst e).
Proof.
  unfold dupdate. induction e as [|p e IH]; intros d x; cbn; [tauto|].
  rewrite IH, keys_dset. intuition.
Qed.
Lemma map_fst_combine : forall A B (l : list A) (m : list B), length l = length m -> map fst (combine l m) = l.
Proof. induction l as [|a l IH]; intros [|b m] H; cbn in *; try discriminate; auto. rewrite IH; auto. Qed.
Lemma rv_values_keys : forall req vvs realized, length vvs = length req ->
  keys_exact (map fst (rv_values req vvs realized)) req (map fst realized).
Proof.
  intros req vvs realized H. split.
  - apply dupdate_nodup, dupdate_nodup. constructor.
  - intros k. unfold rv_values. rewrite !dupdate_keys, map_fst_combine by auto. cbn. tauto.
Qed.
Lemma nodup_app_l : forall A (l m : list A), NoDup (l ++ m) -> NoDup l.
Proof.
  induction l as [|a l IH]; intros m H; [constructor|]. inversion H as [|? ? N D]; subst.
  constructor; [|eauto]. intros I. apply N, in_or_app. auto.
Qed.
(** distinct requests and a disjoint realized map: the keys come in the order given *)
Lemma dupdate_fresh : forall A (e d : list (nat * A)), NoDup (map fst d ++ map fst e) -> dupdate d e = d ++ e.
Proof.
  unfold dupdate. induction e as [|[k a] e IH]; intros d H; cbn in *.
  - rewrite app_nil_r. easy.
  - rewrite dset_fresh.
    + rewrite IH.
      * rewrite <- app_assoc. easy.
      * rewrite map_app, <- app_assoc. exact H.
    + intros I. apply NoDup_remove_2 in H. apply H, in_or_app. auto.
Qed.
Lemma rv_values_order : forall req vvs realized, length vvs = length req ->
  NoDup (req ++ map fst realized) -> rv_values req vvs realized = combine req vvs ++ realized.
Proof.
  intros req vvs realized L H. unfold rv_values.
  rewrite (dupdate_fresh _ (combine req vvs) []).
  - rewrite dupdate_fresh; cbn; [easy|]. rewrite map_fst_combine by auto. exact H.
  - cbn. rewrite map_fst_combine by auto. apply nodup_app_l in H. exact H.
Qed.
Lemma mem_In : forall x s, mem x s = true <-> In x s.
Proof.
  intros x s. unfold mem. rewrite existsb_exists. split.
  - intros [y [I E]]. apply Nat.eqb_eq in E. congruence.
  - intros I. exists x. rewrite Nat.eqb_refl. auto.
Qed.

(** ** The first loop *)
Definition bpair (b : binding) := (b_valvar b, b_val b).
Lemma dpush_get : forall A (d : list (nat * list A)) k a k',
  dget (dpush d k a) k' = if k' =? k then Some (match dget d k with Some l => l | None => [] end ++ [a]) else dget d k'.
Proof. intros A d k a k'. unfold dpush. destruct (dget d k); rewrite dget_dset; destruct (k' =? k); auto. Qed.
Lemma dpush_nodup : forall A (d : list (nat * list A)) k a, NoDup (map fst d) -> NoDup (map fst (dpush d k a)).
Proof. intros A d k a H. unfold dpush. destruct (dget d k); apply nodup_dset, H. Qed.
Lemma dpush_keys : forall A (d : list (nat * list A)) k a x, In x (map fst (dpush d k a)) <-> x = k \/ In x (map fst d).
Proof. intros A d k a x. unfold dpush. destruct (dget d k); apply keys_dset. Qed.

Lemma collect_none : forall realized bs rv no nv, no_owner bs -> collect realized bs rv no nv = Err DensityNotFound.
Proof.
  intros realized. induction bs as [|b bs IH]; intros rv no nv [b' [I E]]; cbn in *; [easy|].
  destruct I as [->|I]; [rewrite E; easy|]. destruct (b_node b); [|easy]. apply IH. exists b'. auto.
Qed.

Lemma collect_spec : forall realized bs rv no nv rv' no' nv',
  collect realized bs rv no nv = Ok (rv', no', nv') ->
  (forall b, In b bs -> b_node b <> None) /\
  (forall o, In o rv' <-> In o rv \/ exists b, In b bs /\ b_var b = o /\ In (b_old b) realized) /\
  (forall o, (exists b, In b bs /\ b_var b = o /\ dget no' o = Some (b_old b)) \/
             ((forall b, In b bs -> b_var b <> o) /\ dget no' o = dget no o)) /\
  (forall n, dget nv' n = match filter (of_node n) bs with
                          | [] => dget nv n
                          | l => Some (match dget nv n with Some l => l | None => [] end ++ map bpair l) end) /\
  (NoDup (map fst nv) -> NoDup (map fst nv')) /\
  (forall n, In n (map fst nv') <-> In n (map fst nv) \/ exists b, In b bs /\ b_node b = Some n).
Proof.
  intros realized. induction bs as [|b bs IH]; intros rv no nv rv' no' nv' H; cbn in H.
  { injection H as <- <- <-. split; [easy|]. split; [intros o; firstorder|]. split; [right; split; [easy|easy]|].
    split; [easy|]. split; [auto|]. intros n. split; [auto|intros [I|[b [[] _]]]; auto]. }
  destruct (b_node b) as [n|] eqn:N; [|discriminate].
  destruct (IH _ _ _ _ _ _ H) as (I0 & I1 & I2 & I3 & I4 & I5). clear IH H.
  split; [intros b' [<-|J]; [congruence|auto]|].
  split.
  { intros o. rewrite I1. destruct (mem (b_old b) realized) eqn:M; cbn.
    - apply mem_In in M. split.
      + intros [[<-|J]|[b' (J & E & R)]]; [right; exists b; cbn; auto|auto|right; exists b'; cbn; auto].
      + intros [J|[b' ([<-|J] & E & R)]]; [auto|auto|right; exists b'; auto].
    - split.
      + intros [J|[b' (J & E & R)]]; [auto|right; exists b'; cbn; auto].
      + intros [J|[b' ([<-|J] & E & R)]]; [auto| |right; exists b'; auto]. apply mem_In in R. congruence. }
  split.
  { intros o. destruct (I2 o) as [[b' (J & E & G)]|[J G]].
    - left. exists b'. cbn. auto.
    - rewrite dget_dset in G. destruct (o =? b_var b) eqn:E.
      + apply Nat.eqb_eq in E as ->. left. exists b. cbn. auto.
      + right. apply Nat.eqb_neq in E. split; [|auto]. intros b' [<-|K]; [congruence|auto]. }
  split.
  { intros m. rewrite I3, dpush_get. cbn [filter]. unfold of_node at 2. rewrite N.
    rewrite (Nat.eqb_sym n m). destruct (m =? n) eqn:E.
    - apply Nat.eqb_eq in E as ->. destruct (filter (of_node n) bs) eqn:F; cbn; [easy|].
      rewrite <- app_assoc. easy.
    - easy. }
  split.
  { intros D. apply I4, dpush_nodup, D. }
  intros m. rewrite I5, dpush_keys. split.
  - intros [[->|J]|[b' [J E]]]; [right; exists b; cbn; auto|auto|right; exists b'; cbn; auto].
  - intros [J|[b' [[<-|J] E]]]; [auto| |right; exists b'; auto]. rewrite N in E. injection E as <-. auto.
Qed.

(** ** The inner loop *)
Section Loops.
Context {L : Type} (mout : nat -> list nat) (lp : nat -> list nat -> list L).

(** the key filed for an output *)
Lemma inner_spec : forall rvars no lps outs bases lv vv lv' vv',
  length lps = length outs -> length bases = length outs ->
  inner (L := L) rvars no lps outs bases lv vv = Ok (lv', vv') ->
  exists olds, length olds = length outs /\
    (forall i o, nth_error outs i = Some o -> exists k, dget no o = Some k /\ nth_error olds i = Some k) /\
    lv' = dupdate lv (combine olds lps) /\
    vv' = vv ++ map snd (filter (fun p => negb (mem (fst p) rvars)) (combine outs bases)).
Proof.
  intros rvars no. induction lps as [|l lps IH]; intros [|o outs] [|v bases] lv vv lv' vv' H1 H2 H; cbn in H, H1, H2; try discriminate.
  - injection H as <- <-. exists []. repeat split; auto.
    + intros [|i] o E; discriminate.
    + cbn. rewrite app_nil_r. easy.
  - destruct (dget no o) as [k|] eqn:G; [|discriminate].
    injection H1 as H1. injection H2 as H2.
    destruct (IH outs bases _ _ _ _ H1 H2 H) as (olds & E1 & E2 & E3 & E4).
    exists (k :: olds). split; [cbn; congruence|]. split.
    + intros [|i] o' E; cbn in *; [injection E as <-; eauto|auto].
    + split; [rewrite E3; easy|]. rewrite E4. cbn. destruct (mem o rvars); cbn; [easy|].
      rewrite <- app_assoc. easy.
Qed.
Lemma inner_err : forall rvars no lps outs bases lv vv e,
  inner (L := L) rvars no lps outs bases lv vv = Err e -> e = KeyError /\ exists o, In o outs /\ dget no o = None.
Proof.
  intros rvars no. induction lps as [|l lps IH]; intros outs bases lv vv e H; cbn in H; try discriminate.
  destruct outs as [|o outs]; [discriminate|]. destruct bases as [|v bases]; [discriminate|].
  destruct (dget no o) eqn:G.
  - destruct (IH _ _ _ _ _ H) as [-> [o' [I E]]]. split; [easy|]. exists o'. cbn. auto.
  - injection H as <-. split; [easy|]. exists o. cbn. auto.
Qed.

Definition dflt (no : list (nat * nat)) (o : nat) : nat := match dget no o with Some k => k | None => 0 end.
Definition entries (no : list (nat * nat)) (nv : list (nat * list (nat * nat))) : list (nat * L) :=
  flat_map (fun p => combine (map (dflt no) (mout (fst p))) (lp (fst p) (map fst (snd p)))) nv.
Definition bases_of (rvars : list nat) (nv : list (nat * list (nat * nat))) : list nat :=
  flat_map (fun p => map snd (filter (fun q => negb (mem (fst q) rvars)) (combine (mout (fst p)) (map snd (snd p))))) nv.
Lemma dupdate_app : forall A (d e f : list (nat * A)), dupdate d (e ++ f) = dupdate (dupdate d e) f.
Proof. intros A d e f. unfold dupdate. apply fold_left_app. Qed.
Lemma outer_spec : one_each mout lp -> forall rvars no nv lv vv lv' vv',
  outer mout lp rvars no nv lv vv = Ok (lv', vv') ->
  (forall n ps, In (n, ps) nv -> mout n <> [] /\ length ps = length (mout n) /\
                forall o, In o (mout n) -> dget no o <> None) /\
  lv' = dupdate lv (entries no nv) /\ vv' = vv ++ bases_of rvars nv.
Proof.
  intros OE rvars no. induction nv as [|[n ps] nv IH]; intros lv vv lv' vv' H; cbn [outer] in H; cbv zeta in H.
  { injection H as <- <-. cbn. rewrite app_nil_r. repeat split; easy. }
  destruct (mout n) as [|o0 os] eqn:M; [discriminate|]. rewrite <- M in H.
  destruct (length (mout n) <? length ps) eqn:E1; [discriminate|].
  destruct (length (mout n) =? length ps) eqn:E2; [|discriminate].
  cbn [negb] in H. apply Nat.eqb_eq in E2.
  destruct (inner rvars no (lp n (map fst ps)) (mout n) (map snd ps) lv vv) as [[lv1 vv1]|] eqn:I; [|discriminate].
  apply inner_spec in I; [|rewrite OE; rewrite ?map_length; lia|rewrite map_length; lia].
  destruct I as (olds & L1 & L2 & -> & ->).
  destruct (IH _ _ _ _ H) as (J1 & J2 & J3).
  assert (Eo : olds = map (dflt no) (mout n)).
  { clear -L1 L2. revert olds L1 L2. induction (mout n) as [|o l IH]; intros [|k olds] L1 L2; cbn in *; try discriminate; auto.
    destruct (L2 0 o eq_refl) as (k' & G & E). cbn in E. injection E as ->. unfold dflt at 1. rewrite G. f_equal.
    apply IH; [lia|]. intros i o' E'. apply (L2 (S i) o' E'). }
  split.
  { intros n' ps' [Q|Q].
    - injection Q as <- <-. split; [congruence|]. split; [congruence|].
      intros o O. apply In_nth_error in O as [i O]. destruct (L2 i o O) as (k & G & _). congruence.
    - auto. }
  split.
  - rewrite J2. cbn [entries flat_map fst snd]. rewrite dupdate_app, <- Eo. easy.
  - rewrite J3. cbn [bases_of flat_map fst snd]. rewrite app_assoc. easy.
Qed.
Lemma outer_err : forall rvars no nv lv vv e, outer mout lp rvars no nv lv vv = Err e ->
  e = DensityNotFound \/ e = ValueError \/ e = AssertionError \/
  (e = KeyError /\ exists n ps o, In (n, ps) nv /\ length ps = length (mout n) /\ In o (mout n) /\ dget no o = None).
Proof.
  intros rvars no. induction nv as [|[n ps] nv IH]; intros lv vv e H; cbn [outer] in H; cbv zeta in H; [discriminate|].
  destruct (mout n) as [|o0 os] eqn:M; [injection H as <-; auto|]. rewrite <- M in H.
  destruct (length (mout n) <? length ps) eqn:E1; [injection H as <-; auto|].
  destruct (length (mout n) =? length ps) eqn:E2; cbn [negb] in H; [|injection H as <-; auto].
  apply Nat.eqb_eq in E2.
  destruct (inner rvars no (lp n (map fst ps)) (mout n) (map snd ps) lv vv) as [[lv1 vv1]|e'] eqn:I.
  - destruct (IH _ _ _ H) as [Q|[Q|[Q|[Q (n' & ps' & o & A & B & C & D)]]]]; auto.
    right. right. right. split; [auto|]. exists n', ps', o. cbn. auto.
  - injection H as <-. apply inner_err in I as [-> [o [A B]]]. right. right. right. split; [auto|].
    exists n, ps, o. cbn. auto.
Qed.

(** ** Consequences for [assign] *)
Section A.
Context (realized : list nat) (bs : list binding) (out : list (nat * L)) (vv : list nat).
Hypothesis WO : well_owned mout bs.
Hypothesis OE : one_each mout lp.
Hypothesis ND : NoDup (map b_old bs).
Hypothesis OK : assign mout lp realized bs = Ok (out, vv).

Lemma in_map_inj : forall (f : binding -> nat) l b b', NoDup (map f l) -> In b l -> In b' l -> f b = f b' -> b = b'.
Proof.
  intros f. induction l as [|c l IH]; intros b b' N I I' E; cbn in *; [easy|].
  inversion N as [|? ? N1 D]; subst.
  destruct I as [->|I], I' as [->|I']; auto.
  - destruct N1. rewrite E. apply in_map, I'.
  - destruct N1. rewrite <- E. apply in_map, I.
Qed.
Lemma of_node_iff : forall n b, of_node n b = true <-> b_node b = Some n.
Proof.
  intros n b. unfold of_node. destruct (b_node b) as [m|]; [|split; discriminate].
  rewrite Nat.eqb_eq. split; congruence.
Qed.
Lemma filter_of : forall n b, In b (filter (of_node n) bs) <-> In b bs /\ b_node b = Some n.
Proof. intros n b. rewrite filter_In, of_node_iff. easy. Qed.

(** everything the two loops establish, in one statement *)
Lemma assign_facts : exists rvars no nv,
  (forall o, In o rvars <-> exists b, In b bs /\ b_var b = o /\ In (b_old b) realized) /\
  (forall b, In b bs -> exists n, b_node b = Some n /\ In (n, map bpair (filter (of_node n) bs)) nv) /\
  (forall n ps, In (n, ps) nv -> ps = map bpair (filter (of_node n) bs) /\ exists b, In b bs /\ b_node b = Some n) /\
  NoDup (map fst nv) /\
  (forall o k, dget no o = Some k -> exists b, In b bs /\ b_var b = o /\ b_old b = k) /\
  (forall n b, In b bs -> b_node b = Some n ->
     mout n <> [] /\ incl (mout n) (map b_var (filter (of_node n) bs)) /\
     length (filter (of_node n) bs) = length (mout n) /\
     NoDup (map b_var (filter (of_node n) bs)) /\ In (b_var b) (mout n) /\ dget no (b_var b) = Some (b_old b)) /\
  out = dupdate [] (entries no nv) /\ vv = bases_of rvars nv.
Proof.
  unfold assign in OK. destruct (collect realized bs [] [] []) as [[[rvars no] nv]|e] eqn:C; [|discriminate].
  destruct (collect_spec _ _ _ _ _ _ _ _ C) as (C0 & C1 & C2 & C3 & C4 & C5).
  destruct (outer_spec OE _ _ _ _ _ _ _ OK) as (O1 & O2 & O3). cbn in O3.
  specialize (C4 (NoDup_nil _)).
  exists rvars, no, nv.
  assert (N1 : forall n ps, In (n, ps) nv -> ps = map bpair (filter (of_node n) bs) /\ exists b, In b bs /\ b_node b = Some n).
  { intros n ps I. assert (G := in_dget _ _ _ _ C4 I). rewrite C3 in G. cbn in G.
    assert (K : exists b, In b bs /\ b_node b = Some n).
    { destruct (proj1 (C5 n)) as [[]|K]; [apply (in_map fst) in I; exact I|exact K]. }
    split; [|exact K]. destruct (filter (of_node n) bs); [discriminate|]. cbn in G. injection G as <-. easy. }
  assert (N2 : forall b, In b bs -> exists n, b_node b = Some n /\ In (n, map bpair (filter (of_node n) bs)) nv).
  { intros b I. destruct (b_node b) as [n|] eqn:N; [|destruct (C0 b I N)]. exists n. split; [easy|].
    apply dget_in. rewrite C3. cbn. assert (F : In b (filter (of_node n) bs)) by (apply filter_of; auto).
    destruct (filter (of_node n) bs); [easy|reflexivity]. }
  assert (N3 : forall o k, dget no o = Some k -> exists b, In b bs /\ b_var b = o /\ b_old b = k).
  { intros o k G. destruct (C2 o) as [(b & I & E & G')|[_ G']].
    - exists b. repeat split; auto. congruence.
    - cbn in G'. congruence. }
  split; [intros o; rewrite C1; cbn; intuition|].
  split; [exact N2|]. split; [exact N1|]. split; [exact C4|]. split; [exact N3|].
  split; [|auto].
  intros n b I N. destruct (N2 b I) as (n' & N' & J). rewrite N in N'. injection N' as <-.
  destruct (O1 _ _ J) as (M1 & M2 & M3). rewrite map_length in M2.
  assert (IN : incl (mout n) (map b_var (filter (of_node n) bs))).
  { intros o Ho. destruct (dget no o) as [k|] eqn:G; [|destruct (M3 o Ho G)].
    destruct (N3 o k G) as (b' & I' & E' & _). rewrite <- E'. apply in_map, filter_of. split; [auto|].
    apply (proj2 WO b' n I'). rewrite E'. exact Ho. }
  assert (NDv : NoDup (map b_var (filter (of_node n) bs))).
  { apply (NoDup_incl_NoDup (l := mout n)); [apply (proj1 WO)|rewrite map_length; lia|exact IN]. }
  assert (IV : In (b_var b) (mout n)).
  { apply (NoDup_length_incl (l := mout n) (l' := map b_var (filter (of_node n) bs))); [apply (proj1 WO)|rewrite map_length; lia|exact IN|].
    apply in_map, filter_of. auto. }
  split; [exact M1|]. split; [exact IN|]. split; [exact M2|]. split; [exact NDv|]. split; [exact IV|].
  destruct (dget no (b_var b)) as [k|] eqn:G; [|destruct (M3 _ IV G)].
  destruct (N3 _ _ G) as (b' & I' & E' & <-). f_equal. f_equal.
  apply (in_map_inj b_var (filter (of_node n) bs)); auto.
  - apply filter_of. split; [auto|]. apply (proj2 WO b' n I'). rewrite E'. exact IV.
  - apply filter_of. auto.
Qed.

Lemma entries_in : forall no nv k l, In (k, l) (entries no nv) <->
  exists n ps i o, In (n, ps) nv /\ nth_error (mout n) i = Some o /\ k = dflt no o /\ nth_error (lp n (map fst ps)) i = Some l.
Proof.
  intros no nv k l. unfold entries. rewrite in_flat_map. split.
  - intros ([n ps] & I & J). cbn [fst snd] in J. apply In_nth_error in J as [i J].
    exists n, ps, i.
    assert (Q : forall A B (x : list A) (y : list B) i a b, nth_error (combine x y) i = Some (a, b) -> nth_error x i = Some a /\ nth_error y i = Some b).
    { clear. induction x as [|a0 x IH]; intros [|b0 y] [|i] a b E; cbn in *; try discriminate; [injection E as <- <-; auto|auto]. }
    apply Q in J as [J1 J2]. rewrite nth_error_map in J1. destruct (nth_error (mout n) i) as [o|]; [|discriminate].
    cbn in J1. injection J1 as <-. exists o. auto.
  - intros (n & ps & i & o & I & E & -> & F). exists (n, ps). split; [auto|]. cbn [fst snd].
    apply (nth_error_In _ i).
    assert (Q : forall A B (x : list A) (y : list B) i a b, nth_error x i = Some a -> nth_error y i = Some b -> nth_error (combine x y) i = Some (a, b)).
    { clear. induction x as [|a0 x IH]; intros [|b0 y] [|i] a b E F; cbn in *; try discriminate; [congruence|auto]. }
    apply Q; [|exact F]. rewrite nth_error_map, E. easy.
Qed.
Lemma dupdate_fun : forall (e d : list (nat * L)) k l, (forall l', In (k, l') e -> l' = l) -> In (k, l) e -> In (k, l) (dupdate d e).
Proof.
  intros e d k l H I. apply dget_in. revert d H I. unfold dupdate.
  assert (P : forall e d, (forall l', In (k, l') e -> l' = l) -> (In (k, l) e \/ dget d k = Some l) ->
     dget (fold_left (fun d p => dset d (fst p) (snd p)) e d) k = Some l).
  { clear. induction e as [|[k0 l0] e IH]; intros d H I; cbn in *; [destruct I as [[]|I]; exact I|].
    apply IH; [intros l' Q; apply H; auto|]. rewrite dget_dset.
    destruct (k =? k0) eqn:E; [apply Nat.eqb_eq in E; subst; right; rewrite (H l0); auto|].
    apply Nat.eqb_neq in E. destruct I as [[Q|I]|I]; auto. injection Q as -> ->. easy. }
  intros d H I. apply P; auto.
Qed.

Lemma assign_keys : forall k, In k (map fst out) <-> In k (map b_old bs).
Proof.
  destruct assign_facts as (rvars & no & nv & F1 & F2 & F3 & F4 & F5 & F6 & F7 & F8).
  intros k. rewrite F7, dupdate_keys. cbn. split.
  - intros [[]|I]. apply in_map_iff in I as ([k' l] & E & I). cbn in E. subst k'.
    apply entries_in in I as (n & ps & i & o & I & E & -> & _).
    destruct (F3 _ _ I) as (-> & b & Ib & Nb). destruct (F6 n b Ib Nb) as (_ & IN & _).
    apply nth_error_In in E. apply IN, in_map_iff in E as (b' & <- & I'). apply filter_of in I' as [I' N'].
    destruct (F6 n b' I' N') as (_ & _ & _ & _ & _ & G). unfold dflt. rewrite G. apply in_map, I'.
  - intros I. right. apply in_map_iff in I as (b & <- & I). destruct (F2 b I) as (n & N & J).
    destruct (F6 n b I N) as (_ & _ & LN & _ & V & G). apply In_nth_error in V as [i V].
    assert (exists l, nth_error (lp n (map fst (map bpair (filter (of_node n) bs)))) i = Some l) as [l El].
    { destruct (nth_error (lp n _) i) eqn:E; [eauto|]. apply nth_error_None in E. rewrite OE in E.
      - assert (i < length (mout n)) by (apply nth_error_Some; congruence). lia.
      - rewrite !map_length. exact LN. }
    apply (in_map fst _ (b_old b, l)). apply entries_in. exists n, (map bpair (filter (of_node n) bs)), i, (b_var b).
    repeat split; auto. unfold dflt. rewrite G. easy.
Qed.
Lemma assign_nodup : NoDup (map fst out).
Proof.
  destruct assign_facts as (rvars & no & nv & F1 & F2 & F3 & F4 & F5 & F6 & F7 & F8).
  rewrite F7. apply dupdate_nodup. constructor.
Qed.
Lemma assign_bound : NoDup (map b_var bs) /\ forall b, In b bs -> exists n, b_node b = Some n /\ In (b_var b) (mout n).
Proof.
  destruct assign_facts as (rvars & no & nv & F1 & F2 & F3 & F4 & F5 & F6 & F7 & F8).
  assert (V : forall b, In b bs -> exists n, b_node b = Some n /\ In (b_var b) (mout n)).
  { intros b I. destruct (F2 b I) as (n & N & J). exists n. split; [auto|]. apply (F6 n b I N). }
  split; [|exact V].
  assert (P : forall l, incl l bs -> (forall n, NoDup (map b_var (filter (of_node n) l))) -> NoDup (map b_var l)).
  { induction l as [|b l IH]; intros HI HF; cbn; constructor.
    - intros J. apply in_map_iff in J as (b' & E & J).
      destruct (V b) as (n & N & M); [apply HI; cbn; auto|].
      assert (N' : b_node b' = Some n). { apply (proj2 WO); [apply HI; cbn; auto|]. rewrite E. exact M. }
      specialize (HF n). cbn in HF. rewrite (proj2 (of_node_iff n b) N) in HF. cbn in HF.
      inversion HF as [|? ? Q _]; subst. apply Q. rewrite <- E. apply in_map, filter_In. split; [auto|].
      apply of_node_iff, N'.
    - apply IH; [intros x Hx; apply HI; cbn; auto|]. intros n. specialize (HF n). cbn in HF.
      destruct (of_node n b); [cbn in HF; inversion HF; auto|auto]. }
  apply P; [apply incl_refl|]. intros n.
  destruct (filter (of_node n) bs) as [|b l] eqn:E; [constructor|]. rewrite <- E.
  assert (I : In b (filter (of_node n) bs)) by (rewrite E; cbn; auto). apply filter_of in I as [I N].
  apply (F6 n b I N).
Qed.

(** every log-probability is a component of its node's log-probability at
    the values of that node in the order they were bound *)
Lemma assign_value : forall b, In b bs -> exists n i l, b_node b = Some n /\ nth_error (mout n) i = Some (b_var b) /\
  nth_error (lp n (map b_valvar (filter (of_node n) bs))) i = Some l /\ In (b_old b, l) out /\
  length (filter (of_node n) bs) = length (mout n).
Proof.
  destruct assign_facts as (rvars & no & nv & F1 & F2 & F3 & F4 & F5 & F6 & F7 & F8).
  intros b I. destruct (F2 b I) as (n & N & J).
  destruct (F6 n b I N) as (_ & _ & LN & _ & V & G). apply In_nth_error in V as [i V].
  assert (EM : map fst (map bpair (filter (of_node n) bs)) = map b_valvar (filter (of_node n) bs)).
  { rewrite map_map. apply map_ext. easy. }
  assert (exists l, nth_error (lp n (map b_valvar (filter (of_node n) bs))) i = Some l) as [l El].
  { destruct (nth_error (lp n _) i) eqn:E; [eauto|]. apply nth_error_None in E. rewrite OE in E.
    - assert (i < length (mout n)) by (apply nth_error_Some; congruence). lia.
    - rewrite !map_length. exact LN. }
  exists n, i, l. repeat split; auto. rewrite F7. apply dupdate_fun.
  - intros l' I'. apply entries_in in I' as (n' & ps' & i' & o' & I' & E' & Ek & El').
    destruct (F3 _ _ I') as (-> & b' & Ib' & Nb').
    destruct (F6 n' b' Ib' Nb') as (_ & IN & _). assert (Ho := nth_error_In _ _ E').
    apply IN, in_map_iff in Ho as (b2 & <- & I2). apply filter_of in I2 as [I2 N2].
    destruct (F6 n' b2 I2 N2) as (_ & _ & _ & _ & _ & G2). unfold dflt in Ek. rewrite G2 in Ek.
    assert (b2 = b) as -> by (apply (in_map_inj b_old bs); auto).
    rewrite N in N2. injection N2 as <-.
    assert (i' = i) as ->.
    { apply (NoDup_nth_error (mout n)); [apply (proj1 WO)|apply nth_error_Some; congruence|congruence]. }
    rewrite EM in El'. congruence.
  - apply entries_in. exists n, (map bpair (filter (of_node n) bs)), i, (b_var b). repeat split; auto.
    + unfold dflt. rewrite G. easy.
    + rewrite EM. exact El.
Qed.
Lemma assign_paired : (forall n, (exists b, In b bs /\ b_node b = Some n) -> map b_var (filter (of_node n) bs) = mout n) ->
  forall b, In b bs -> paired mout lp bs out b.
Proof.
  intros ORD b I. destruct (assign_value b I) as (n & i & l & N & V & El & Io & LN).
  exists n, i, (map b_valvar (filter (of_node n) bs)), l. repeat split; auto.
  - rewrite map_length. exact LN.
  - intros b' j I' V'. rewrite <- (ORD n) in V' by eauto. rewrite nth_error_map in V' |- *.
    destruct (nth_error (filter (of_node n) bs) j) as [b2|] eqn:E; [|discriminate]. cbn in *. injection V' as V'.
    f_equal. f_equal. apply nth_error_In in E. apply filter_of in E as [E N2].
    apply (in_map_inj b_var bs); auto. apply assign_bound.
Qed.
End A.

(** ** Order of the values *)
Lemma collect_app : forall realized b1 b2 rv no nv,
  collect realized (b1 ++ b2) rv no nv =
  match collect realized b1 rv no nv with Ok (rv, no, nv) => collect realized b2 rv no nv | Err e => Err e end.
Proof.
  intros realized. induction b1 as [|b b1 IH]; intros b2 rv no nv; cbn; [easy|].
  destruct (b_node b); [|easy]. apply IH.
Qed.
Lemma dget_app_last : forall A (d : list (nat * A)) n a, ~ In n (map fst d) -> dget (d ++ [(n, a)]) n = Some a.
Proof.
  induction d as [|[k a0] d IH]; intros n a H; cbn in *; [rewrite Nat.eqb_refl; easy|].
  destruct (n =? k) eqn:E; [apply Nat.eqb_eq in E; subst; tauto|]. apply IH. tauto.
Qed.
Lemma dset_app_last : forall A (d : list (nat * A)) n a a', ~ In n (map fst d) -> dset (d ++ [(n, a)]) n a' = d ++ [(n, a')].
Proof.
  induction d as [|[k a0] d IH]; intros n a a' H; cbn in *; [rewrite Nat.eqb_refl; easy|].
  destruct (n =? k) eqn:E; [apply Nat.eqb_eq in E; subst; tauto|]. rewrite IH; tauto.
Qed.
Lemma collect_block : forall realized n l rv no d ps, ~ In n (map fst d) -> (forall b, In b l -> b_node b = Some n) ->
  exists rv' no', collect realized l rv no (d ++ [(n, ps)]) = Ok (rv', no', d ++ [(n, ps ++ map bpair l)]).
Proof.
  intros realized n. induction l as [|b l IH]; intros rv no d ps F A; cbn.
  - exists rv, no. rewrite app_nil_r. easy.
  - rewrite (A b) by (cbn; auto). unfold dpush. rewrite dget_app_last, dset_app_last by auto.
    destruct (IH (if mem (b_old b) realized then b_var b :: rv else rv) (dset no (b_var b) (b_old b)) d (ps ++ [bpair b])) as (rv' & no' & E); auto.
    + intros b' I. apply A. cbn. auto.
    + exists rv', no'. unfold bpair in *. rewrite E. rewrite <- app_assoc. easy.
Qed.
Lemma collect_blocks : forall realized block ns rv no d, NoDup (map fst d ++ ns) ->
  (forall n, In n ns -> block n <> []) -> (forall n b, In n ns -> In b (block n) -> b_node b = Some n) ->
  exists rv' no', collect realized (flat_map block ns) rv no d = Ok (rv', no', d ++ map (fun n => (n, map bpair (block n))) ns).
Proof.
  intros realized block. induction ns as [|n ns IH]; intros rv no d ND NE A; cbn.
  - exists rv, no. rewrite app_nil_r. easy.
  - rewrite collect_app.
    assert (Fd : ~ In n (map fst d)). { apply NoDup_remove_2 in ND. intros I. apply ND, in_or_app. auto. }
    destruct (block n) as [|b l] eqn:B; [destruct (NE n); cbn; auto|].
    cbn [collect]. rewrite (A n b) by (rewrite ?B; cbn; auto).
    assert (P : dpush d n (b_valvar b, b_val b) = d ++ [(n, [bpair b])]).
    { unfold dpush. rewrite (proj2 (dget_none _ d n) Fd). apply dset_fresh, Fd. }
    rewrite P.
    destruct (collect_block realized n l (if mem (b_old b) realized then b_var b :: rv else rv) (dset no (b_var b) (b_old b)) d [bpair b]) as (rv1 & no1 & ->); auto.
    { intros b' I. apply A; [cbn; auto|rewrite B; cbn; auto]. }
    destruct (IH rv1 no1 (d ++ [(n, [bpair b] ++ map bpair l)])) as (rv2 & no2 & ->).
    + rewrite map_app, <- app_assoc. exact ND.
    + intros m I. apply NE. cbn. auto.
    + intros m b' I J. apply A; [cbn|]; auto.
    + exists rv2, no2. rewrite <- app_assoc. easy.
Qed.
Lemma value_order : forall realized block ns out vv,
  let bs := flat_map block ns in
  NoDup ns -> (forall n, In n ns -> block n <> [] /\ map b_var (block n) = mout n /\ forall b, In b (block n) -> b_node b = Some n) ->
  well_owned mout bs -> one_each mout lp -> NoDup (map b_old bs) ->
  assign mout lp realized bs = Ok (out, vv) -> vv = unrealized_values realized bs.
Proof.
  intros realized block ns out vv bs NDn BL WO OE ND OK.
  assert (NDv : NoDup (map b_var bs)) by apply (assign_bound realized bs out vv WO OE OK).
  unfold assign in OK.
  destruct (collect_blocks realized block ns [] [] []) as (rv & no & C); cbn; auto.
  { intros n I. apply BL, I. } { intros n b I J. apply (BL n I), J. }
  fold bs in C. rewrite C in OK. cbn [app] in OK.
  destruct (collect_spec _ _ _ _ _ _ _ _ C) as (_ & C1 & _).
  destruct (outer_spec OE _ _ _ _ _ _ _ OK) as (_ & _ & ->). cbn [app].
  assert (R : forall b, In b bs -> mem (b_var b) rv = if in_dec Nat.eq_dec (b_old b) realized then true else false).
  { intros b I. destruct (in_dec Nat.eq_dec (b_old b) realized) as [J|J].
    - apply mem_In, C1. right. eauto.
    - destruct (mem (b_var b) rv) eqn:M; [|easy]. apply mem_In, C1 in M as [[]|(b' & I' & E & J')].
      destruct J. rewrite (in_map_inj b_var bs b b'); auto. }
  unfold bases_of, unrealized_values. unfold bs in *. clear -BL R.
  rewrite flat_map_concat_map. rewrite map_map. cbn [fst snd].
  rewrite flat_map_concat_map in *.
  induction ns as [|n ns IH]; [easy|].
  cbn [map concat]. rewrite filter_app, map_app. f_equal.
  - destruct (BL n) as (_ & <- & _); [cbn; auto|].
    assert (Q : forall b, In b (block n) -> mem (b_var b) rv = if in_dec Nat.eq_dec (b_old b) realized then true else false).
    { intros b I. apply R. cbn. apply in_or_app. auto. }
    clear -Q. rewrite map_map. cbn. induction (block n) as [|b l IH]; [easy|]. cbn.
    rewrite (Q b) by (cbn; auto). destruct (in_dec Nat.eq_dec (b_old b) realized); cbn; [|f_equal]; apply IH; intros b' I; apply Q; cbn; auto.
  - apply IH.
    + intros m I. apply BL. cbn. auto.
    + intros b I. apply R. cbn. apply in_or_app. auto.
Qed.

(** ** Failures *)
Lemma assign_err_kind : forall realized bs e, well_owned mout bs -> NoDup (map b_var bs) ->
  (forall b n, In b bs -> b_node b = Some n -> mout n <> [] -> In (b_var b) (mout n)) ->
  assign mout lp realized bs = Err e -> e = DensityNotFound \/ e = ValueError \/ e = AssertionError.
Proof.
  intros realized bs e WO ND MF H. unfold assign in H.
  destruct (collect realized bs [] [] []) as [[[rv no] nv]|e'] eqn:C.
  - destruct (collect_spec _ _ _ _ _ _ _ _ C) as (C0 & C1 & C2 & C3 & C4 & C5).
    specialize (C4 (NoDup_nil _)).
    destruct (outer_err _ _ _ _ _ _ H) as [Q|[Q|[Q|[-> (n & ps & o & I & Ln & Io & G)]]]]; auto.
    exfalso.
    assert (ps = map bpair (filter (of_node n) bs)) as ->.
    { assert (Gn := in_dget _ _ _ _ C4 I). rewrite C3 in Gn. cbn in Gn. destruct (filter (of_node n) bs) eqn:F; [|cbn in Gn; injection Gn as <-; easy].
      cbn in Gn. discriminate. }
    rewrite map_length in Ln.
    assert (IN : incl (map b_var (filter (of_node n) bs)) (mout n)).
    { intros o' J. apply in_map_iff in J as (b & <- & J). apply filter_In in J as [J N]. apply of_node_iff in N.
      apply (MF b n J N). intros Q. rewrite Q in Io. easy. }
    assert (NF : NoDup (map b_var (filter (of_node n) bs))).
    { clear -ND. induction bs as [|b l IH]; [constructor|]. cbn in *. inversion ND as [|? ? N D]; subst.
      destruct (of_node n b); [|auto]. cbn. constructor; [|auto]. intros J. apply N.
      apply in_map_iff in J as (b' & <- & J). apply in_map. apply filter_In in J. easy. }
    apply (NoDup_length_incl NF) in IN; [|rewrite map_length; lia].
    apply IN, in_map_iff in Io as (b & <- & J). apply filter_In in J as [J _].
    destruct (C2 (b_var b)) as [(b' & _ & _ & G')|[Q _]]; [congruence|]. apply (Q b J eq_refl).
  - injection H as <-. left. clear -C. revert C. generalize (@nil nat) as rv, (@nil (nat * nat)) as no, (@nil (nat * list (nat * nat))) as nv.
    induction bs as [|b l IH]; intros rv no nv C; cbn in C; [discriminate|].
    destruct (b_node b); [eauto|congruence].
Qed.
Lemma assign_no_owner : forall realized bs, no_owner bs -> assign mout lp realized bs = Err DensityNotFound.
Proof. intros realized bs H. unfold assign. rewrite collect_none; auto. Qed.
(** the loops succeed when the bindings are exactly the measurable outputs of their nodes *)
Lemma outer_total : forall rvars no nv lv vv,
  (forall n ps, In (n, ps) nv -> mout n <> [] /\ length ps = length (mout n) /\ forall o, In o (mout n) -> dget no o <> None) ->
  exists r, outer mout lp rvars no nv lv vv = Ok r.
Proof.
  intros rvars no. induction nv as [|[n ps] nv IH]; intros lv vv H; cbn [outer]; cbv zeta; [eauto|].
  destruct (H n ps) as (H1 & H2 & H3); [cbn; auto|]. destruct (mout n) as [|o0 os] eqn:M; [easy|]. rewrite <- M in *.
  rewrite H2, Nat.ltb_irrefl, Nat.eqb_refl. cbn [negb].
  destruct (inner rvars no (lp n (map fst ps)) (mout n) (map snd ps) lv vv) as [[lv1 vv1]|e] eqn:I.
  - apply IH. intros. apply H. cbn. auto.
  - apply inner_err in I as [_ [o [A B]]]. destruct (H3 o A B).
Qed.
Lemma collect_total : forall realized bs rv no nv, (forall b, In b bs -> b_node b <> None) -> exists r, collect realized bs rv no nv = Ok r.
Proof.
  intros realized. induction bs as [|b bs IH]; intros rv no nv H; cbn; [eauto|].
  destruct (b_node b) eqn:E; [|destruct (H b (or_introl eq_refl) E)]. apply IH. intros. apply H. cbn. auto.
Qed.
Lemma assign_total : forall realized bs, (forall n, NoDup (mout n)) -> NoDup (map b_var bs) ->
  (forall b, In b bs -> exists n, b_node b = Some n /\ In (b_var b) (mout n) /\
     forall o, In o (mout n) -> exists b', In b' bs /\ b_var b' = o /\ b_node b' = Some n) ->
  exists out vv, assign mout lp realized bs = Ok (out, vv).
Proof.
  intros realized bs DM ND H. unfold assign.
  destruct (collect_total realized bs [] [] []) as ([[rv no] nv] & C).
  { intros b I. destruct (H b I) as (n & E & _). congruence. }
  rewrite C. destruct (collect_spec _ _ _ _ _ _ _ _ C) as (C0 & C1 & C2 & C3 & C4 & C5). specialize (C4 (NoDup_nil _)).
  destruct (outer_total rv no nv [] []) as ([out vv] & O); [|eauto].
  intros n ps I. assert (Gn := in_dget _ _ _ _ C4 I). rewrite C3 in Gn. cbn in Gn.
  assert (ps = map bpair (filter (of_node n) bs) /\ filter (of_node n) bs <> []) as (-> & NE).
  { destruct (filter (of_node n) bs) eqn:F; [discriminate|]. injection Gn as <-. easy. }
  assert (FI : forall b, In b (filter (of_node n) bs) <-> In b bs /\ b_node b = Some n).
  { intros b. rewrite filter_In, of_node_iff. easy. }
  destruct (filter (of_node n) bs) as [|b0 l] eqn:F; [easy|].
  destruct (proj1 (FI b0) (or_introl eq_refl)) as (I0 & N0). destruct (H b0 I0) as (n' & E & M0 & CV). rewrite N0 in E. injection E as <-.
  split; [intros Q; rewrite Q in M0; easy|]. rewrite <- F in *. split.
  - rewrite map_length. apply Nat.le_antisymm.
    + rewrite <- (map_length b_var). apply NoDup_incl_length.
      * clear -ND. induction bs as [|b l IH]; [constructor|]. cbn in *. inversion ND as [|? ? N D]; subst.
        destruct (of_node n b); [|auto]. cbn. constructor; [|auto]. intros J. apply N.
        apply in_map_iff in J as (b' & <- & J). apply in_map. apply filter_In in J. easy.
      * intros o J. apply in_map_iff in J as (b & <- & J). apply FI in J as (J & Nb). destruct (H b J) as (n' & E & Mb & _).
        rewrite Nb in E. injection E as <-. exact Mb.
    + rewrite <- (map_length b_var). apply NoDup_incl_length; [apply DM|].
      intros o J. destruct (CV o J) as (b & Ib & <- & Nb). apply in_map, FI. auto.
  - intros o J. destruct (CV o J) as (b & Ib & <- & Nb). destruct (C2 (b_var b)) as [(b' & _ & _ & G')|[Q _]]; [congruence|].
    destruct (Q b Ib eq_refl).
Qed.
End Loops.

(** ** C38 *)
Lemma xadd_comm : forall x y, xadd x y = xadd y x.
Proof. intros [a| | |] [b| | |]; cbn; auto. rewrite Rplus_comm. easy. Qed.
Lemma xadd_assoc : forall x y z, xadd x (xadd y z) = xadd (xadd x y) z.
Proof. intros [a| | |] [b| | |] [c| | |]; cbn; auto. rewrite Rplus_assoc. easy. Qed.
Lemma xadd_0_l : forall x, xadd (Fin 0) x = x.
Proof. intros [a| | |]; cbn; auto. rewrite Rplus_0_l. easy. Qed.
Lemma xsum_app : forall l m, xsum (l ++ m) = xadd (xsum l) (xsum m).
Proof.
  unfold xsum. induction l as [|x l IH]; intros m; cbn [app fold_right]; [rewrite xadd_0_l; easy|]. rewrite IH, xadd_assoc. easy.
Qed.
Lemma xsum_concat : forall ls, xsum (map xsum ls) = xsum (concat ls).
Proof.
  induction ls as [|l ls IH]; [easy|]. cbn [map concat]. rewrite xsum_app, <- IH. easy.
Qed.
Lemma xsum_perm : forall l m, Permutation l m -> xsum l = xsum m.
Proof.
  intros l m H. unfold xsum. induction H; cbn; try congruence.
  rewrite !xadd_assoc, (xadd_comm y x). easy.
Qed.
Lemma xsum_fin : forall rs, xsum (map Fin rs) = Fin (fold_right Rplus 0%R rs).
Proof. unfold xsum. induction rs as [|r rs IH]; cbn; [easy|]. rewrite IH. easy. Qed.
Lemma joint_concat : forall f fs, joint_reduce (f :: fs) = Some (xsum (concat (f :: fs))).
Proof.
  intros f [|g fs]; unfold joint_reduce; [cbn [concat]; rewrite app_nil_r; easy|]. rewrite xsum_concat. easy.
Qed.
Lemma xsum_ninf : forall l, In NInf l -> ~ In NaN l -> ~ In PInf l -> xsum l = NInf.
Proof.
  assert (Q : forall l, ~ In NaN l -> ~ In PInf l -> xsum l = NInf \/ exists r, xsum l = Fin r).
  { induction l as [|x l IH]; intros A B; [right; exists 0%R; easy|].
    destruct IH as [E|[r E]]; [firstorder|firstorder| |]; cbn; fold (xsum l); rewrite E;
      destruct x; cbn in *; try tauto; eauto. }
  induction l as [|x l IH]; intros I A B; [easy|]. cbn. fold (xsum l).
  destruct I as [->|I].
  - destruct (Q l) as [E|[r E]]; [firstorder|firstorder| |]; rewrite E; easy.
  - rewrite IH; [|auto|firstorder|firstorder]. destruct x; cbn in *; tauto.
Qed.
Lemma xsum_nan : forall l, In NaN l \/ (In PInf l /\ In NInf l) <-> xsum l = NaN.
Proof.
  assert (Z : forall l, (xsum l = NaN <-> In NaN l \/ (In PInf l /\ In NInf l)) /\
                        (xsum l = PInf <-> ~ In NaN l /\ In PInf l /\ ~ In NInf l) /\
                        (xsum l = NInf <-> ~ In NaN l /\ ~ In PInf l /\ In NInf l)).
  { induction l as [|x l (H1 & H2 & H3)]; [cbn; repeat split; intros; try discriminate; tauto|].
    cbn. fold (xsum l). destruct x, (xsum l) eqn:E; cbn; repeat split; intros; try discriminate;
      repeat match goal with H : _ <-> _ |- _ => destruct H end; try tauto;
      repeat match goal with H : ?x = ?x -> _ |- _ => specialize (H eq_refl) end;
      try (intuition (try discriminate); tauto). }
  intros l. rewrite (proj1 (Z l)). tauto.
Qed.

(** ** The forms used in PropJoint *)
Lemma keys_lemma : forall L mout (lp : nat -> list nat -> list L) requested vvs realized bs out vv,
  length vvs = length requested ->
  map b_old bs = map fst (rv_values requested vvs realized) ->
  well_owned mout bs -> one_each mout lp ->
  assign mout lp (map fst realized) bs = Ok (out, vv) ->
  keys_exact (map fst out) requested (map fst realized).
Proof.
  intros L mout lp rq vvs re bs out vv H1 H2 H3 H4 H5. split.
  - eapply assign_nodup; eauto.
  - intros k. rewrite (assign_keys mout lp (map fst re) bs out vv H3 H4 H5 k), H2. apply rv_values_keys, H1.
Qed.
Lemma no_omission_lemma : forall L mout (lp : nat -> list nat -> list L) realized bs out vv,
  well_owned mout bs -> one_each mout lp ->
  assign mout lp realized bs = Ok (out, vv) ->
  ~ no_measurable_form mout bs /\ ~ bound_twice bs /\ forall b, In b bs -> In (b_old b) (map fst out).
Proof.
  intros L mout lp re bs out vv H1 H2 H3.
  destruct (assign_bound mout lp re bs out vv H1 H2 H3) as [A B].
  split; [|split].
  - intros (b & I & Q). destruct (B b I) as (n & N & M). apply (Q n N M).
  - intros Q. apply Q, A.
  - intros b I. eapply assign_keys; eauto. apply in_map, I.
Qed.
Lemma kind_lemma : forall L mout (lp : nat -> list nat -> list L) realized bs e,
  well_owned mout bs -> ~ bound_twice bs ->
  (forall b n, In b bs -> b_node b = Some n -> mout n <> [] -> In (b_var b) (mout n)) ->
  assign mout lp realized bs = Err e -> e = DensityNotFound \/ e = ValueError \/ e = AssertionError.
Proof.
  intros L mout lp re bs e H1 H2 H3 H4.
  destruct (ListDec.NoDup_dec Nat.eq_dec (map b_var bs)) as [N|N]; [|destruct (H2 N)].
  eapply assign_err_kind; eauto.
Qed.
Lemma joint_real : forall f fs rs, concat (f :: fs) = map Fin rs -> joint_reduce (f :: fs) = Some (Fin (fold_right Rplus 0%R rs)).
Proof. intros f fs rs H. rewrite joint_concat, H, xsum_fin. easy. Qed.
Lemma joint_ninf : forall f fs, In NInf (concat (f :: fs)) -> ~ In NaN (concat (f :: fs)) -> ~ In PInf (concat (f :: fs)) ->
  joint_reduce (f :: fs) = Some NInf.
Proof. intros f fs A B C. rewrite joint_concat, xsum_ninf; auto. Qed.
Lemma joint_nan : forall f fs, joint_reduce (f :: fs) = Some NaN <->
  In NaN (concat (f :: fs)) \/ (In PInf (concat (f :: fs)) /\ In NInf (concat (f :: fs))).
Proof. intros f fs. rewrite joint_concat, xsum_nan. split; congruence. Qed.
Lemma joint_order : forall fs gs, Permutation (concat fs) (concat gs) -> fs <> [] -> gs <> [] -> joint_reduce fs = joint_reduce gs.
Proof.
  intros [|f fs] [|g gs] H A B; try congruence. rewrite !joint_concat, (xsum_perm _ _ H). easy.
Qed.
