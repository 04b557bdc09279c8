(** From the measurable rewrites through the transforms to the end. *)
From Coq Require Import List Arith Bool Lia.
From Verif Require Import ModelJoint ModelUndo SpecUndo LemUndo1 LemUndo2 LemUndo3 LemUndo4.
Import ListNotations.
Open Scope nat_scope.

Section Settle.
Context {A : Type}.
Variable env : nat -> A.
Variable sem : uop -> list A -> option A.
Variable s0 : ustate.
Variable rho : nat -> nat.
Notation h0 := (u_heap s0).
Notation n0 := (length (u_heap s0)).
Hypothesis P0 : prepared env s0.
Hypothesis R0 : forall v a, In a (node_args h0 v) -> rho a < rho v.
Hypothesis R1 : forall v, node_op h0 v = UIn -> rho v = 0.
Let M0 (v : nat) : option A := values env sem (S (rho v)) h0 v.
Variables (olds : list (nat * nat)) (s1 : ustate) (M1 : nat -> option A) (tau : nat -> nat).
Hypothesis I1 : converted env sem s0 M0 olds s1 M1 tau.
Notation h1 := (u_heap s1).
Notation len1 := (length (u_heap s1)).
Hypothesis Rv : revertible env sem s0 s1.
Notation means := (umeans env sem).

Lemma M0_meaning v a : v < n0 -> (M0 v = Some a <-> means h0 v a).
Proof.
  intros Lv. apply (assignment_meaning env sem M0 h0 rho (fun v => v < n0)); try easy.
  - intros u b Lu Ib. apply sargs_incl in Ib. split; [eapply p_bound; eauto|auto].
  - intros u _. apply (p_in _ _ P0).
  - intros u _ Eu. destruct (p_val _ _ P0 u Eu) as (_ & r & x & E & _). eauto.
  - intros u _ Eu. now apply (p_plain _ _ P0) in Eu.
  - intros u _. now apply values_eqn.
Qed.
Lemma below_rho v a : below h0 v a -> rho a < rho v.
Proof. induction 1 as [v a _ Ia|v a w _ Ia _ IH]; [auto|]. specialize (R0 v a Ia). lia. Qed.

(** stand-ins that need not compute the old value *)
Definition bad (n : nat) : Prop := exists r, In (r, n) (u_conv s1) /\ forall r' n', In (r', n') (u_conv s1) -> ~ below h0 r' r.
Definition rk1 (v : nat) : nat := 3 * rho (tau v).
Lemma below_rk v a : below h0 (tau v) (tau a) -> rk1 a < rk1 v.
Proof. intros B. apply below_rho in B. unfold rk1. lia. Qed.
Lemma s1_lt v a : In a (node_args h1 v) -> v < len1.
Proof. apply node_in_lt. Qed.
Lemma val_n0 v : node_op h1 v = UVal -> v < n0.
Proof.
  intros E. assert (L : v < len1) by (apply node_op_lt; congruence). destruct (Nat.lt_ge_cases v n0) as [?|G]; [easy|].
  destruct (ci_new _ _ _ _ _ _ _ _ I1 v) as (k & E'); [easy|congruence].
Qed.
Lemma s1_rank v a : In a (sargs h1 v) -> rk1 a < rk1 v.
Proof.
  intros Ia. destruct (node_op h1 v) eqn:Ev.
  2:{ destruct (ci_val _ _ _ _ _ _ _ _ I1 v Ev) as (r0 & r & x & E0 & E1 & _). unfold sargs in Ia. rewrite Ev, E1 in Ia.
      destruct Ia as [<-|[]]. unfold rk1. pose proof (val_n0 v Ev). assert (x < n0) by (apply (p_bound _ _ P0 v); rewrite E0; cbn; auto).
      rewrite !(ci_tau0 _ _ _ _ _ _ _ _ I1) by easy. assert (rho x < rho v) by (apply R0; rewrite E0; cbn; auto). lia. }
  all: apply sargs_incl in Ia; apply below_rk, (ci_below _ _ _ _ _ _ _ _ I1); [congruence|easy].
Qed.
Lemma s1_in v : node_op h1 v = UIn -> node_args h1 v = [].
Proof.
  intros E. destruct (node_args h1 v) as [|a l] eqn:Ea; [easy|]. exfalso.
  assert (L : v < len1) by (apply (node_in_lt h1 v a); rewrite Ea; now left).
  destruct (Nat.lt_ge_cases v n0) as [L0|G].
  - rewrite (ci_op _ _ _ _ _ _ _ _ I1) in E by easy. pose proof (ci_args _ _ _ _ _ _ _ _ I1 v L0 ltac:(congruence)) as Q.
    rewrite Ea, (p_in _ _ P0 v E) in Q. easy.
  - destruct (ci_new _ _ _ _ _ _ _ _ I1 v) as (k & E'); [easy|congruence].
Qed.
Lemma s1_plain v : node_op h1 v <> UTransd.
Proof.
  intros E. assert (L : v < len1) by (apply node_op_lt; congruence). destruct (Nat.lt_ge_cases v n0) as [L0|G].
  - rewrite (ci_op _ _ _ _ _ _ _ _ I1) in E by easy. now apply (p_plain _ _ P0) in E.
  - destruct (ci_new _ _ _ _ _ _ _ _ I1 v) as (k & E'); [easy|congruence].
Qed.
Lemma conv_fst r n n' : In (r, n) (u_conv s1) -> In (r, n') (u_conv s1) -> n = n'.
Proof.
  pose proof (ci_keys _ _ _ _ _ _ _ _ I1) as K. revert K. induction (u_conv s1) as [|[a b] l IH]; cbn; [easy|].
  intros K. inversion K; subst. intros [E|I] [E'|I'].
  - congruence.
  - injection E as -> ->. exfalso. apply H1. apply in_map_iff. exists (r, n'). auto.
  - injection E' as -> ->. exfalso. apply H1. apply in_map_iff. exists (r, n). auto.
  - now apply IH.
Qed.
(** no stand-in that need not compute the old value is met from [v] *)
Definition clean (v : nat) : Prop := v < len1 /\ forall r n, In (r, n) (u_conv s1) -> bad n -> tau v <> r /\ ~ below h0 (tau v) r.
Definition region (k v : nat) : Prop := v < len1 /\ (node_op h1 v = UIn \/ node_op h1 v = UVal \/ clean v /\ rk1 v < k).
Lemma clean_arg v a : clean v -> node_op h1 v <> UVal -> In a (node_args h1 v) -> clean a.
Proof.
  intros (Lv & Cv) Nv Ia. pose proof (ci_below _ _ _ _ _ _ _ _ I1 v a Nv Ia) as B. split; [eapply ci_bound; eauto|].
  intros r n Ip Bn. destruct (Cv r n Ip Bn) as (N1 & N2). split; [intros E; apply N2; now rewrite <- E|].
  intros B'. apply N2. eapply below_trans; eauto.
Qed.
Lemma bad_conv r n : In (r, n) (u_conv s1) -> bad n -> forall r' n', In (r', n') (u_conv s1) -> ~ below h0 r' r.
Proof.
  intros Ip (r2 & Ip2 & Q). assert (r = r2).
  { destruct (ci_conv _ _ _ _ _ _ _ _ I1 _ _ Ip) as (_ & <- & _). now destruct (ci_conv _ _ _ _ _ _ _ _ I1 _ _ Ip2) as (_ & <- & _). }
  now subst.
Qed.
Lemma region_arg k v a : region k v -> In a (sargs h1 v) -> region k a /\ rk1 a < rk1 v.
Proof.
  intros (Lv & D) Ia. split; [|now apply s1_rank]. pose proof (sargs_incl _ _ _ Ia) as Ia'.
  split; [eapply ci_bound; eauto|]. destruct D as [D|[D|(D & Lk)]].
  - rewrite (s1_in v D) in Ia'. easy.
  - destruct (ci_val _ _ _ _ _ _ _ _ I1 v D) as (r0 & r & x & E0 & E1 & _ & _ & _ & Ex & _). unfold sargs in Ia. rewrite D, E1 in Ia.
    destruct Ia as [<-|[]]. now left.
  - destruct (node_op h1 v) eqn:Ev;
      try (right; right; split; [apply (clean_arg v); [easy|congruence|easy]|pose proof (s1_rank v a Ia); lia]).
    destruct (ci_val _ _ _ _ _ _ _ _ I1 v Ev) as (r0 & r & x & E0 & E1 & _ & _ & _ & Ex & _). unfold sargs in Ia. rewrite Ev, E1 in Ia.
    destruct Ia as [<-|[]]. now left.
Qed.
Lemma op_ext (x y : option A) : (forall a, x = Some a <-> y = Some a) -> x = y.
Proof. intros H. destruct x as [a|]; [symmetry; now apply H|]. destruct y as [a|]; [now apply H|easy]. Qed.
(** the new node of a rewrite that computes the old value satisfies its equation *)
Lemma region_eqn : forall k v, region k v -> eqn env sem M1 h1 v.
Proof.
  induction k as [|k IH]; intros v (Lv & D).
  - assert (N : ~ In v (map snd (u_conv s1))).
    { intros Iv. apply in_map_iff in Iv as ([r n] & <- & Ip). destruct (ci_conv _ _ _ _ _ _ _ _ I1 _ _ Ip) as (L & _).
      destruct (ci_new _ _ _ _ _ _ _ _ I1 n) as (k & E); [easy|]. cbn in *. destruct D as [?|[?|(_ & ?)]]; try congruence. lia. }
    now apply (ci_eqn _ _ _ _ _ _ _ _ I1).
  - destruct (in_dec Nat.eq_dec v (map snd (u_conv s1))) as [Iv|Nv]; [|now apply (ci_eqn _ _ _ _ _ _ _ _ I1)].
    apply in_map_iff in Iv as ([r n] & E & Ip). cbn in E. subst n.
    destruct (ci_conv _ _ _ _ _ _ _ _ I1 _ _ Ip) as (Ln & Et & Lr & (kf & Er) & EM).
    destruct (ci_new _ _ _ _ _ _ _ _ I1 v Ln) as (km & En).
    destruct D as [?|[?|(Cv & Lk)]]; try congruence.
    destruct (Nat.lt_ge_cases (rk1 v) k) as [Lk'|Gk]; [apply IH; split; auto|].
    assert (Nb : ~ bad v). { intros B. destruct Cv as (_ & Cv). now destruct (Cv r v Ip B). }
    assert (F : forall a, means h1 r a <-> means h1 v a).
    { destruct (Rv r v Ip) as [F|U]; [easy|]. exfalso. apply Nb. exists r. auto. }
    assert (Er1 : node_op h1 r = UFun kf) by (rewrite (ci_op _ _ _ _ _ _ _ _ I1); easy).
    assert (Lr1 : r < len1) by (apply node_op_lt; congruence).
    assert (Cr : clean r).
    { split; [easy|]. rewrite (ci_tau0 _ _ _ _ _ _ _ _ I1 r Lr), <- Et. apply Cv. }
    assert (Ek : rk1 r = rk1 v) by (unfold rk1; now rewrite Et, (ci_tau0 _ _ _ _ _ _ _ _ I1 r Lr)).
    assert (Er_n : ~ In r (map snd (u_conv s1))).
    { intros Ir. apply in_map_iff in Ir as ([r2 n2] & E & Ip2). cbn in E. subst n2. apply (ci_conv _ _ _ _ _ _ _ _ I1) in Ip2. lia. }
    (* arguments of either are in the region below *)
    assert (RA : forall u, u = r \/ u = v -> forall a, In a (sargs h1 u) -> region k a /\ rk1 a < rk1 u).
    { intros u Eu a Ia. assert (R : region (S k) u).
      { split; [destruct Eu; subst; easy|]. right. right. destruct Eu; subst; split; try easy. lia. }
      destruct (region_arg _ _ _ R Ia) as ((La & Da) & Ra). split; [|easy]. split; [easy|].
      destruct Da as [?|[?|(Ca & _)]]; auto. right. right. split; [easy|]. destruct Eu; subst; lia. }
    assert (G : forall (N : nat -> option A) u, (u = r \/ u = v) -> (forall w, w <> u -> N w = M1 w) ->
              N u = sem_at sem M1 (node_op h1 u) (node_args h1 u) -> forall a, N u = Some a <-> means h1 u a).
    { intros N u Eu EN ENu a.
      assert (Nua : forall w x, region k w -> In x (node_args h1 w) -> In x (sargs h1 w) -> x <> u).
      { intros w x (Lw & Dw) Ix Is ->. destruct Dw as [Dw|[Dw|(Dw & Lw')]].
        - rewrite (s1_in w Dw) in Ix. easy.
        - destruct (ci_val _ _ _ _ _ _ _ _ I1 w Dw) as (r1 & r2 & x & _ & E1 & _ & _ & _ & Ex & _). unfold sargs in Is. rewrite Dw, E1 in Is.
          destruct Is as [<-|[]]. destruct Eu; congruence.
        - pose proof (s1_rank w u Is). destruct Eu; subst; lia. }
      apply (assignment_meaning env sem N h1 rk1 (fun w => region k w \/ w = u)); auto.
      - intros w [(? & _)| ->]; [easy|]. destruct Eu; subst; easy.
      - intros w x [Rw| ->] Ix; [destruct (region_arg _ _ _ Rw Ix); auto|]. destruct (RA u Eu x Ix); auto.
      - intros w _. apply s1_in.
      - intros w _ Ew. destruct (ci_val _ _ _ _ _ _ _ _ I1 w Ew) as (r1 & r2 & x & _ & E1 & _). eauto.
      - intros w _ Ew. now apply s1_plain in Ew.
      - intros w Dw. destruct (Nat.eq_dec w u) as [->|Nw].
        + unfold eqn. rewrite ENu.
          replace (value_of env sem N (node_op h1 u) (node_args h1 u) u) with (sem_at sem N (node_op h1 u) (node_args h1 u))
            by (destruct Eu; subst; rewrite ?Er1, ?En; easy).
          apply sem_at_ext. apply map_ext_in. intros x Ix. symmetry. apply EN. intros ->.
          assert (Is : In u (sargs h1 u)) by (unfold sargs; destruct Eu; subst; rewrite ?Er1, ?En; easy).
          pose proof (s1_rank _ _ Is). lia.
        + destruct Dw as [Rw|?]; [|easy]. pose proof (IH w Rw) as Q. unfold eqn in *. rewrite EN by easy. rewrite Q.
          destruct (node_op h1 w) eqn:Ew; cbn; try easy.
          * destruct (ci_val _ _ _ _ _ _ _ _ I1 w Ew) as (r1 & r2 & x & _ & E1 & _). rewrite E1. symmetry. apply EN.
            apply (Nua w); [easy|rewrite E1; cbn; auto|unfold sargs; rewrite Ew, E1; now left].
          * apply sem_at_ext, map_ext_in. intros x Ix. symmetry. apply EN. apply (Nua w); try easy. unfold sargs. now rewrite Ew.
          * apply sem_at_ext, map_ext_in. intros x Ix. symmetry. apply EN. apply (Nua w); try easy. unfold sargs. now rewrite Ew.
          * apply sem_at_ext, map_ext_in. intros x Ix. symmetry. apply EN. apply (Nua w); try easy. unfold sargs. now rewrite Ew.
          * exfalso. now apply (s1_plain w). }
    assert (Gr : forall a, M1 r = Some a <-> means h1 r a).
    { apply (G M1 r); auto. pose proof (ci_eqn _ _ _ _ _ _ _ _ I1 r Lr1 Er_n) as Q. unfold eqn in Q. now rewrite Q, Er1. }
    assert (Gn : forall a, sem_at sem M1 (node_op h1 v) (node_args h1 v) = Some a <-> means h1 v a).
    { intros a. rewrite <- (G (fun w => if w =? v then sem_at sem M1 (node_op h1 v) (node_args h1 v) else M1 w) v); auto.
      - cbn. rewrite Nat.eqb_refl. easy.
      - intros w Nw. apply Nat.eqb_neq in Nw. now rewrite Nw.
      - now rewrite Nat.eqb_refl. }
    unfold eqn. rewrite EM. replace (value_of env sem M1 (node_op h1 v) (node_args h1 v) v) with (sem_at sem M1 (node_op h1 v) (node_args h1 v)) by now rewrite En.
    apply op_ext. intros a. rewrite Gr, F, Gn. easy.
Qed.
Lemma recorded_eqn v : v < len1 -> ~ bad v -> eqn env sem M1 h1 v.
Proof.
  intros Lv Nv. destruct (in_dec Nat.eq_dec v (map snd (u_conv s1))) as [Iv|Nc]; [|now apply (ci_eqn _ _ _ _ _ _ _ _ I1)].
  apply (region_eqn (S (rk1 v))). split; [easy|]. right. right. split; [|lia]. split; [easy|].
  apply in_map_iff in Iv as ([r n] & E & Ip). cbn in E. subst n. destruct (ci_conv _ _ _ _ _ _ _ _ I1 _ _ Ip) as (_ & Et & _).
  rewrite Et. intros r2 n2 Ip2 B2. split.
  - intros ->. apply Nv. now rewrite (conv_fst _ _ _ Ip Ip2).
  - apply (bad_conv r2 n2 Ip2 B2 r v Ip).
Qed.
Lemma core_start : core env sem bad s1 M1 rk1.
Proof.
  constructor.
  - apply (ci_bound _ _ _ _ _ _ _ _ I1).
  - apply s1_rank.
  - apply s1_in.
  - intros v Ev. destruct (ci_val _ _ _ _ _ _ _ _ I1 v Ev) as (r0 & r & x & E0 & E1 & Et & _). exists r, x. split; [easy|].
    unfold rk1. rewrite Et, (ci_tau0 _ _ _ _ _ _ _ _ I1 v (val_n0 v Ev)). assert (rho r0 < rho v) by (apply R0; rewrite E0; now left). lia.
  - intros v Ev. now apply s1_plain in Ev.
  - apply recorded_eqn.
Qed.

(** ** Transforms *)
Notation keys := (map fst (u_vals s0)).
Record settled (ts : list (nat * (nat * nat))) (s : ustate) (M : nat -> option A) (rk : nat -> nat) : Prop := {
  st_core : core env sem bad s M rk;
  st_len : len1 <= length (u_heap s);
  st_op1 : forall v, v < len1 -> node_op (u_heap s) v = node_op h1 v;
  st_conv : u_conv s = u_conv s1;
  st_M : forall v, v < len1 -> M v = M1 v;
  st_rk : forall v, v < len1 -> rk v = rk1 v;
  st_anch : forall v a, v < len1 -> node_op (u_heap s) v <> UVal -> In a (node_args (u_heap s) v) ->
            a < len1 /\ below h0 (tau v) (tau a) \/ node_op (u_heap s) a = UVal;
  st_val : forall v, node_op (u_heap s) v = UVal -> exists r y, node_args (u_heap s) v = [r; y] /\
           node_op (u_heap s) r <> UIn /\ node_op (u_heap s) r <> UVal /\ node_op (u_heap s) r <> UTransd /\
           ~ In r (map snd (u_conv s)) /\
           (node_op (u_heap s) y = UIn /\ In y keys /\ (forall u, In y (node_args (u_heap s) u) -> u = v) \/
            node_op (u_heap s) y = UTransd /\ exists o, In o (u_outs s) /\ In y (node_args (u_heap s) o));
  st_outs : forall o, In o (u_outs s) -> node_op (u_heap s) o = UVal;
  st_args : forall v, v < n0 -> node_op h0 v <> UVal -> map M (node_args (u_heap s) v) = map M0 (node_args h0 v);
  st_keys : map fst (u_vals s) = keys;
  st_vals : forall x b, In (x, b) (u_vals s) -> b < length (u_heap s) /\ node_op (u_heap s) b = UIn /\ ~ In b keys /\
            (M x = M b /\ rk b <= rk x \/ forall u, ~ In x (node_args (u_heap s) u));
  st_corr : forall i v, nth_error (u_outs s0) i = Some v -> exists v' r' y, nth_error (u_outs s) i = Some v' /\
            node_args (u_heap s) v' = [r'; y] /\ M v' = M0 v /\ (v' = v \/ n0 <= v') /\
            forall r0 x, node_args h0 v = [r0; x] ->
              (~ In r0 (map fst olds) -> map M (node_args (u_heap s) r') = map M0 (node_args h0 r0) /\
                 (v' = v /\ r' = r0 \/ exists tr k, In (v, (tr, k)) ts /\ node_op (u_heap s) r' = UMeas k)) /\
              (In r0 (map fst olds) -> n0 <= r' /\ exists k, In (r0, k) olds /\ node_op (u_heap s) r' = UMeas k) }.

Lemma key_op x : In x keys -> x < n0 /\ node_op h0 x = UIn.
Proof. intros I. apply in_map_iff in I as ([x' b] & <- & Ip). destruct (p_vals _ _ P0 _ _ Ip) as (? & _ & ? & _). auto. Qed.
Lemma op_h1 v : v < n0 -> node_op h1 v = node_op h0 v.
Proof. apply (ci_op _ _ _ _ _ _ _ _ I1). Qed.

Lemma settled_start : settled [] s1 M1 rk1.
Proof.
  pose proof (ci_len _ _ _ _ _ _ _ _ I1) as Ln.
  constructor; try easy.
  - apply core_start.
  - intros v a Lv Nv Ia. left. split; [eapply ci_bound; eauto|now apply (ci_below _ _ _ _ _ _ _ _ I1)].
  - intros v Ev. destruct (ci_val _ _ _ _ _ _ _ _ I1 v Ev) as (r0 & r & x & E0 & E1 & Et & N1 & N2 & Ex & Nc & Pr & _).
    exists r, x. split; [easy|]. split; [easy|]. split; [easy|]. split; [apply s1_plain|]. split; [easy|]. left. split; [easy|]. split.
    + rewrite op_h1 in Ev by now apply val_n0. destruct (p_val _ _ P0 v Ev) as (_ & r' & x' & E & _ & _ & _ & Ik & _). rewrite E0 in E. now injection E as <- <-.
    + intros u Iu. apply Pr. now right.
  - intros o Io. rewrite (ci_outs _ _ _ _ _ _ _ _ I1) in Io. apply (p_outs _ _ P0) in Io. rewrite op_h1; [easy|]. apply node_op_lt. congruence.
  - apply (ci_args _ _ _ _ _ _ _ _ I1).
  - now rewrite (ci_vals _ _ _ _ _ _ _ _ I1).
  - intros x b Ip. rewrite (ci_vals _ _ _ _ _ _ _ _ I1) in Ip. destruct (p_vals _ _ P0 _ _ Ip) as (Lx & Lb & Ex & Eb & Ev & Nb & _).
    split; [lia|]. split; [now rewrite op_h1|]. split; [easy|]. left. split.
    + rewrite !(ci_M0 _ _ _ _ _ _ _ _ I1) by easy. unfold M0. cbn. rewrite Ex, Eb. cbn. now rewrite Ev.
    + unfold rk1. rewrite !(ci_tau0 _ _ _ _ _ _ _ _ I1) by easy. rewrite (R1 b Eb). lia.
  - intros i v Ei. pose proof (nth_error_In _ _ Ei) as Iv. pose proof (p_outs _ _ P0 v Iv) as Ev. assert (Lv : v < n0) by (apply node_op_lt; congruence).
    rewrite <- op_h1 in Ev by easy. destruct (ci_val _ _ _ _ _ _ _ _ I1 v Ev) as (r0 & r & x & E0 & E1 & Et & N1 & N2 & Ex & Nc & Pr & Old & Conv).
    exists v, r, x. rewrite (ci_outs _ _ _ _ _ _ _ _ I1). split; [easy|]. split; [easy|]. split; [now apply (ci_M0 _ _ _ _ _ _ _ _ I1)|]. split; [now left|].
    intros r0' x' E0'. rewrite E0 in E0'. injection E0' as <- <-. split; [intros No|exact Conv]. rewrite (Old No). split; [|now left].
    assert (Lr : r0 < n0) by (apply (p_bound _ _ P0 v); rewrite E0; now left).
    apply (ci_args _ _ _ _ _ _ _ _ I1); [easy|]. rewrite <- op_h1 by easy. now rewrite <- (Old No).
Qed.

Section Transform.
Variables (ts : list (nat * (nat * nat))) (s : ustate) (M : nat -> option A) (rk : nat -> nat) (v tr k : nat).
Hypothesis S : settled ts s M rk.
Hypothesis VT : valid_transform env sem s0 s (v, (tr, k)).
Notation h := (u_heap s).
Notation b := (length (u_heap s)).

Lemma settled_step : exists M' rk', settled (ts ++ [(v, (tr, k))]) (utransform s (v, (tr, k))) M' rk'.
Proof.
  destruct VT as (r & x & xs & Lv & Ov & Ev0 & Ea0 & Ea & Fx & Eb).
  pose proof (st_outs _ _ _ _ S v Ov) as Ev.
  pose proof (st_len _ _ _ _ S) as Lb1. pose proof (ci_len _ _ _ _ _ _ _ _ I1) as Ln.
  pose proof (st_core _ _ _ _ S) as K.
  pose proof (co_bound _ _ _ _ _ _ K) as Bd.
  destruct (p_val _ _ P0 v Ev0) as (_ & r_ & x_ & E_ & Nr1 & Nr2 & Ex0 & Kx & _). rewrite Ea0 in E_. injection E_ as <- <-.
  assert (Lr : r < n0) by (apply (p_bound _ _ P0 v); rewrite Ea0; now left).
  assert (Lx : x < n0) by (apply (p_bound _ _ P0 v); rewrite Ea0; cbn; auto).
  assert (Ex : node_op h x = UIn) by (rewrite (st_op1 _ _ _ _ S), op_h1 by lia; easy).
  destruct (st_val _ _ _ _ S v Ev) as (r_ & y & E & Nri & Nrv & Nrt & Nrc & D). rewrite Ea in E. injection E as <- <-.
  assert (Px : forall u, In x (node_args h u) -> u = v) by (destruct D as [(_ & _ & P)|(E & _)]; [easy|congruence]). clear D.
  set (ps := node_args h r).
  assert (Vps : ~ In v ps).
  { intros I. unfold ps in I. assert (Is : In v (sargs h r)) by (unfold sargs; destruct (node_op h r); easy).
    pose proof (co_rank _ _ _ _ _ _ K r v Is). destruct (co_val _ _ _ _ _ _ K v Ev) as (r_ & y_ & E & Q). rewrite Ea in E. injection E as <- <-. lia. }
  assert (Xps : ~ In x ps) by (intros I; apply Px in I; subst r; congruence).
  assert (Rkps : forall p, In p ps -> rk p < rk r).
  { intros p I. apply (co_rank _ _ _ _ _ _ K). unfold sargs, ps in *. destruct (node_op h r); easy. }
  assert (Rkv : rk r + 3 <= rk v).
  { destruct (co_val _ _ _ _ _ _ K v Ev) as (r_ & y_ & E & Q). rewrite Ea in E. injection E as <- <-. easy. }
  assert (Mps : map M ps = map Some xs).
  { unfold ps. rewrite (st_args _ _ _ _ S r Lr Nr2). clear - Fx P0 R0. 
    assert (Hb : forall a, In a (node_args h0 r) -> a < n0) by (intros; eapply p_bound; eauto).
    induction Fx as [|a y l l' Hy _ IH]; cbn; [easy|]. f_equal; [apply M0_meaning; [apply Hb; now left|easy]|].
    apply IH. intros; apply Hb; now right. }
  set (H := h ++ [mku UIn []; mku (UMeas k) ps; mku (UBack tr) (b :: ps); mku UTransd [b + 2; b]; mku UVal [b + 1; b + 3]]).
  assert (LH : length H = b + 5) by (unfold H; rewrite app_length; easy).
  assert (Hold : forall u, u < b -> node_op H u = node_op h u /\ node_args H u = node_args h u).
  { intros u L. unfold H. now rewrite node_op_app1, node_args_app1. }
  assert (Hnew : forall i, node_op H (b + i) = node_op [mku UIn []; mku (UMeas k) ps; mku (UBack tr) (b :: ps); mku UTransd [b + 2; b]; mku UVal [b + 1; b + 3]] i /\
                           node_args H (b + i) = node_args [mku UIn []; mku (UMeas k) ps; mku (UBack tr) (b :: ps); mku UTransd [b + 2; b]; mku UVal [b + 1; b + 3]] i).
  { intros i. unfold H. rewrite node_op_app2, node_args_app2 by lia. replace (b + i - b) with i by lia. easy. }
  pose proof (Hnew 0) as H_0. pose proof (Hnew 1) as H_1. pose proof (Hnew 2) as H_2. pose proof (Hnew 3) as H_3. pose proof (Hnew 4) as H_4.
  cbn in H_0, H_1, H_2, H_3, H_4. rewrite Nat.add_0_r in H_0. clear Hnew.
  destruct H_0 as (O0 & A0), H_1 as (O1 & A1), H_2 as (O2 & A2), H_3 as (O3 & A3), H_4 as (O4 & A4).
  assert (Hc : forall u, u < length H -> u < b \/ u = b \/ u = b + 1 \/ u = b + 2 \/ u = b + 3 \/ u = b + 4) by (intros; lia).
  assert (Bps : forall p, In p ps -> p < b) by (intros p I; eapply Bd; eauto).
  assert (HB : forall u a, In a (node_args H u) -> a < b + 4).
  { intros u a I. pose proof (node_in_lt _ _ _ I) as L. destruct (Hc u L) as [L'|[->|[->|[->|[->| ->]]]]].
    - rewrite (proj2 (Hold u L')) in I. apply Bd in I. lia.
    - rewrite A0 in I. easy.
    - rewrite A1 in I. apply Bps in I. lia.
    - rewrite A2 in I. destruct I as [<-|I]; [lia|]. apply Bps in I. lia.
    - rewrite A3 in I. destruct I as [<-|[<-|[]]]; lia.
    - rewrite A4 in I. destruct I as [<-|[<-|[]]]; lia. }
  assert (HX : forall u, In x (node_args H u) -> u = v).
  { intros u I. pose proof (node_in_lt _ _ _ I) as L. destruct (Hc u L) as [L'|[->|[->|[->|[->| ->]]]]].
    - rewrite (proj2 (Hold u L')) in I. auto.
    - rewrite A0 in I. easy.
    - rewrite A1 in I. easy.
    - rewrite A2 in I. destruct I as [I|I]; [lia|easy].
    - rewrite A3 in I. destruct I as [I|[I|[]]]; lia.
    - rewrite A4 in I. destruct I as [I|[I|[]]]; lia. }
  set (sH := with_heap s H). set (sA := ureplace x (b + 3) sH). set (sB := ureplace v (b + 4) sA).
  assert (ET : utransform s (v, (tr, k)) = {| u_heap := u_heap sB; u_outs := u_outs sB; u_conv := u_conv sB; u_vals := dset (u_vals sB) x b |}).
  { unfold utransform. rewrite Ev, Ea. reflexivity. }
  assert (OpB : forall u, node_op (u_heap sB) u = node_op H u) by (intros; unfold sB, sA; rewrite !ureplace_op; easy).
  assert (LB : length (u_heap sB) = b + 5) by (unfold sB, sA; rewrite !ureplace_length; easy).
  (* assignments *)
  set (M' := fun u => if u <? b then M u else if u =? b then Some (env b) else if u =? b + 1 then sem_at sem M (UMeas k) ps else Some (env x)).
  set (rk' := fun u => if u <? b then rk u else if u =? b then 0 else if u =? b + 1 then rk r else if u =? b + 2 then rk r + 1
                       else if u =? b + 3 then rk r + 2 else rk v).
  assert (Mo : forall u, u < b -> M' u = M u) by (intros u L; unfold M'; apply Nat.ltb_lt in L; now rewrite L).
  assert (Ro : forall u, u < b -> rk' u = rk u) by (intros u L; unfold rk'; apply Nat.ltb_lt in L; now rewrite L).
  assert (Ms : M' b = Some (env b) /\ M' (b + 1) = sem_at sem M (UMeas k) ps /\ M' (b + 2) = Some (env x) /\ M' (b + 3) = Some (env x) /\ M' (b + 4) = Some (env x)).
  { unfold M'. repeat match goal with |- context [?a <? ?c] => destruct (Nat.ltb_spec a c); try lia | |- context [?a =? ?c] => destruct (Nat.eqb_spec a c); try lia end. easy. }
  assert (Rs : rk' b = 0 /\ rk' (b + 1) = rk r /\ rk' (b + 2) = rk r + 1 /\ rk' (b + 3) = rk r + 2 /\ rk' (b + 4) = rk v).
  { unfold rk'. repeat match goal with |- context [?a <? ?c] => destruct (Nat.ltb_spec a c); try lia | |- context [?a =? ?c] => destruct (Nat.eqb_spec a c); try lia end. }
  clearbody M' rk'. destruct Ms as (M_0 & M_1 & M_2 & M_3 & M_4), Rs as (R_0 & R_1 & R_2 & R_3 & R_4).
  assert (Mps' : map M' ps = map M ps) by (apply map_ext_in; intros; apply Mo; auto).
  assert (Nbad : forall u, len1 <= u -> ~ bad u).
  { intros u L (r' & Ip & _). apply (ci_conv _ _ _ _ _ _ _ _ I1) in Ip. lia. }
  assert (Mx : M x = Some (env x)).
  { rewrite (co_eqn _ _ _ _ _ _ K x); [now rewrite Ex|lia|]. intros (r' & Ip & _). apply (ci_conv _ _ _ _ _ _ _ _ I1) in Ip. lia. }
  assert (Mv : M v = Some (env x)).
  { rewrite (co_eqn _ _ _ _ _ _ K v); [now rewrite Ev, Ea|lia|]. intros (r' & Ip & _). apply (ci_conv _ _ _ _ _ _ _ _ I1) in Ip. lia. }
  assert (CH : core env sem bad sH M' rk').
  { constructor; cbn.
    - intros u a I. apply HB in I. lia.
    - intros u a I. pose proof (node_in_lt _ _ _ (sargs_incl _ _ _ I)) as L.
      destruct (Hc u L) as [L'|[->|[->|[->|[->| ->]]]]].
      + assert (I' : In a (sargs h u)) by (unfold sargs in *; now rewrite (proj1 (Hold u L')), (proj2 (Hold u L')) in I).
        rewrite !Ro; [now apply (co_rank _ _ _ _ _ _ K)|easy|]. apply sargs_incl in I'. eauto.
      + unfold sargs in I. rewrite O0, A0 in I. easy.
      + unfold sargs in I. rewrite O1, A1 in I. rewrite R_1, Ro by auto. auto.
      + unfold sargs in I. rewrite O2, A2 in I. rewrite R_2. destruct I as [<-|I]; [lia|]. rewrite Ro by auto. specialize (Rkps a I). lia.
      + unfold sargs in I. rewrite O3, A3 in I. destruct I as [<-|[]]. lia.
      + unfold sargs in I. rewrite O4, A4 in I. destruct I as [<-|[]]. lia.
    - intros u Eu. destruct (Nat.lt_ge_cases u (length H)) as [L|G]; [|now apply node_args_out].
      destruct (Hc u L) as [L'|[->|[->|[->|[->| ->]]]]]; try congruence.
      rewrite (proj1 (Hold u L')) in Eu. rewrite (proj2 (Hold u L')). now apply (co_in _ _ _ _ _ _ K).
    - intros u Eu. assert (L : u < length H) by (apply node_op_lt; congruence).
      destruct (Hc u L) as [L'|[->|[->|[->|[->| ->]]]]]; try congruence.
      + rewrite (proj1 (Hold u L')) in Eu. rewrite (proj2 (Hold u L')). destruct (co_val _ _ _ _ _ _ K u Eu) as (r2 & y2 & E2 & Q).
        exists r2, y2. split; [easy|]. rewrite !Ro; try easy. apply (Bd u). rewrite E2. now left.
      + exists (b + 1), (b + 3). split; [easy|]. lia.
    - intros u Eu. assert (L : u < length H) by (apply node_op_lt; congruence).
      destruct (Hc u L) as [L'|[->|[->|[->|[->| ->]]]]]; try congruence; eauto.
      rewrite (proj1 (Hold u L')) in Eu. rewrite (proj2 (Hold u L')). now apply (co_transd _ _ _ _ _ _ K).
    - intros u L Nu. unfold eqn. destruct (Hc u L) as [L'|[->|[->|[->|[->| ->]]]]].
      + rewrite (proj1 (Hold u L')), (proj2 (Hold u L')), Mo by easy. rewrite (co_eqn _ _ _ _ _ _ K u L' Nu).
        apply value_of_ext. apply map_ext_in. intros a I. symmetry. apply Mo. eauto.
      + now rewrite O0.
      + rewrite O1, A1, M_1. cbn. apply sem_at_ext. now rewrite Mps'.
      + rewrite O2, A2, M_2. cbn. unfold sem_at. cbn. rewrite M_0, Mps', Mps.
        replace (all_opt (map Some xs)) with (Some xs); [now rewrite Eb|].
        symmetry. apply all_opt_some. clear. induction xs; cbn; constructor; auto.
      + now rewrite O3, A3, M_3.
      + now rewrite O4, A4, M_4. }
  assert (Nx : x <> v) by congruence. assert (Nrx : r <> x) by congruence. assert (Nrv' : r <> v) by congruence.
  assert (Lvb : v < b) by lia.
  assert (LvH : In v (u_live sH)).
  { apply live_reach. apply r_out; [easy|]. cbn. lia. }
  assert (OA : u_outs sA = u_outs s).
  { unfold sA. rewrite ureplace_outs; [reflexivity|]. cbn. intros I. apply (st_outs _ _ _ _ S) in I. congruence. }
  assert (CA : core env sem bad sA M' rk').
  { apply core_replace; auto.
    - cbn. lia.
    - rewrite Mo by lia. congruence.
    - intros u I. apply sargs_incl in I. apply HX in I. subst u. rewrite R_3, (Ro v Lvb). lia.
    - intros u y Eu EA. cbn in *. assert (u = v) by (apply HX; rewrite EA; now left). subst u.
      rewrite (proj2 (Hold v Lvb)), Ea in EA. congruence. }
  assert (AA : node_args (u_heap sA) v = [r; b + 3]).
  { unfold sA. rewrite ureplace_args_live; [|easy|intros c I; apply HB in I; cbn; lia]. cbn. rewrite (proj2 (Hold v Lvb)), Ea. cbn.
    unfold usub. rewrite Nat.eqb_refl. now rewrite (proj2 (Nat.eqb_neq _ _) Nrx). }
  assert (AAo : forall u, u <> v -> node_args (u_heap sA) u = node_args H u).
  { intros u Nu. unfold sA. rewrite ureplace_unused; [easy|]. cbn. intros I. apply Nu. now apply HX. }
  assert (LA : length (u_heap sA) = b + 5) by (unfold sA; rewrite ureplace_length; easy).
  assert (CB : core env sem bad sB M' rk').
  { apply core_replace; auto.
    - lia.
    - rewrite Mo by easy. congruence.
    - intros u I. rewrite R_4, <- (Ro v Lvb). now apply (co_rank _ _ _ _ _ _ CA).
    - intros u y Eu EA. destruct (co_val _ _ _ _ _ _ CA u Eu) as (r2 & y2 & E2 & Q). rewrite EA in E2. injection E2 as <- <-.
      rewrite R_4, <- (Ro v Lvb). easy. }
  (* inputs after the two replacements *)
  assert (InB : forall u a, In a (node_args (u_heap sB) u) -> In a (node_args H u) /\ a <> x \/ a = b + 3 /\ u = v \/ a = b + 4 /\ In v (node_args H u)).
  { intros u a I. apply ureplace_args_in in I as [I|(-> & I & _)].
    - destruct (Nat.eq_dec u v) as [->|Nu].
      + rewrite AA in I. destruct I as [<-|[<-|[]]]; [left|right; left; auto]. split; [|easy]. rewrite (proj2 (Hold v Lvb)), Ea. now left.
      + rewrite AAo in I by easy. left. split; [easy|]. intros ->. apply Nu. now apply HX.
    - right. right. split; [easy|]. destruct (Nat.eq_dec u v) as [->|Nu]; [|now rewrite AAo in I].
      rewrite AA in I. destruct I as [I|[I|[]]]; [congruence|lia]. }
  assert (EqB : forall u, u <> v -> ~ In v (node_args H u) -> node_args (u_heap sB) u = node_args H u).
  { intros u Nu Nv. unfold sB. rewrite ureplace_unused; [now apply AAo|]. now rewrite AAo. }
  assert (EqBv : node_args (u_heap sB) v = [r; b + 3]).
  { unfold sB. rewrite ureplace_unused; [easy|]. rewrite AA. intros [I|[I|[]]]; [congruence|lia]. }
  assert (EqB4 : node_args (u_heap sB) (b + 4) = [b + 1; b + 3]).
  { rewrite EqB; [easy|lia|]. rewrite A4. intros [I|[I|[]]]; lia. }
  assert (EqB1 : node_args (u_heap sB) (b + 1) = ps).
  { rewrite EqB; [easy|lia|]. now rewrite A1. }
  assert (OB : u_outs sB = map (usub v (b + 4)) (u_outs s)).
  { unfold sB, ureplace. rewrite (proj2 (mem_In v (u_live sA))); [cbn; now rewrite OA|]. apply live_reach. apply r_out; [now rewrite OA|lia]. }
  assert (O4in : In (b + 4) (u_outs sB)).
  { rewrite OB. apply in_map_iff. exists v. split; [|easy]. unfold usub. now rewrite Nat.eqb_refl. }
  assert (VB : u_vals sB = u_vals s) by (unfold sB, sA; now rewrite !ureplace_vals).
  assert (CvB : u_conv sB = u_conv s).
  { unfold sB. rewrite ureplace_conv; [unfold sA; rewrite ureplace_conv; [easy|]|].
    - intros k'. cbn. rewrite (proj1 (Hold x ltac:(lia))), Ex. easy.
    - intros k'. unfold sA. rewrite ureplace_op. cbn. rewrite (proj1 (Hold v Lvb)), Ev. easy. }
  assert (MapB : forall u, map M' (node_args (u_heap sB) u) = map M' (node_args H u)).
  { intros u. unfold sB, sA. rewrite !ureplace_map; [easy| |]; rewrite Mo by lia; congruence. }
  (* other ValuedVariables *)
  assert (OV : forall u r2 y2, u < b -> u <> v -> node_op h u = UVal -> node_args h u = [r2; y2] -> node_op h r2 <> UVal -> node_op h y2 <> UVal ->
               node_args (u_heap sB) u = [r2; y2]).
  { intros u r2 y2 L Nu Eu EA N1 N2. rewrite EqB; [now rewrite (proj2 (Hold u L))|easy|]. rewrite (proj2 (Hold u L)), EA.
    intros [I|[I|[]]]; congruence. }
  rewrite ET. exists M', rk'. constructor; cbn [u_heap u_outs u_conv u_vals].
  - destruct CB. now constructor.
  - lia.
  - intros u L. rewrite OpB, (proj1 (Hold u ltac:(lia))). now apply (st_op1 _ _ _ _ S).
  - rewrite CvB. apply (st_conv _ _ _ _ S).
  - intros u L. rewrite Mo by lia. now apply (st_M _ _ _ _ S).
  - intros u L. rewrite Ro by lia. now apply (st_rk _ _ _ _ S).
  - intros u a L Nu I. rewrite OpB, (proj1 (Hold u ltac:(lia))) in Nu. apply InB in I as [(I & _)|[(-> & ->)|(-> & _)]].
    + rewrite (proj2 (Hold u ltac:(lia))) in I. destruct (st_anch _ _ _ _ S u a L Nu I) as [?|E]; [now left|]. right.
      rewrite OpB, (proj1 (Hold a (Bd u a I))). easy.
    + congruence.
    + right. now rewrite OpB.
  - intros u Eu. rewrite OpB in Eu. assert (L : u < length H) by (apply node_op_lt; congruence). rewrite CvB.
    destruct (Hc u L) as [L'|[->|[->|[->|[->| ->]]]]]; try congruence.
    + destruct (Nat.eq_dec u v) as [->|Nu].
      * exists r, (b + 3). rewrite !OpB, (proj1 (Hold r ltac:(lia))). repeat (split; [easy|]). right. split; [easy|]. exists (b + 4).
        split; [easy|]. rewrite EqB4. cbn. auto.
      * rewrite (proj1 (Hold u L')) in Eu. destruct (st_val _ _ _ _ S u Eu) as (r2 & y2 & E2 & N1 & N2 & N3 & Nc & D).
        assert (L2 : r2 < b /\ y2 < b) by (split; apply (Bd u); rewrite E2; cbn; auto).
        assert (Ny : node_op h y2 <> UVal) by (destruct D as [(E & _)|(E & _)]; congruence).
        exists r2, y2. rewrite (OV u r2 y2 L' Nu Eu E2 N2 Ny). rewrite !OpB, (proj1 (Hold r2 (proj1 L2))), (proj1 (Hold y2 (proj2 L2))).
        repeat (split; [easy|]). destruct D as [(E & Ky & Py)|(E & o & Io & Iy)].
        -- left. split; [easy|]. split; [easy|]. intros w Iw. apply InB in Iw as [(Iw & _)|[(? & _)|(? & _)]]; try lia.
           pose proof (node_in_lt _ _ _ Iw) as Lw. destruct (Hc w Lw) as [Lw'|[->|[->|[->|[->| ->]]]]].
           ++ rewrite (proj2 (Hold w Lw')) in Iw. auto.
           ++ rewrite A0 in Iw. easy.
           ++ rewrite A1 in Iw. unfold ps in Iw. apply Py in Iw. congruence.
           ++ rewrite A2 in Iw. destruct Iw as [?|Iw]; [lia|]. unfold ps in Iw. apply Py in Iw. congruence.
           ++ rewrite A3 in Iw. destruct Iw as [?|[?|[]]]; lia.
           ++ rewrite A4 in Iw. destruct Iw as [?|[?|[]]]; lia.
        -- right. split; [easy|]. pose proof (st_outs _ _ _ _ S o Io) as Eo. destruct (Nat.eq_dec o v) as [->|No].
           { exfalso. rewrite Ea in Iy. destruct Iy as [?|[?|[]]]; congruence. }
           exists o. split.
           { rewrite OB. apply in_map_iff. exists o. split; [|easy]. unfold usub. now rewrite (proj2 (Nat.eqb_neq _ _) No). }
           assert (Lo : o < b) by (apply node_op_lt; congruence).
           destruct (st_val _ _ _ _ S o Eo) as (r3 & y3 & E3 & N1' & N2' & _ & _ & D').
           rewrite (OV o r3 y3 Lo No Eo E3 N2'); [now rewrite <- E3|]. destruct D' as [(? & _)|(? & _)]; congruence.
    + exists (b + 1), (b + 3). rewrite !OpB, O1, O3. split; [easy|]. repeat (split; [easy|]). split.
      { intros I. apply in_map_iff in I as ([r2 n2] & E & Ip). rewrite (st_conv _ _ _ _ S) in Ip. apply (ci_conv _ _ _ _ _ _ _ _ I1) in Ip. cbn in E. lia. }
      right. split; [easy|]. exists (b + 4). split; [easy|]. rewrite EqB4. cbn. auto.
  - intros o Io. rewrite OpB. rewrite OB in Io. apply in_map_iff in Io as (o' & <- & Io). unfold usub. destruct (o' =? v) eqn:Q; [easy|].
    pose proof (st_outs _ _ _ _ S o' Io) as Eo. rewrite (proj1 (Hold o' ltac:(apply node_op_lt; congruence))). easy.
  - intros u L Nu. rewrite MapB, (proj2 (Hold u ltac:(lia))). rewrite <- (st_args _ _ _ _ S u L Nu).
    apply map_ext_in. intros a I. apply Mo. eauto.
  - rewrite VB. rewrite dset_keys; [apply (st_keys _ _ _ _ S)|]. now rewrite (st_keys _ _ _ _ S).
  - intros x2 b2 Ip. rewrite VB in Ip. rewrite LB, OpB. apply dset_in in Ip.
    destruct Ip as [Ip|[= -> ->]].
    + destruct (st_vals _ _ _ _ S x2 b2 Ip) as (L2 & E2 & N2 & D). split; [lia|]. rewrite (proj1 (Hold b2 L2)). split; [easy|]. split; [easy|].
      assert (Kx2 : In x2 keys) by (rewrite <- (st_keys _ _ _ _ S); apply in_map_iff; exists (x2, b2); auto).
      destruct (key_op x2 Kx2) as (Lx2 & _). destruct D as [(EM & ER)|U].
      * left. rewrite !Mo, !Ro by lia. auto.
      * right. intros u I. apply InB in I as [(I & _)|[(? & _)|(? & _)]]; try lia.
        pose proof (node_in_lt _ _ _ I) as Lw. destruct (Hc u Lw) as [Lw'|[->|[->|[->|[->| ->]]]]].
        -- rewrite (proj2 (Hold u Lw')) in I. now apply U in I.
        -- rewrite A0 in I. easy.
        -- rewrite A1 in I. now apply U in I.
        -- rewrite A2 in I. destruct I as [?|I]; [lia|]. now apply U in I.
        -- rewrite A3 in I. destruct I as [?|[?|[]]]; lia.
        -- rewrite A4 in I. destruct I as [?|[?|[]]]; lia.
    + split; [lia|]. split; [easy|]. split; [intros I; apply key_op in I; lia|]. right. intros u I.
      apply InB in I as [(_ & I)|[(? & _)|(? & _)]]; [easy|lia|lia].
  - intros i w Ei. destruct (st_corr _ _ _ _ S i w Ei) as (v' & r' & y & Ei' & EA & EM & Dv & Q).
    assert (Ev' : node_op h v' = UVal) by (apply (st_outs _ _ _ _ S); eapply nth_error_In; eauto).
    assert (Lv' : v' < b) by (apply node_op_lt; congruence).
    assert (EiB : nth_error (u_outs sB) i = Some (usub v (b + 4) v')) by (rewrite OB, nth_error_map, Ei'; easy).
    destruct (Nat.eq_dec v' v) as [->|Nv'].
    + exists (b + 4), (b + 1), (b + 3). split; [rewrite EiB; unfold usub; now rewrite Nat.eqb_refl|]. split; [easy|]. split; [congruence|]. split; [right; lia|].
      intros r0 x0 E0. assert (w = v) by (destruct Dv; [easy|lia]). subst w. destruct (Q r0 x0 E0) as (_ & Q2).
      rewrite Ea0 in E0. injection E0 as <- <-. split; [intros No|].
      * split; [rewrite EqB1, Mps'; now apply (st_args _ _ _ _ S)|]. right. exists tr, k. rewrite OpB. split; [|easy]. apply in_app_iff. right. now left.
      * intros Yes. destruct (Q2 Yes) as (G & _). rewrite Ea in EA. injection EA as <- <-. lia.
    + destruct (st_val _ _ _ _ S v' Ev') as (r3 & y3 & E3 & N1' & N2' & _ & _ & D'). rewrite EA in E3. injection E3 as <- <-.
      assert (L3 : r' < b) by (apply (Bd v'); rewrite EA; now left).
      exists v', r', y. split; [rewrite EiB; unfold usub; now rewrite (proj2 (Nat.eqb_neq _ _) Nv')|].
      split; [apply OV; auto; destruct D' as [(? & _)|(? & _)]; congruence|]. split; [now rewrite Mo|]. split; [easy|].
      intros r0 x0 E0. destruct (Q r0 x0 E0) as (Q1 & Q2). rewrite MapB, (proj2 (Hold r' L3)), OpB, (proj1 (Hold r' L3)).
      split; [|easy]. intros No. destruct (Q1 No) as (Q3 & Q4). split.
      * rewrite <- Q3. apply map_ext_in. intros a I. apply Mo. eauto.
      * destruct Q4 as [?|(tr' & k' & It & Ek)]; [now left|]. right. exists tr', k'. split; [|easy]. apply in_app_iff. now left.
Qed.
End Transform.

Lemma settled_all ps : forall ts s M rk, settled ts s M rk -> valid_transforms env sem s0 s ps ->
  exists M' rk', settled (ts ++ ps) (fold_left utransform ps s) M' rk'.
Proof.
  induction ps as [|[v [tr k]] ps IH]; intros ts s M rk S V; cbn [fold_left].
  - rewrite app_nil_r. eauto.
  - inversion V; subst. destruct (settled_step ts s M rk v tr k S H2) as (M2 & rk2 & S2).
    destruct (IH _ _ _ _ S2 H3) as (M3 & rk3 & S3). exists M3, rk3. now rewrite <- app_assoc in S3.
Qed.

(** ** The end *)
Section Final.
Variables (ts : list (nat * (nat * nat))) (s : ustate) (M : nat -> option A) (rk : nat -> nat).
Hypothesis S : settled ts s M rk.
Notation h := (u_heap s).
Notation l := (new_to_old s).
Notation kp := (kept s l).
Definition anchored (u : nat) : Prop := u < len1 /\ node_op h u <> UVal /\
  exists r n, In (r, n) (u_conv s1) /\ (tau u = r \/ below h0 r (tau u)).
Definition cls (u : nat) : Prop := u < length h /\ (kp u \/ node_op h u = UIn \/ node_op h u = UVal \/ anchored u).

Lemma fst_l a : In a (map fst l) <-> In a (map snd (u_conv s1)) \/ In a keys.
Proof.
  unfold new_to_old. rewrite map_app, map_map, in_app_iff, (st_conv _ _ _ _ S), (st_keys _ _ _ _ S). cbn. easy.
Qed.
Lemma rec_op n : In n (map snd (u_conv s1)) -> (exists k, node_op h n = UMeas k) /\ n < len1 /\ exists r, In (r, n) (u_conv s1) /\ tau n = r.
Proof.
  intros I. apply in_map_iff in I as ([r n'] & E & Ip). cbn in E. subst n'. destruct (ci_conv _ _ _ _ _ _ _ _ I1 _ _ Ip) as (L & Et & _).
  split; [|split; [lia|eauto]]. rewrite (st_op1 _ _ _ _ S) by lia. now apply (ci_new _ _ _ _ _ _ _ _ I1).
Qed.
Lemma key_op' x : In x keys -> node_op h x = UIn /\ x < n0.
Proof.
  intros I. destruct (key_op x I) as (L & E). pose proof (ci_len _ _ _ _ _ _ _ _ I1). rewrite (st_op1 _ _ _ _ S), op_h1 by lia. auto.
Qed.
Lemma bad_rec n : bad n -> In n (map snd (u_conv s1)).
Proof. intros (r & Ip & _). apply in_map_iff. exists (r, n). auto. Qed.
Lemma kept_lt u : kp u -> u < length h.
Proof. induction 1; [easy|]. eapply (co_bound _ _ _ _ _ _ (st_core _ _ _ _ S)); eauto. Qed.
Lemma rec_cls n : In n (map snd (u_conv s1)) -> cls n.
Proof.
  intros I. destruct (rec_op n I) as ((k & E) & L & r & Ip & Et). pose proof (st_len _ _ _ _ S). split; [lia|]. right. right. right.
  split; [easy|]. split; [congruence|]. eauto.
Qed.
Lemma cls_arg u a : cls u -> In a (sargs h u) -> cls a.
Proof.
  intros (Lu & D) Ia. pose proof (sargs_incl _ _ _ Ia) as Ia'. pose proof (co_bound _ _ _ _ _ _ (st_core _ _ _ _ S) u a Ia') as La.
  destruct D as [D|[D|[D|(L1 & Nu & r & n & Ip & Q)]]].
  - destruct (in_dec Nat.eq_dec a (map fst l)) as [I|N].
    + apply fst_l in I as [I|I]; [now apply rec_cls|]. split; [easy|]. right. left. now apply key_op'.
    + split; [easy|]. left. eapply k_arg; eauto.
  - rewrite (co_in _ _ _ _ _ _ (st_core _ _ _ _ S) u D) in Ia'. easy.
  - destruct (st_val _ _ _ _ S u D) as (r & y & E & _ & _ & _ & _ & Q). unfold sargs in Ia. rewrite D, E in Ia. destruct Ia as [<-|[]].
    split; [easy|]. destruct Q as [(Ey & _)|(Ey & o & Io & Iy)]; [auto|]. left. eapply k_arg; [apply k_out; [exact Io|]|exact Iy|].
    + apply node_op_lt. rewrite (st_outs _ _ _ _ S o Io). easy.
    + intros I. apply fst_l in I as [I|I]; [apply rec_op in I as ((k & ?) & _); congruence|apply key_op' in I; intuition congruence].
  - split; [easy|]. right. destruct (st_anch _ _ _ _ S u a L1 Nu Ia') as [(La1 & B)|E]; [|auto].
    destruct (node_op h a) eqn:Ea; auto; right; right; (split; [easy|]; split; [congruence|]; exists r, n; split; [easy|]; right;
      destruct Q as [<-|Q]; [easy|eapply below_trans; eauto]).
Qed.
Lemma cls_bad u a : cls u -> In a (sargs h u) -> bad a -> kp u.
Proof.
  intros (Lu & D) Ia Ba. pose proof (sargs_incl _ _ _ Ia) as Ia'. destruct (rec_op a (bad_rec a Ba)) as ((k & Ea) & La & ra & Ipa & Eta).
  destruct D as [D|[D|[D|(L1 & Nu & r & n & Ip & Q)]]]; [easy| | |].
  - rewrite (co_in _ _ _ _ _ _ (st_core _ _ _ _ S) u D) in Ia'. easy.
  - destruct (st_val _ _ _ _ S u D) as (r & y & E & _ & _ & _ & _ & Q). unfold sargs in Ia. rewrite D, E in Ia. destruct Ia as [<-|[]].
    destruct Q as [(Ey & _)|(Ey & _)]; congruence.
  - exfalso. destruct (st_anch _ _ _ _ S u a L1 Nu Ia') as [(La1 & B)|E]; [|congruence]. rewrite Eta in B.
    apply (bad_conv ra a Ipa Ba r n Ip). destruct Q as [<-|Q]; [easy|eapply below_trans; eauto].
Qed.
Lemma conv_rank r n : In (r, n) (u_conv s1) -> M n = M r /\ rk r <= rk n.
Proof.
  intros Ip. destruct (ci_conv _ _ _ _ _ _ _ _ I1 _ _ Ip) as (L & Et & Lr & _ & EM). pose proof (ci_len _ _ _ _ _ _ _ _ I1).
  rewrite !(st_M _ _ _ _ S), !(st_rk _ _ _ _ S) by lia. split; [easy|]. unfold rk1. rewrite Et, (ci_tau0 _ _ _ _ _ _ _ _ I1) by easy. lia.
Qed.

Lemma final : let sf := undo s in
  forall i v r0 x, nth_error (u_outs s0) i = Some v -> node_args h0 v = [r0; x] ->
  exists v' r' y, nth_error (u_outs sf) i = Some v' /\ node_op (u_heap sf) v' = UVal /\ node_args (u_heap sf) v' = [r'; y] /\
    means (u_heap sf) v' (env x) /\
    (~ In r0 (map fst olds) ->
       (v' = v /\ r' = r0 \/ exists tr k, In (v, (tr, k)) ts /\ node_op (u_heap sf) r' = UMeas k) /\
       Forall2 (fun a a' => forall c, means h0 a c <-> means (u_heap sf) a' c) (node_args h0 r0) (node_args (u_heap sf) r')) /\
    (In r0 (map fst olds) -> exists k, In (r0, k) olds /\ node_op (u_heap sf) r' = UMeas k).
Proof.
  intros sf i v r0 x Ei Ea. unfold undo in sf.
  assert (Outs : forall o, In o (u_outs s) -> ~ In o (map fst l)).
  { intros o Io I. pose proof (st_outs _ _ _ _ S o Io) as Eo.
    apply fst_l in I as [I|I]; [apply rec_op in I as ((k & ?) & _); congruence|apply key_op' in I; intuition congruence]. }
  pose proof (ci_len _ _ _ _ _ _ _ _ I1) as Ln. pose proof (st_len _ _ _ _ S) as Ls.
  assert (HL : forall a b, In (a, b) l -> b < length h /\ cls b /\ ~ In b (map fst l)).
  { intros a b I. unfold new_to_old in I. apply in_app_iff in I as [I|I].
    - apply in_map_iff in I as ([r n] & E & Ip). injection E as <- <-. rewrite (st_conv _ _ _ _ S) in Ip.
      destruct (ci_conv _ _ _ _ _ _ _ _ I1 _ _ Ip) as (L & Et & Lr & (k & Ek) & _).
      assert (Eh : node_op h r = UFun k) by (rewrite (st_op1 _ _ _ _ S), op_h1 by lia; easy).
      split; [cbn; lia|]. split.
      + split; [cbn; lia|]. right. right. right. split; [cbn; lia|]. split; [cbn; congruence|]. exists r, n. split; [easy|]. left. now apply (ci_tau0 _ _ _ _ _ _ _ _ I1).
      + cbn. intros I. apply fst_l in I as [I|I]; [apply rec_op in I as ((k' & ?) & _); congruence|apply key_op' in I; intuition congruence].
    - destruct (st_vals _ _ _ _ S a b I) as (L & E & N & _). split; [easy|]. split; [split; auto|].
      intros I'. apply fst_l in I' as [I'|I']; [apply rec_op in I' as ((k' & ?) & _); congruence|easy]. }
  assert (HM : forall a b, In (a, b) l -> (M a = M b /\ rk b <= rk a) \/ forall u, ~ In a (node_args h u)).
  { intros a b I. unfold new_to_old in I. apply in_app_iff in I as [I|I].
    - apply in_map_iff in I as ([r n] & E & Ip). injection E as <- <-. rewrite (st_conv _ _ _ _ S) in Ip. left. now apply conv_rank.
    - now destruct (st_vals _ _ _ _ S a b I) as (_ & _ & _ & D). }
  destruct (taken_back env sem bad s M rk l (st_core _ _ _ _ S) cls Outs HL HM) as (T & G).
  - apply cls_arg.
  - apply cls_bad.
  - intros u B. apply fst_l. left. now apply bad_rec.
  - now intros u (L & _).
  - fold sf in T, G. destruct (st_corr _ _ _ _ S i v Ei) as (v' & r' & y & Ei' & EA & EM & Dv & Q). destruct (Q r0 x Ea) as (Q1 & Q2).
    assert (Ov' : In v' (u_outs s)) by (eapply nth_error_In; eauto).
    pose proof (st_outs _ _ _ _ S v' Ov') as Ev'. assert (Lv' : v' < length h) by (apply node_op_lt; congruence).
    destruct (st_val _ _ _ _ S v' Ev') as (r3 & y3 & E3 & N1 & N2 & N3 & Nc & D). rewrite EA in E3. injection E3 as <- <-.
    assert (Kv : kp v') by now apply k_out.
    assert (Nr : ~ In r' (map fst l)).
    { intros I. apply fst_l in I as [I|I]; [rewrite (st_conv _ _ _ _ S) in Nc; easy|apply key_op' in I; intuition congruence]. }
    assert (Kr : kp r') by (eapply k_arg; [exact Kv|rewrite EA; now left|easy]).
    pose proof (tk_pos _ _ _ _ _ _ _ _ _ _ T v') as Pos. rewrite EA in Pos.
    inversion Pos as [|? e1 ? l1 P1 P2 E1 E2]; subst. inversion P2 as [|? e2 ? l2 P3 P4 E1' E2']; subst. inversion P4; subst.
    destruct P1 as [?| ->]; [easy|].
    exists v', r', e2. rewrite (tk_outs _ _ _ _ _ _ _ _ _ _ T), !(tk_op _ _ _ _ _ _ _ _ _ _ T). split; [easy|]. split; [easy|]. split; [easy|].
    assert (Nbv : ~ bad v').
    { intros B. apply bad_rec in B. apply rec_op in B as ((k & ?) & _). congruence. }
    split.
    { apply G; [split; [easy|now left]|easy|]. rewrite EM. unfold M0.
      assert (Iv : In v (u_outs s0)) by (eapply nth_error_In; eauto).
      pose proof (p_outs _ _ P0 v Iv) as Ev. destruct (p_val _ _ P0 v Ev) as (_ & r_ & x_ & E_ & _ & _ & Ex & _). rewrite Ea in E_. injection E_ as <- <-.
      apply M0_meaning; [apply node_op_lt; congruence|]. eapply um_val.
      - rewrite nth_node by (apply node_op_lt; congruence). now rewrite Ev, Ea.
      - apply um_in. rewrite nth_node by (apply (p_bound _ _ P0 v); rewrite Ea; cbn; auto). now rewrite Ex, (p_in _ _ P0 x Ex). }
    split.
    { intros No. destruct (Q1 No) as (Q3 & Q4). split; [easy|].
      pose proof (tk_map _ _ _ _ _ _ _ _ _ _ T r') as TM. rewrite Q3 in TM.
      assert (Sr : sargs (u_heap sf) r' = node_args (u_heap sf) r') by (unfold sargs; rewrite (tk_op _ _ _ _ _ _ _ _ _ _ T); destruct (node_op h r'); easy).
      assert (Ga : forall a, In a (node_args (u_heap sf) r') -> forall c, M a = Some c <-> means (u_heap sf) a c).
      { intros a Ia. apply G.
        - apply (tk_cl _ _ _ _ _ _ _ _ _ _ T r'); [split; [now apply kept_lt|left; exact Kr]|now rewrite Sr].
        - intros B. apply (tk_gone _ _ _ _ _ _ _ _ _ _ T r' a Kr); [|easy]. apply fst_l. left. now apply bad_rec. }
      assert (Lr0 : forall a, In a (node_args h0 r0) -> a < n0) by (intros; eapply p_bound; eauto).
      revert TM Ga Lr0. generalize (node_args (u_heap sf) r') (node_args h0 r0). clear - P0 R0 R1.
      intros l1 l2. revert l1. induction l2 as [|a l2 IH]; intros [|a' l1] E Ga Lr0; try easy; constructor.
      - intros c. rewrite <- Ga by now left. assert (E1 : M a' = M0 a) by (cbn [map] in E; congruence). rewrite E1. symmetry. apply M0_meaning. apply Lr0. now left.
      - apply IH; [cbn [map] in E; congruence|intros; apply Ga; now right|intros; apply Lr0; now right]. }
    intros Yes. destruct (Q2 Yes) as (_ & k & Ik & Ek). eauto.
Qed.
End Final.
End Settle.
