(** Values in the graphs of [ModelUndo], and what the measurable rewrites leave
    intact. *)
From Coq Require Import List Arith Bool Lia.
From Verif Require Import ModelJoint ModelUndo SpecUndo LemUndo1.
Import ListNotations.
Open Scope nat_scope.

Section Values.
Context {A : Type}.
Variable env : nat -> A.
Variable sem : uop -> list A -> option A.
Notation means := (umeans env sem).

(** the inputs that are computed from *)
Definition sargs (h : uheap) (v : nat) : list nat :=
  match node_op h v, node_args h v with
  | UVal, [_; x] => [x]
  | UVal, _ => []
  | UTransd, [x; _] => [x]
  | UTransd, _ => []
  | _, l => l
  end.
Fixpoint all_opt (l : list (option A)) : option (list A) :=
  match l with
  | [] => Some []
  | Some a :: l => match all_opt l with Some m => Some (a :: m) | None => None end
  | None :: _ => None
  end.
Definition sem_at (M : nat -> option A) (o : uop) (l : list nat) : option A :=
  match all_opt (map M l) with Some xs => sem o xs | None => None end.
Definition value_of (M : nat -> option A) (o : uop) (l : list nat) (v : nat) : option A :=
  match o with
  | UIn => Some (env v)
  | UVal => match l with [_; x] => M x | _ => None end
  | UTransd => match l with [x; _] => M x | _ => None end
  | _ => sem_at M o l
  end.
Definition eqn (M : nat -> option A) (h : uheap) (v : nat) : Prop := M v = value_of M (node_op h v) (node_args h v) v.

Lemma all_opt_some l xs : all_opt l = Some xs <-> Forall2 (fun o x => o = Some x) l xs.
Proof.
  revert xs. induction l as [|[a|] l IH]; intros xs; cbn.
  - split; [intros [= <-]; constructor|intros H; inversion H; now subst].
  - destruct (all_opt l) as [m|] eqn:E.
    + split; [intros [= <-]; constructor; [easy|]; now apply IH|]. intros H; inversion H; subst.
      apply IH in H4. congruence.
    + split; [easy|]. intros H; inversion H; subst. apply IH in H4. congruence.
  - split; [easy|]. intros H; inversion H; subst. easy.
Qed.
Lemma sem_at_some M o l a : sem_at M o l = Some a <-> exists xs, Forall2 (fun v x => M v = Some x) l xs /\ sem o xs = Some a.
Proof.
  unfold sem_at. split.
  - destruct (all_opt (map M l)) as [xs|] eqn:E; [|easy]. intros S. exists xs. split; [|easy].
    apply all_opt_some in E. clear S. revert xs E. induction l as [|b l IH]; intros xs H; inversion H; subst; constructor; auto.
  - intros (xs & F & S). replace (all_opt (map M l)) with (Some xs); [easy|]. symmetry. apply all_opt_some.
    clear S. induction F; cbn; constructor; auto.
Qed.
Lemma sem_at_ext M M' o l l' : map M l = map M' l' -> sem_at M o l = sem_at M' o l'.
Proof. unfold sem_at. now intros ->. Qed.
Lemma value_of_ext M M' o l l' v : map M l = map M' l' -> value_of M o l v = value_of M' o l' v.
Proof.
  intros E. destruct o; cbn; try reflexivity; try now apply sem_at_ext.
  - destruct l as [|? [|? []]], l' as [|? [|? []]]; cbn in *; try easy; congruence.
  - destruct l as [|? [|? []]], l' as [|? [|? []]]; cbn in *; try easy; congruence.
Qed.
(** the first input of a ValuedVariable is not looked at *)
Lemma value_of_val M r r' x v : value_of M UVal [r; x] v = value_of M UVal [r'; x] v.
Proof. reflexivity. Qed.

(** on a set of variables closed under inputs where the assignment satisfies
    the equations, it is the meaning *)
Lemma assignment_meaning M h (rank : nat -> nat) (R : nat -> Prop) :
  (forall v, R v -> v < length h) ->
  (forall v a, R v -> In a (sargs h v) -> R a /\ rank a < rank v) ->
  (forall v, R v -> node_op h v = UIn -> node_args h v = []) ->
  (forall v, R v -> node_op h v = UVal -> exists r x, node_args h v = [r; x]) ->
  (forall v, R v -> node_op h v = UTransd -> exists x y, node_args h v = [x; y]) ->
  (forall v, R v -> eqn M h v) ->
  forall v a, R v -> (M v = Some a <-> means h v a).
Proof.
  intros RL RC RI RV RT RE.
  assert (G : forall n v, rank v < n -> R v -> forall a, M v = Some a <-> means h v a).
  { induction n as [|n IH]; [lia|]. intros v Lv Rv a. rewrite (RE v Rv).
    pose proof (nth_node h v (RL v Rv)) as Ev.
    assert (D : node_op h v = UIn \/ node_op h v = UVal \/ node_op h v = UTransd \/
                (node_op h v <> UIn /\ node_op h v <> UVal /\ node_op h v <> UTransd)).
    { destruct (node_op h v); intuition discriminate. }
    destruct D as [D|[D|[D|(D1 & D2 & D3)]]].
    - rewrite D in *. rewrite (RI v Rv D) in *. cbn. split; [intros [= <-]; now apply um_in|].
      intros H. inversion H; subst; congruence.
    - destruct (RV v Rv D) as (r & x & Ea). rewrite D, Ea in *. cbn.
      destruct (RC v x Rv) as (Rx & Lx); [unfold sargs; rewrite D, Ea; now left|].
      rewrite (IH x ltac:(lia) Rx a). split; [intros H; eapply um_val; eauto|].
      intros H. inversion H; subst; rewrite Ev in *; congruence.
    - destruct (RT v Rv D) as (x & y & Ea). rewrite D, Ea in *. cbn.
      destruct (RC v x Rv) as (Rx & Lx); [unfold sargs; rewrite D, Ea; now left|].
      rewrite (IH x ltac:(lia) Rx a). split; [intros H; eapply um_transd; eauto|].
      intros H. inversion H; subst; rewrite Ev in *; congruence.
    - replace (value_of M (node_op h v) (node_args h v) v) with (sem_at M (node_op h v) (node_args h v))
        by (destruct (node_op h v); easy).
      assert (Q : forall xs, Forall2 (fun u x => M u = Some x) (node_args h v) xs <-> Forall2 (means h) (node_args h v) xs).
      { assert (K : forall u, In u (node_args h v) -> forall x, M u = Some x <-> means h u x).
        { intros u Iu x. destruct (RC v u Rv) as (Ru & Lu); [unfold sargs; destruct (node_op h v); easy|].
          apply IH; [lia|easy]. }
        clear - K. induction (node_args h v) as [|u l IH]; intros xs.
        - split; intros H; inversion H; constructor.
        - split; intros H; inversion H; subst; constructor; try (apply K; [now left|easy]);
            (apply IH; [intros; apply K; now right|easy]). }
      rewrite sem_at_some. split.
      + intros (xs & F & S). eapply um_op; eauto. now apply Q.
      + intros H. inversion H; subst; rewrite Ev in *; try congruence.
        match goal with H0 : Some _ = Some _ |- _ => injection H0; intros; subst end.
        eexists. split; [apply Q; eassumption|easy]. }
  intros v a Rv. apply (G (S (rank v)) v); [lia|easy].
Qed.

(** the values of an acyclic graph *)
Fixpoint values (fuel : nat) (h : uheap) (v : nat) : option A :=
  match fuel with
  | 0 => None
  | S fuel => value_of (values fuel h) (node_op h v) (node_args h v) v
  end.
Lemma values_fuel h (rank : nat -> nat) : (forall v a, In a (node_args h v) -> rank a < rank v) ->
  forall n m v, rank v < n -> rank v < m -> values n h v = values m h v.
Proof.
  intros Rk. induction n as [|n IH]; [lia|]. intros [|m] v Ln Lm; [lia|]. cbn. apply value_of_ext.
  apply map_ext_in. intros a Ia. specialize (Rk v a Ia). apply IH; lia.
Qed.
Lemma values_eqn h rank : (forall v a, In a (node_args h v) -> rank a < rank v) ->
  forall v, eqn (fun u => values (S (rank u)) h u) h v.
Proof.
  intros Rk v. unfold eqn. change (values (S (rank v)) h v) with (value_of (values (rank v) h) (node_op h v) (node_args h v) v).
  apply value_of_ext. apply map_ext_in. intros a Ia. pose proof (Rk v a Ia). apply values_fuel with (rank := rank); auto; lia.
Qed.
End Values.
