(** Lemmas about walks. *)
From Coq Require Import List Arith Bool Lia.
From Verif Require Import ModelJoint ModelWalk SpecWalk.
Import ListNotations.
Open Scope nat_scope.

Lemma mem_spec : forall x l, mem x l = true <-> In x l.
Proof.
  intros x l. unfold mem. rewrite existsb_exists. split; [intros (y & I & E); apply Nat.eqb_eq in E; congruence|].
  intros I. exists x. split; [exact I|apply Nat.eqb_refl].
Qed.
Lemma mem_false : forall x l, mem x l = false <-> ~ In x l.
Proof. intros x l. rewrite <- mem_spec. destruct (mem x l); intuition congruence. Qed.

Inductive reach (e : nat -> list nat) : nat -> nat -> Prop :=
| re_refl : forall v, reach e v v
| re_step : forall u w v, In w (e u) -> reach e w v -> reach e u v.

Section Walk.
Context {St : Type} (e : nat -> list nat) (expand : St -> nat -> list nat * St) (s0 : St).
Hypothesis EX : forall v, expand s0 v = (e v, s0).
Variables (n : nat) (bound : nat -> nat).
Hypothesis BD : forall v, length (e v) <= bound v.
Hypothesis OUT : forall v, n <= v -> e v = [].

Lemma ls_cons : forall a l, list_sum (a :: l) = a + list_sum l.
Proof. easy. Qed.
(** pops still needed for unseen variables *)
Definition todo (seen l : list nat) : nat := list_sum (map bound (filter (fun v => negb (mem v seen)) l)).
Lemma todo_le : forall seen l v, todo (v :: seen) l <= todo seen l.
Proof.
  intros seen l v. induction l as [|x l IH]; [cbn; lia|]. unfold todo in *. cbn [filter].
  destruct (mem x seen) eqn:E; [rewrite (proj2 (mem_spec x (v :: seen))) by (right; apply mem_spec, E); exact IH|].
  destruct (mem x (v :: seen)); cbn [negb map]; rewrite ?ls_cons; lia.
Qed.
Lemma todo_drop : forall seen l v, ~ In v seen -> In v l -> todo (v :: seen) l + bound v <= todo seen l.
Proof.
  intros seen l v N. induction l as [|x l IH]; intros I; [easy|]. destruct (Nat.eq_dec x v) as [->|Ne].
  - assert (T := todo_le seen l v). unfold todo in *. cbn [filter]. rewrite (proj2 (mem_spec v (v :: seen))) by (left; easy).
    rewrite (proj2 (mem_false v seen) N). cbn [negb map]. rewrite ?ls_cons. lia.
  - destruct I as [->|I]; [easy|]. specialize (IH I). unfold todo in *. cbn [filter].
    destruct (mem x seen) eqn:E; [rewrite (proj2 (mem_spec x (v :: seen))) by (right; apply mem_spec, E); exact IH|].
    rewrite (proj2 (mem_false x (v :: seen))); [|apply mem_false in E; cbn; intuition congruence]. cbn [negb map]. rewrite ?ls_cons. lia.
Qed.

Lemma walk_spec : forall fuel stack seen, length stack + todo seen (seq 0 n) <= fuel ->
  let r := walk fuel expand s0 stack seen in
  snd r = s0 /\ NoDup (fst r) /\ (forall v, In v (fst r) -> ~ In v seen) /\
  (forall v, In v stack -> In v seen \/ In v (fst r)) /\
  (forall v w, In v (fst r) -> In w (e v) -> In w seen \/ In w (fst r)) /\
  (forall v, In v (fst r) -> exists u, In u stack /\ reach e u v).
Proof.
  induction fuel as [|fuel IH]; intros stack seen F.
  - assert (stack = []) as -> by (destruct stack; [easy|cbn in F; lia]). cbn. repeat split; try easy. constructor.
  - destruct stack as [|v stack]; [cbn; repeat split; try easy; constructor|]. cbn [walk].
    destruct (mem v seen) eqn:M.
    + assert (F' : length stack + todo seen (seq 0 n) <= fuel) by (cbn in F; lia).
      destruct (IH stack seen F') as (H1 & H2 & H3 & H4 & H5 & H6). apply mem_spec in M.
      repeat split; auto.
      * intros x [<-|I]; auto.
      * intros x I. destruct (H6 x I) as (u & Iu & R). exists u. split; [right|]; assumption.
    + rewrite EX. apply mem_false in M.
      assert (F' : length (rev (e v) ++ stack) + todo (v :: seen) (seq 0 n) <= fuel).
      { rewrite app_length, rev_length. cbn in F. destruct (le_lt_dec n v) as [L|L].
        - rewrite (OUT v L). cbn. assert (T := todo_le seen (seq 0 n) v). lia.
        - assert (T := todo_drop seen (seq 0 n) v M (proj2 (in_seq _ _ _) (conj (Nat.le_0_l v) L))). assert (B := BD v). lia. }
      destruct (IH _ _ F') as (H1 & H2 & H3 & H4 & H5 & H6).
      destruct (walk fuel expand s0 (rev (e v) ++ stack) (v :: seen)) as [out s] eqn:W. cbn [fst snd] in *.
      split; [exact H1|]. split; [constructor; [intros I; apply (H3 _ I); left; easy|exact H2]|].
      split; [intros x [<-|I]; [exact M|intros J; apply (H3 _ I); right; exact J]|].
      split.
      { intros x [<-|I]; [right; left; easy|]. destruct (H4 x) as [[<-|J]|J]; [apply in_or_app; right; exact I| | |]; auto; right; cbn; auto. }
      split.
      { intros x w [<-|I] J.
        - destruct (H4 w) as [[<-|K]|K]; [apply in_or_app; left; rewrite <- in_rev; exact J| | |]; auto; right; cbn; auto.
        - destruct (H5 x w I J) as [[<-|K]|K]; auto; right; cbn; auto. }
      intros x [<-|I]; [exists v; split; [left; easy|constructor]|].
      destruct (H6 x I) as (u & Iu & R). apply in_app_or in Iu as [Iu|Iu].
      * rewrite <- in_rev in Iu. exists v. split; [left; easy|]. eapply re_step; eauto.
      * exists u. split; [right; exact Iu|exact R].
Qed.
Lemma walk_reach : forall fuel stack, length stack + list_sum (map bound (seq 0 n)) <= fuel ->
  let r := walk fuel expand s0 stack [] in
  snd r = s0 /\ NoDup (fst r) /\ forall v, In v (fst r) <-> exists u, In u stack /\ reach e u v.
Proof.
  intros fuel stack F. destruct (walk_spec fuel stack []) as (H1 & H2 & H3 & H4 & H5 & H6).
  { unfold todo. replace (filter (fun v : nat => negb (mem v [])) (seq 0 n)) with (seq 0 n); [exact F|].
    clear. induction (seq 0 n) as [|x l IH]; [easy|]. cbn [filter mem existsb negb]. f_equal. exact IH. }
  cbv zeta. split; [exact H1|]. split; [exact H2|]. intros v. split; [apply H6|].
  intros (u & I & R). assert (J : In u (fst (walk fuel expand s0 stack []))) by (destruct (H4 u I); easy).
  clear I. induction R as [v|u w v I R IH]; [exact J|]. apply IH. destruct (H5 u w J I); easy.
Qed.
End Walk.

(** ** C40 *)
Lemma expands_in : forall g past stop u v, In v (expands g past stop u) <->
  exists o, nth_error g u = Some (Some o) /\ (past = true \/ o_meas o = false) /\ ~ In u stop /\ In v (o_args o).
Proof.
  intros g past stop u v. unfold expands, owner_of. split.
  - destruct (nth_error g u) as [[o|]|]; [|easy|easy]. destruct ((past || negb (o_meas o)) && negb (mem u stop)) eqn:C; [|easy].
    rewrite <- in_rev. intros I. exists o. split; [easy|]. apply andb_prop in C as [C1 C2]. apply negb_true_iff, mem_false in C2.
    apply orb_prop in C1 as [C1|C1]; [|apply negb_true_iff in C1]; auto.
  - intros (o & -> & C1 & C2 & I). apply mem_false in C2. rewrite C2. replace (past || negb (o_meas o)) with true; [cbn; rewrite <- in_rev; exact I|].
    destruct C1 as [C1|C1]; rewrite C1; destruct past; easy.
Qed.
Lemma length_expands : forall g past stop u, length (expands g past stop u) <= length (args_of g u).
Proof.
  intros g past stop u. unfold expands, args_of. destruct (owner_of g u) as [o|]; [|cbn; lia].
  destruct ((past || negb (o_meas o)) && negb (mem u stop)); [rewrite rev_length|cbn]; lia.
Qed.
Lemma expands_out : forall g past stop u, length g <= u -> expands g past stop u = [].
Proof. intros g past stop u L. unfold expands, owner_of. rewrite (proj2 (nth_error_None g u) L). easy. Qed.

Lemma visited_reach : forall g graphs past stop extra v,
  (exists u, In u graphs /\ reach (fun v => extra v ++ expands g past stop v) u v) <-> visited g graphs past stop extra v.
Proof.
  intros g graphs past stop extra v. split.
  - intros (u & I & R). assert (V : visited g graphs past stop extra u) by (constructor; exact I). clear I.
    induction R as [v|u w v J R IH]; [exact V|]. apply IH. apply in_app_or in J as [J|J]; [eapply vi_extra; eauto|].
    apply expands_in in J as (o & E & C1 & C2 & J). eapply vi_input; eauto.
  - set (e := fun v => extra v ++ expands g past stop v).
    assert (T : forall u w v, reach e u w -> In v (e w) -> reach e u v).
    { clear. intros u w v R. induction R as [w|u x w I R IH]; intros J; [eapply re_step; [exact J|constructor]|eapply re_step; eauto]. }
    intros V. induction V as [v I|u o v V (r & I & R) E C1 C2 J|u v V (r & I & R) J].
    + exists v. split; [exact I|constructor].
    + exists r. split; [exact I|]. eapply T; [exact R|]. apply in_or_app. right. apply expands_in. eauto.
    + exists r. split; [exact I|]. eapply T; [exact R|]. apply in_or_app. auto.
Qed.
Lemma walk_model_spec : forall g graphs past stop extra, (forall v, length g <= v -> extra v = []) ->
  NoDup (walk_model g graphs past stop extra) /\
  forall v, In v (walk_model g graphs past stop extra) <-> visited g graphs past stop extra v.
Proof.
  intros g graphs past stop extra OUT. unfold walk_model.
  destruct (walk_reach (fun v => extra v ++ expands g past stop v) (fun (_ : unit) v => (extra v ++ expands g past stop v, tt)) tt
              (fun v => eq_refl) (length g) (fun v => length (extra v) + length (args_of g v))) with (fuel := walk_fuel (length g) (fun v => length (extra v) + length (args_of g v)) graphs) (stack := rev graphs) as (_ & N & R).
  - intros v. rewrite app_length. assert (L := length_expands g past stop v). lia.
  - intros v L. rewrite (OUT v L), (expands_out _ _ _ _ L). easy.
  - unfold walk_fuel. rewrite rev_length. lia.
  - split; [exact N|]. intros v. rewrite R, <- visited_reach. split; intros (u & I & X); exists u; (split; [|exact X]);
      [rewrite in_rev|rewrite <- in_rev]; exact I.
Qed.

(** ** C16 *)
Lemma is_source_spec : forall g v, is_source g v = true <-> unvalued_random g v.
Proof.
  intros g v. unfold is_source, owner_of, unvalued_random. split.
  - destruct (nth_error g v) as [[o|]|]; [|easy|easy]. intros C. apply andb_prop in C as [C1 C2]. apply negb_true_iff in C2. eauto.
  - intros (o & -> & -> & ->). easy.
Qed.
Lemma is_source_false : forall g v, is_source g v = false <-> ~ unvalued_random g v.
Proof. intros g v. rewrite <- is_source_spec. destruct (is_source g v); intuition congruence. Qed.
Lemma elem_expand_in : forall g u v, In v (elem_expand g u) <->
  exists o, nth_error g u = Some (Some o) /\ o_meas o = false /\ o_valued o = false /\ In v (o_args o).
Proof.
  intros g u v. unfold elem_expand, owner_of. split.
  - destruct (nth_error g u) as [[o|]|]; [|easy|easy]. destruct (negb (o_meas o) && negb (o_valued o)) eqn:C; [|easy].
    rewrite <- in_rev. intros I. exists o. apply andb_prop in C as [C1 C2]. apply negb_true_iff in C1, C2. auto.
  - intros (o & -> & -> & -> & I). cbn. rewrite <- in_rev. exact I.
Qed.
Lemma stochastic_reach : forall g v, (exists w, reach (elem_expand g) v w /\ unvalued_random g w) <-> stochastic g v.
Proof.
  intros g v. split.
  - intros (w & R & U). exists w. split; [|exact U]. clear U. induction R as [v|u w v I R IH]; [constructor|].
    apply elem_expand_in in I as (o & E & _ & C & I). eapply cf_step; eauto.
  - intros (w & C & U). induction C as [v|v o a w E C I D IH]; [exists v; split; [constructor|exact U]|].
    destruct (o_meas o) eqn:M.
    + exists v. split; [constructor|]. exists o. auto.
    + destruct (IH U) as (x & R & Ux). exists x. split; [|exact Ux]. eapply re_step; [apply elem_expand_in; eauto|exact R].
Qed.
Lemma elem_walk : forall g others,
  existsb (is_source g) (fst (walk (walk_fuel (length g) (fun v => length (args_of g v)) others)
                    (fun (_ : unit) v => (elem_expand g v, tt)) tt (rev others) [])) = true <->
  exists x, In x others /\ stochastic g x.
Proof.
  intros g others.
  destruct (walk_reach (elem_expand g) (fun (_ : unit) v => (elem_expand g v, tt)) tt (fun v => eq_refl) (length g) (fun v => length (args_of g v)))
    with (fuel := walk_fuel (length g) (fun v => length (args_of g v)) others) (stack := rev others) as (_ & _ & R).
  - intros v. unfold elem_expand, args_of. destruct (owner_of g v) as [o|]; [|cbn; lia].
    destruct (negb (o_meas o) && negb (o_valued o)); [rewrite rev_length|cbn]; lia.
  - intros v L. unfold elem_expand, owner_of. rewrite (proj2 (nth_error_None g v) L). easy.
  - unfold walk_fuel. rewrite rev_length. lia.
  - rewrite existsb_exists. split.
    + intros (v & I & S). apply R in I as (u & Iu & Ru). rewrite <- in_rev in Iu. exists u. split; [exact Iu|].
      apply stochastic_reach. exists v. split; [exact Ru|]. apply is_source_spec, S.
    + intros (x & I & S). apply stochastic_reach in S as (w & Rw & U). exists w. split; [apply R; exists x; split; [rewrite <- in_rev; exact I|exact Rw]|].
      apply is_source_spec, U.
Qed.
Lemma filter_single : forall (f : nat -> bool) l m, filter f l = [m] ->
  exists l1 l2, l = l1 ++ m :: l2 /\ f m = true /\ (forall x, In x (l1 ++ l2) -> f x = false).
Proof.
  intros f l m. induction l as [|x l IH]; [easy|]. cbn. destruct (f x) eqn:F.
  - intros E. injection E as -> E. exists [], l. split; [easy|]. split; [exact F|]. intros y I. destruct (f y) eqn:G; [|easy].
    assert (I' : In y (filter f l)) by (apply filter_In; auto). rewrite E in I'. easy.
  - intros E. destruct (IH E) as (l1 & l2 & -> & Fm & H). exists (x :: l1), l2. split; [easy|]. split; [exact Fm|].
    intros y [<-|I]; auto.
Qed.
Lemma filter_none : forall (f : nat -> bool) l, (forall x, In x l -> f x = false) -> filter f l = [].
Proof. intros f l. induction l as [|x l IH]; intros H; [easy|]. cbn. rewrite (H x) by (left; easy). apply IH. intros; apply H; right; easy. Qed.
Lemma filter_all : forall (f : nat -> bool) l, (forall x, In x l -> f x = true) -> filter f l = l.
Proof. intros f l. induction l as [|x l IH]; intros H; [easy|]. cbn. rewrite (H x) by (left; easy). f_equal. apply IH. intros; apply H; right; easy. Qed.
Lemma stochastic_self : forall g v, unvalued_random g v -> stochastic g v.
Proof. intros g v U. exists v. split; [constructor|exact U]. Qed.

Lemma construct_iff : forall g intd inputs m others, construct_elemwise g intd inputs = Some (m, others) <->
  unvalued_random g m /\ intd m = false /\
  exists l1 l2, inputs = l1 ++ m :: l2 /\ others = l1 ++ l2 /\ (forall x, In x others -> ~ stochastic g x).
Proof.
  intros g intd inputs m others. unfold construct_elemwise. split.
  - destruct (filter (is_source g) inputs) as [|x [|y l]] eqn:F; try easy. destruct (intd x) eqn:D; [easy|].
    set (oth := filter (fun v => negb (v =? x)) inputs).
    destruct (existsb _ _) eqn:X; [easy|]. intros E. injection E as <- <-.
    destruct (filter_single _ _ _ F) as (l1 & l2 & E & S & H). split; [apply is_source_spec, S|]. split; [exact D|].
    assert (O : oth = l1 ++ l2).
    { unfold oth. rewrite E, filter_app. cbn. rewrite Nat.eqb_refl. cbn.
      rewrite !filter_all; [easy| |]; intros y I; apply negb_true_iff, Nat.eqb_neq; intros ->; rewrite (H x) in S; try easy; apply in_or_app; auto. }
    exists l1, l2. split; [exact E|]. split; [exact O|]. intros y I St.
    assert (B := proj2 (elem_walk g oth) (ex_intro _ y (conj I St))). congruence.
  - intros (U & D & l1 & l2 & -> & O & H). apply is_source_spec in U.
    assert (H' : forall x, In x (l1 ++ l2) -> is_source g x = false).
    { intros x I. apply is_source_false. intros Ux. rewrite <- O in I. apply (H x I), stochastic_self, Ux. }
    rewrite filter_app. cbn. rewrite U, !filter_none by (intros; apply H', in_or_app; auto). cbn. rewrite D.
    assert (E : filter (fun v => negb (v =? m)) (l1 ++ m :: l2) = others).
    { rewrite filter_app. cbn. rewrite Nat.eqb_refl. cbn. rewrite O.
      rewrite !filter_all; [easy| |]; intros y I; apply negb_true_iff, Nat.eqb_neq; intros ->; rewrite (H' m) in U; try easy; apply in_or_app; auto. }
    rewrite E. destruct (existsb _ _) eqn:X; [|easy]. apply elem_walk in X as (x & I & St). exfalso. apply (H x I St).
Qed.
(** two inputs that are both stochastic *)
Lemma construct_two : forall g intd inputs i j x y, i <> j -> nth_error inputs i = Some x -> nth_error inputs j = Some y ->
  stochastic g x -> stochastic g y -> construct_elemwise g intd inputs = None.
Proof.
  intros g intd inputs i j x y Ne Ei Ej Sx Sy. destruct (construct_elemwise g intd inputs) as [[m others]|] eqn:C; [|easy]. exfalso.
  apply construct_iff in C as (U & D & l1 & l2 & E & O & H).
  assert (Q : forall k z, nth_error inputs k = Some z -> k <> length l1 -> In z others).
  { intros k z Ek Nk. rewrite O, E in *. apply in_or_app. destruct (lt_dec k (length l1)) as [L|L].
    - left. rewrite nth_error_app1 in Ek by exact L. eapply nth_error_In, Ek.
    - right. rewrite nth_error_app2 in Ek by lia. destruct (k - length l1) as [|k'] eqn:K; [lia|]. cbn in Ek. eapply nth_error_In, Ek. }
  destruct (Nat.eq_dec i (length l1)) as [->|Ni]; [apply (H y); [apply (Q j); [exact Ej|congruence]|exact Sy]|].
  apply (H x); [apply (Q i); [exact Ei|exact Ni]|exact Sx].
Qed.

(** ** measurable_sub and measurable_true_divide *)
Lemma nth_last : forall (g : vgraph) x, nth_error (g ++ [x]) (length g) = Some x.
Proof. intros. rewrite nth_error_app2, Nat.sub_diag; easy. Qed.
Lemma ext_random : forall g x v, v < length g -> (unvalued_random (g ++ [x]) v <-> unvalued_random g v).
Proof. intros g x v L. unfold unvalued_random. rewrite nth_error_app1 by exact L. easy. Qed.
Lemma ext_stochastic : forall g x v, closed g -> v < length g -> (stochastic (g ++ [x]) v <-> stochastic g v).
Proof.
  intros g x v C L. split.
  - intros (w & D & U). revert L. induction D as [v|v o a w E V I D IH]; intros L.
    + apply stochastic_self. apply (ext_random g x); assumption.
    + rewrite nth_error_app1 in E by exact L. destruct (IH U) as (y & Dy & Uy); [eapply C; eauto|]. exists y. split; [eapply cf_step; eauto|exact Uy].
  - intros (w & D & U). revert L. induction D as [v|v o a w E V I D IH]; intros L.
    + apply stochastic_self. apply (ext_random g x); assumption.
    + destruct (IH U) as (y & Dy & Uy); [eapply C; eauto|]. exists y. split; [eapply cf_step; eauto; rewrite nth_error_app1; eauto|exact Uy].
Qed.
Lemma out_not_stochastic : forall g v, length g <= v -> ~ stochastic g v.
Proof.
  intros g v L (w & D & U). inversion D as [|? o a ? E]; subst.
  - destruct U as (o & E & _). apply nth_error_None in L. congruence.
  - apply nth_error_None in L. congruence.
Qed.
(** a node over [b] and constants, made measurable if possible *)
Lemma made_stochastic : forall g intd cs b made, closed g -> b < length g -> (forall c, In c cs -> length g < c) ->
  made = match construct_elemwise g intd (cs ++ [b]) with
         | Some (m, others) => {| o_meas := true; o_valued := false; o_normal := false; o_args := m :: others |}
         | None => {| o_meas := false; o_valued := false; o_normal := false; o_args := cs ++ [b] |}
         end ->
  (stochastic (g ++ [Some made]) (length g) <-> stochastic g b) /\
  (unvalued_random (g ++ [Some made]) (length g) <-> unvalued_random g b /\ intd b = false).
Proof.
  intros g intd cs b made C L K E.
  assert (CI : forall m others, construct_elemwise g intd (cs ++ [b]) = Some (m, others) <-> m = b /\ others = cs /\ unvalued_random g b /\ intd b = false).
  { intros m others. rewrite construct_iff. split.
    - intros (U & D & l1 & l2 & El & O & H). destruct l2 as [|z l2 _] using rev_ind.
      + apply app_inj_tail in El as [<- <-]. rewrite app_nil_r in O. auto.
      + exfalso. change (l1 ++ m :: l2 ++ [z]) with (l1 ++ (m :: l2) ++ [z]) in El. rewrite app_assoc in El. apply app_inj_tail in El as [El _].
        assert (I : In m cs) by (rewrite El; apply in_elt). apply K in I. destruct U as (o & Eo & _).
        apply Nat.lt_le_incl, nth_error_None in I. congruence.
    - intros (-> & -> & U & D). split; [exact U|]. split; [exact D|]. exists cs, []. split; [easy|]. split; [rewrite app_nil_r; easy|].
      intros x I. apply out_not_stochastic. apply K in I. lia. }
  destruct (construct_elemwise g intd (cs ++ [b])) as [[m others]|] eqn:X.
  - assert (Y := proj1 (CI m others) eq_refl). destruct Y as (-> & -> & U & D).
    assert (R : unvalued_random (g ++ [Some made]) (length g)) by (exists made; rewrite nth_last, E; auto).
    split; [|tauto]. split; intros _; [apply stochastic_self, U|apply stochastic_self, R].
  - assert (NU : ~ (unvalued_random g b /\ intd b = false)). { intros (U & D). assert (Y := proj2 (CI b cs) (conj eq_refl (conj eq_refl (conj U D)))). congruence. }
    assert (NR : ~ unvalued_random (g ++ [Some made]) (length g)). { intros (o & Eo & M & _). rewrite nth_last in Eo. injection Eo as <-. rewrite E in M. easy. }
    split; [|tauto]. split.
    + intros (w & D & U). inversion D as [|? o a ? Eo V I D']; subst; [contradiction|]. rewrite nth_last in Eo. injection Eo as <-. cbn [o_args] in I.
      apply in_app_or in I as [I|[<-|[]]].
      * exfalso. apply K in I. eapply out_not_stochastic; [|exists w; split; [exact D'|exact U]]. rewrite app_length. cbn. lia.
      * eapply ext_stochastic; [exact C|exact L|]. exists w. eauto.
    + intros S. apply (ext_stochastic g (Some made) b C L) in S as (w & D & U). exists w. split; [|exact U].
      eapply cf_step; [apply nth_last|rewrite E; easy| |exact D]. rewrite E. cbn. apply in_or_app. right. left. easy.
Qed.
Definition one_source (g : vgraph) (a b : nat) : Prop :=
  (unvalued_random g a /\ ~ stochastic g b) \/ (unvalued_random g b /\ ~ stochastic g a).
Lemma pair_elem : forall g intd made a b, closed g -> a < length g -> b < length g ->
  (stochastic (g ++ [Some made]) (length g) <-> stochastic g b) ->
  (unvalued_random (g ++ [Some made]) (length g) <-> unvalued_random g b /\ intd b = false) ->
  (construct_elemwise (g ++ [Some made]) (fun v => (v <? length g) && intd v) [a; length g] <> None <->
   (unvalued_random g a /\ intd a = false /\ ~ stochastic g b) \/ (unvalued_random g b /\ intd b = false /\ ~ stochastic g a)).
Proof.
  intros g intd made a b C La Lb HS HR. split.
  - intros NN. destruct (construct_elemwise _ _ _) as [[m others]|] eqn:X; [|easy]. apply construct_iff in X as (U & D & l1 & l2 & E & O & H).
    destruct l1 as [|z [|z' l1]]; cbn in E; [injection E as E1 E2|injection E as E1 E2 E3|injection E as E1 E2 E3].
    + subst m l2. left. apply (proj1 (ext_random g (Some made) a La)) in U. split; [exact U|]. split; [rewrite (proj2 (Nat.ltb_lt _ _) La) in D; exact D|].
      intros S. apply (H (length g)); [rewrite O; cbn; auto|]. apply HS, S.
    + subst z m l2. right. apply HR in U as [U Di]. split; [exact U|]. split; [exact Di|]. intros S. apply (H a); [rewrite O; cbn; auto|].
      apply ext_stochastic; assumption.
    + destruct l1; discriminate.
  - intros [(U & D & N)|(U & D & N)] X.
    + assert (Y := proj2 (construct_iff (g ++ [Some made]) (fun v => (v <? length g) && intd v) [a; length g] a [length g])). rewrite X in Y.
      discriminate Y. split; [apply ext_random; assumption|]. split; [rewrite D, andb_false_r; easy|]. exists [], [length g]. split; [easy|]. split; [easy|].
      intros x [<-|[]]. rewrite HS. exact N.
    + assert (Y := proj2 (construct_iff (g ++ [Some made]) (fun v => (v <? length g) && intd v) [a; length g] (length g) [a])). rewrite X in Y.
      discriminate Y. split; [apply HR; auto|]. split; [rewrite Nat.ltb_irrefl; easy|]. exists [a], []. split; [easy|]. split; [easy|].
      intros x [<-|[]]. rewrite ext_stochastic; assumption.
Qed.
Lemma sub_iff : forall g intd a b, closed g -> a < length g -> b < length g ->
  (measurable_sub g intd a b <> None <->
   (unvalued_random g a /\ intd a = false /\ ~ stochastic g b) \/ (unvalued_random g b /\ intd b = false /\ ~ stochastic g a)).
Proof.
  intros g intd a b C La Lb. unfold measurable_sub. cbv zeta.
  assert (K : forall c, In c [S (length g)] -> length g < c) by (intros c [<-|[]]; lia).
  destruct (made_stochastic g intd [S (length g)] b _ C Lb K eq_refl) as (HS & HR).
  apply (pair_elem g intd _ a b C La Lb HS HR).
Qed.
Lemma div_iff : forall g intd a b, closed g -> a < length g -> b < length g ->
  (measurable_true_divide g intd a b <> None <->
   (unvalued_random g a /\ intd a = false /\ ~ stochastic g b) \/ (unvalued_random g b /\ intd b = false /\ ~ stochastic g a)).
Proof.
  intros g intd a b C La Lb. unfold measurable_true_divide. cbv zeta.
  assert (K : forall c, In c [] -> length g < c) by (intros c []).
  destruct (made_stochastic g intd [] b _ C Lb K eq_refl) as (HS & HR).
  apply (pair_elem g intd _ a b C La Lb HS HR).
Qed.

(** ** C43 *)
Lemma normals_guard : forall g inputs, (forall v o, nth_error g v = Some (Some o) -> o_normal o = true -> o_meas o = true /\ o_valued o = false) ->
  add_normals_applies g inputs = true ->
  2 <= length inputs /\ forall v, In v inputs -> unvalued_random g v /\ exists o, nth_error g v = Some (Some o) /\ o_normal o = true.
Proof.
  intros g inputs T A. apply andb_prop in A as [A B]. split; [apply Nat.leb_le, A|]. intros v I. rewrite forallb_forall in B. specialize (B v I). cbn in B.
  unfold owner_of in B. destruct (nth_error g v) as [[o|]|] eqn:E; try easy. destruct (T v o E B). split; exists o; auto.
Qed.
