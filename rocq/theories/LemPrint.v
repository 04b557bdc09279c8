(** Lemmas for C48-C50. *)
From Coq Require Import Lia List Arith Bool String Ascii.
From Verif Require Import XR ModelVec ModelPrint SpecPrint.
Import ListNotations.
Open Scope nat_scope.
Open Scope list_scope.

(** ** C48 *)
Lemma nodup_app_l {A} (l m : list A) : NoDup (l ++ m) -> NoDup l.
Proof. induction l as [|x l IH]; intros H; [constructor|]. inversion H as [|? ? N H']; subst. constructor; [intros I; apply N, in_or_app; left; exact I|apply IH, H']. Qed.
Lemma F2_length {A B} (P : A -> B -> Prop) l m : Forall2 P l m -> List.length l = List.length m.
Proof. induction 1; cbn; congruence. Qed.
Section names.
Context (name : nat -> option string) (variables : list nat).
Definition avail0 : list string := fold_left (fun a u => match name u with Some n => pop n a | None => a end) variables letters.
Definition anon (v : nat) : bool := match user_name name v with None => true | Some _ => false end.
Lemma anon_iff v : anon v = true <-> unnamed name v.
Proof. unfold anon, user_name, unnamed. destruct (name v) as [[|c s]|]; split; intros H; try easy; auto. destruct H; discriminate. Qed.
Lemma named_iff v n : user_name name v = Some n -> name v = Some n.
Proof. unfold user_name. destruct (name v) as [[|c s]|]; easy. Qed.
Lemma in_pop n x l : In x (pop n l) <-> In x l /\ x <> n.
Proof. unfold pop. rewrite filter_In, negb_true_iff, String.eqb_neq. easy. Qed.
Lemma nodup_pop n l : NoDup l -> NoDup (pop n l).
Proof. apply NoDup_filter. Qed.
Lemma pop_id n l : ~ In n l -> pop n l = l.
Proof.
  intros H. unfold pop. induction l as [|x l IH]; [easy|]. cbn. destruct (String.eqb_spec x n) as [->|_]; [exfalso; apply H; left; easy|]. cbn. rewrite IH; [easy|].
  intros I. apply H. right. exact I.
Qed.
Lemma avail_gen vs : forall l, NoDup l -> let a := fold_left (fun a u => match name u with Some n => pop n a | None => a end) vs l in
  NoDup a /\ forall x, In x a <-> In x l /\ ~ taken name vs x.
Proof.
  induction vs as [|u vs IH]; intros l N; cbn.
  - split; [exact N|]. intros x. unfold taken. cbn. firstorder.
  - destruct (name u) as [n|] eqn:E.
    + destruct (IH (pop n l) (nodup_pop n l N)) as [A B]. split; [exact A|]. intros x. rewrite B, in_pop. unfold taken. split.
      * intros ((I & Q) & T). split; [exact I|]. intros (v & [<-|J] & K); [congruence|apply T; exists v; easy].
      * intros (I & T). split; [split; [exact I|intros ->; apply T; exists u; split; [left; easy|exact E]]|]. intros (v & J & K). apply T. exists v. split; [right; exact J|exact K].
    + destruct (IH l N) as [A B]. split; [exact A|]. intros x. rewrite B. unfold taken. split; intros (I & T); (split; [exact I|]); intros (v & J & K); apply T.
      * destruct J as [<-|J]; [congruence|]. exists v. easy.
      * exists v. split; [right; exact J|exact K].
Qed.
Lemma letters_nodup : NoDup letters.
Proof.
  assert (E : letters = nodup string_dec letters) by (vm_compute; reflexivity). rewrite E. apply NoDup_nodup.
Qed.
Lemma avail0_nodup : NoDup avail0.
Proof. apply (avail_gen variables letters letters_nodup). Qed.
Lemma avail0_in x : In x avail0 <-> In x letters /\ ~ taken name variables x.
Proof. apply (avail_gen variables letters letters_nodup). Qed.

Definition given (m : list (nat * string)) : list string := map snd (filter (fun p => anon (fst p)) (rev m)).
Definition Inv (m : list (nat * string)) (a : list string) : Prop :=
  avail0 = given m ++ a /\ NoDup (map fst m) /\ forall v n, In (v, n) m -> anon v = false -> name v = Some n.
Lemma given_cons v n m : given ((v, n) :: m) = if anon v then given m ++ [n] else given m.
Proof. unfold given. cbn [rev]. rewrite filter_app, map_app. cbn. destruct (anon v); cbn; [easy|apply app_nil_r]. Qed.
Lemma lookup_in v m n : lookup v m = Some n -> In (v, n) m.
Proof.
  unfold lookup. destruct (find _ m) as [[u k]|] eqn:E; cbn; [|discriminate]. intros [= ->]. apply find_some in E as [I E]. cbn in E. apply Nat.eqb_eq in E. subst. exact I.
Qed.
Lemma lookup_none v m : lookup v m = None -> ~ In v (map fst m).
Proof.
  unfold lookup. destruct (find _ m) as [[u k]|] eqn:E; cbn; [discriminate|]. intros _ I. apply in_map_iff in I as ([u k] & <- & I). apply (find_none _ _ E) in I. cbn in I. rewrite Nat.eqb_refl in I. discriminate.
Qed.
Definition ext (m M : list (nat * string)) : Prop := forall v n, lookup v m = Some n -> lookup v M = Some n.
Definition curr (s : pstate) : list string := match available s with Some a => a | None => avail0 end.
Lemma step_inv v s n s' : (anon v = false -> In v variables) -> Inv (memo s) (curr s) -> process_variable_name name variables v s = Val (n, s') ->
  Inv (memo s') (curr s') /\ ext (memo s) (memo s') /\ lookup v (memo s') = Some n.
Proof.
  intros G (A & N & U) E. unfold process_variable_name in E. fold avail0 in E. change (match available s with Some a => a | None => avail0 end) with (curr s) in E.
  destruct (lookup v (memo s)) as [k|] eqn:L; [injection E as <- <-; split; [easy|split; [intros w x H; exact H|exact L]]|].
  assert (X : forall k, ext (memo s) ((v, k) :: memo s)).
  { intros k w x H. unfold lookup in *. cbn. destruct (Nat.eqb_spec v w) as [<-|_]; [|exact H]. unfold lookup in L. destruct (find _ (memo s)); discriminate. }
  destruct (user_name name v) as [k|] eqn:Un.
  - injection E as <- <-. cbn [memo]. unfold curr. cbn [available]. assert (Av : anon v = false) by (unfold anon; rewrite Un; easy).
    split; [|split; [apply X|unfold lookup; cbn; rewrite Nat.eqb_refl; easy]].
    assert (T : ~ In k (curr s)).
    { intros I. assert (J : In k avail0) by (rewrite A; apply in_or_app; right; exact I). apply avail0_in in J as [_ J]. apply J. exists v. split; [apply G, Av|apply named_iff, Un]. }
    rewrite pop_id by exact T. split; [rewrite given_cons, Av; exact A|]. split.
    + cbn. constructor; [apply lookup_none, L|exact N].
    + intros w x [H|H] Aw; [injection H as <- <-; apply named_iff, Un|apply (U w x H Aw)].
  - destruct (curr s) as [|k rest] eqn:C; [discriminate|]. injection E as <- <-. cbn [memo]. unfold curr. cbn [available]. assert (Av : anon v = true) by (unfold anon; rewrite Un; easy).
    split; [|split; [apply X|unfold lookup; cbn; rewrite Nat.eqb_refl; easy]]. split; [rewrite given_cons, Av, <- app_assoc; exact A|]. split.
    + cbn. constructor; [apply lookup_none, L|exact N].
    + intros w x [H|H] Aw; [injection H as <- <-; congruence|apply (U w x H Aw)].
Qed.
Lemma run_inv vs : forall s names, (forall v, In v vs -> anon v = false -> In v variables) -> Inv (memo s) (curr s) -> process_all name variables vs s = Val names ->
  exists M a, Inv M a /\ ext (memo s) M /\ Forall2 (fun v n => lookup v M = Some n) vs names.
Proof.
  induction vs as [|v vs IH]; intros s names G I E; cbn in E.
  - injection E as <-. exists (memo s), (curr s). split; [exact I|]. split; [intros w x H; exact H|constructor].
  - destruct (process_variable_name name variables v s) as [[n s']|] eqn:P; [|discriminate]. cbn in E. destruct (process_all name variables vs s') as [l|] eqn:Q; [|discriminate]. cbn in E. injection E as <-.
    destruct (step_inv v s n s' (G v (or_introl eq_refl)) I P) as (I' & X & L).
    destruct (IH s' l (fun w J => G w (or_intror J)) I' Q) as (M & a & IM & XM & F). exists M, a. split; [exact IM|]. split; [intros w x H; apply XM, X, H|constructor; [apply XM, L|exact F]].
Qed.
Lemma F2_nth {A B} (P : A -> B -> Prop) l m : Forall2 P l m -> forall i x y, nth_error l i = Some x -> nth_error m i = Some y -> P x y.
Proof.
  induction 1 as [|a b l m H _ IH]; intros [|i] x y Hx Hy; try discriminate; cbn in *; [injection Hx as <-; injection Hy as <-; exact H|apply (IH i); assumption].
Qed.
Lemma given_inj m v w n : NoDup (given m) -> NoDup (map fst m) -> In (v, n) m -> In (w, n) m -> anon v = true -> anon w = true -> v = w.
Proof.
  intros ND N I J Av Aw. unfold given in ND. assert (I' : In (v, n) (filter (fun p => anon (fst p)) (rev m))) by (apply filter_In; rewrite <- in_rev; easy).
  assert (J' : In (w, n) (filter (fun p => anon (fst p)) (rev m))) by (apply filter_In; rewrite <- in_rev; easy).
  revert ND I' J'. generalize (filter (fun p => anon (fst p)) (rev m)). intros l. induction l as [|[u k] l IH]; [easy|]. cbn. intros ND [E|I'] [F|J'].
  - congruence.
  - injection E as <- <-. inversion ND as [|? ? Q _]; subst. exfalso. apply Q, in_map_iff. exists (w, k). easy.
  - injection F as <- <-. inversion ND as [|? ? Q _]; subst. exfalso. apply Q, in_map_iff. exists (v, k). easy.
  - inversion ND; subst. apply IH; assumption.
Qed.
Lemma initial_inv : Inv (memo initial) (curr initial).
Proof. split; [easy|]. split; [constructor|easy]. Qed.
Lemma names_unambiguous vs names : (forall v, In v vs -> ~ unnamed name v -> In v variables) -> process_all name variables vs initial = Val names ->
  unambiguous name variables vs names.
Proof.
  intros G E. assert (G' : forall v, In v vs -> anon v = false -> In v variables) by (intros v I A; apply G; [exact I|]; rewrite <- anon_iff; congruence).
  destruct (run_inv vs initial names G' initial_inv E) as (M & a & (A & N & U) & _ & F).
  assert (ND := avail0_nodup). rewrite A in ND.
  assert (NG : NoDup (given M)) by (apply nodup_app_l in ND; exact ND).
  assert (GV : forall v n, In (v, n) M -> anon v = true -> In n (given M)).
  { intros v n I Av. unfold given. apply in_map_iff. exists (v, n). split; [easy|]. apply filter_In. rewrite <- in_rev. easy. }
  assert (FR : forall v n, In (v, n) M -> anon v = true -> ~ taken name variables n).
  { intros v n I Av. assert (J := GV v n I Av). assert (K : In n avail0) by (rewrite A; apply in_or_app; left; exact J). apply avail0_in in K. apply K. }
  split; [symmetry; apply (F2_length _ _ _ F)|]. split; [|split; [|split]].
  - intros i j v w n Hi Hj Ni Nj Uv. apply anon_iff in Uv. assert (Lv := lookup_in _ _ _ (F2_nth _ _ _ F i v n Hi Ni)). assert (Lw := lookup_in _ _ _ (F2_nth _ _ _ F j w n Hj Nj)).
    destruct (anon w) eqn:Aw; [apply (given_inj M v w n NG N); assumption|]. exfalso. apply (FR v n Lv Uv). exists w. split; [apply G'; [apply (nth_error_In _ _ Hj)|exact Aw]|apply (U w n Lw Aw)].
  - intros i j v n m Hi Hj Ni Nj. assert (Lv := F2_nth _ _ _ F i v n Hi Ni). assert (Lw := F2_nth _ _ _ F j v m Hj Nj). cbn in *. congruence.
  - intros i v n Hi Ni Uv. apply anon_iff in Uv. apply (FR v n); [apply lookup_in, (F2_nth _ _ _ F i v n Hi Ni)|exact Uv].
  - intros i v n Hi Ni Uv. apply (U v n); [apply lookup_in, (F2_nth _ _ _ F i v n Hi Ni)|]. destruct (anon v) eqn:Av; [|easy]. exfalso. apply Uv, anon_iff, Av.
Qed.
(** enough names *)
Lemma run_ok vs : forall s, (forall v, In v vs -> anon v = false -> In v variables) -> Inv (memo s) (curr s) ->
  (forall ds, NoDup ds -> (forall v, In v ds -> In v vs /\ anon v = true /\ lookup v (memo s) = None) -> List.length ds <= List.length (curr s)) ->
  exists names, process_all name variables vs s = Val names.
Proof.
  induction vs as [|v vs IH]; intros s G I B; [exists []; easy|]. cbn.
  destruct (process_variable_name name variables v s) as [[n s']|] eqn:P.
  - cbn. destruct (step_inv v s n s' (G v (or_introl eq_refl)) I P) as (I' & X & L). destruct (IH s' (fun w J => G w (or_intror J)) I') as (names & E).
    + intros ds ND H. unfold process_variable_name in P. destruct (lookup v (memo s)) as [k|] eqn:Lv.
      * injection P as <- <-. apply B; [exact ND|]. intros w J. destruct (H w J) as (H1 & H2 & H3). split; [right; exact H1|easy].
      * fold avail0 in P. change (match available s with Some a => a | None => avail0 end) with (curr s) in P. destruct (user_name name v) as [k|] eqn:Un.
        { injection P as <- <-. cbn [memo] in *. unfold curr at 1. cbn [available].
          assert (T : ~ In k (curr s)).
          { intros J. destruct I as (A & _). assert (Q : In k avail0) by (rewrite A; apply in_or_app; right; exact J). apply avail0_in in Q as [_ Q]. apply Q. exists v.
            split; [apply G; [left; easy|unfold anon; rewrite Un; easy]|apply named_iff, Un]. }
          rewrite pop_id by exact T. apply B; [exact ND|]. intros w J. destruct (H w J) as (H1 & H2 & H3). split; [right; exact H1|]. split; [exact H2|].
          destruct (lookup w (memo s)) as [x|] eqn:Lw; [|easy]. apply X in Lw. congruence. }
        destruct (curr s) as [|k rest] eqn:C; [discriminate|]. injection P as <- <-. cbn [memo] in *. unfold curr. cbn [available].
        assert (Q : List.length (v :: ds) <= List.length (k :: rest)).
        { apply B.
          - constructor; [|exact ND]. intros J. destruct (H v J) as (_ & _ & H3). rewrite L in H3. discriminate.
          - intros w [<-|J]; [split; [left; easy|]; split; [unfold anon; rewrite Un; easy|exact Lv]|]. destruct (H w J) as (H1 & H2 & H3). split; [right; exact H1|]. split; [exact H2|].
            destruct (lookup w (memo s)) as [x|] eqn:Lw; [|easy]. apply X in Lw. congruence. }
        cbn in Q. lia.
    + exists (n :: names). rewrite E. easy.
  - exfalso. unfold process_variable_name in P. fold avail0 in P. change (match available s with Some a => a | None => avail0 end) with (curr s) in P.
    destruct (lookup v (memo s)) eqn:Lv; [discriminate|]. destruct (user_name name v) as [k|] eqn:Un; [discriminate|]. destruct (curr s) as [|k rest] eqn:C; [|discriminate].
    specialize (B [v]). cbn in B. assert (Q : 1 <= 0); [|lia]. apply B; [repeat constructor; easy|]. intros w [<-|[]]. split; [left; easy|]. split; [unfold anon; rewrite Un; easy|exact Lv].
Qed.
Lemma names_exist vs free : (forall v, In v vs -> ~ unnamed name v -> In v variables) -> NoDup free -> (forall x, In x free -> In x letters /\ ~ taken name variables x) ->
  (forall ds, NoDup ds -> (forall v, In v ds -> In v vs /\ unnamed name v) -> List.length ds <= List.length free) ->
  exists names, process_all name variables vs initial = Val names.
Proof.
  intros G NF HF B. apply run_ok; [intros v I A; apply G; [exact I|]; rewrite <- anon_iff; congruence|apply initial_inv|].
  intros ds ND H. apply (Nat.le_trans _ (List.length free)); [apply B; [exact ND|]; intros v I; destruct (H v I) as (H1 & H2 & _); split; [exact H1|apply anon_iff, H2]|].
  apply (NoDup_incl_length NF). intros x I. apply avail0_in, HF, I.
Qed.
End names.

(** ** C49 *)
Lemma append_at_last {A} (x : A) pre last : append_at (List.length pre) x (pre ++ [last]) = pre ++ [last ++ [x]].
Proof. induction pre as [|z pre IH]; cbn; [easy|]. rewrite IH. easy. Qed.
Lemma width_snoc l x : width (l ++ [x]) = width l + String.length x.
Proof. unfold width. rewrite map_app, list_sum_app. cbn. lia. Qed.
Definition good (W : nat) (line : list string) : Prop := line <> [] /\ width (removelast line) < W.
Lemma break_spec W v : 0 < W -> forall pre cur c_len l_idx lines,
  (forall l, In l pre -> good W l /\ W <= width l) ->
  (cur = [] /\ List.length pre = l_idx \/ good W cur /\ width cur < W /\ List.length pre = l_idx /\ c_len = W * l_idx + width cur) ->
  break_loop W v (pre ++ match cur with [] => [] | _ => [cur] end) c_len l_idx = lines ->
  List.concat lines = List.concat pre ++ cur ++ v /\ filled W lines.
Proof.
  intros HW. induction v as [|l v IH]; intros pre cur c_len l_idx lines P C E.
  - cbn in E. subst lines. rewrite app_nil_r. destruct cur as [|c cur].
    + rewrite !app_nil_r. split; [easy|]. split; [intros line I; apply P, I|]. intros a b line -> _. apply P. apply in_or_app. right. left. easy.
    + destruct C as [[C _]|(Gc & _)]; [discriminate|]. rewrite concat_app. cbn [List.concat]. rewrite app_nil_r. split; [easy|]. split.
      * intros line I. apply in_app_or in I as [I|[<-|[]]]; [apply P, I|exact Gc].
      * intros a b line E Nb. destruct b as [|y b _] using rev_ind; [easy|]. change (a ++ line :: b ++ [y]) with (a ++ (line :: b) ++ [y]) in E. rewrite app_assoc in E. apply app_inj_tail in E as [E _].
        apply P. rewrite E. apply in_or_app. right. left. easy.
  - set (cur' := cur ++ [l]).
    assert (N' : cur' <> []) by (unfold cur'; destruct cur; easy).
    assert (Lp : List.length pre = l_idx) by (destruct C as [[_ C]|(_ & _ & C & _)]; exact C).
    assert (G' : good W cur').
    { split; [exact N'|]. unfold cur'. rewrite removelast_last. destruct C as [[-> _]|(_ & C & _)]; [cbn; lia|exact C]. }
    assert (E' : let c := W * l_idx + width cur' in break_loop W v (pre ++ [cur']) c (l_idx + (if l_idx <? c / W then 1 else 0)) = lines).
    { cbn zeta. rewrite <- E. cbn [break_loop]. destruct cur as [|c cur].
      - rewrite app_nil_r. rewrite (proj2 (Nat.leb_le (List.length pre) l_idx)) by lia. unfold cur'. cbn [app]. replace (width [l]) with (String.length l) by (unfold width; cbn; lia). easy.
      - destruct C as [[C _]|(_ & _ & _ & Ec)]; [discriminate|]. rewrite (proj2 (Nat.leb_gt (List.length (pre ++ [c :: cur])) l_idx)) by (rewrite app_length; cbn; lia).
        replace (append_at l_idx l (pre ++ [c :: cur])) with (pre ++ [(c :: cur) ++ [l]]) by (rewrite <- Lp, append_at_last; easy). unfold cur'. rewrite width_snoc, Ec, Nat.add_assoc. easy. }
    cbn zeta in E'. set (c := W * l_idx + width cur') in *.
    assert (D : l_idx <? c / W = (W <=? width cur')).
    { unfold c. rewrite Nat.mul_comm, Nat.div_add_l by lia. destruct (Nat.leb_spec W (width cur')) as [Q|Q].
      - apply Nat.ltb_lt. assert (1 <= width cur' / W) by (apply Nat.div_le_lower_bound; lia). lia.
      - rewrite (Nat.div_small _ _ Q). apply Nat.ltb_ge. lia. }
    rewrite D in E'. destruct (Nat.leb_spec W (width cur')) as [Q|Q].
    + destruct (IH (pre ++ [cur']) [] c (l_idx + 1) lines) as [F1 F2].
      * intros z I. apply in_app_or in I as [I|[<-|[]]]; [apply P, I|easy].
      * left. split; [easy|]. rewrite app_length. cbn. lia.
      * rewrite app_nil_r. exact E'.
      * split; [|exact F2]. rewrite F1, concat_app. cbn [List.concat]. rewrite app_nil_r. unfold cur'. rewrite <- !app_assoc. easy.
    + destruct (IH pre cur' c (l_idx + 0) lines) as [F1 F2].
      * exact P.
      * right. rewrite Nat.add_0_r. easy.
      * clearbody cur'. destruct cur' as [|z w]; [easy|]. exact E'.
      * split; [|exact F2]. rewrite F1. unfold cur'. rewrite <- !app_assoc. easy.
Qed.
Lemma preamble_spec W v : 0 < W -> List.concat (preamble_lines W v) = v /\ filled W (preamble_lines W v).
Proof. intros H. apply (break_spec W v H [] [] 0 0 (preamble_lines W v)); [easy|left; easy|easy]. Qed.

(** ** C50 *)
Definition of_res {A} (r : res A) : option A := match r with Val a => Some a | Raise => None end.
Lemma pop_last_rev {A} (l : list A) : pop_last (rev l) = match l with x :: l => Val (x, rev l) | [] => Raise end.
Proof. unfold pop_last. rewrite rev_involutive. destruct l; easy. Qed.
Lemma pop_if_rev {A} b (l : list A) : pop_if b (rev l) = match take_if b l with Some (o, l) => Val (o, rev l) | None => Raise end.
Proof. unfold pop_if, take_if. destruct b; [|easy]. rewrite pop_last_rev. destruct l; easy. Qed.
Lemma print_rev idxs : forall inputs, of_res (print_entries idxs (rev inputs)) = source_order idxs inputs.
Proof.
  induction idxs as [|[|b e t] idxs IH]; intros inputs; cbn [print_entries source_order].
  - easy.
  - rewrite pop_last_rev. destruct inputs as [|x inputs]; [easy|]. cbn. rewrite <- IH. destruct (print_entries idxs (rev inputs)); easy.
  - rewrite pop_if_rev. destruct (take_if b inputs) as [[ob i1]|]; [|easy]. cbn [bind fst snd]. rewrite pop_if_rev. destruct (take_if e i1) as [[oe i2]|]; [|easy]. cbn [bind fst snd].
    rewrite pop_if_rev. destruct (take_if t i2) as [[ot i3]|]; [|easy]. cbn [bind fst snd]. rewrite <- IH. destruct (print_entries idxs (rev i3)); easy.
Qed.
Lemma print_reversed idxs inputs : of_res (print_entries idxs inputs) = source_order idxs (rev inputs).
Proof. rewrite <- print_rev, rev_involutive. easy. Qed.
Lemma take_if_ex {A} b (l : list A) : Nat.b2n b <= List.length l -> exists o l', take_if b l = Some (o, l') /\ List.length l = Nat.b2n b + List.length l'.
Proof. destruct b; cbn; [destruct l as [|x l]; cbn; [lia|]; intros _; exists (Some x), l; easy|intros _; exists None, l; easy]. Qed.
Lemma take_if_inj {A} b (l m l' m' : list A) o : take_if b l = Some (o, l') -> take_if b m = Some (o, m') -> l' = m' -> l = m.
Proof. destruct b; cbn; [destruct l, m; try discriminate|]; congruence. Qed.
Lemma source_ok idxs : forall inputs, List.length inputs = needed idxs -> exists r, source_order idxs inputs = Some r.
Proof.
  induction idxs as [|[|b e t] idxs IH]; intros inputs L; cbn [source_order].
  - exists []. easy.
  - destruct inputs as [|x inputs]; [discriminate|]. change (needed (EIdx :: idxs)) with (S (needed idxs)) in L. cbn [List.length] in L. destruct (IH inputs) as (r & E); [lia|]. rewrite E. eexists. reflexivity.
  - change (needed (ESlice b e t :: idxs)) with (Nat.b2n b + Nat.b2n e + Nat.b2n t + needed idxs) in L.
    destruct (take_if_ex b inputs) as (ob & i1 & -> & L1); [lia|]. destruct (take_if_ex e i1) as (oe & i2 & -> & L2); [lia|]. destruct (take_if_ex t i2) as (ot & i3 & -> & L3); [lia|].
    destruct (IH i3) as (r & E); [lia|]. rewrite E. eexists. reflexivity.
Qed.
Lemma source_inj idxs : forall l m, List.length l = needed idxs -> List.length m = needed idxs -> source_order idxs l = source_order idxs m -> l = m.
Proof.
  induction idxs as [|[|b e t] idxs IH]; intros l m Ll Lm E; cbn [source_order] in E.
  - destruct l, m; easy.
  - destruct l as [|x l], m as [|y m]; try discriminate. change (needed (EIdx :: idxs)) with (S (needed idxs)) in Ll, Lm. cbn [List.length] in Ll, Lm. destruct (source_ok idxs l) as (r & E1); [lia|]. destruct (source_ok idxs m) as (r' & E2); [lia|].
    assert (E3 := E). rewrite E1, E2 in E3. cbn in E3. injection E3 as <- E3. f_equal. apply IH; [lia|lia|congruence].
  - change (needed (ESlice b e t :: idxs)) with (Nat.b2n b + Nat.b2n e + Nat.b2n t + needed idxs) in Ll, Lm.
    destruct (take_if_ex b l) as (ob & i1 & T1 & L1); [lia|]. destruct (take_if_ex e i1) as (oe & i2 & T2 & L2); [lia|]. destruct (take_if_ex t i2) as (ot & i3 & T3 & L3); [lia|].
    destruct (take_if_ex b m) as (ob' & j1 & U1 & M1); [lia|]. destruct (take_if_ex e j1) as (oe' & j2 & U2 & M2); [lia|]. destruct (take_if_ex t j2) as (ot' & j3 & U3 & M3); [lia|].
    rewrite T1, U1, T2, U2, T3, U3 in E. destruct (source_ok idxs i3) as (r & E1); [lia|]. destruct (source_ok idxs j3) as (r' & E2); [lia|].
    assert (E3 := E). rewrite E1, E2 in E3. cbn in E3. injection E3 as <- <- <- E3.
    assert (Q : i3 = j3) by (apply IH; [lia|lia|congruence]). apply (take_if_inj b _ _ _ _ _ T1 U1). apply (take_if_inj e _ _ _ _ _ T2 U2). apply (take_if_inj t _ _ _ _ _ T3 U3). exact Q.
Qed.
Lemma print_exact idxs inputs : List.length inputs = needed idxs -> of_res (print_entries idxs inputs) = source_order idxs inputs <-> rev inputs = inputs.
Proof.
  intros L. rewrite print_reversed. split; [|intros ->; easy]. intros E. apply (source_inj idxs); [rewrite rev_length; exact L|exact L|exact E].
Qed.
(** indices of an AdvancedSubtensor: about half of them *)
Lemma print_inputs_spec fuel : forall i inputs, List.length inputs <= fuel -> print_inputs fuel i inputs = Val (map SIdx (firstn ((List.length inputs - i + 1) / 2) (rev inputs))).
Proof.
  induction fuel as [|fuel IH]; intros i inputs L; cbn [print_inputs].
  - destruct inputs; [|cbn in L; lia]. destruct ((_ + 1) / 2); easy.
  - destruct (Nat.ltb_spec i (List.length inputs)) as [H|H].
    + rewrite <- (rev_involutive inputs). remember (rev inputs) as r eqn:Er. assert (Lr : List.length r = List.length inputs) by (subst; apply rev_length). rewrite pop_last_rev. rewrite !rev_involutive, !rev_length.
      destruct r as [|x r]; [cbn in Lr; lia|]. cbn [bind fst snd]. rewrite IH by (rewrite rev_length; cbn in Lr; lia). rewrite rev_involutive, rev_length. cbn [bind]. cbn [List.length] in *.
      assert (Q : (S (List.length r) - i + 1) / 2 = S ((List.length r - S i + 1) / 2)).
      { destruct (Nat.eq_dec (List.length r) i) as [<-|Nq].
        - replace (S (List.length r) - List.length r + 1) with 2 by lia. replace (List.length r - S (List.length r) + 1) with 1 by lia. easy.
        - replace (S (List.length r) - i + 1) with (1 * 2 + (List.length r - S i + 1)) by lia. rewrite Nat.div_add_l by lia. easy. }
      rewrite Q. easy.
    + replace (List.length inputs - i) with 0 by lia. easy.
Qed.
Lemma advanced_spec inputs : print_advanced inputs = Val (map SIdx (firstn ((List.length inputs + 1) / 2) (rev inputs))).
Proof. unfold print_advanced. rewrite print_inputs_spec by lia. rewrite Nat.sub_0_r. easy. Qed.
Lemma advanced_exact inputs : print_advanced inputs = Val (map SIdx inputs) <-> List.length inputs <= 1.
Proof.
  rewrite advanced_spec. split.
  - intros E. injection E as E. apply (f_equal (@List.length _)) in E. rewrite !map_length, firstn_length, rev_length in E.
    assert (D := Nat.div_mod (List.length inputs + 1) 2 ltac:(lia)). assert (M := Nat.mod_upper_bound (List.length inputs + 1) 2 ltac:(lia)). change (fst (Nat.divmod (List.length inputs + 1) 1 0 1)) with ((List.length inputs + 1) / 2) in E. lia.
  - destruct inputs as [|x [|y inputs]]; cbn; intros H; try easy. lia.
Qed.
