(** Proofs for the version strings: describing back, expanded keywords, the
    order of the methods, strings that are not versions. *)
From Coq Require Import List Arith Ascii String Bool Lia Sorting.Sorted.
From Verif Require Import ModelVersion SpecVersion LemVersion LemVersion2.
Import ListNotations.
Open Scope char_scope.
Open Scope list_scope.

(** ** describing back *)
Lemma describe_back p t n h b s full count : commit h -> t <> [] -> describes (p ++ t) n h b s ->
  exists s', render (git_pieces_from_vcs p s full count) DescribeLong = Some s' /\ s = p ++ s'.
Proof.
  intros H N D. rewrite (parse_ok p t n h b s full count H); [|destruct p; [exact N|discriminate]|exact D].
  eexists. split; [reflexivity|]. destruct D as (k & K & ->). apply numeral_dec in K. subst k.
  unfold render_git_describe_long, tagged. cbn [closest distance short dirty]. destruct t; [easy|]. rewrite <- !app_assoc. destruct b; reflexivity.
Qed.
Lemma describe_short p t n h b s full count : commit h -> t <> [] -> describes (p ++ t) n h b s ->
  render (git_pieces_from_vcs p s full count) Describe =
  if (n =? 0)%nat then Some (t ++ if b then lit "-dirty" else []) else render (git_pieces_from_vcs p s full count) DescribeLong.
Proof.
  intros H N D. rewrite (parse_ok p t n h b s full count H); [|destruct p; [exact N|discriminate]|exact D].
  unfold render, render_pieces, render_git_describe, render_git_describe_long, tagged. cbn [closest distance short dirty]. destruct t; [easy|].
  destruct (n =? 0)%nat; cbn [negb opt]; rewrite ?app_nil_r; destruct b; reflexivity.
Qed.

(** ** characters of versions *)
Definition vchar (c : ascii) : Prop := In c (lit "0123456789abcdefghijklmnopqrstuvwxyz.!+").
Lemma v_app s t : Forall vchar s -> Forall vchar t -> Forall vchar (s ++ t).
Proof. intros. apply Forall_app. auto. Qed.
Lemma alnum_v c : alphanumeric c -> vchar c.
Proof. unfold alphanumeric, vchar. intros I. change (lit "0123456789abcdefghijklmnopqrstuvwxyz.!+") with (lit "0123456789abcdefghijklmnopqrstuvwxyz" ++ lit ".!+"). apply in_or_app. auto. Qed.
Lemma v_seg s : segment s -> Forall vchar s.
Proof. intros (_ & F). eapply Forall_impl; [|exact F]. exact alnum_v. Qed.
Lemma v_num n : number n -> Forall vchar n.
Proof. intros N. now apply v_seg, number_segment. Qed.
Ltac vc := apply all_in; reflexivity.
Lemma v_rel r : release r -> Forall vchar r.
Proof. induction 1; [now apply v_num|]. apply v_app; [now apply v_num|]. apply v_app; [vc|assumption]. Qed.
Lemma v_version v : version v -> Forall vchar v.
Proof.
  intros (u & l & (b & p & d & (e & r & a & E & R & A & ->) & P & D & ->) & L & ->).
  assert (M : forall n, Forall vchar (lit ".post") /\ (number n -> Forall vchar n)) by (intros n; split; [vc|apply v_num]).
  repeat apply v_app.
  - destruct E as [->|(n & N & ->)]; [constructor|]. apply v_app; [now apply v_num|vc].
  - now apply v_rel.
  - destruct A as [->|(x & n & X & N & ->)]; [constructor|]. apply v_app; [|now apply v_num]. destruct X as [<-|[<-|[<-|[]]]]; vc.
  - destruct P as [->|(n & N & ->)]; [constructor|]. apply v_app; [vc|now apply v_num].
  - destruct D as [->|(n & N & ->)]; [constructor|]. apply v_app; [vc|now apply v_num].
  - destruct L as [->|(t & T & ->)]; [constructor|]. apply v_app; [vc|]. clear -T. induction T; [now apply v_seg|]. apply v_app; [now apply v_seg|]. apply v_app; [vc|assumption].
Qed.
Lemma dash_no_version s : In "-" s -> ~ version s.
Proof.
  intros I V. apply v_version in V. apply (proj1 (Forall_forall _ _) V) in I. unfold vchar in I.
  assert (X : existsb (fun d => d =? "-") (lit "0123456789abcdefghijklmnopqrstuvwxyz.!+") = true) by (apply existsb_exists; exists "-"; auto).
  vm_compute in X. discriminate.
Qed.
(** a version starts with a digit *)
Lemma number_hd n s : number n -> decimal (hd "x" (n ++ s)).
Proof. intros (N & F). destruct n; [easy|]. now inversion F. Qed.
Lemma version_digit v : version v -> digit (hd "x" v) = true.
Proof.
  intros (u & l & (b & p & d & (e & r & a & E & R & A & ->) & _ & _ & ->) & _ & ->). apply digit_iff. rewrite <- !app_assoc.
  destruct E as [->|(n & N & ->)].
  - destruct R as [n N|n s N _]; cbn [app]; rewrite <- ?app_assoc; now apply number_hd.
  - rewrite <- !app_assoc. now apply number_hd.
Qed.
(** one "p" at most in a public version *)
Definition ps (s : str) : nat := count_occ ascii_dec s "p".
Lemma ps_app s t : ps (s ++ t) = ps s + ps t.
Proof. apply count_occ_app. Qed.
Lemma ps_num n : number n -> ps n = 0.
Proof.
  intros (_ & F). apply count_occ_not_In. intros I. apply (proj1 (Forall_forall _ _) F) in I. apply digit_iff in I. discriminate.
Qed.
Lemma ps_rel r : release r -> ps r = 0.
Proof. induction 1; [now apply ps_num|]. rewrite !ps_app, (ps_num n) by assumption. rewrite IHrelease. reflexivity. Qed.
Lemma ps_public v : public_version v -> ps v <= 1.
Proof.
  intros (b & p & d & (e & r & a & E & R & A & ->) & P & D & ->). rewrite !ps_app, (ps_rel r R).
  assert (He : ps e = 0) by (destruct E as [->|(n & N & ->)]; [reflexivity|]; rewrite ps_app, (ps_num n N); reflexivity).
  assert (Ha : ps a = 0).
  { destruct A as [->|(x & n & X & N & ->)]; [reflexivity|]. rewrite ps_app, (ps_num n) by assumption. destruct X as [<-|[<-|[<-|[]]]]; reflexivity. }
  assert (Hp : ps p <= 1) by (destruct P as [->|(n & N & ->)]; [cbn; lia|]; rewrite ps_app, (ps_num n N); cbn; lia).
  assert (Hd : ps d = 0) by (destruct D as [->|(n & N & ->)]; [reflexivity|]; rewrite ps_app, (ps_num n N); reflexivity).
  lia.
Qed.
Lemma two_posts s : noplus s -> 1 < ps s -> ~ version s.
Proof.
  intros N C (u & l & P & L & ->). destruct L as [->|(t & _ & ->)].
  - rewrite app_nil_r in C. apply ps_public in P. lia.
  - apply N. apply in_or_app. right. now left.
Qed.

(** ** keywords *)
Lemma lstrip_all f a s : Forall (fun c => f c = true) a -> lstrip f (a ++ s) = lstrip f s.
Proof. induction 1 as [|c a C _ IH]; [reflexivity|]. cbn. now rewrite C. Qed.
Lemma lstrip_stop f s : s <> [] -> f (hd "x" s) = false -> lstrip f s = s.
Proof. destruct s; [easy|]. cbn. intros _ ->. reflexivity. Qed.
Lemma hd_rev (s : str) : hd "x" (rev s) = last s "x".
Proof. induction s as [|c s _] using rev_ind; [reflexivity|]. rewrite rev_app_distr, last_last. reflexivity. Qed.
Lemma strip_mid f a j b : Forall (fun c => f c = true) a -> Forall (fun c => f c = true) b -> j <> [] -> f (hd "x" j) = false -> f (last j "x") = false ->
  strip f (a ++ j ++ b) = j.
Proof.
  intros A B N H L. unfold strip. rewrite (lstrip_all f a) by exact A. rewrite (lstrip_stop f (j ++ b)).
  - rewrite rev_app_distr, lstrip_all by now apply Forall_rev. rewrite lstrip_stop.
    + apply rev_involutive.
    + intros E. apply N. rewrite <- (rev_involutive j), E. reflexivity.
    + rewrite hd_rev. exact L.
  - destruct j; [easy|discriminate].
  - destruct j; [easy|exact H].
Qed.
Lemma split_one r : ~ In "," r -> split r = [r].
Proof.
  induction r as [|c r IH]; intros N; [reflexivity|]. cbn [split]. destruct (c =? ",") eqn:E.
  - apply asc in E. subst c. exfalso. apply N. now left.
  - rewrite IH; [reflexivity|]. intros I. apply N. now right.
Qed.
Lemma split_more r s : ~ In "," r -> split (r ++ "," :: s) = r :: split s.
Proof.
  induction r as [|c r IH]; intros N; [reflexivity|]. cbn [split app]. destruct (c =? ",") eqn:E.
  - apply asc in E. subst c. exfalso. apply N. now left.
  - rewrite IH; [reflexivity|]. intros I. apply N. now right.
Qed.
Lemma ref_nocomma r : ref_text r -> ~ In "," r.
Proof. intros (_ & F & _) I. apply (proj1 (Forall_forall _ _) F) in I. destruct I as (_ & I). apply I. now left. Qed.
Lemma split_listed r rs : Forall ref_text (r :: rs) -> split (listed (r :: rs)) = r :: map (cons " ") rs.
Proof.
  revert r. induction rs as [|r' rs IH]; intros r F; inversion F as [|? ? H F']; subst.
  - cbn [listed map]. now apply split_one, ref_nocomma.
  - change (listed (r :: r' :: rs)) with (r ++ "," :: " " :: listed (r' :: rs)). rewrite split_more by now apply ref_nocomma. f_equal.
    cbn [split]. change (" " =? ",") with false. cbn iota. rewrite IH by exact F'. reflexivity.
Qed.
Lemma ref_ends r : ref_text r -> r <> [] /\ space (hd "x" r) = false /\ space (last r "x") = false.
Proof.
  intros (N & F & A & B).
  assert (P : forall c, 32 <= nat_of_ascii c <= 126 -> c <> " " -> space c = false).
  { intros c R D. unfold space. assert (nat_of_ascii c <> 32). { intros E. apply D. rewrite <- (ascii_nat_embedding c), E. reflexivity. }
    assert (L : (nat_of_ascii c <=? 13)%nat = false) by (apply Nat.leb_gt; lia). assert (L' : (nat_of_ascii c <=? 32)%nat = false) by (apply Nat.leb_gt; lia).
    rewrite L, L', !andb_false_r. reflexivity. }
  split; [exact N|]. split.
  - apply P; [|exact A]. destruct r; [easy|]. inversion F. tauto.
  - apply P; [|exact B]. rewrite (app_removelast_last "x" N) in F. apply Forall_app in F. destruct F as (_ & F). inversion F. tauto.
Qed.
Lemma ref_parens r : ref_text r -> let f := fun c => (c =? "(") || (c =? ")") in f (hd "x" r) = false /\ f (last r "x") = false.
Proof.
  intros (N & F & _) f.
  assert (P : forall c, ~ In c (lit ",()") -> f c = false).
  { intros c H. unfold f. apply orb_false_iff. split; apply not_true_iff_false; intros E; apply asc in E; subst c; apply H; cbn; tauto. }
  split; apply P.
  - destruct r; [easy|]. inversion F. tauto.
  - rewrite (app_removelast_last "x" N) in F. apply Forall_app in F. destruct F as (_ & F). inversion F. tauto.
Qed.
Lemma strip_ref r : ref_text r -> strip space r = r /\ strip space (" " :: r) = r.
Proof.
  intros H. destruct (ref_ends r H) as (N & A & B). split.
  - pose proof (strip_mid space [] r [] (Forall_nil _) (Forall_nil _) N A B) as E. rewrite app_nil_r in E. exact E.
  - pose proof (strip_mid space [" "] r [] (Forall_cons " " eq_refl (Forall_nil _)) (Forall_nil _) N A B) as E. rewrite app_nil_r in E. exact E.
Qed.
Lemma listed_ends rs : rs <> [] -> Forall ref_text rs -> exists a b, ref_text a /\ ref_text b /\ listed rs <> [] /\ hd "x" (listed rs) = hd "x" a /\ last (listed rs) "x" = last b "x".
Proof.
  induction rs as [|r rs IH]; intros N F; [easy|]. inversion F as [|? ? H F']; subst. destruct rs as [|r' rs].
  - exists r, r. repeat split; try apply H; reflexivity.
  - destruct (IH ltac:(discriminate) F') as (a & b & A & B & NE & _ & L). exists r, b.
    change (listed (r :: r' :: rs)) with (r ++ lit ", " ++ listed (r' :: rs)). destruct H as (NR & H). destruct r as [|c r]; [easy|].
    split; [split; [discriminate|exact H]|]. split; [exact B|]. split; [discriminate|]. split; [reflexivity|].
    rewrite <- L.
    rewrite (app_removelast_last "x" NE) at 1. rewrite !app_assoc, last_last. reflexivity.
Qed.
Definition shown (refs : list str) : list str := match tag_list refs with [] => filter (existsb digit) refs | ts => ts end.
Lemma keywords_refs refs s p : decorated refs s ->
  git_versions_from_keywords s p = Some (match first_tag p (sort (shown refs)) with Some r => r | None => q "0+unknown" end).
Proof.
  intros (N & F & ->). unfold git_versions_from_keywords.
  destruct (listed_ends refs N F) as (a & b & A & B & NE & HA & LB).
  assert (S1 : strip space (lit " (" ++ listed refs ++ lit ")") = lit "(" ++ listed refs ++ lit ")").
  { pose proof (strip_mid space [" "] (lit "(" ++ listed refs ++ lit ")") [] (Forall_cons " " eq_refl (Forall_nil _)) (Forall_nil _)) as E.
    rewrite app_nil_r in E. apply E; [discriminate|reflexivity|]. change (lit ")") with [")"]. rewrite app_assoc, last_last. reflexivity. }
  rewrite S1. cbn [lit list_ascii_of_string app after q]. change ("$" =? "(") with false. cbn iota.
  set (f := fun c => (c =? "(") || (c =? ")")).
  assert (S2 : strip f ("(" :: listed refs ++ [")"]) = listed refs).
  { apply (strip_mid f ["("] (listed refs) [")"]).
    - repeat constructor.
    - repeat constructor.
    - exact NE.
    - rewrite HA. apply (ref_parens a A).
    - rewrite LB. apply (ref_parens b B). }
  rewrite S2. clear S1 S2. destruct refs as [|r rs]; [easy|]. rewrite split_listed by exact F.
  replace (map (strip space) (r :: map (cons " ") rs)) with (r :: rs); [reflexivity|]. inversion F as [|? ? H F']; subst. cbn [map].
  rewrite (proj1 (strip_ref r H)). f_equal. rewrite map_map. clear -F'. induction F' as [|c l C _ IH]; [reflexivity|]. cbn [map]. rewrite (proj2 (strip_ref c C)). now f_equal.
Qed.

(** the order *)
Lemma leb_iff s t : leb s t = true <-> lexical s t.
Proof.
  split.
  - revert t. induction s as [|c s IH]; intros [|d t] H; cbn in H; try discriminate; try (now constructor).
    destruct (c =? d) eqn:E.
    + apply asc in E. subst d. apply lex_same. auto.
    + apply lex_less. now apply Nat.ltb_lt.
  - induction 1; cbn.
    + reflexivity.
    + destruct (c =? d) eqn:E; [apply asc in E; subst; lia|]. now apply Nat.ltb_lt.
    + now rewrite Ascii.eqb_refl.
Qed.
Lemma lex_refl s : lexical s s.
Proof. induction s; now constructor. Qed.
Lemma lex_trans s t u : lexical s t -> lexical t u -> lexical s u.
Proof.
  intros H. revert u. induction H; intros u K; inversion K; subst; try (now constructor); try (apply lex_less; lia). apply lex_same. auto.
Qed.
Lemma lex_total s t : leb s t = false -> lexical t s.
Proof.
  revert t. induction s as [|c s IH]; intros [|d t] H; cbn in H; try discriminate; [constructor|].
  destruct (c =? d) eqn:E.
  - apply asc in E. subst d. apply lex_same. auto.
  - apply lex_less. apply Nat.ltb_ge in H. destruct (Nat.eq_dec (nat_of_ascii c) (nat_of_ascii d)) as [X|X]; [|lia].
    exfalso. rewrite <- (ascii_nat_embedding c), X, ascii_nat_embedding, Ascii.eqb_refl in E. discriminate.
Qed.
Lemma lex_anti s t : lexical s t -> lexical t s -> s = t.
Proof.
  induction 1; intros K; inversion K; subst; auto; try lia. f_equal. auto.
Qed.
Lemma lex_prefix p s t : lexical (p ++ s) (p ++ t) <-> lexical s t.
Proof.
  induction p as [|c p IH]; [reflexivity|]. cbn. rewrite <- IH. split; intros H; [|now apply lex_same]. inversion H; subst; [lia|assumption].
Qed.
Lemma insert_in x s l : In x (insert s l) <-> x = s \/ In x l.
Proof.
  induction l as [|t l IH]; cbn; [intuition|]. destruct (leb s t); cbn; [intuition|]. rewrite IH. intuition.
Qed.
Lemma sort_in x l : In x (sort l) <-> In x l.
Proof. induction l as [|t l IH]; cbn; [reflexivity|]. rewrite insert_in, IH. intuition. Qed.
Lemma insert_sorted s l : StronglySorted lexical l -> StronglySorted lexical (insert s l).
Proof.
  induction 1 as [|t l S IH F]; cbn; [repeat constructor|]. destruct (leb s t) eqn:E.
  - apply leb_iff in E. constructor; [now constructor|]. constructor; [exact E|]. eapply Forall_impl; [|exact F]. intros u. apply lex_trans, E.
  - constructor; [exact IH|]. apply Forall_forall. intros u I. apply insert_in in I. destruct I as [->|I]; [now apply lex_total|]. now apply (proj1 (Forall_forall _ _) F).
Qed.
Lemma sort_sorted l : StronglySorted lexical (sort l).
Proof. induction l; cbn; [constructor|]. now apply insert_sorted. Qed.
Lemma first_least p l t : StronglySorted lexical l -> In (p ++ t) l ->
  exists u, first_tag p l = Some u /\ In (p ++ u) l /\ forall w, In (p ++ w) l -> lexical u w.
Proof.
  induction 1 as [|r l S IH F]; intros I; [easy|]. cbn [first_tag]. destruct (after p r) as [u|] eqn:A.
  - apply after_iff in A. subst r. exists u. split; [reflexivity|]. split; [now left|]. intros w [E|J].
    + apply app_inv_head in E. subst w. apply lex_refl.
    + apply (lex_prefix p). exact (proj1 (Forall_forall _ _) F _ J).
  - destruct I as [E|I]; [exfalso; subst r; assert (X : after p (p ++ t) = Some t) by (now apply after_iff); congruence|].
    destruct (IH I) as (u & U & J & L). exists u. split; [exact U|]. split; [now right|]. intros w [E|K]; [|auto].
    exfalso. subst r. assert (X : after p (p ++ w) = Some w) by now apply after_iff. congruence.
Qed.
Lemma first_none p l : (forall t, ~ In (p ++ t) l) -> first_tag p l = None.
Proof.
  induction l as [|r l IH]; intros N; [reflexivity|]. cbn. destruct (after p r) as [u|] eqn:A.
  - apply after_iff in A. exfalso. apply (N u). now left.
  - apply IH. intros t I. apply (N t). now right.
Qed.
Lemma tag_list_in refs t : In t (tag_list refs) <-> In (lit "tag: " ++ t) refs.
Proof.
  unfold tag_list. rewrite in_flat_map. split.
  - intros (r & I & J). destruct (after (q "tag: ") r) as [u|] eqn:A; [|easy]. apply after_iff in A. destruct J as [->|[]]. now subst r.
  - intros I. exists (lit "tag: " ++ t). split; [exact I|]. assert (A : after (q "tag: ") (lit "tag: " ++ t) = Some t) by now apply after_iff. rewrite A. now left.
Qed.
Lemma shown_in refs t u : In (lit "tag: " ++ t) refs -> In u (shown refs) <-> In (lit "tag: " ++ u) refs.
Proof.
  intros I. apply tag_list_in in I. rewrite <- tag_list_in. unfold shown. destruct (tag_list refs); [easy|reflexivity].
Qed.
Lemma keywords_least refs s p t : decorated refs s -> In (lit "tag: " ++ p ++ t) refs ->
  exists u, git_versions_from_keywords s p = Some u /\ In (lit "tag: " ++ p ++ u) refs /\ forall w, In (lit "tag: " ++ p ++ w) refs -> lexical u w.
Proof.
  intros D I. rewrite (keywords_refs refs s p D).
  destruct (first_least p (sort (shown refs)) t (sort_sorted _)) as (u & U & J & L).
  { apply sort_in. now apply (shown_in refs (p ++ t)). }
  exists u. rewrite U. split; [reflexivity|]. split.
  - exact (proj1 (shown_in refs (p ++ t) (p ++ u) I) (proj1 (sort_in _ _) J)).
  - intros w K. apply L. apply sort_in. exact (proj2 (shown_in refs (p ++ t) (p ++ w) I) K).
Qed.
Lemma keywords_final refs s p t x : decorated refs s -> x <> [] -> In (lit "tag: " ++ p ++ t) refs ->
  git_versions_from_keywords s p <> Some (t ++ x).
Proof.
  intros D N I E. destruct (keywords_least refs s p t D I) as (u & U & _ & L). rewrite U in E. injection E as ->. specialize (L t I).
  rewrite <- (app_nil_r t) in L at 2. apply lex_prefix in L. inversion L. subst. easy.
Qed.
Lemma keywords_unknown refs s p : decorated refs s -> (forall t, ~ In (lit "tag: " ++ p ++ t) refs) ->
  (forall t, In (p ++ t) refs -> exists u, In (lit "tag: " ++ u) refs) -> git_versions_from_keywords s p = Some (q "0+unknown").
Proof.
  intros D N B. rewrite (keywords_refs refs s p D), first_none; [reflexivity|]. intros t I. apply (proj1 (sort_in _ _)) in I.
  unfold shown in I. destruct (tag_list refs) as [|r l] eqn:E.
  - apply filter_In in I. destruct I as (I & _). destruct (B t I) as (u & U). apply tag_list_in in U. rewrite E in U. easy.
  - rewrite <- E in I. apply tag_list_in in I. exact (N t I).
Qed.

(** ** the order of the methods *)
Definition unexpanded : str := lit "$Format:%d$".
Lemma unexpanded_none p : git_versions_from_keywords unexpanded p = None.
Proof. reflexivity. Qed.
Lemma get_checkout (t : str) n (h : str) b (d full : str) count file : commit h -> describes (lit "v" ++ t) n h b d ->
  get_versions unexpanded (Some (d, full, count)) file = render_pep440 (Pieces (Some t) n h b).
Proof.
  intros H D. unfold get_versions. rewrite unexpanded_none, (parse_ok (q "v") t n h b d full count H); [reflexivity|discriminate|exact D].
Qed.
Lemma get_untagged (h : str) b (d full : str) count file : commit h -> describes_untagged h b d ->
  get_versions unexpanded (Some (d, full, count)) file = render_pep440 (Pieces None count (firstn 7 full) b).
Proof. intros H D. unfold get_versions. rewrite unexpanded_none, (parse_untagged (q "v") h b d full count H D). reflexivity. Qed.
Lemma release_tag (t h d full : str) count file : commit h -> t <> [] -> describes (lit "v" ++ t) 0 h false d ->
  get_versions unexpanded (Some (d, full, count)) file = t.
Proof.
  intros H N D. rewrite (get_checkout t 0 h false d full count file H D). unfold render_pep440, tagged. cbn [closest]. destruct t; [easy|]. apply app_nil_r.
Qed.
Lemma checkout_version (t : str) n (h : str) b (d full : str) count file : commit h -> version t -> describes (lit "v" ++ t) n h b d ->
  version (get_versions unexpanded (Some (d, full, count)) file).
Proof.
  intros H V D. rewrite (get_checkout t n h b d full count file H D). apply pep440_version; [exact H|]. cbn. intros u E _. injection E as <-. exact V.
Qed.
Lemma untagged_version (h : str) b (d full : str) count file : commit h -> commit full -> describes_untagged h b d ->
  version (get_versions unexpanded (Some (d, full, count)) file).
Proof.
  intros H (N & F) D. rewrite (get_untagged h b d full count file H D). apply pep440_version; [|discriminate]. cbn [short].
  split; [destruct full; [easy|discriminate]|]. apply Forall_forall. intros c I. apply (proj1 (Forall_forall _ _) F). rewrite <- (firstn_skipn 7 full). apply in_or_app. auto.
Qed.
Lemma parent_from p v rest : forall up fuel, List.length up < fuel -> (forall d u, In d up -> d <> p ++ u) ->
  versions_from_parentdir fuel p (up ++ (p ++ v) :: rest) = Some v.
Proof.
  induction up as [|d up IH]; intros [|fuel] L N; cbn in L; try lia; cbn [app versions_from_parentdir hd tl].
  - assert (A : after p (p ++ v) = Some v) by now apply after_iff. now rewrite A.
  - destruct (after p d) as [u|] eqn:A; [apply after_iff in A; exfalso; exact (N d u (or_introl eq_refl) A)|].
    apply IH; [lia|]. intros e u I. apply N. now right.
Qed.
Lemma parent_dir file pkg up v rest : List.length up <= 2 -> (forall d u, In d up -> d <> lit "aeppl-" ++ u) ->
  get_versions unexpanded None (file :: pkg :: up ++ (lit "aeppl-" ++ v) :: rest) = v.
Proof.
  intros L N. unfold get_versions. rewrite unexpanded_none. cbn [tl]. change (q "aeppl-") with (lit "aeppl-").
  rewrite (parent_from (lit "aeppl-") v rest up 3); [reflexivity|lia|exact N].
Qed.
Lemma keywords_first refs s vcs file : decorated refs s -> Some (get_versions s vcs file) = git_versions_from_keywords s (lit "v").
Proof. intros D. unfold get_versions. change (q "v") with (lit "v"). rewrite (keywords_refs refs s (lit "v") D). reflexivity. Qed.
Lemma asc_in c (s : str) : In c s -> existsb (fun d => d =? c) s = true.
Proof. intros I. apply existsb_exists. exists c. split; [exact I|apply Ascii.eqb_refl]. Qed.
Definition ref_b (r : str) : bool :=
  forallb (fun c => (32 <=? nat_of_ascii c)%nat && (nat_of_ascii c <=? 126)%nat && negb (existsb (fun d => d =? c) (lit ",()"))) r &&
  negb (hd "x" r =? " ") && negb (last r "x" =? " ") && match r with [] => false | _ => true end.
Lemma ref_ok r : ref_b r = true -> ref_text r.
Proof.
  unfold ref_b. intros H. apply andb_prop in H. destruct H as (H & N). apply andb_prop in H. destruct H as (H & L). apply andb_prop in H. destruct H as (H & F).
  split; [destruct r; [discriminate N|discriminate]|]. split; [|split; intros E].
  - apply Forall_forall. intros c I. apply (proj1 (forallb_forall _ _) H) in I. apply andb_prop in I. destruct I as (I & J). apply andb_prop in I. destruct I as (A & B).
    apply Nat.leb_le in A, B. split; [auto|]. intros K. apply asc_in in K. rewrite K in J. discriminate J.
  - rewrite E in F. discriminate F.
  - rewrite E in L. discriminate L.
Qed.
