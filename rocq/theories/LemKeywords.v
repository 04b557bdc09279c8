(** Proofs about ModelKeywords. *)
From Coq Require Import List Arith Ascii String Bool Lia.
From Verif Require Import ModelVersion ModelKeywords SpecVersion SpecKeywords LemVersion LemVersion2 LemVersion3.
Import ListNotations.
Open Scope char_scope.
Open Scope list_scope.

Lemma white_space c : white c <-> space c = true.
Proof.
  unfold white, space. set (n := nat_of_ascii c). split.
  - intros H. repeat (destruct H as [<-|H]; [reflexivity|]). contradiction.
  - intros H. apply orb_true_iff in H. rewrite !andb_true_iff, !Nat.leb_le in H. simpl. lia.
Qed.
Lemma white_all s : Forall white s -> Forall (fun c => space c = true) s.
Proof. apply Forall_impl. intros c. apply white_space. Qed.
Lemma up_to_last_none s : ~ In dq s -> up_to_last s = None.
Proof. induction s as [|c s IH]; [reflexivity|]. cbn [up_to_last In]. intros H. destruct (c =? lf); [reflexivity|]. rewrite IH by tauto. destruct (Ascii.eqb_spec c dq); [exfalso; apply H; now left|reflexivity]. Qed.
Lemma up_to_last_ok v rest : ~ In lf v -> ~ In dq rest -> up_to_last (v ++ dq :: rest) = Some v.
Proof.
  induction v as [|c v IH]; intros H N; cbn [app up_to_last In].
  - cbn. now rewrite up_to_last_none.
  - destruct (Ascii.eqb_spec c lf); [exfalso; apply H; now left|]. rewrite IH; [reflexivity| |exact N]. intros I. apply H. now right.
Qed.
Lemma quoted_skip a s : ~ In "=" a -> quoted (a ++ s) = quoted s.
Proof. induction a as [|c a IH]; intros H; [reflexivity|]. cbn [app quoted In] in *. destruct (Ascii.eqb_spec c "="); [exfalso; apply H; now left|]. apply IH. tauto. Qed.
Lemma quoted_ok w v rest : Forall white w -> ~ In lf v -> ~ In dq rest -> quoted ("=" :: w ++ dq :: v ++ dq :: rest) = Some v.
Proof. intros W L N. cbn [quoted]. change ("=" =? "=") with true. cbn iota. rewrite lstrip_all by now apply white_all. change (lstrip space (dq :: v ++ dq :: rest)) with (dq :: v ++ dq :: rest). cbn iota. rewrite Ascii.eqb_refl, up_to_last_ok; auto. Qed.
Lemma lstrip_split f s : exists a, s = a ++ lstrip f s /\ Forall (fun c => f c = true) a.
Proof.
  induction s as [|c s (a & E & F)]; [exists []; split; [reflexivity|constructor]|]. cbn [lstrip]. destruct (f c) eqn:H.
  - exists (c :: a). split; [cbn; now rewrite <- E|now constructor].
  - exists []. split; [reflexivity|constructor].
Qed.
Lemma strip_split f s : exists a b, s = a ++ strip f s ++ b /\ Forall (fun c => f c = true) a.
Proof.
  unfold strip. destruct (lstrip_split f s) as (a & E & F). destruct (lstrip_split f (rev (lstrip f s))) as (b & E' & F').
  exists a, (rev b). split; [|exact F]. rewrite E at 1. f_equal. rewrite <- rev_app_distr, <- E'. now rewrite rev_involutive.
Qed.
Lemma lstrip_app f a p : p <> [] -> f (hd "x" p) = false -> exists a', lstrip f (a ++ p) = a' ++ p.
Proof.
  intros P H. induction a as [|c a (a' & E)]; [exists []; cbn; now apply lstrip_stop|]. cbn [app lstrip]. destruct (f c); [now exists a'|now exists (c :: a)].
Qed.
Lemma strip_starts f p t i : Forall (fun c => f c = true) i -> p <> [] -> f (hd "x" p) = false -> f (hd "x" (rev p)) = false -> exists t', strip f (i ++ p ++ t) = p ++ t'.
Proof.
  intros I P H L. unfold strip. rewrite lstrip_all by exact I. rewrite (lstrip_stop f (p ++ t)).
  2: { destruct p; [contradiction|discriminate]. } 2: { destruct p; [contradiction|exact H]. }
  rewrite rev_app_distr. destruct (lstrip_app f (rev t) (rev p)) as (t' & E); [|exact L|].
  { intros E. apply P. rewrite <- (rev_involutive p), E. reflexivity. }
  rewrite E, rev_app_distr, rev_involutive. now exists (rev t').
Qed.
Lemma name_facts name : keyword_name name -> ~ In "=" (name ++ lit " ") /\ name ++ lit " =" <> [] /\ space (hd "x" (name ++ lit " =")) = false /\ space (hd "x" (rev (name ++ lit " ="))) = false.
Proof.
  intros [<-|[<-|[<-|[]]]]; (split; [|split; [discriminate|split; reflexivity]]); intros H; cbn in H; repeat (destruct H as [H|H]; [discriminate H|]); exact H.
Qed.
Lemma read_assigned name v line : keyword_name name -> assigns name v line -> read_line name line = Some v.
Proof.
  intros K (i & w & rest & I & W & L & N & ->). destruct (name_facts name K) as (NE & P & H & H').
  unfold read_line. destruct (strip_starts space (name ++ lit " =") (w ++ [quote_mark] ++ v ++ [quote_mark] ++ rest) i) as (t' & E); auto.
  { now apply white_all. }
  replace (i ++ name ++ lit " =" ++ w ++ [quote_mark] ++ v ++ [quote_mark] ++ rest) with (i ++ (name ++ lit " =") ++ w ++ [quote_mark] ++ v ++ [quote_mark] ++ rest) by now rewrite <- !app_assoc.
  rewrite E. assert (A : after (name ++ q " =") ((name ++ lit " =") ++ t') = Some t') by now apply after_iff. rewrite A.
  replace (i ++ (name ++ lit " =") ++ w ++ [quote_mark] ++ v ++ [quote_mark] ++ rest) with ((i ++ name ++ lit " ") ++ "=" :: w ++ dq :: v ++ dq :: rest).
  2: { change (lit " =") with (lit " " ++ ["="]). rewrite <- !app_assoc. reflexivity. }
  rewrite quoted_skip; [now apply quoted_ok|]. rewrite in_app_iff. intros [Hi|Hi]; [|exact (NE Hi)].
  rewrite Forall_forall in I. specialize (I _ Hi). apply white_space in I. discriminate I.
Qed.
Lemma read_silent name line : silent name line -> read_line name line = None.
Proof.
  intros S. unfold read_line. destruct (after (name ++ q " =") (strip space line)) as [t|] eqn:A; [|reflexivity]. apply after_iff in A. exfalso.
  destruct (strip_split space line) as (a & b & E & F). apply (S a (t ++ b)); [eapply Forall_impl; [|exact F]; intros c; apply white_space|].
  rewrite A in E. rewrite E at 1. rewrite <- !app_assoc. reflexivity.
Qed.
Lemma keyword_set name v file : keyword_name name -> sets name v file -> get_keyword name file = Some v.
Proof.
  intros K (l1 & line & l2 & -> & A & S). unfold get_keyword. rewrite fold_left_app. cbn [fold_left]. rewrite (read_assigned _ _ _ K A).
  induction S as [|l l2 H S IH]; [reflexivity|]. cbn [fold_left]. now rewrite (read_silent _ _ H).
Qed.
Lemma keyword_unset name file : Forall (silent name) file -> get_keyword name file = None.
Proof. intros S. unfold get_keyword. induction S as [|l file H S IH]; [reflexivity|]. cbn [fold_left]. now rewrite (read_silent _ _ H). Qed.

(** dates *)
Lemma first_line_all s : ~ In lf s -> first_line s = s.
Proof. induction s as [|c s IH]; intros H; [reflexivity|]. cbn [first_line In] in *. destruct (Ascii.eqb_spec c lf); [exfalso; apply H; now left|]. now rewrite IH by tauto. Qed.
Lemma first_line_stop s t : ~ In lf s -> first_line (s ++ lf :: t) = s.
Proof. induction s as [|c s IH]; intros H; [reflexivity|]. cbn [app first_line In] in *. destruct (Ascii.eqb_spec c lf); [exfalso; apply H; now left|]. now rewrite IH by tauto. Qed.
Definition preamble (s : str) : Prop := s = [] \/ exists t, s = t ++ [lf].
Lemma last_line_ok pre s : preamble pre -> s <> [] -> ~ In lf s -> last_line (pre ++ s) = Some s.
Proof.
  intros P S N. unfold last_line. rewrite rev_app_distr. destruct (rev s) as [|c t] eqn:E.
  { exfalso. apply S. rewrite <- (rev_involutive s), E. reflexivity. }
  assert (N' : ~ In lf (c :: t)) by now rewrite <- E, <- in_rev. cbn [app]. destruct (Ascii.eqb_spec c lf); [exfalso; apply N'; now left|].
  change (c :: t ++ rev pre) with ((c :: t) ++ rev pre). destruct P as [->|(u & ->)].
  - cbn [rev]. rewrite app_nil_r, first_line_all, <- E, rev_involutive by exact N'. reflexivity.
  - rewrite rev_app_distr. cbn [rev app]. change (c :: t ++ lf :: rev u) with ((c :: t) ++ lf :: rev u). rewrite first_line_stop by exact N'. now rewrite <- E, rev_involutive.
Qed.
Lemma replace_first c new a s : ~ In c a -> replace1 c new (a ++ c :: s) = a ++ new ++ s.
Proof. induction a as [|d a IH]; intros H; cbn [app replace1 In] in *; [now rewrite Ascii.eqb_refl|]. destruct (Ascii.eqb_spec d c); [exfalso; apply H; now left|]. now rewrite IH by tauto. Qed.
Lemma dark_not s c : dark s -> white c -> ~ In c s.
Proof. intros (_ & F) W I. rewrite Forall_forall in F. exact (F _ I W). Qed.
Lemma dark_ends s : dark s -> space (hd "x" s) = false /\ space (last s "x") = false.
Proof.
  intros (N & F). rewrite Forall_forall in F. split; apply not_true_iff_false; rewrite <- white_space; apply F.
  - destruct s; [contradiction|now left].
  - clear F. destruct s as [|c s]; [contradiction|]. clear N. revert c. induction s as [|d s IH]; intros c; [now left|]. right. exact (IH d).
Qed.
Lemma last_app a b : b <> [] -> last (a ++ b) "x" = last b "x".
Proof. intros B. induction a as [|c a IH]; [reflexivity|]. cbn [app]. destruct (a ++ b) eqn:E; [destruct a; [subst; contradiction|discriminate]|]. exact IH. Qed.
Lemma white_sp : white " ". Proof. unfold white. simpl. tauto. Qed.
Lemma white_lf : white lf. Proof. unfold white. simpl. tauto. Qed.
Lemma iso_ok pre d t z s : git_date_text d t z s -> preamble pre -> iso_date (pre ++ s) = Some (d ++ lit "T" ++ t ++ z).
Proof.
  intros (D & T & Z & ->) P. unfold iso_date. rewrite last_line_ok; [|exact P| |].
  2: { destruct D as (D & _). destruct d; [contradiction|discriminate]. }
  2: { rewrite !in_app_iff. cbn [lit list_ascii_of_string In]. pose proof (dark_not _ _ D white_lf). pose proof (dark_not _ _ T white_lf). pose proof (dark_not _ _ Z white_lf). intros [?|[[?|[]]|[?|[[?|[]]|?]]]]; try tauto; discriminate. }
  cbn [option_map]. f_equal. destruct (dark_ends _ D) as (DH & _). destruct (dark_ends _ Z) as (_ & ZL).
  assert (ST : strip space (d ++ lit " " ++ t ++ lit " " ++ z) = d ++ lit " " ++ t ++ lit " " ++ z).
  { pose proof (strip_mid space [] (d ++ lit " " ++ t ++ lit " " ++ z) []) as Q. cbn [app] in Q. rewrite app_nil_r in Q. apply Q; try constructor.
    - destruct D as (D & _). destruct d; [contradiction|discriminate].
    - destruct D as (D & _). destruct d; [contradiction|exact DH].
    - rewrite !app_assoc, last_app; [exact ZL|]. exact (proj1 Z). }
  rewrite ST. change (lit " " ++ t ++ lit " " ++ z) with (" " :: t ++ " " :: z). rewrite replace_first by (apply dark_not; [exact D|exact white_sp]).
  replace (d ++ q "T" ++ t ++ " " :: z) with ((d ++ lit "T" ++ t) ++ " " :: z) by now rewrite <- !app_assoc.
  rewrite replace_first; [now rewrite <- !app_assoc|]. rewrite !in_app_iff. cbn [lit list_ascii_of_string In]. pose proof (dark_not _ _ D white_sp). pose proof (dark_not _ _ T white_sp). intros [?|[[?|[]]|?]]; try tauto; discriminate.
Qed.

(** the tag of a decorated archive *)
Lemma keyword_tag_refs refs s p : decorated refs s -> keyword_tag s p = first_tag p (sort (shown refs)).
Proof.
  intros (N & F & ->). unfold keyword_tag.
  destruct (listed_ends refs N F) as (a & b & A & B & NE & HA & LB).
  assert (S1 : strip space (lit " (" ++ listed refs ++ lit ")") = lit "(" ++ listed refs ++ lit ")").
  { pose proof (strip_mid space [" "] (lit "(" ++ listed refs ++ lit ")") [] (Forall_cons " " eq_refl (Forall_nil _)) (Forall_nil _)) as E.
    rewrite app_nil_r in E. apply E; [discriminate|reflexivity|]. change (lit ")") with [")"]. rewrite app_assoc, last_last. reflexivity. }
  rewrite S1. cbn [lit list_ascii_of_string app].
  set (f := fun c => (c =? "(") || (c =? ")")).
  assert (S2 : strip f ("(" :: listed refs ++ [")"]) = listed refs).
  { apply (strip_mid f ["("] (listed refs) [")"]).
    - repeat constructor.
    - repeat constructor.
    - exact NE.
    - rewrite HA. apply (ref_parens a A).
    - rewrite LB. apply (ref_parens b B). }
  rewrite S2. clear S1 S2. destruct refs as [|r rs]; [easy|]. rewrite split_listed by exact F.
  replace (map (strip space) (r :: map (cons " ") rs)) with (r :: rs); [reflexivity|]. inversion F as [|? ? H F']; subst. cbn [map].
  rewrite (proj1 (strip_ref r H)). f_equal. rewrite map_map. clear -F'. induction F' as [|c l C _ IH]; [reflexivity|]. cbn [map]. rewrite (proj2 (strip_ref c C)). now f_equal.
Qed.
Lemma keyword_tag_some refs s p t : decorated refs s -> In (lit "tag: " ++ p ++ t) refs -> keyword_tag s p <> None.
Proof.
  intros D I. rewrite (keyword_tag_refs refs s p D). destruct (first_least p (sort (shown refs)) t (sort_sorted _)) as (u & U & _); [|now rewrite U].
  apply sort_in. now apply (shown_in refs (p ++ t)).
Qed.
Lemma keyword_tag_none refs s p : decorated refs s -> (forall t, ~ In (lit "tag: " ++ p ++ t) refs) ->
  (forall t, In (p ++ t) refs -> exists u, In (lit "tag: " ++ u) refs) -> keyword_tag s p = None.
Proof.
  intros D N B. rewrite (keyword_tag_refs refs s p D). apply first_none. intros t I. apply (proj1 (sort_in _ _)) in I.
  unfold shown in I. destruct (tag_list refs) as [|r l] eqn:E.
  - apply filter_In in I. destruct I as (I & _). destruct (B t I) as (u & U). apply tag_list_in in U. rewrite E in U. easy.
  - rewrite <- E in I. apply tag_list_in in I. exact (N t I).
Qed.
Lemma kn1 : keyword_name (lit "git_refnames"). Proof. now left. Qed.
Lemma kn2 : keyword_name (lit "git_full"). Proof. right. now left. Qed.
Lemma kn3 : keyword_name (lit "git_date"). Proof. right. right. now left. Qed.
Lemma strip_dark s : dark s -> strip space s = s.
Proof. intros D. destruct (dark_ends _ D) as (A & B). pose proof (strip_mid space [] s []) as Q. cbn [app] in Q. rewrite app_nil_r in Q. apply Q; try constructor; auto. exact (proj1 D). Qed.
Lemma file_found refs r h d t z s file p tag : decorated refs r -> dark h -> git_date_text d t z s -> sets (lit "git_refnames") r file -> sets (lit "git_full") h file -> sets (lit "git_date") s file ->
  In (lit "tag: " ++ p ++ tag) refs ->
  exists u, versions_from_file_keywords file p = Found u h (Some (d ++ lit "T" ++ t ++ z)) /\ In (lit "tag: " ++ p ++ u) refs /\ forall w, In (lit "tag: " ++ p ++ w) refs -> lexical u w.
Proof.
  intros D H G R F T I. destruct (keywords_least refs r p tag D I) as (u & U & J & L). exists u. split; [|now split].
  unfold versions_from_file_keywords, git_get_keywords. cbn [refnames full date].
  change (q "git_refnames") with (lit "git_refnames"). change (q "git_full") with (lit "git_full"). change (q "git_date") with (lit "git_date").
  rewrite (keyword_set _ _ _ kn1 R), (keyword_set _ _ _ kn2 F), (keyword_set _ _ _ kn3 T).
  pose proof (iso_ok [] d t z s G (or_introl eq_refl)) as E. cbn [app] in E. rewrite E. cbn [option_map]. rewrite U, (strip_dark h H).
  pose proof (keyword_tag_some refs r p tag D I). now destruct (keyword_tag r p).
Qed.
Lemma file_unknown refs r h d t z s file p : decorated refs r -> dark h -> git_date_text d t z s -> sets (lit "git_refnames") r file -> sets (lit "git_full") h file -> sets (lit "git_date") s file ->
  (forall t, ~ In (lit "tag: " ++ p ++ t) refs) -> (forall t, In (p ++ t) refs -> exists u, In (lit "tag: " ++ u) refs) ->
  versions_from_file_keywords file p = Found (lit "0+unknown") h None.
Proof.
  intros D H G R F T N B. unfold versions_from_file_keywords, git_get_keywords. cbn [refnames full date].
  change (q "git_refnames") with (lit "git_refnames"). change (q "git_full") with (lit "git_full"). change (q "git_date") with (lit "git_date").
  rewrite (keyword_set _ _ _ kn1 R), (keyword_set _ _ _ kn2 F), (keyword_set _ _ _ kn3 T).
  pose proof (iso_ok [] d t z s G (or_introl eq_refl)) as E. cbn [app] in E. rewrite E. cbn [option_map]. rewrite (keywords_unknown refs r p D N B), (strip_dark h H), (keyword_tag_none refs r p D N B). reflexivity.
Qed.
Lemma file_other file p : (forall name, keyword_name name -> Forall (silent name) file) -> versions_from_file_keywords file p = Not_this_method.
Proof.
  intros S. unfold versions_from_file_keywords, git_get_keywords. cbn [refnames full date].
  change (q "git_refnames") with (lit "git_refnames"). change (q "git_full") with (lit "git_full"). change (q "git_date") with (lit "git_date").
  now rewrite (keyword_unset _ _ (S _ kn1)), (keyword_unset _ _ (S _ kn2)), (keyword_unset _ _ (S _ kn3)).
Qed.
Lemma silent_check name line : keyword_name name -> after (name ++ lit " =") (lstrip space line) = None -> silent name line.
Proof.
  intros K A i t I ->. destruct (name_facts name K) as (_ & P & H & _). rewrite lstrip_all in A by now apply white_all.
  rewrite app_assoc in A. rewrite lstrip_stop in A.
  - assert (X : after (name ++ lit " =") ((name ++ lit " =") ++ t) = Some t) by now apply after_iff. congruence.
  - destruct (name ++ lit " ="); [contradiction|discriminate].
  - destruct (name ++ lit " ="); [contradiction|exact H].
Qed.
(** a line feed at the end *)
Lemma last_line_feed pre s : preamble pre -> s <> [] -> ~ In lf s -> last_line (pre ++ s ++ [lf]) = last_line (pre ++ s).
Proof.
  intros P S N. rewrite (last_line_ok pre s P S N). unfold last_line. rewrite app_assoc, rev_app_distr. cbn [rev app]. rewrite Ascii.eqb_refl.
  assert (N' : ~ In lf (rev s)) by now rewrite <- in_rev. rewrite rev_app_distr. destruct P as [->|(u & ->)].
  - cbn [rev]. rewrite app_nil_r, first_line_all, rev_involutive by exact N'. reflexivity.
  - rewrite rev_app_distr. cbn [rev app]. rewrite first_line_stop by exact N'. now rewrite rev_involutive.
Qed.
Lemma iso_line pre d t z s : git_date_text d t z s -> preamble pre -> iso_date (pre ++ s ++ [lf]) = Some (d ++ lit "T" ++ t ++ z).
Proof.
  intros G P. rewrite <- (iso_ok pre d t z s G P). unfold iso_date. rewrite last_line_feed; [reflexivity|exact P| |]; destruct G as (D & T & Z & ->).
  - destruct D as (D & _). destruct d; [contradiction|discriminate].
  - rewrite !in_app_iff. cbn [lit list_ascii_of_string In]. pose proof (dark_not _ _ D white_lf). pose proof (dark_not _ _ T white_lf). pose proof (dark_not _ _ Z white_lf). intros [?|[[?|[]]|[?|[[?|[]]|?]]]]; try tauto; discriminate.
Qed.
(** chained assignments *)
Lemma lstrip_other u X : ~ In dq u -> exists d t, lstrip space (u ++ "=" :: X) = d :: t /\ (d =? dq) = false.
Proof.
  induction u as [|c u IH]; intros N; cbn [app lstrip].
  - change (space "=") with false. cbn iota. now exists "=", X.
  - destruct (space c) eqn:E; [apply IH; intros I; apply N; now right|]. exists c, (u ++ "=" :: X). split; [reflexivity|].
    destruct (Ascii.eqb_spec c dq); [exfalso; apply N; now left|reflexivity].
Qed.
Lemma quoted_chain u w v rest : ~ In dq u -> Forall white w -> ~ In lf v -> ~ In dq rest -> quoted (u ++ "=" :: w ++ dq :: v ++ dq :: rest) = Some v.
Proof.
  intros U W L N. induction u as [|c u IH]; [now apply quoted_ok|]. assert (U' : ~ In dq u) by (intros I; apply U; now right).
  cbn [app quoted]. rewrite (IH U'). destruct (c =? "="); [|reflexivity]. destruct (lstrip_other u (w ++ dq :: v ++ dq :: rest) U') as (d & t & -> & ->). reflexivity.
Qed.
Lemma read_chained name u w v rest i : keyword_name name -> Forall white i -> Forall white w -> ~ In quote_mark u -> ~ In line_feed v -> ~ In quote_mark rest ->
  read_line name (i ++ name ++ lit " =" ++ u ++ lit "=" ++ w ++ [quote_mark] ++ v ++ [quote_mark] ++ rest) = Some v.
Proof.
  intros K I W U L N. destruct (name_facts name K) as (NE & P & H & H').
  unfold read_line. destruct (strip_starts space (name ++ lit " =") (u ++ lit "=" ++ w ++ [quote_mark] ++ v ++ [quote_mark] ++ rest) i) as (t' & E); auto.
  { now apply white_all. }
  rewrite <- app_assoc in E. rewrite E. assert (A : after (name ++ q " =") ((name ++ lit " =") ++ t') = Some t') by now apply after_iff. rewrite A.
  replace (i ++ name ++ lit " =" ++ u ++ lit "=" ++ w ++ [quote_mark] ++ v ++ [quote_mark] ++ rest) with ((i ++ name ++ lit " =" ++ u) ++ "=" :: w ++ dq :: v ++ dq :: rest) by (rewrite <- !app_assoc; reflexivity).
  apply quoted_chain; auto. rewrite !in_app_iff. intros [Q|[Q|[Q|Q]]]; [| | |exact (U Q)].
  - rewrite Forall_forall in I. specialize (I _ Q). apply white_space in I. discriminate I.
  - destruct K as [<-|[<-|[<-|[]]]]; cbn in Q; repeat (destruct Q as [Q|Q]; [discriminate Q|]); exact Q.
  - cbn in Q. repeat (destruct Q as [Q|Q]; [discriminate Q|]); exact Q.
Qed.
Lemma keyword_chained name u w v rest i l1 l2 : keyword_name name -> Forall white i -> Forall white w -> ~ In quote_mark u -> ~ In line_feed v -> ~ In quote_mark rest -> Forall (silent name) l2 ->
  get_keyword name (l1 ++ (i ++ name ++ lit " =" ++ u ++ lit "=" ++ w ++ [quote_mark] ++ v ++ [quote_mark] ++ rest) :: l2) = Some v.
Proof.
  intros K I W U L N S. unfold get_keyword. rewrite fold_left_app. cbn [fold_left]. rewrite read_chained by assumption.
  induction S as [|l l2 H S IH]; [reflexivity|]. cbn [fold_left]. now rewrite (read_silent _ _ H).
Qed.
(** files that git has not expanded *)
Lemma iso_some s : s <> [] -> exists i, iso_date s = Some i.
Proof. intros N. unfold iso_date, last_line. destruct (rev s) as [|c t] eqn:E; [|now eexists]. exfalso. apply N. rewrite <- (rev_involutive s), E. reflexivity. Qed.
Lemma file_template r s file p : sets (lit "git_refnames") (lit "$Format" ++ r) file -> sets (lit "git_date") s file -> s <> [] -> versions_from_file_keywords file p = Not_this_method.
Proof.
  intros R T N. unfold versions_from_file_keywords, git_get_keywords. cbn [refnames full date].
  change (q "git_refnames") with (lit "git_refnames"). change (q "git_date") with (lit "git_date").
  rewrite (keyword_set _ _ _ kn1 R), (keyword_set _ _ _ kn3 T). destruct (iso_some s N) as (i & E). rewrite E. cbn [option_map].
  assert (G : git_versions_from_keywords (lit "$Format" ++ r) p = None).
  { unfold git_versions_from_keywords. destruct (strip_starts space (lit "$Format") r []) as (t' & Q); [constructor|discriminate|reflexivity|reflexivity|]. cbn [app] in Q.
    cbv zeta. rewrite Q. assert (A : after (q "$Format") (lit "$Format" ++ t') = Some t') by now apply after_iff. now rewrite A. }
  rewrite G. now destruct (get_keyword (q "git_full") file).
Qed.
