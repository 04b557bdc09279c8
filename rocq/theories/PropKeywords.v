(** C81: what setup.py reads from the version file of an archive. *)
From Coq Require Import List Arith Ascii String.
From Verif Require Import ModelVersion ModelKeywords SpecVersion SpecKeywords LemVersion3 LemKeywords.
Import ListNotations.
Open Scope char_scope.
Open Scope list_scope.

(** In an archive setup.py finds the text of each keyword in the version file,
    and from it the version of the first tag with the prefix, the commit and
    the date. *)
Theorem C81_file : forall refs r h d t z s file p tag, decorated refs r -> dark h -> git_date_text d t z s ->
  sets (lit "git_refnames") r file -> sets (lit "git_full") h file -> sets (lit "git_date") s file -> In (lit "tag: " ++ p ++ tag) refs ->
  exists u, versions_from_file_keywords file p = Found u h (Some (d ++ lit "T" ++ t ++ z)) /\
    In (lit "tag: " ++ p ++ u) refs /\ forall w, In (lit "tag: " ++ p ++ w) refs -> lexical u w.
Proof. exact file_found. Qed.
Print Assumptions C81_file.

Definition set_line (name v : string) : text := lit "    " ++ lit name ++ lit " = " ++ [quote_mark] ++ lit v ++ [quote_mark; line_feed].
Definition archive_file : list text :=
  [lit "def get_keywords():" ++ [line_feed]; set_line "git_refnames" " (HEAD -> main, tag: v1.0rc1, tag: v1.0)"; set_line "git_full" "d3adbeef";
   set_line "git_date" "2023-01-02 03:04:05 +0100"; lit "    keywords = {git_refnames, git_full =" ++ [line_feed]].
Lemma line_assigns name v : ~ In line_feed (lit v) -> assigns (lit name) (lit v) (set_line name v).
Proof.
  intros N. exists (lit "    "), (lit " "), [line_feed]. split; [repeat constructor; apply white_sp|]. split; [repeat constructor; apply white_sp|].
  split; [exact N|]. split; [intros [E|[]]; discriminate E|]. unfold set_line. change (lit " = ") with (lit " =" ++ lit " "). rewrite <- !app_assoc. reflexivity.
Qed.
Lemma archive_sets name v : In (name, v) [("git_refnames", " (HEAD -> main, tag: v1.0rc1, tag: v1.0)"); ("git_full", "d3adbeef"); ("git_date", "2023-01-02 03:04:05 +0100")]%string ->
  sets (lit name) (lit v) archive_file.
Proof.
  intros [E|[E|[E|[]]]]; injection E as <- <-.
  - exists [lit "def get_keywords():" ++ [line_feed]], (set_line "git_refnames" " (HEAD -> main, tag: v1.0rc1, tag: v1.0)"). eexists. split; [reflexivity|].
    split; [apply line_assigns; cbn; intuition discriminate|]. repeat constructor; (apply silent_check; [exact kn1|reflexivity]).
  - eexists (_ :: _ :: []), (set_line "git_full" "d3adbeef"). eexists. split; [reflexivity|].
    split; [apply line_assigns; cbn; intuition discriminate|]. repeat constructor; (apply silent_check; [exact kn2|reflexivity]).
  - eexists (_ :: _ :: _ :: []), (set_line "git_date" "2023-01-02 03:04:05 +0100"). eexists. split; [reflexivity|].
    split; [apply line_assigns; cbn; intuition discriminate|]. repeat constructor; (apply silent_check; [exact kn3|reflexivity]).
Qed.
Lemma dark_lit s : s <> ""%string -> forallb (fun c => negb (space c)) (lit s) = true -> dark (lit s).
Proof.
  intros N F. split; [now destruct s|]. apply Forall_forall. intros c I W. rewrite forallb_forall in F. specialize (F c I). apply white_space in W. rewrite W in F. discriminate F.
Qed.
Lemma archive_refs : decorated [lit "HEAD -> main"; lit "tag: v1.0rc1"; lit "tag: v1.0"] (lit " (HEAD -> main, tag: v1.0rc1, tag: v1.0)").
Proof. split; [discriminate|]. split; [|reflexivity]. repeat (apply Forall_cons || apply Forall_nil); apply ref_ok; reflexivity. Qed.
Lemma archive_date : git_date_text (lit "2023-01-02") (lit "03:04:05") (lit "+0100") (lit "2023-01-02 03:04:05 +0100").
Proof. split; [|split; [|split; [|reflexivity]]]; (apply dark_lit; [discriminate|reflexivity]). Qed.
(** all hypotheses hold of this file, and the version is 1.0 *)
Example C81_file_case : (exists u, versions_from_file_keywords archive_file (lit "v") = Found u (lit "d3adbeef") (Some (lit "2023-01-02T03:04:05+0100"))) /\
  versions_from_file_keywords archive_file (lit "v") = Found (lit "1.0") (lit "d3adbeef") (Some (lit "2023-01-02T03:04:05+0100")).
Proof.
  split; [|reflexivity]. destruct (C81_file [lit "HEAD -> main"; lit "tag: v1.0rc1"; lit "tag: v1.0"] (lit " (HEAD -> main, tag: v1.0rc1, tag: v1.0)") (lit "d3adbeef")
    (lit "2023-01-02") (lit "03:04:05") (lit "+0100") (lit "2023-01-02 03:04:05 +0100") archive_file (lit "v") (lit "1.0")) as (u & U & _).
  - exact archive_refs.
  - apply dark_lit; [discriminate|reflexivity].
  - exact archive_date.
  - apply archive_sets. now left.
  - apply archive_sets. right. now left.
  - apply archive_sets. right. right. now left.
  - right. right. now left.
  - exists u. exact U.
Qed.

(** Without a tag that has the prefix the version is "0+unknown" (unless, as in
    C81_unknown_partial, another ref is taken for a tag); the commit is kept and
    the date is left out. *)
Theorem C81_file_unknown_partial : forall refs r h d t z s file p, decorated refs r -> dark h -> git_date_text d t z s ->
  sets (lit "git_refnames") r file -> sets (lit "git_full") h file -> sets (lit "git_date") s file ->
  (forall t, ~ In (lit "tag: " ++ p ++ t) refs) -> (forall t, In (p ++ t) refs -> exists u, In (lit "tag: " ++ u) refs) ->
  versions_from_file_keywords file p = Found (lit "0+unknown") h None.
Proof. exact file_unknown. Qed.
Print Assumptions C81_file_unknown_partial.
Example C81_file_unknown_case : versions_from_file_keywords archive_file (lit "release-") = Found (lit "0+unknown") (lit "d3adbeef") None.
Proof.
  apply (C81_file_unknown_partial [lit "HEAD -> main"; lit "tag: v1.0rc1"; lit "tag: v1.0"] (lit " (HEAD -> main, tag: v1.0rc1, tag: v1.0)") (lit "d3adbeef")
    (lit "2023-01-02") (lit "03:04:05") (lit "+0100") (lit "2023-01-02 03:04:05 +0100")).
  - exact archive_refs.
  - apply dark_lit; [discriminate|reflexivity].
  - exact archive_date.
  - apply archive_sets. now left.
  - apply archive_sets. right. now left.
  - apply archive_sets. right. right. now left.
  - intros t [E|[E|[E|[]]]]; discriminate E.
  - intros t [E|[E|[E|[]]]]; discriminate E.
Qed.

(** The version file that a source distribution gets sets no keyword; then, and
    with the unexpanded keywords of a checkout, the next method is tried. *)
Theorem C81_file_other : forall file p, (forall name, keyword_name name -> Forall (silent name) file) -> versions_from_file_keywords file p = Not_this_method.
Proof. exact file_other. Qed.
Print Assumptions C81_file_other.
Example C81_file_other_case : versions_from_file_keywords [lit "version_json = {git_full = 1}" ++ [line_feed]; [line_feed]] (lit "v") = Not_this_method /\
  versions_from_file_keywords [set_line "git_refnames" "$Format:%d$"; set_line "git_full" "$Format:%H$"; set_line "git_date" "$Format:%ci$"] (lit "v") = Not_this_method.
Proof.
  split; [|reflexivity]. apply C81_file_other. intros name K. repeat constructor; (apply silent_check; [exact K|]; destruct K as [<-|[<-|[<-|[]]]]; reflexivity).
Qed.

(** So are files whose names of references git has not expanded, whatever the
    rest of them says. *)
Theorem C81_file_template : forall r s file p, sets (lit "git_refnames") (lit "$Format" ++ r) file -> sets (lit "git_date") s file -> s <> [] ->
  versions_from_file_keywords file p = Not_this_method.
Proof. exact file_template. Qed.
Print Assumptions C81_file_template.
Definition template_file : list text := [set_line "git_refnames" "$Format:%d$"; set_line "git_full" "$Format:%H$"; set_line "git_date" "$Format:%ci$"].
Example C81_file_template_case : versions_from_file_keywords template_file (lit "v") = Not_this_method.
Proof.
  refine (C81_file_template (lit ":%d$") (lit "$Format:%ci$") _ _ _ _ _); [| |discriminate].
  - eexists [], _, [_; _]. split; [reflexivity|]. split; [exact (line_assigns "git_refnames" "$Format:%d$" (fun H => ltac:(cbn in H; intuition discriminate)))|].
    repeat constructor; (apply silent_check; [now left|reflexivity]).
  - eexists [_; _], _, []. split; [reflexivity|]. split; [exact (line_assigns "git_date" "$Format:%ci$" (fun H => ltac:(cbn in H; intuition discriminate)))|constructor].
Qed.
(** Chained assignments count as well: the first text in quotes behind an equals sign. *)
Theorem C81_chained : forall name u w v rest i l1 l2, keyword_name name -> Forall white i -> Forall white w -> ~ In quote_mark u -> ~ In line_feed v -> ~ In quote_mark rest -> Forall (silent name) l2 ->
  get_keyword name (l1 ++ (i ++ name ++ lit " =" ++ u ++ lit "=" ++ w ++ [quote_mark] ++ v ++ [quote_mark] ++ rest) :: l2) = Some v.
Proof. exact keyword_chained. Qed.
Print Assumptions C81_chained.
Example C81_chained_case : get_keyword (lit "git_full") [lit "git_full = commit = " ++ [quote_mark] ++ lit "d3adbeef" ++ [quote_mark; line_feed]] = Some (lit "d3adbeef").
Proof.
  refine (C81_chained (lit "git_full") (lit " commit ") (lit " ") (lit "d3adbeef") [line_feed] [] [] [] _ _ _ _ _ _ _); try constructor; try constructor; try constructor; cbn; intuition discriminate.
Qed.

(** The date of a commit is rewritten to ISO 8601, whatever lines (of a
    signature) precede it. *)
Theorem C81_date : forall pre d t z s, git_date_text d t z s -> pre = [] \/ (exists u, pre = u ++ [line_feed]) -> iso_date (pre ++ s) = Some (d ++ lit "T" ++ t ++ z).
Proof. intros pre d t z s G P. exact (iso_ok pre d t z s G P). Qed.
Print Assumptions C81_date.
Example C81_date_case : iso_date (lit "gpg: Good signature" ++ [line_feed] ++ lit "2023-01-02 03:04:05 +0100") = Some (lit "2023-01-02T03:04:05+0100").
Proof. rewrite app_assoc. exact (C81_date _ _ _ _ _ archive_date (or_intror (ex_intro _ (lit "gpg: Good signature") eq_refl))). Qed.

(** A line feed behind the date changes nothing. *)
Theorem C81_date_line : forall pre d t z s, git_date_text d t z s -> pre = [] \/ (exists u, pre = u ++ [line_feed]) -> iso_date (pre ++ s ++ [line_feed]) = Some (d ++ lit "T" ++ t ++ z).
Proof. intros pre d t z s G P. exact (iso_line pre d t z s G P). Qed.
Print Assumptions C81_date_line.
Example C81_date_line_case : iso_date ((lit "gpg: Good signature" ++ [line_feed]) ++ lit "2023-01-02 03:04:05 +0100" ++ [line_feed]) = Some (lit "2023-01-02T03:04:05+0100").
Proof. exact (C81_date_line _ _ _ _ _ archive_date (or_intror (ex_intro _ (lit "gpg: Good signature") eq_refl))). Qed.

(** A comment with quotes behind an assignment is read as part of the value,
    other than by Python. *)
Theorem C81_comment_refuted : exists v rest w, ~ In quote_mark v /\ get_keyword (lit "git_full") [lit "git_full = " ++ [quote_mark] ++ v ++ [quote_mark] ++ lit "  # " ++ rest] = Some w /\ w <> v.
Proof.
  exists (lit "d3adbeef"), ([quote_mark] ++ lit "%H" ++ [quote_mark]). eexists. split; [cbn; intuition discriminate|]. split; [reflexivity|discriminate].
Qed.
Print Assumptions C81_comment_refuted.
(** An empty date raises an IndexError instead of giving no date. *)
Theorem C81_empty_date_refuted : exists file, sets (lit "git_date") [] file /\ versions_from_file_keywords file (lit "v") = Failed.
Proof.
  exists [set_line "git_refnames" " (tag: v1.0)"; set_line "git_full" "d3adbeef"; set_line "git_date" ""]. split; [|reflexivity].
  eexists (_ :: _ :: []), (set_line "git_date" ""), []. split; [reflexivity|]. split; [exact (line_assigns "git_date" "" (fun H => H))|constructor].
Qed.
Print Assumptions C81_empty_date_refuted.
