(** C101: running git for the version. *)
From Coq Require Import List Arith ZArith Ascii String Bool Lia.
From Verif Require Import ModelVersion SpecVersion LemVersion LemVersion2 LemVersion3 ModelKeywords SpecKeywords LemKeywords PropKeywords ModelGitRun SpecGitRun LemGitRun.
Import ListNotations.
Open Scope list_scope.

(** The command is that of the first program that is there; its output is used
    when it ends without error. *)
Theorem C101_run : forall progs exec t, run_command progs exec = (Some t, Some 0%Z) <-> answers progs exec t.
Proof. exact run_answers. Qed.
Print Assumptions C101_run.
Theorem C101_run_none : forall progs exec, fst (run_command progs exec) = None <-> no_answer progs exec.
Proof. exact run_none. Qed.
Print Assumptions C101_run_none.
Definition windows : list text := [lit "git.cmd"; lit "git.exe"].
Definition only (p : text) (s : spawn) (c : text) : spawn := if list_eq_dec ascii_dec c p then s else Absent.
Lemma only_answers p s t progs : In p progs -> trimmed s t -> answers progs (only p (Ran 0 s)) t.
Proof.
  intros I T. exists p, s. split; [|split; [unfold only; now destruct (list_eq_dec ascii_dec p p)|exact T]].
  induction progs as [|c progs IH]; [destruct I|]. destruct (list_eq_dec ascii_dec c p) as [->|N].
  - apply there_head; [unfold only; now destruct (list_eq_dec ascii_dec p p)|reflexivity].
  - apply there_cons; [unfold only; now destruct (list_eq_dec ascii_dec c p)|]. apply IH. now destruct I.
Qed.
Example C101_run_case : run_command windows (only (lit "git.exe") (Ran 0 (lit "v1.0" ++ [line_feed]))) = (Some (lit "v1.0"), Some 0%Z) /\
  answers windows (only (lit "git.exe") (Ran 0 (lit "v1.0" ++ [line_feed]))) (lit "v1.0") /\ no_answer windows (only (lit "git.exe") (Ran 128 [])).
Proof. split; [reflexivity|]. split; [now apply C101_run|now apply C101_run_none]. Qed.

(** In a checkout whose last tag is "v" and a version, the result is a PEP 440
    version with the full revision, the state of the files and the commit's date
    in ISO 8601; at the tag itself it is the tag's version.  No call but the
    four that are made matters. *)
Theorem C101_checkout : forall gits sys file g t n h b d full pre day time zone s, version t -> commit h ->
  answers gits (sys GitDir) g -> answers gits (sys DescribeHead) d -> describes (lit "v" ++ t) n h b d -> answers gits (sys RevParseHead) full ->
  answers gits (sys ShowDate) (pre ++ s) -> git_date_text day time zone s -> pre = [] \/ (exists u, pre = u ++ [line_feed]) ->
  let '(kr, kf, kd) := keyword_marks in
  exists v, get_version_info gits sys kr kf kd file = Some (Version v (Some full) (Some b) false (Some (day ++ lit "T" ++ time ++ zone))) /\ version v /\ (n = 0 /\ b = false -> v = t).
Proof.
  intros gits sys file g t n h b d full pre day time zone s V H G D De F S T P. assert (Ne : t <> []) by (intros ->; apply version_digit in V; discriminate V).
  exists (render_pep440 (Pieces (Some t) n h b)). split; [|split].
  - rewrite (info_unexpanded gits sys file). rewrite (run_tagged gits sys g t n h b d full pre day time zone s Ne H G D De F S T P). reflexivity.
  - apply pep440_version; [exact H|]. cbn. intros u E _. now injection E as <-.
  - intros (-> & ->). unfold render_pep440, tagged, moved. cbn. destruct t; [easy|]. cbn. now rewrite ?app_nil_r.
Qed.
Print Assumptions C101_checkout.
(** Without a tag the commits are counted. *)
Theorem C101_untagged : forall gits sys file g n h b d full c pre day time zone s, commit h -> commit full ->
  answers gits (sys GitDir) g -> answers gits (sys DescribeHead) d -> describes_untagged h b d -> answers gits (sys RevParseHead) full ->
  answers gits (sys CountHead) c -> numeral n c ->
  answers gits (sys ShowDate) (pre ++ s) -> git_date_text day time zone s -> pre = [] \/ (exists u, pre = u ++ [line_feed]) ->
  let '(kr, kf, kd) := keyword_marks in
  exists v, get_version_info gits sys kr kf kd file = Some (Version v (Some full) (Some b) false (Some (day ++ lit "T" ++ time ++ zone))) /\ version v /\
    v = lit "0+untagged." ++ c ++ lit ".g" ++ firstn 7 full ++ (if b then lit ".dirty" else []).
Proof.
  intros gits sys file g n h b d full c pre day time zone s H Hf G D De F C Cn S T P.
  exists (render_pep440 (Pieces None n (firstn 7 full) b)). split; [|split].
  - rewrite (info_unexpanded gits sys file). rewrite (run_untagged gits sys g n h b d full c pre day time zone s H G D De F C Cn S T P). reflexivity.
  - apply pep440_version; [|discriminate]. destruct Hf as (N & A). cbn [short]. split; [destruct full; [easy|discriminate]|].
    apply Forall_forall. intros x I. apply (proj1 (Forall_forall _ _) A). rewrite <- (firstn_skipn 7 full). apply in_or_app. auto.
  - apply numeral_dec in Cn. subst c. unfold render_pep440, tagged. cbn [closest distance short dirty]. unfold opt. rewrite <- ?app_assoc. reflexivity.
Qed.
Print Assumptions C101_untagged.
(** Without git, outside of a checkout and in a repository without commits the
    name of the unpacked directory is used. *)
Theorem C101_directory : forall gits sys f pkg up v rest, List.length up <= 2 -> (forall d u, In d up -> d <> lit "aeppl-" ++ u) ->
  no_answer gits (sys GitDir) \/ no_answer gits (sys DescribeHead) \/ no_answer gits (sys RevParseHead) ->
  let '(kr, kf, kd) := keyword_marks in
  get_version_info gits sys kr kf kd (f :: pkg :: up ++ (lit "aeppl-" ++ v) :: rest) = Some (Version v None (Some false) false None).
Proof.
  intros gits sys f pkg up v rest L N A. cbv beta iota delta [keyword_marks]. rewrite (info_unexpanded gits sys). rewrite (run_outside gits sys (q "v") A). cbn [tl].
  change (q "aeppl-") with (lit "aeppl-"). rewrite (parent_from (lit "aeppl-") v rest up 3); [reflexivity|lia|exact N].
Qed.
Print Assumptions C101_directory.
(** In an archive the least tag, the commit and the date of the archive are
    given, whatever git answers; without a suitable tag "0+unknown" and no date
    (unless a branch is taken for a tag, C81_unknown_refuted). *)
Theorem C101_archive : forall gits sys file refs r h d t z s tag, decorated refs r -> dark h -> git_date_text d t z s -> In (lit "tag: " ++ lit "v" ++ tag) refs ->
  exists u, get_version_info gits sys r h s file = Some (Version u (Some h) (Some false) false (Some (d ++ lit "T" ++ t ++ z))) /\
    In (lit "tag: " ++ lit "v" ++ u) refs /\ forall w, In (lit "tag: " ++ lit "v" ++ w) refs -> lexical u w.
Proof. exact archive_info. Qed.
Print Assumptions C101_archive.
Theorem C101_archive_unknown : forall gits sys file refs r h d t z s, decorated refs r -> dark h -> git_date_text d t z s ->
  (forall t, ~ In (lit "tag: " ++ lit "v" ++ t) refs) -> (forall t, In (lit "v" ++ t) refs -> exists u, In (lit "tag: " ++ u) refs) ->
  get_version_info gits sys r h s file = Some (Version (lit "0+unknown") (Some h) (Some false) true None).
Proof. exact archive_unknown. Qed.
Print Assumptions C101_archive_unknown.
Example C101_archive_case : forall gits sys file, exists u,
  get_version_info gits sys (lit " (HEAD -> main, tag: v1.0rc1, tag: v1.0)") (lit "d3adbeef") (lit "2023-01-02 03:04:05 +0100") file =
    Some (Version u (Some (lit "d3adbeef")) (Some false) false (Some (lit "2023-01-02T03:04:05+0100"))) /\ u = lit "1.0".
Proof.
  intros gits sys file.
  assert (K : dark (lit "d3adbeef")) by (split; [discriminate|]; apply Forall_forall; intros c I; apply not_white; cbn in I; repeat (destruct I as [<-|I]; [reflexivity|]); destruct I).
  destruct (C101_archive gits sys file _ _ (lit "d3adbeef") _ _ _ _ (lit "1.0") archive_refs K archive_date) as (u & E & _); [right; right; now left|].
  exists u. split; [exact E|]. cbn in E. injection E as <-. reflexivity.
Qed.
Example C101_archive_unknown_case : forall gits sys file,
  get_version_info gits sys (lit " (HEAD -> main, tag: nightly)") (lit "d3adbeef") (lit "2023-01-02 03:04:05 +0100") file = Some (Version (lit "0+unknown") (Some (lit "d3adbeef")) (Some false) true None).
Proof.
  intros gits sys file. apply (C101_archive_unknown gits sys file [lit "HEAD -> main"; lit "tag: nightly"] _ _ (lit "2023-01-02") (lit "03:04:05") (lit "+0100")).
  - split; [discriminate|]. split; [|reflexivity]. repeat (apply Forall_cons || apply Forall_nil); apply ref_ok; reflexivity.
  - split; [discriminate|]. apply Forall_forall. intros c I. apply not_white. cbn in I. repeat (destruct I as [<-|I]; [reflexivity|]). destruct I.
  - exact archive_date.
  - intros t [E|[E|[]]]; discriminate E.
  - intros t [E|[E|[]]]; discriminate E.
Qed.
(** A last tag without "v" gives "unknown", with the revision and an error; the
    date is not asked for. *)
Theorem C101_foreign : forall gits sys file g tag n h b d full, tag <> [] -> (forall t, tag <> lit "v" ++ t) -> commit h ->
  answers gits (sys GitDir) g -> answers gits (sys DescribeHead) d -> describes tag n h b d -> answers gits (sys RevParseHead) full ->
  let '(kr, kf, kd) := keyword_marks in get_version_info gits sys kr kf kd file = Some (Version (lit "unknown") (Some full) None true None).
Proof.
  intros gits sys file g tag n h b d full N W H G D De F. cbv beta iota delta [keyword_marks]. rewrite (info_unexpanded gits sys file), (run_foreign gits sys g tag n h b d full N W H G D De F). reflexivity.
Qed.
Print Assumptions C101_foreign.
(** There is a result whatever git prints for the tag, provided that it counts
    the commits and prints a date.  Missing: the failures of these two calls,
    refuted below. *)
Theorem C101_total_partial : forall gits sys file n c t, answers gits (sys CountHead) c -> numeral n c -> answers gits (sys ShowDate) t -> t <> [] ->
  let '(kr, kf, kd) := keyword_marks in get_version_info gits sys kr kf kd file <> None.
Proof.
  intros gits sys file n c t C Cn S T. cbv beta iota delta [keyword_marks]. rewrite (info_unexpanded gits sys file). pose proof (run_total gits sys (q "v") n c t C Cn S T) as N.
  destruct (run_pieces gits sys (q "v")) as [| |[]]; try discriminate; [|easy]. now destruct (versions_from_parentdir _ _ _).
Qed.
Print Assumptions C101_total_partial.

(** a repository: its answers *)
Definition repo (d c : spawn) (k : call) : text -> spawn :=
  only (lit "git.exe") match k with GitDir => Ran 0 (lit ".git" ++ [line_feed]) | DescribeHead => d | RevParseHead => Ran 0 (lit "1d4d6b5a9" ++ [line_feed])
    | CountHead => c | ShowDate => Ran 0 (lit "gpg: Good signature" ++ [line_feed] ++ lit "2023-01-02 03:04:05 +0100" ++ [line_feed]) end.
Lemma repo_there s t : strip space s = t -> answers windows (only (lit "git.exe") (Ran 0 s)) t.
Proof. intros E. apply only_answers; [right; now left|now apply trimmed_strip]. Qed.
Lemma repo_date : git_date_text (lit "2023-01-02") (lit "03:04:05") (lit "+0100") (lit "2023-01-02 03:04:05 +0100").
Proof.
  assert (D : forall s, s <> [] -> forallb (fun c => negb (space c)) s = true -> dark s).
  { intros s N B. split; [exact N|]. apply Forall_forall. intros c I. apply not_white. apply (proj1 (forallb_forall _ _) B) in I. now apply negb_true_iff. }
  repeat split; try (apply D; [discriminate|reflexivity]); try discriminate; apply D; try discriminate; reflexivity.
Qed.
Lemma repo_version : version (lit "0.1.5").
Proof.
  exists (lit "0.1.5"), []. split; [|split; [now left|reflexivity]]. apply base_public. exists [], (lit "0.1.5"), []. split; [now left|]. split; [|split; [now left|reflexivity]].
  assert (N : forall s, s <> [] -> forallb digit s = true -> number s).
  { intros s X B. split; [exact X|]. apply Forall_forall. intros c I. apply digit_iff. exact (proj1 (forallb_forall _ _) B c I). }
  apply (rel_more (lit "0") (lit "1.5")); [now apply N|]. apply (rel_more (lit "1") (lit "5")); [now apply N|]. apply rel_one. now apply N.
Qed.
Lemma repo_commit s : s <> [] -> forallb hexdigit s = true -> commit s.
Proof. intros N B. split; [exact N|]. apply Forall_forall. intros c I. apply hex_iff. exact (proj1 (forallb_forall _ _) B c I). Qed.
Example C101_checkout_case : forall c file, let '(kr, kf, kd) := keyword_marks in exists v,
  get_version_info windows (repo (Ran 0 (lit "v0.1.5-0-g1d4d6b5" ++ [line_feed])) c) kr kf kd file = Some (Version v (Some (lit "1d4d6b5a9")) (Some false) false (Some (lit "2023-01-02T03:04:05+0100"))) /\
  version v /\ (0 = 0 /\ false = false -> v = lit "0.1.5").
Proof.
  intros c file. refine (C101_checkout windows (repo (Ran 0 (lit "v0.1.5-0-g1d4d6b5" ++ [line_feed])) c) file (lit ".git") (lit "0.1.5") 0 (lit "1d4d6b5") false (lit "v0.1.5-0-g1d4d6b5") (lit "1d4d6b5a9")
    (lit "gpg: Good signature" ++ [line_feed]) _ _ _ _ repo_version _ _ _ _ _ _ repo_date _); try (apply repo_there; reflexivity).
  - now apply repo_commit.
  - exists (lit "0"). split; [now apply numeral_dec|reflexivity].
  - right. now exists (lit "gpg: Good signature").
Qed.
Example C101_untagged_case : forall file, let '(kr, kf, kd) := keyword_marks in exists v,
  get_version_info windows (repo (Ran 0 (lit "1d4d6b5-dirty" ++ [line_feed])) (Ran 0 (lit "12" ++ [line_feed]))) kr kf kd file =
    Some (Version v (Some (lit "1d4d6b5a9")) (Some true) false (Some (lit "2023-01-02T03:04:05+0100"))) /\
  version v /\ v = lit "0+untagged.12.g1d4d6b5.dirty".
Proof.
  intros file. refine (C101_untagged windows (repo (Ran 0 (lit "1d4d6b5-dirty" ++ [line_feed])) (Ran 0 (lit "12" ++ [line_feed]))) file (lit ".git") 12 (lit "1d4d6b5") true (lit "1d4d6b5-dirty") (lit "1d4d6b5a9") (lit "12")
    (lit "gpg: Good signature" ++ [line_feed]) _ _ _ _ _ _ _ _ _ _ _ _ _ repo_date _); try (apply repo_there; reflexivity).
  - now apply repo_commit.
  - now apply repo_commit.
  - reflexivity.
  - now apply numeral_dec.
  - right. now exists (lit "gpg: Good signature").
Qed.
Example C101_foreign_case : forall c file, let '(kr, kf, kd) := keyword_marks in
  get_version_info windows (repo (Ran 0 (lit "1.0-3-g1d4d6b5" ++ [line_feed])) c) kr kf kd file = Some (Version (lit "unknown") (Some (lit "1d4d6b5a9")) None true None).
Proof.
  intros c file. apply (C101_foreign windows (repo (Ran 0 (lit "1.0-3-g1d4d6b5" ++ [line_feed])) c) file (lit ".git") (lit "1.0") 3 (lit "1d4d6b5") false (lit "1.0-3-g1d4d6b5") (lit "1d4d6b5a9"));
    try (apply repo_there; reflexivity); try discriminate.
  - now apply repo_commit.
  - exists (lit "3"). split; [now apply numeral_dec|reflexivity].
Qed.
Example C101_directory_case : forall c, let '(kr, kf, kd) := keyword_marks in
  get_version_info windows (repo (Ran 128 []) c) kr kf kd [lit "_version.py"; lit "aeppl"; lit "src"; lit "aeppl-0.1.5"; lit "tmp"] = Some (Version (lit "0.1.5") None (Some false) false None).
Proof.
  intros c. apply (C101_directory windows (repo (Ran 128 []) c) (lit "_version.py") (lit "aeppl") [lit "src"] (lit "0.1.5") [lit "tmp"]); [cbn; lia|intros d u [<-|[]]; discriminate|].
  right. left. now apply C101_run_none.
Qed.
Example C101_total_case : forall d file, let '(kr, kf, kd) := keyword_marks in get_version_info windows (repo (Ran 0 d) (Ran 0 (lit "12" ++ [line_feed]))) kr kf kd file <> None.
Proof.
  intros d file. apply (C101_total_partial windows (repo (Ran 0 d) (Ran 0 (lit "12" ++ [line_feed]))) file 12 (lit "12") (lit "gpg: Good signature" ++ [line_feed] ++ lit "2023-01-02 03:04:05 +0100"));
    [apply repo_there; reflexivity|now apply numeral_dec|apply repo_there; reflexivity|discriminate].
Qed.

(** When git cannot count the commits (the option --count is of 2010), or cannot
    show the date, importing the package fails: the other failures of git are
    passed over. *)
Theorem C101_total_refuted : exists gits sys file g h d full, answers gits (sys GitDir) g /\ answers gits (sys DescribeHead) d /\ commit h /\ describes_untagged h false d /\
  answers gits (sys RevParseHead) full /\ no_answer gits (sys CountHead) /\ let '(kr, kf, kd) := keyword_marks in get_version_info gits sys kr kf kd file = None.
Proof.
  exists windows, (repo (Ran 0 (lit "1d4d6b5" ++ [line_feed])) (Ran 129 [])), [], (lit ".git"), (lit "1d4d6b5"), (lit "1d4d6b5"), (lit "1d4d6b5a9").
  split; [apply repo_there; reflexivity|]. split; [apply repo_there; reflexivity|]. split; [now apply repo_commit|]. split; [reflexivity|]. split; [apply repo_there; reflexivity|].
  split; [now apply C101_run_none|reflexivity].
Qed.
Print Assumptions C101_total_refuted.
(** So it does whenever the commits are counted and the count is empty or has
    anything but digits, whatever the other calls print. *)
Theorem C101_uncounted : forall gits sys file g h b d full c, commit h ->
  answers gits (sys GitDir) g -> answers gits (sys DescribeHead) d -> describes_untagged h b d -> answers gits (sys RevParseHead) full ->
  answers gits (sys CountHead) c -> c = [] \/ (exists x, In x c /\ ~ SpecVersion.decimal x) ->
  let '(kr, kf, kd) := keyword_marks in get_version_info gits sys kr kf kd file = None.
Proof.
  intros gits sys file g h b d full c H G D De F C B. cbv beta iota delta [keyword_marks]. rewrite (info_unexpanded gits sys file).
  now rewrite (run_uncounted gits sys g h b d full c H G D De F C B).
Qed.
Print Assumptions C101_uncounted.
Example C101_uncounted_ex : let '(kr, kf, kd) := keyword_marks in
  get_version_info windows (repo (Ran 0 (lit "1d4d6b5" ++ [line_feed])) (Ran 0 [line_feed])) kr kf kd [] = None.
Proof.
  apply (C101_uncounted windows (repo (Ran 0 (lit "1d4d6b5" ++ [line_feed])) (Ran 0 [line_feed])) [] (lit ".git") (lit "1d4d6b5") false (lit "1d4d6b5") (lit "1d4d6b5a9") []);
    [now apply repo_commit|apply repo_there; reflexivity|apply repo_there; reflexivity|reflexivity|apply repo_there; reflexivity|apply repo_there; reflexivity|now left].
Qed.
(** A program that is there but cannot be run hides the others. *)
Theorem C101_next_refuted : exists progs exec p s t, In p progs /\ exec p = Ran 0 s /\ trimmed s t /\ (forall c, In c progs -> c <> p -> exec c = Broken) /\ fst (run_command progs exec) = None.
Proof.
  exists windows, (fun c => if list_eq_dec ascii_dec c (lit "git.exe") then Ran 0 (lit ".git") else Broken), (lit "git.exe"), (lit ".git"), (lit ".git").
  split; [right; now left|]. split; [reflexivity|]. split; [now apply trimmed_strip|]. split; [|reflexivity]. intros c _ N. now destruct (list_eq_dec ascii_dec c (lit "git.exe")).
Qed.
Print Assumptions C101_next_refuted.
