(** C80, C81: version strings of checkouts, archives and unpacked sources. *)
From Coq Require Import List Arith Ascii String.
From Verif Require Import ModelVersion SpecVersion LemVersion LemVersion2 LemVersion3.
Import ListNotations.
Open Scope char_scope.
Open Scope list_scope.

(** The tag, the number of commits since it, the commit and the state of the
    tree are read back from "git describe", also when the tag has hyphens. *)
Theorem C80_parse : forall p t n h b s full count, commit h -> p ++ t <> [] -> describes (p ++ t) n h b s ->
  git_pieces_from_vcs p s full count = Parsed (Pieces (Some t) n h b).
Proof. exact parse_ok. Qed.
Print Assumptions C80_parse.
Example C80_parse_case : describes (lit "v" ++ lit "1.0-rc1-2-gab") 12 (lit "1d4d6b5") true (lit "v1.0-rc1-2-gab-12-g1d4d6b5-dirty") /\ commit (lit "1d4d6b5").
Proof.
  split; [exists (lit "12"); split; [now apply numeral_dec|reflexivity]|]. split; [discriminate|now apply all_in].
Qed.
(** Without a tag, the number of commits and the short commit. *)
Theorem C80_parse_untagged : forall p h b s full count, commit h -> describes_untagged h b s ->
  git_pieces_from_vcs p s full count = Parsed (Pieces None count (firstn 7 full) b).
Proof. exact parse_untagged. Qed.
Print Assumptions C80_parse_untagged.
(** The default style gives a PEP 440 version for every tag that is one. *)
Theorem C80_valid : forall p, commit (short p) -> (forall t, closest p = Some t -> t <> [] -> version t) -> version (render_pep440 p).
Proof. exact pep440_version. Qed.
Print Assumptions C80_valid.
Example C80_valid_case : render_pep440 (Pieces (Some (lit "1.0rc1+cpu")) 12 (lit "1d4d6b5") true) = lit "1.0rc1+cpu.12.g1d4d6b5.dirty" /\
  render_pep440 (Pieces None 12 (lit "1d4d6b5") false) = lit "0+untagged.12.g1d4d6b5".
Proof. split; reflexivity. Qed.
(** Different states of a repository whose tags are public versions have different versions. *)
Theorem C80_distinct_partial : forall p p', commit (short p) -> commit (short p') ->
  (forall t, closest p = Some t -> ~ In "+" t) -> (forall t, closest p' = Some t -> ~ In "+" t) ->
  render_pep440 p = render_pep440 p' ->
  tagged p = tagged p' /\ distance p = distance p' /\ dirty p = dirty p' /\ (tagged p = None \/ distance p <> 0 \/ dirty p = true -> short p = short p').
Proof. exact pep440_distinct. Qed.
Print Assumptions C80_distinct_partial.
(** A tag with a local part can be the version of commits after another tag. *)
Theorem C80_distinct_refuted : exists p p', commit (short p) /\ commit (short p') /\ (forall t, closest p = Some t -> version t) /\
  (forall t, closest p' = Some t -> version t) /\ render_pep440 p = render_pep440 p' /\ distance p <> distance p'.
Proof.
  exists (Pieces (Some (lit "1+2.gab")) 0 (lit "cd") false), (Pieces (Some (lit "1")) 2 (lit "ab") false). cbn [short closest distance].
  assert (V : public_version (lit "1")) by (apply base_public; exists [], (lit "1"), []; split; [now left|]; split; [apply rel_one; split; [discriminate|now apply all_in]|split; [now left|reflexivity]]).
  split; [split; [discriminate|now apply all_in]|]. split; [split; [discriminate|now apply all_in]|].
  split; [intros t E; injection E as <-; exists (lit "1"), (lit "+2.gab"); split; [exact V|]; split; [|reflexivity]; right; exists (lit "2.gab"); split; [|reflexivity]|].
  - apply (seg_more (lit "2") (lit "gab")); [|apply seg_one]; split; try discriminate; now apply all_in.
  - split; [intros t E; injection E as <-; now apply public_v|]. split; [reflexivity|discriminate].
Qed.
Print Assumptions C80_distinct_refuted.
(** The other PEP 440 styles give versions for tags of final releases and pre-releases. *)
Theorem C80_styles_partial : forall p s, commit (short p) -> s = Pre \/ s = Post \/ s = Old -> (forall t, closest p = Some t -> t <> [] -> base_version t) ->
  exists v, render (Parsed p) s = Some v /\ version v.
Proof. exact styles_version. Qed.
Print Assumptions C80_styles_partial.
(** After the tag of a post-release they do not. *)
Theorem C80_styles_refuted : exists p v w, commit (short p) /\ closest p = Some (lit "1.0.post1") /\ public_version (lit "1.0.post1") /\
  render (Parsed p) Pre = Some v /\ ~ version v /\ render (Parsed p) Old = Some w /\ ~ version w.
Proof.
  exists (Pieces (Some (lit "1.0.post1")) 3 (lit "ab") false), (lit "1.0.post1.post0.dev3"), (lit "1.0.post1.post3").
  split; [split; [discriminate|now apply all_in]|]. split; [reflexivity|]. split.
  - exists (lit "1.0"), (lit ".post1"), []. split.
    + exists [], (lit "1.0"), []. split; [now left|]. split; [|split; [now left|reflexivity]].
      apply (rel_more (lit "1") (lit "0")); [|apply rel_one]; split; try discriminate; now apply all_in.
    + split; [right; exists (lit "1"); split; [split; [discriminate|now apply all_in]|reflexivity]|]. split; [now left|reflexivity].
  - split; [reflexivity|]. split; [apply two_posts; [intros H; apply asc_in in H; discriminate H|cbn; auto]|].
    split; [reflexivity|]. apply two_posts; [intros H; apply asc_in in H; discriminate H|cbn; auto].
Qed.
Print Assumptions C80_styles_refuted.
(** The long description is that of git without the prefix of the tag; the short
    one leaves out the commit on the tag itself. *)
Theorem C80_describe_long : forall p t n h b s full count, commit h -> t <> [] -> describes (p ++ t) n h b s ->
  exists s', render (git_pieces_from_vcs p s full count) DescribeLong = Some s' /\ s = p ++ s'.
Proof. exact describe_back. Qed.
Print Assumptions C80_describe_long.
Theorem C80_describe : forall p t n h b s full count, commit h -> t <> [] -> describes (p ++ t) n h b s ->
  render (git_pieces_from_vcs p s full count) Describe =
  if (n =? 0)%nat then Some (t ++ if b then lit "-dirty" else []) else render (git_pieces_from_vcs p s full count) DescribeLong.
Proof. exact describe_short. Qed.
Print Assumptions C80_describe.
(** In a checkout with tags "v" and a version, the package's version is a PEP 440
    version, and on the tag itself it is the version in the tag. *)
Theorem C80_checkout : forall t n h b d full count file, commit h -> version t -> describes (lit "v" ++ t) n h b d ->
  version (get_versions unexpanded (Some (d, full, count)) file).
Proof. exact checkout_version. Qed.
Print Assumptions C80_checkout.
Theorem C80_release : forall t h d full count file, commit h -> t <> [] -> describes (lit "v" ++ t) 0 h false d ->
  get_versions unexpanded (Some (d, full, count)) file = t.
Proof. exact release_tag. Qed.
Print Assumptions C80_release.
Theorem C80_untagged : forall h b d full count file, commit h -> commit full -> describes_untagged h b d ->
  version (get_versions unexpanded (Some (d, full, count)) file).
Proof. exact untagged_version. Qed.
Print Assumptions C80_untagged.
(** After a tag without "v" the version is "unknown", which is no version. *)
Theorem C80_checkout_refuted : exists t n h b d full count file, commit h /\ version t /\ describes t n h b d /\
  ~ version (get_versions unexpanded (Some (d, full, count)) file).
Proof.
  exists (lit "1"), 0, (lit "ab"), false, (lit "1-0-gab"), (lit "abc"), 5, [].
  split; [split; [discriminate|now apply all_in]|]. split; [apply public_v, base_public; exists [], (lit "1"), []; split; [now left|]; split; [apply rel_one; split; [discriminate|now apply all_in]|split; [now left|reflexivity]]|].
  split; [exists (lit "0"); split; [now apply numeral_dec|reflexivity]|]. intros V. apply version_digit in V. discriminate V.
Qed.
Print Assumptions C80_checkout_refuted.

(** From the keyword that "git archive" expands: of the tags with the prefix, the
    first in the order of code points. *)
Theorem C81_least : forall refs s p t, decorated refs s -> In (lit "tag: " ++ p ++ t) refs ->
  exists u, git_versions_from_keywords s p = Some u /\ In (lit "tag: " ++ p ++ u) refs /\ forall w, In (lit "tag: " ++ p ++ w) refs -> lexical u w.
Proof. exact keywords_least. Qed.
Print Assumptions C81_least.
Definition refs_case : list text := [lit "HEAD -> main"; lit "tag: v1.0rc1"; lit "tag: v1.0"; lit "tag: nightly"; lit "origin/main"].
Example C81_least_case : decorated refs_case (lit " (HEAD -> main, tag: v1.0rc1, tag: v1.0, tag: nightly, origin/main)") /\
  git_versions_from_keywords (lit " (HEAD -> main, tag: v1.0rc1, tag: v1.0, tag: nightly, origin/main)") (lit "v") = Some (lit "1.0").
Proof.
  split; [|reflexivity]. split; [discriminate|]. split; [|reflexivity]. unfold refs_case. repeat (apply Forall_cons || apply Forall_nil); apply ref_ok; reflexivity.
Qed.
(** A final release is preferred to its own pre-releases. *)
Theorem C81_final : forall refs s p t x, decorated refs s -> x <> [] -> In (lit "tag: " ++ p ++ t) refs ->
  git_versions_from_keywords s p <> Some (t ++ x).
Proof. exact keywords_final. Qed.
Print Assumptions C81_final.
(** Without a tag that has the prefix the version is "0+unknown", unless there is no
    tag at all and another ref starts with the prefix. *)
Theorem C81_unknown_partial : forall refs s p, decorated refs s -> (forall t, ~ In (lit "tag: " ++ p ++ t) refs) ->
  (forall t, In (p ++ t) refs -> exists u, In (lit "tag: " ++ u) refs) -> git_versions_from_keywords s p = Some (lit "0+unknown").
Proof. exact keywords_unknown. Qed.
Print Assumptions C81_unknown_partial.
(** A branch "v2-dev" is taken for a release "2-dev", which is no version. *)
Theorem C81_unknown_refuted : exists refs s v, decorated refs s /\ (forall t, ~ In (lit "tag: " ++ t) refs) /\
  git_versions_from_keywords s (lit "v") = Some v /\ ~ version v.
Proof.
  exists [lit "v2-dev"], (lit " (v2-dev)"), (lit "2-dev"). split; [split; [discriminate|split; [|reflexivity]]; apply Forall_cons; [apply ref_ok; reflexivity|apply Forall_nil]|].
  split; [intros t [E|[]]; discriminate E|]. split; [reflexivity|]. apply dash_no_version. right. now left.
Qed.
Print Assumptions C81_unknown_refuted.
(** Of two releases on the same commit the older one is reported. *)
Theorem C81_newest_refuted : exists refs s, decorated refs s /\ In (lit "tag: v2.0") refs /\ git_versions_from_keywords s (lit "v") = Some (lit "1.9").
Proof.
  exists [lit "tag: v2.0"; lit "tag: v1.9"], (lit " (tag: v2.0, tag: v1.9)"). split; [|split; [now left|reflexivity]].
  split; [discriminate|]. split; [|reflexivity]. repeat (apply Forall_cons || apply Forall_nil); apply ref_ok; reflexivity.
Qed.
Print Assumptions C81_newest_refuted.
(** The expanded keyword is used before git and the directory name; without it git
    is used (C80); outside of a checkout the name of the unpacked directory. *)
Theorem C81_keywords_first : forall refs s vcs file, decorated refs s -> Some (get_versions s vcs file) = git_versions_from_keywords s (lit "v").
Proof. exact keywords_first. Qed.
Print Assumptions C81_keywords_first.
Theorem C81_directory : forall file pkg up v rest, List.length up <= 2 -> (forall d u, In d up -> d <> lit "aeppl-" ++ u) ->
  get_versions unexpanded None (file :: pkg :: up ++ (lit "aeppl-" ++ v) :: rest) = v.
Proof. exact parent_dir. Qed.
Print Assumptions C81_directory.
Example C81_directory_case : get_versions unexpanded None [lit "_version.py"; lit "aeppl"; lit "src"; lit "aeppl-0.1.5"; lit "tmp"] = lit "0.1.5".
Proof. reflexivity. Qed.
