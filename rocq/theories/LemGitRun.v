(** Lemmas for [ModelGitRun]. *)
From Coq Require Import List Arith ZArith Ascii String Bool Lia.
From Verif Require Import ModelVersion SpecVersion LemVersion LemVersion2 LemVersion3 ModelKeywords SpecKeywords LemKeywords ModelGitRun SpecGitRun.
Import ListNotations.
Open Scope char_scope.
Open Scope list_scope.

Lemma lstrip_all f a s : Forall (fun c => f c = true) a -> lstrip f (a ++ s) = lstrip f s.
Proof. induction 1 as [|c a E _ IH]; [reflexivity|]. cbn. now rewrite E. Qed.
Lemma lstrip_stop f s : (forall c u, s = c :: u -> f c = false) -> lstrip f s = s.
Proof. destruct s as [|c s]; [reflexivity|]. intros H. cbn. now rewrite (H c s eq_refl). Qed.
Lemma lstrip_head f s c u : lstrip f s = c :: u -> f c = false.
Proof. induction s as [|d s IH]; cbn; [discriminate|]. destruct (f d) eqn:E; [exact IH|]. intros X. injection X as <- _. exact E. Qed.
Lemma not_white c : ~ white c <-> space c = false.
Proof. rewrite white_space. destruct (space c); intuition discriminate. Qed.
Lemma all_white s : Forall white s <-> Forall (fun c => space c = true) s.
Proof. rewrite !Forall_forall. split; intros H c I; apply white_space; auto. Qed.
Lemma trimmed_strip s t : trimmed s t <-> strip space s = t.
Proof.
  split.
  - intros (a & b & -> & A & B & F & L). unfold strip. apply all_white in A. rewrite (lstrip_all space a); [|exact A].
    destruct t as [|c t].
    + cbn [app]. apply all_white in B. rewrite <- (app_nil_r b), (lstrip_all space b); [reflexivity|exact B].
    + rewrite (lstrip_stop space ((c :: t) ++ b)); [|intros d u E; injection E as <- _; apply not_white; exact (F _ _ eq_refl)].
      rewrite rev_app_distr, lstrip_all; [|apply Forall_rev; now apply all_white].
      rewrite lstrip_stop; [apply rev_involutive|]. intros d u E. apply not_white, (L d (rev u)). rewrite <- (rev_involutive (c :: t)), E. reflexivity.
  - intros <-. unfold strip. set (u := lstrip space s). destruct (lstrip_split space s) as (a & Ea & A). fold u in Ea. destruct (lstrip_split space (rev u)) as (b & Eb & B).
    exists a, (rev b). split.
    + rewrite Ea at 1. f_equal. rewrite <- (rev_involutive u), Eb at 1. apply rev_app_distr.
    + split; [now apply all_white|]. split; [apply all_white; now apply Forall_rev|]. split.
      * intros c t E. apply not_white. assert (X : u = c :: t ++ rev b) by (rewrite <- (rev_involutive u), Eb, rev_app_distr, E; reflexivity). exact (lstrip_head space s c _ X).
      * intros c t E. apply not_white, (lstrip_head space (rev u) c (rev t)). rewrite <- (rev_involutive (lstrip space (rev u))), E, rev_app_distr. reflexivity.
Qed.
Lemma strip_twice s : strip space (strip space s) = strip space s.
Proof.
  apply trimmed_strip. pose proof (proj2 (trimmed_strip s _) eq_refl) as (a & b & _ & _ & _ & F & L). exists [], []. rewrite app_nil_r. repeat split; auto.
Qed.

Lemma there_cons progs exec p c : exec c = Absent -> (first_there (c :: progs) exec p <-> first_there progs exec p).
Proof.
  intros A. split.
  - intros ([|d pre] & post & E & F & N); cbn in E; injection E as <- E; [congruence|]. inversion F; subst. now exists pre, post.
  - intros (pre & post & -> & F & N). exists (c :: pre), post. split; [reflexivity|]. split; [now constructor|exact N].
Qed.
Lemma there_head progs exec p c : exec c <> Absent -> (first_there (c :: progs) exec p <-> p = c).
Proof.
  intros A. split.
  - intros ([|d pre] & post & E & F & N); cbn in E; injection E as <- E; [reflexivity|]. inversion F; congruence.
  - intros ->. exists [], progs. repeat split; auto.
Qed.
Lemma run_answers progs exec t : run_command progs exec = (Some t, Some 0%Z) <-> answers progs exec t.
Proof.
  induction progs as [|c progs IH]; cbn [run_command].
  - split; [discriminate|]. intros (p & s & ([|x pre] & post & E & _) & _); discriminate E.
  - destruct (exec c) as [| |rc out] eqn:E.
    + rewrite IH. split; intros (p & s & T & R & M); exists p, s; (split; [|now split]); apply (there_cons progs exec p c E); exact T.
    + split; [discriminate|]. intros (p & s & T & R & M). apply (there_head progs exec p c) in T; [|congruence]. subst. congruence.
    + assert (N : exec c <> Absent) by congruence. destruct (Z.eqb_spec rc 0) as [->|Z].
      * split.
        -- intros X. injection X as <-. exists c, out. split; [now apply there_head|]. split; [exact E|]. now apply trimmed_strip.
        -- intros (p & s & T & R & M). apply (there_head progs exec p c N) in T. subst p. rewrite E in R. injection R as ->. apply trimmed_strip in M. now rewrite M.
      * split; [discriminate|]. intros (p & s & T & R & M). apply (there_head progs exec p c N) in T. subst p. congruence.
Qed.
Lemma run_none progs exec : fst (run_command progs exec) = None <-> no_answer progs exec.
Proof.
  induction progs as [|c progs IH]; cbn [run_command].
  - split; [intros _; left; constructor|reflexivity].
  - destruct (exec c) as [| |rc out] eqn:E.
    + rewrite IH. split; (intros [A|(p & T & R)]; [left|right; exists p; split; [|exact R]]).
      * now constructor.
      * now apply there_cons.
      * now inversion A.
      * now apply (there_cons progs exec p c E).
    + split; [|reflexivity]. intros _. right. exists c. split; [apply there_head; [congruence|reflexivity]|now left].
    + assert (N : exec c <> Absent) by congruence. destruct (Z.eqb_spec rc 0) as [->|Z]; cbn [fst].
      * split; [discriminate|]. intros [A|(p & T & [R|(rc & s & R & Z)])]; [inversion A; congruence| |]; apply (there_head progs exec p c N) in T; subst p; congruence.
      * split; [|reflexivity]. intros _. right. exists c. split; [now apply there_head|]. right. now exists rc, out.
Qed.
(** the return code is zero exactly when there is an output *)
Lemma run_code progs exec : snd (run_command progs exec) = Some 0%Z <-> exists t, run_command progs exec = (Some t, Some 0%Z).
Proof.
  split; [|now intros (t & ->)]. induction progs as [|c progs IH]; cbn [run_command]; [discriminate|]. destruct (exec c) as [| |rc out]; [exact IH|discriminate|].
  destruct (Z.eqb_spec rc 0) as [->|Z]; [intros _; now eexists|]. cbn. intros X. congruence.
Qed.
Lemma run_fst progs exec t : fst (run_command progs exec) = Some t <-> answers progs exec t.
Proof.
  rewrite <- run_answers. split; [|now intros ->]. induction progs as [|c progs IH]; cbn [run_command]; [discriminate|]. destruct (exec c) as [| |rc out]; [exact IH|discriminate|].
  destruct (Z.eqb_spec rc 0) as [->|Z]; [|discriminate]. cbn. intros X. now injection X as ->.
Qed.

Lemma answers_trim progs exec t : answers progs exec t -> strip space t = t.
Proof. intros (p & s & _ & _ & T). apply trimmed_strip in T. rewrite <- T. apply strip_twice. Qed.
Lemma marks_unexpanded : let '(r, f, d) := keyword_marks in from_keywords r f d (q "v") = None.
Proof. reflexivity. Qed.
Lemma out_answers gits sys c t : answers gits (sys c) t -> output gits sys c = Some t /\ strip space t = t.
Proof. intros A. split; [now apply run_fst|exact (answers_trim _ _ _ A)]. Qed.
Lemma dir_answers gits (sys : call -> text -> spawn) t : answers gits (sys GitDir) t -> snd (run_command gits (sys GitDir)) = Some 0%Z.
Proof. intros A. apply run_answers in A. now rewrite A. Qed.
Lemma run_tagged gits sys g t n h b d full pre day time zone s : t <> [] -> commit h ->
  answers gits (sys GitDir) g -> answers gits (sys DescribeHead) d -> describes (lit "v" ++ t) n h b d -> answers gits (sys RevParseHead) full ->
  answers gits (sys ShowDate) (pre ++ s) -> git_date_text day time zone s -> preamble pre ->
  run_pieces gits sys (q "v") = Info (Parsed (Pieces (Some t) n h b)) full (Some (day ++ lit "T" ++ time ++ zone)).
Proof.
  intros N H G D De F S T P. change (q "v") with (lit "v"). unfold run_pieces. rewrite (dir_answers _ _ _ G). destruct (out_answers _ _ _ _ D) as (-> & Ed). destruct (out_answers _ _ _ _ F) as (-> & Ef).
  destruct (out_answers _ _ _ _ S) as (-> & Es). cbv zeta. rewrite Ed, Ef, (parse_ok (lit "v") t n h b d full 0 H ltac:(discriminate) De). cbn [closest distance short dirty].
  rewrite Es, (iso_ok pre day time zone s T P). reflexivity.
Qed.
Lemma as_int_numeral n c : numeral n c -> as_int c = Some n.
Proof.
  intros C. apply numeral_dec in C. subst c. pose proof (number_dec n) as (N & F). unfold as_int.
  assert (E : strip space (dec n) = dec n).
  { apply trimmed_strip. exists [], []. rewrite app_nil_r. repeat split; auto; intros c u E; apply not_white; (assert (I : In c (dec n)) by (rewrite E; first [now left|apply in_or_app; right; now left]));
      apply (proj1 (Forall_forall _ _) F) in I; cbn in I; (repeat (destruct I as [<-|I]; [reflexivity|])); destruct I. }
  rewrite E. destruct (dec n) as [|c u] eqn:X; [easy|]. rewrite <- X in F |- *.
  assert (B : forallb digit (dec n) = true) by (apply forallb_forall; intros c' I; apply digit_iff; exact (proj1 (Forall_forall _ _) F c' I)). now rewrite B, int_dec.
Qed.
Lemma run_untagged gits sys g n h b d full c pre day time zone s : commit h ->
  answers gits (sys GitDir) g -> answers gits (sys DescribeHead) d -> describes_untagged h b d -> answers gits (sys RevParseHead) full ->
  answers gits (sys CountHead) c -> numeral n c ->
  answers gits (sys ShowDate) (pre ++ s) -> git_date_text day time zone s -> preamble pre ->
  run_pieces gits sys (q "v") = Info (Parsed (Pieces None n (firstn 7 full) b)) full (Some (day ++ lit "T" ++ time ++ zone)).
Proof.
  intros H G D De F C Cn S T P. change (q "v") with (lit "v"). unfold run_pieces. rewrite (dir_answers _ _ _ G). destruct (out_answers _ _ _ _ D) as (-> & Ed). destruct (out_answers _ _ _ _ F) as (-> & Ef).
  destruct (out_answers _ _ _ _ S) as (-> & Es). destruct (out_answers _ _ _ _ C) as (-> & Ec). cbv zeta. rewrite Ed, Ef, (parse_untagged (lit "v") h b d full 0 H De). cbn [closest distance short dirty].
  rewrite (as_int_numeral n c Cn), Es, (iso_ok pre day time zone s T P). reflexivity.
Qed.
Lemma as_int_bad c : strip space c = c -> c = [] \/ (exists x, In x c /\ ~ SpecVersion.decimal x) -> as_int c = None.
Proof.
  intros E B. unfold as_int. rewrite E. destruct B as [->|(x & I & N)]; [reflexivity|]. destruct c as [|y c]; [reflexivity|].
  destruct (forallb digit (y :: c)) eqn:F; [|reflexivity]. destruct N. apply digit_iff. exact (proj1 (forallb_forall _ _) F x I).
Qed.
Lemma run_uncounted gits sys g h b d full c : commit h ->
  answers gits (sys GitDir) g -> answers gits (sys DescribeHead) d -> describes_untagged h b d -> answers gits (sys RevParseHead) full ->
  answers gits (sys CountHead) c -> c = [] \/ (exists x, In x c /\ ~ SpecVersion.decimal x) -> run_pieces gits sys (q "v") = Crash.
Proof.
  intros H G D De F C B. change (q "v") with (lit "v"). unfold run_pieces. rewrite (dir_answers _ _ _ G). destruct (out_answers _ _ _ _ D) as (-> & Ed). destruct (out_answers _ _ _ _ F) as (-> & Ef).
  destruct (out_answers _ _ _ _ C) as (-> & Ec). cbv zeta. rewrite Ed, Ef, (parse_untagged (lit "v") h b d full 0 H De). cbn [closest distance short dirty]. now rewrite (as_int_bad c Ec B).
Qed.
Lemma last_line_some s : s <> [] -> last_line s <> None.
Proof. intros N. unfold last_line. destruct (rev s) as [|c t] eqn:E; [|discriminate]. apply (f_equal (@rev ascii)) in E. rewrite rev_involutive in E. easy. Qed.
Lemma run_total gits sys p n c t : answers gits (sys CountHead) c -> numeral n c -> answers gits (sys ShowDate) t -> t <> [] -> run_pieces gits sys p <> Crash.
Proof.
  intros C Cn S T. destruct (out_answers _ _ _ _ S) as (Es & Et). destruct (out_answers _ _ _ _ C) as (Ec & _). unfold run_pieces. rewrite Es, Ec, Et, (as_int_numeral n c Cn).
  assert (X : exists i, iso_date t = Some i) by (unfold iso_date; pose proof (last_line_some t T); destruct (last_line t); [now eexists|easy]). destruct X as (i & X). rewrite X. cbv zeta.
  destruct (snd (run_command gits (sys GitDir))) as [[|z|z]|]; try discriminate. destruct (output gits sys DescribeHead) as [d|]; [|discriminate].
  destruct (output gits sys RevParseHead) as [f|]; [|discriminate]. destruct (git_pieces_from_vcs p (strip space d) (strip space f) 0) as [u|u|[[k|] m w e]]; cbn; discriminate.
Qed.
Lemma run_outside gits sys p : no_answer gits (sys GitDir) \/ no_answer gits (sys DescribeHead) \/ no_answer gits (sys RevParseHead) -> run_pieces gits sys p = Not_vcs.
Proof.
  unfold run_pieces. intros [N|[N|N]]; apply run_none in N.
  - destruct (snd (run_command gits (sys GitDir))) as [[|z|z]|] eqn:E; try reflexivity. apply run_code in E. destruct E as (t & E). rewrite E in N. discriminate N.
  - destruct (snd (run_command gits (sys GitDir))) as [[|z|z]|]; try reflexivity. unfold output at 1. rewrite N. reflexivity.
  - destruct (snd (run_command gits (sys GitDir))) as [[|z|z]|]; try reflexivity. unfold output at 2. rewrite N. now destruct (output gits sys DescribeHead).
Qed.
Lemma info_unexpanded gits sys file : let '(r, f, d) := keyword_marks in get_version_info gits sys r f d file =
  match run_pieces gits sys (q "v") with
  | Crash => None
  | Info (Parsed p) long date => Some (Version (render_pep440 p) (Some long) (Some (dirty p)) false date)
  | Info _ long _ => Some (Version (q "unknown") (Some long) None true None)
  | Not_vcs => match versions_from_parentdir 3 (q "aeppl-") (tl (tl file)) with Some v => Some (Version v None (Some false) false None) | None => Some (Version (q "0+unknown") None None true None) end
  end.
Proof. reflexivity. Qed.

Lemma archive_info gits sys file refs r h d t z s tag : decorated refs r -> dark h -> git_date_text d t z s -> In (lit "tag: " ++ lit "v" ++ tag) refs ->
  exists u, get_version_info gits sys r h s file = Some (Version u (Some h) (Some false) false (Some (d ++ lit "T" ++ t ++ z))) /\
    In (lit "tag: " ++ lit "v" ++ u) refs /\ forall w, In (lit "tag: " ++ lit "v" ++ w) refs -> lexical u w.
Proof.
  intros D H G I. destruct (keywords_least refs r (lit "v") tag D I) as (u & U & J & L). exists u. split; [|now split].
  unfold get_version_info, from_keywords. change (q "v") with (lit "v"). pose proof (iso_ok [] d t z s G (or_introl eq_refl)) as E. cbn [app] in E. rewrite E, U, (strip_dark h H).
  pose proof (keyword_tag_some refs r (lit "v") tag D I). now destruct (keyword_tag r (lit "v")).
Qed.
Lemma archive_unknown gits sys file refs r h d t z s : decorated refs r -> dark h -> git_date_text d t z s ->
  (forall t, ~ In (lit "tag: " ++ lit "v" ++ t) refs) -> (forall t, In (lit "v" ++ t) refs -> exists u, In (lit "tag: " ++ u) refs) ->
  get_version_info gits sys r h s file = Some (Version (lit "0+unknown") (Some h) (Some false) true None).
Proof.
  intros D H G N X. unfold get_version_info, from_keywords. change (q "v") with (lit "v"). pose proof (iso_ok [] d t z s G (or_introl eq_refl)) as E. cbn [app] in E.
  rewrite E, (keywords_unknown refs r (lit "v") D N X), (keyword_tag_none refs r (lit "v") D N X), (strip_dark h H). reflexivity.
Qed.
Lemma run_foreign gits sys g tag n h b d full : tag <> [] -> (forall t, tag <> lit "v" ++ t) -> commit h ->
  answers gits (sys GitDir) g -> answers gits (sys DescribeHead) d -> describes tag n h b d -> answers gits (sys RevParseHead) full ->
  run_pieces gits sys (q "v") = Info (Wrong_prefix tag) full None.
Proof.
  intros N W H G D De F. change (q "v") with (lit "v"). unfold run_pieces. rewrite (dir_answers _ _ _ G). destruct (out_answers _ _ _ _ D) as (-> & Ed). destruct (out_answers _ _ _ _ F) as (-> & Ef).
  cbv zeta. rewrite Ed, Ef. pose proof (parse_ok [] tag n h b d full 0 H N De) as P. unfold git_pieces_from_vcs in *.
  assert (X : forall w bb, (if existsb (fun c => Ascii.eqb c "-") w then match search false w with
      | None => Unparseable d | Some (ft, k, hh) => match after [] ft with None => Wrong_prefix ft | Some t => Parsed (Pieces (Some t) (int k) hh bb) end end
      else Parsed (Pieces None 0 (firstn 7 full) bb)) = Parsed (Pieces (Some tag) n h b) -> existsb (fun c => Ascii.eqb c "-") w = true /\ exists k hh, search false w = Some (tag, k, hh)).
  { intros w bb Q. destruct (existsb (fun c => Ascii.eqb c "-") w); [|discriminate Q]. split; [reflexivity|]. destruct (search false w) as [[[ft k] hh]|]; [|discriminate Q]. cbn [after] in Q. injection Q as -> _ _ _. now exists k, hh. }
  assert (A : after (lit "v") tag = None) by (destruct (after (lit "v") tag) as [t|] eqn:A; [|reflexivity]; apply after_iff in A; now destruct (W t)).
  destruct (before (q "-dirty") d) as [w|]; destruct (X _ _ P) as (-> & k & hh & ->); rewrite A; reflexivity.
Qed.
