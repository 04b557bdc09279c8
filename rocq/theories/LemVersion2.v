(** Proofs for the version strings: parsing, rendering, keywords. *)
From Coq Require Import List Arith Ascii String Bool Lia.
From Verif Require Import ModelVersion SpecVersion LemVersion.
Import ListNotations.
Open Scope char_scope.
Open Scope list_scope.

(** ** parsing *)
Lemma commit_not_dirty h x s : commit h -> x ++ h <> s ++ lit "-dirty".
Proof.
  intros (N & F) E. apply (f_equal (@rev ascii)) in E. rewrite !rev_app_distr in E.
  apply Forall_rev in F. destruct (rev h) as [|c r] eqn:R.
  - apply N. rewrite <- (rev_involutive h), R. reflexivity.
  - inversion F as [|? ? C _]; subst. cbn in E. injection E as E _. apply hex_not in C. tauto.
Qed.
Lemma dirty_split x h (b : bool) : commit h -> before (q "-dirty") (x ++ h ++ (if b then lit "-dirty" else [])) = if b then Some (x ++ h) else None.
Proof.
  intros H. destruct b.
  - apply before_iff. now rewrite app_assoc.
  - rewrite app_nil_r. destruct (before _ _) as [s|] eqn:E; [|reflexivity]. apply before_iff in E. exfalso. exact (commit_not_dirty h x s H E).
Qed.
Lemma parse_ok p t n h b s full count : commit h -> p ++ t <> [] -> describes (p ++ t) n h b s ->
  git_pieces_from_vcs p s full count = Parsed (Pieces (Some t) n h b).
Proof.
  intros H N (k & K & ->). apply numeral_dec in K. subst k. unfold git_pieces_from_vcs.
  set (w := (p ++ t) ++ lit "-" ++ dec n ++ lit "-g" ++ h).
  assert (B : before (q "-dirty") ((p ++ t) ++ lit "-" ++ dec n ++ lit "-g" ++ h ++ (if b then lit "-dirty" else [])) = if b then Some w else None).
  { pose proof (dirty_split ((p ++ t) ++ lit "-" ++ dec n ++ lit "-g") h b H) as E. unfold w. rewrite <- !app_assoc in *. exact E. }
  rewrite B. clear B.
  assert (D : existsb (fun c => c =? "-") w = true).
  { apply existsb_exists. exists "-". split; [apply in_or_app; right; now left|reflexivity]. }
  assert (S : search false w = Some (p ++ t, dec n, h)) by (apply search_ok; [apply number_dec|exact H|easy]).
  assert (A : after p (p ++ t) = Some t) by now apply after_iff.
  destruct b; rewrite ?app_nil_r; fold w; rewrite D, S, A, int_dec; reflexivity.
Qed.
Lemma parse_untagged p h b s full count : commit h -> describes_untagged h b s ->
  git_pieces_from_vcs p s full count = Parsed (Pieces None count (firstn 7 full) b).
Proof.
  intros H ->. unfold git_pieces_from_vcs. pose proof (dirty_split [] h b H) as E. cbn [app] in E. rewrite E.
  assert (X : existsb (fun c => c =? "-") h = false).
  { apply not_true_iff_false. intros Y. apply existsb_exists in Y. destruct Y as (c & I & C). apply asc in C. subst c. exact (commit_nodash h H I). }
  destruct b; rewrite ?app_nil_r, X; reflexivity.
Qed.

(** ** PEP 440 *)
Lemma all_in l s : forallb (fun c => existsb (fun d => d =? c) l) s = true -> Forall (fun c => In c l) s.
Proof. intros H. apply Forall_forall. intros c I. apply inb. exact (proj1 (forallb_forall _ _) H c I). Qed.
Definition noplus (s : text) : Prop := ~ In "+" s.
Lemma noplus_app s t : noplus s -> noplus t -> noplus (s ++ t).
Proof. unfold noplus. intros A B I. apply in_app_or in I. tauto. Qed.
Lemma noplus_number n : number n -> noplus n.
Proof. intros (_ & F) I. apply (proj1 (Forall_forall _ _) F) in I. apply dec_hex, hex_not in I. tauto. Qed.
Ltac np := unfold noplus; cbn; intuition discriminate.
Lemma noplus_release r : release r -> noplus r.
Proof. induction 1; [now apply noplus_number|]. apply noplus_app; [now apply noplus_number|]. apply noplus_app; [np|assumption]. Qed.
Lemma noplus_base b : base_version b -> noplus b.
Proof.
  intros (e & r & p & E & R & P & ->). apply noplus_app; [|apply noplus_app].
  - destruct E as [->|(n & N & ->)]; [np|]. apply noplus_app; [now apply noplus_number|np].
  - now apply noplus_release.
  - destruct P as [->|(l & n & L & N & ->)]; [np|]. apply noplus_app; [|now apply noplus_number]. destruct L as [<-|[<-|[<-|[]]]]; np.
Qed.
Lemma noplus_public v : public_version v -> noplus v.
Proof.
  intros (b & p & d & B & P & D & ->). apply noplus_app; [now apply noplus_base|]. apply noplus_app.
  - destruct P as [->|(n & N & ->)]; [np|]. apply noplus_app; [np|now apply noplus_number].
  - destruct D as [->|(n & N & ->)]; [np|]. apply noplus_app; [np|now apply noplus_number].
Qed.
Lemma segments_app s t : segments s -> segments t -> segments (s ++ lit "." ++ t).
Proof.
  induction 1 as [s S|s u S U IH]; intros T; [now apply seg_more|]. rewrite <- !app_assoc. apply seg_more; auto.
Qed.
Lemma number_segment n : number n -> segment n.
Proof. intros (A & F). split; [exact A|]. eapply Forall_impl; [|exact F]. exact dec_alnum. Qed.
Lemma commit_segment h : commit h -> segment (lit "g" ++ h).
Proof.
  intros (A & F). split; [discriminate|]. constructor; [apply inb; reflexivity|]. eapply Forall_impl; [|exact F]. exact hex_alnum.
Qed.
Ltac seg := split; [discriminate|apply all_in; reflexivity].
Lemma suffix_segments n h (b : bool) : commit h -> segments (dec n ++ q ".g" ++ h ++ opt b (q ".dirty")).
Proof.
  intros H. change (q ".g" ++ h ++ opt b (q ".dirty")) with (lit "." ++ (lit "g" ++ h ++ opt b (q ".dirty"))).
  apply seg_more; [apply number_segment, number_dec|]. destruct b.
  - change (opt true (q ".dirty")) with (lit "." ++ lit "dirty"). rewrite app_assoc. apply seg_more; [now apply commit_segment|]. apply seg_one. seg.
  - cbn [opt]. rewrite app_nil_r. apply seg_one. now apply commit_segment.
Qed.
Lemma plus_or_dot_plus t : noplus t -> plus_or_dot t = lit "+".
Proof.
  intros N. unfold plus_or_dot. replace (existsb _ t) with false; [reflexivity|]. symmetry. apply not_true_iff_false. intros E.
  apply existsb_exists in E. destruct E as (c & I & C). apply asc in C. subst c. contradiction.
Qed.
Lemma plus_or_dot_dot t : In "+" t -> plus_or_dot t = lit ".".
Proof. intros I. unfold plus_or_dot. replace (existsb _ t) with true; [reflexivity|]. symmetry. apply existsb_exists. exists "+". auto. Qed.
Lemma public_zero : public_version (lit "0").
Proof.
  exists (lit "0"), [], []. split; [|split; [now left|split; [now left|reflexivity]]].
  exists [], (lit "0"), []. split; [now left|]. split; [|split; [now left|reflexivity]].
  apply rel_one. split; [discriminate|]. apply all_in. reflexivity.
Qed.
Lemma tagged_some p t : tagged p = Some t -> closest p = Some t /\ t <> [].
Proof. unfold tagged. destruct (closest p) as [[|c u]|]; try discriminate. intros H. injection H as <-. split; [reflexivity|discriminate]. Qed.
Lemma pep440_version p : commit (short p) -> (forall t, closest p = Some t -> t <> [] -> version t) -> version (render_pep440 p).
Proof.
  intros H V. unfold render_pep440. destruct (tagged p) as [t|] eqn:T.
  - apply tagged_some in T. destruct T as (T & N). destruct (V t T N) as (v & l & P & L & ->). destruct (moved p); cbn [opt].
    + pose proof (suffix_segments (distance p) (short p) (dirty p) H) as S. pose proof (noplus_public v P) as NP.
      destruct L as [->|(u & U & ->)].
      * rewrite app_nil_r, plus_or_dot_plus by exact NP. exists v. eexists. split; [exact P|]. split; [|reflexivity]. right. eexists. split; [exact S|reflexivity].
      * rewrite plus_or_dot_dot by (apply in_or_app; right; now left). exists v. eexists. split; [exact P|]. split; [|rewrite <- app_assoc; reflexivity].
        right. eexists. split; [exact (segments_app _ _ U S)|]. now rewrite <- !app_assoc.
    + rewrite app_nil_r. exists v, l. auto.
  - change (q "0+untagged.") with (lit "0" ++ lit "+" ++ lit "untagged" ++ lit "."). rewrite <- !app_assoc.
    exists (lit "0"). eexists. split; [exact public_zero|]. split; [|reflexivity]. right. eexists. split; [|reflexivity].
    apply seg_more; [seg|]. apply suffix_segments. exact H.
Qed.
(** the other styles for tags of final and pre-releases *)
Lemma base_zero : base_version (lit "0").
Proof.
  exists [], (lit "0"), []. split; [now left|]. split; [|split; [now left|reflexivity]].
  apply rel_one. split; [discriminate|]. apply all_in. reflexivity.
Qed.
Lemma base_public b : base_version b -> public_version b.
Proof. intros B. exists b, [], []. split; [exact B|]. split; [now left|]. split; [now left|]. now rewrite app_nil_r. Qed.
Lemma public_v v : public_version v -> version v.
Proof. intros P. exists v, []. split; [exact P|]. split; [now left|]. now rewrite app_nil_r. Qed.
Lemma number_0 : number (lit "0").
Proof. split; [discriminate|]. apply all_in. reflexivity. Qed.
Lemma post_public b n d : base_version b -> public_version (b ++ lit ".post" ++ dec n ++ opt d (lit ".dev0")).
Proof.
  intros B. exists b, (lit ".post" ++ dec n), (opt d (lit ".dev0")). split; [exact B|]. split; [right; exists (dec n); split; [apply number_dec|reflexivity]|].
  split; [|now rewrite <- !app_assoc]. destruct d; [|now left]. right. exists (lit "0"). split; [exact number_0|reflexivity].
Qed.
Lemma styles_version p s : commit (short p) -> s = Pre \/ s = Post \/ s = Old -> (forall t, closest p = Some t -> t <> [] -> base_version t) ->
  exists v, render (Parsed p) s = Some v /\ version v.
Proof.
  intros H S V. assert (B : exists b, base_version b /\ match tagged p with Some t => t = b | None => b = lit "0" end).
  { destruct (tagged p) as [t|] eqn:T; [|exists (lit "0"); split; [exact base_zero|reflexivity]]. apply tagged_some in T. destruct T as (T & N). exists t. auto. }
  destruct B as (b & B & E). destruct S as [ -> | [ -> | -> ] ]; cbn [render render_pieces]; (eexists; split; [reflexivity|]).
  - assert (P : forall n, version (b ++ q ".post0.dev" ++ dec n)).
    { intros n. apply public_v. exists b, (lit ".post0"), (lit ".dev" ++ dec n). split; [exact B|]. split; [right; exists (lit "0"); split; [exact number_0|reflexivity]|].
      split; [right; exists (dec n); split; [apply number_dec|reflexivity]|reflexivity]. }
    unfold render_pep440_pre. destruct (tagged p) as [t|]; [subst t|subst b; apply P].
    destruct (negb _); cbn [opt]; [apply P|]. rewrite app_nil_r. now apply public_v, base_public.
  - assert (P : version (b ++ (q ".post" ++ dec (distance p) ++ opt (dirty p) (q ".dev0")) ++ lit "+" ++ q "g" ++ short p)).
    { eexists _, _. split; [exact (post_public b (distance p) (dirty p) B)|]. split; [|rewrite <- !app_assoc; reflexivity].
      right. eexists. split; [|reflexivity]. apply seg_one. now apply commit_segment. }
    unfold render_pep440_post. destruct (tagged p) as [t|].
    + subst t. rewrite plus_or_dot_plus by now apply noplus_base. destruct (moved p); cbn [opt].
      * rewrite <- !app_assoc in P. exact P.
      * rewrite app_nil_r. now apply public_v, base_public.
    + subst b. rewrite <- !app_assoc in P. exact P.
  - pose proof (post_public b (distance p) (dirty p) B) as P. unfold render_pep440_old. destruct (tagged p) as [t|].
    + subst t. destruct (moved p); cbn [opt]; [now apply public_v|]. rewrite app_nil_r. now apply public_v, base_public.
    + subst b. now apply public_v.
Qed.

(** ** different states have different versions *)
Lemma split_at (c : ascii) x y x' y' : ~ In c x -> ~ In c x' -> x ++ c :: y = x' ++ c :: y' -> x = x' /\ y = y'.
Proof.
  revert x'. induction x as [|a x IH]; intros [|b x'] N M E; cbn in E.
  - injection E as ->. auto.
  - injection E as -> _. exfalso. apply M. now left.
  - injection E as -> _. exfalso. apply N. now left.
  - injection E as -> E. destruct (IH x' (fun I => N (or_intror I)) (fun I => M (or_intror I)) E) as (-> & ->). auto.
Qed.
Lemma split_no (c : ascii) x x' y' : ~ In c x -> x <> x' ++ c :: y'.
Proof. intros N ->. apply N, in_or_app. right. now left. Qed.
Definition ext (p : pieces) : str := dec (distance p) ++ q ".g" ++ short p ++ opt (dirty p) (q ".dirty").
Lemma nodot_commit h : commit h -> ~ In "." h.
Proof. intros (_ & F) I. apply (proj1 (Forall_forall _ _) F) in I. apply hex_not in I. tauto. Qed.
Lemma nodot_dec n : ~ In "." (dec n).
Proof. intros I. destruct (number_dec n) as (_ & F). apply (proj1 (Forall_forall _ _) F) in I. apply dec_hex, hex_not in I. tauto. Qed.
Lemma ext_inj p p' : commit (short p) -> commit (short p') -> ext p = ext p' -> distance p = distance p' /\ short p = short p' /\ dirty p = dirty p'.
Proof.
  intros H H' E. unfold ext in E. cbn [q list_ascii_of_string app] in E.
  destruct (split_at "." _ _ _ _ (nodot_dec _) (nodot_dec _) E) as (E1 & E2). apply dec_inj in E1. injection E2 as E2.
  destruct (dirty p), (dirty p'); cbn [opt q list_ascii_of_string app] in E2; rewrite ?app_nil_r in E2.
  - destruct (split_at "." _ _ _ _ (nodot_commit _ H) (nodot_commit _ H') E2) as (E3 & _). auto.
  - exfalso. symmetry in E2. exact (split_no "." _ _ _ (nodot_commit _ H') E2).
  - exfalso. exact (split_no "." _ _ _ (nodot_commit _ H) E2).
  - auto.
Qed.
Lemma ext_untagged p p' : lit "untagged." ++ ext p <> ext p'.
Proof.
  unfold ext. intros E. destruct (number_dec (distance p')) as (N & F). destruct (dec (distance p')) as [|c u]; [easy|].
  apply (f_equal (hd "0")) in E. cbn [hd lit list_ascii_of_string app] in E. inversion F as [|? ? C _]; subst. apply digit_iff in C. discriminate.
Qed.
Lemma moved_false p : moved p = false -> distance p = 0 /\ dirty p = false.
Proof. unfold moved. intros H. apply orb_false_iff in H. destruct H as [A B]. split; [|exact B]. apply negb_false_iff, Nat.eqb_eq in A. exact A. Qed.
Lemma render_parts p : (forall t, closest p = Some t -> noplus t) ->
  exists t e, render_pep440 p = t ++ e /\ noplus t /\
    match tagged p with Some u => u = t /\ e = opt (moved p) ("+" :: ext p) | None => t = lit "0" /\ e = "+" :: lit "untagged." ++ ext p end.
Proof.
  intros N. unfold render_pep440. destruct (tagged p) as [u|] eqn:T.
  - apply tagged_some in T. destruct T as (T & _). specialize (N u T). exists u. eexists. split; [reflexivity|]. split; [exact N|]. split; [reflexivity|].
    rewrite plus_or_dot_plus by exact N. reflexivity.
  - exists (lit "0"). eexists. split; [reflexivity|]. split; [np|]. auto.
Qed.
Lemma pep440_distinct p p' : commit (short p) -> commit (short p') ->
  (forall t, closest p = Some t -> noplus t) -> (forall t, closest p' = Some t -> noplus t) ->
  render_pep440 p = render_pep440 p' ->
  tagged p = tagged p' /\ distance p = distance p' /\ dirty p = dirty p' /\ (tagged p = None \/ distance p <> 0 \/ dirty p = true -> short p = short p').
Proof.
  intros H H' N N' E. destruct (render_parts p N) as (t & e & R & NT & C). destruct (render_parts p' N') as (t' & e' & R' & NT' & C').
  rewrite R, R' in E. clear R R' N N'.
  destruct (tagged p) as [u|], (tagged p') as [u'|].
  - destruct C as (-> & ->), C' as (-> & ->). destruct (moved p) eqn:M, (moved p') eqn:M'; cbn [opt] in E; rewrite ?app_nil_r in E.
    + destruct (split_at "+" _ _ _ _ NT NT' E) as (-> & X). destruct (ext_inj p p' H H' X) as (A & B & C). auto.
    + exfalso. symmetry in E. exact (split_no "+" _ _ _ NT' E).
    + exfalso. exact (split_no "+" _ _ _ NT E).
    + apply moved_false in M, M'. destruct M as [A B], M' as [A' B']. subst t'. repeat split; try congruence. intros Z; destruct Z as [Z|[Z|Z]]; congruence.
  - destruct C as (-> & ->), C' as (-> & ->). exfalso. destruct (moved p); cbn [opt] in E.
    + destruct (split_at "+" _ _ _ _ NT NT' E) as (_ & X). symmetry in X. exact (ext_untagged _ _ X).
    + rewrite app_nil_r in E. exact (split_no "+" _ _ _ NT E).
  - destruct C as (-> & ->), C' as (-> & ->). exfalso. destruct (moved p'); cbn [opt] in E.
    + destruct (split_at "+" _ _ _ _ NT NT' E) as (_ & X). exact (ext_untagged _ _ X).
    + rewrite app_nil_r in E. symmetry in E. exact (split_no "+" _ _ _ NT' E).
  - destruct C as (-> & ->), C' as (-> & ->). destruct (split_at "+" _ _ _ _ NT NT' E) as (_ & X). apply app_inv_head in X.
    destruct (ext_inj p p' H H' X) as (A & B & C). auto.
Qed.
