(** The texts of parameters. *)
From Coq Require Import List Arith Bool String Ascii Lia.
From Verif Require Import XR ModelVec ModelPrint ModelPrint2 ModelPrintNum SpecPrintNum SpecPrint2 LemPrint2 LemPrint3 LemPrint4.
Import ListNotations.
Open Scope nat_scope.
Open Scope string_scope.

Lemma between_iff a b c : between a b c = true <-> a <= code c <= b.
Proof. unfold between, code. rewrite andb_true_iff, !Nat.leb_le. tauto. Qed.
Lemma between_not a b c : between a b c = false <-> ~ a <= code c <= b.
Proof. rewrite <- between_iff. destruct (between a b c); split; congruence. Qed.
Lemma every_imp (P Q : ascii -> Prop) s : (forall c, P c -> Q c) -> every P s -> every Q s.
Proof. intros H. induction s as [|c s IH]; cbn; [auto|]. intros [A B]. split; auto. Qed.
Lemma digit_char c : digit c = true -> number_char c.
Proof. unfold digit. rewrite between_iff. intros H. left. right. left. exact H. Qed.
Lemma blank_char c : blank c = true -> number_char c.
Proof. unfold blank. rewrite orb_true_iff, !between_iff. unfold number_char. tauto. Qed.
Lemma front_char s : every number_char (strip_front s) -> every number_char s.
Proof. induction s as [|c s IH]; [auto|]. cbn [strip_front]. destruct (blank c) eqn:B; [|auto]. intros H. split; [now apply blank_char|auto]. Qed.
Lemma back_char s : every number_char (strip_back s) -> every number_char s.
Proof.
  induction s as [|c s IH]; [auto|]. cbn [strip_back]. destruct (strip_back s) as [|d t] eqn:E.
  - destruct (blank c) eqn:B; intros H; (split; [|apply IH; exact I]); [now apply blank_char|now destruct H].
  - intros [A B]. split; [exact A|]. apply IH. exact B.
Qed.
Lemma under_char s : forall prev t, underscores prev s = Some t -> every number_char t -> every number_char s.
Proof.
  induction s as [|c s IH]; intros prev t; cbn [underscores]; [intros _ _; exact I|]. destruct (Ascii.eqb_spec c "_") as [->|N].
  - destruct (digit prev); [|discriminate]. intros U T. split; [left; right; now right|]. exact (IH _ _ U T).
  - destruct (_ && _); [discriminate|]. destruct (underscores c s) as [u|] eqn:U; [|discriminate]. intros H. injection H as <-. intros [A B]. split; [exact A|]. exact (IH _ _ U B).
Qed.
Lemma digits_char s : every number_char (digits s) -> every number_char s.
Proof. induction s as [|c s IH]; [auto|]. cbn [digits]. destruct (digit c) eqn:B; [|auto]. intros H. split; [now apply digit_char|auto]. Qed.
Lemma unsign_char s : every number_char (unsign s) -> every number_char s.
Proof.
  destruct s as [|c s]; [auto|]. cbn [unsign]. destruct (Ascii.eqb_spec c "+") as [->|]; cbn [orb]; [intros H; split; [right; now left|exact H]|].
  destruct (Ascii.eqb_spec c "-") as [->|]; [intros H; split; [right; right; now left|exact H]|auto].
Qed.
Lemma letter_char c : a_letter c -> number_char c.
Proof. intros H. left. now left. Qed.
Lemma exponent_char s : exponent s = true -> every number_char s.
Proof.
  destruct s as [|c s]; [intros _; exact I|]. cbn [exponent]. rewrite andb_true_iff. intros [C E]. split.
  - apply letter_char. apply orb_true_iff in C. destruct C as [C|C]; apply Ascii.eqb_eq in C; subst c; unfold a_letter; cbn; lia.
  - cbv zeta in E. apply andb_true_iff in E. destruct E as [_ E]. apply unsign_char, digits_char. destruct (digits (unsign s)); [exact I|discriminate].
Qed.
Lemma decimal_char s : decimal s = true -> every number_char s.
Proof.
  unfold decimal. intros D. apply digits_char. destruct (digits s) as [|c r]; [exact I|].
  assert (K : (c = "."%char /\ exponent (digits r) = true) \/ exponent (String c r) = true).
  { destruct (Ascii.eqb_spec c ".") as [->|N]; [left; apply andb_true_iff in D; split; [reflexivity|apply D]|right].
    destruct c as [[] [] [] [] [] [] [] []]; try (now destruct N); apply andb_true_iff in D; apply D. }
  destruct K as [[-> K]|K]; [|now apply exponent_char]. split; [unfold number_char; tauto|]. apply digits_char. now apply exponent_char.
Qed.
Definition small (c : ascii) : Prop := 97 <= code c <= 122.
Lemma lower_spells u : spells (lowercase u) u.
Proof.
  induction u as [|d u IH]; cbn [lowercase]; [constructor|]. constructor; [|exact IH]. unfold lower. destruct (between 65 90 d) eqn:B; [|now left]. right.
  apply between_iff in B. unfold code in *. rewrite nat_ascii_embedding; lia.
Qed.
Lemma spells_lower w s : every small w -> spells w s -> lowercase s = w.
Proof.
  intros W S. induction S as [|c d w s C S IH]; [reflexivity|]. destruct W as [Wc W]. cbn [lowercase]. rewrite IH by exact W. f_equal. unfold lower, small in *.
  destruct C as [->|C].
  - replace (between 65 90 c) with false; [reflexivity|]. symmetry. apply between_not. lia.
  - replace (between 65 90 d) with true by (symmetry; apply between_iff; lia). unfold code in *. rewrite C. apply ascii_nat_embedding.
Qed.
Lemma spells_letters w s : every small w -> spells w s -> every a_letter s.
Proof.
  intros W S. induction S as [|c d w s C S IH]; [exact I|]. destruct W as [Wc W]. split; [|now apply IH]. unfold small, a_letter in *. destruct C as [->|C]; lia.
Qed.
Lemma words_small w : In w number_words -> every small w.
Proof. intros [<-|[<-|[<-|[]]]]; cbn; unfold small, code; cbn; lia. Qed.
Lemma word_letters u w : In w number_words -> lowercase u = w -> every a_letter u.
Proof. intros W E. apply (spells_letters w); [now apply words_small|]. rewrite <- E. apply lower_spells. Qed.

Lemma read_chars s f : read_float s = Some f -> every number_char s.
Proof.
  unfold read_float. destruct (underscores _ _) as [t|] eqn:U; [|discriminate]. intros H. apply front_char, back_char. apply (under_char _ _ _ U). apply unsign_char. cbv zeta in H.
  assert (L : every a_letter (unsign t) -> every number_char (unsign t)) by (apply every_imp; exact letter_char).
  destruct (String.eqb_spec (lowercase (unsign t)) "inf") as [E|_]; [apply L; apply (word_letters _ "inf"); cbn; auto|].
  destruct (String.eqb_spec (lowercase (unsign t)) "infinity") as [E|_]; [apply L; apply (word_letters _ "infinity"); cbn; auto|].
  destruct (String.eqb_spec (lowercase (unsign t)) "nan") as [E|_]; [apply L; apply (word_letters _ "nan"); cbn; auto|]. cbn [orb] in H.
  destruct (decimal (unsign t)) eqn:D; [|discriminate]. now apply decimal_char.
Qed.
Lemma some_not_every P s : some (fun c => ~ P c) s -> ~ every P s.
Proof. induction s as [|c s IH]; cbn; [tauto|]. intros [H|H] [A B]; [auto|now apply IH]. Qed.
(** a text with a character that does not occur in numbers stays *)
Lemma tidy_other g6 s : some (fun c => ~ number_char c) s -> tidy_float g6 s = s.
Proof.
  intros H. unfold tidy_float. destruct (read_float s) as [f|] eqn:E; [|reflexivity]. destruct (some_not_every _ _ H). exact (read_chars s f E).
Qed.

(** ** Names *)
Lemma word_not_blank c : word_char c -> blank c = false.
Proof.
  intros W. unfold blank. apply orb_false_iff. rewrite !between_not. unfold word_char, a_letter, a_digit in W. destruct W as [W|[W| ->]]; [lia|lia|unfold code; cbn; lia].
Qed.
Lemma strip_words s : every word_char s -> strip_back s = s.
Proof.
  induction s as [|c s IH]; [reflexivity|]. intros [A B]. cbn [strip_back]. rewrite (IH B). destruct s; [now rewrite word_not_blank|reflexivity].
Qed.
Lemma identifier_words s : identifier s -> every word_char s.
Proof. destruct s as [|c s]; cbn; [tauto|]. intros [[A|A] B]; (split; [|exact B]); [now left|right; now right]. Qed.
Lemma strip_identifier s : identifier s -> strip_back (strip_front s) = s.
Proof.
  intros H. apply identifier_words in H. replace (strip_front s) with s; [now apply strip_words|]. destruct s as [|c s]; [reflexivity|]. cbn [strip_front]. destruct H as [A _]. now rewrite word_not_blank.
Qed.
Lemma letter_not_digit c : a_letter c -> digit c = false.
Proof. unfold digit, a_letter. rewrite between_not. lia. Qed.
Lemma letter_not c d : a_letter c -> ~ a_letter d -> Ascii.eqb c d = false.
Proof. intros A B. destruct (Ascii.eqb_spec c d) as [->|]; [contradiction|reflexivity]. Qed.
Lemma not_letter c : between 65 90 c = false -> between 97 122 c = false -> ~ a_letter c.
Proof. rewrite !between_not. unfold a_letter. tauto. Qed.
Lemma under_letters s : forall prev t, digit prev = false -> underscores prev s = Some t -> every a_letter t -> s = t.
Proof.
  induction s as [|c s IH]; intros prev t P; cbn [underscores]; [destruct (Ascii.eqb prev "_"); [discriminate|intros H _; now injection H as <-]|].
  destruct (Ascii.eqb_spec c "_") as [->|N]; [rewrite P; discriminate|]. destruct (_ && _); [discriminate|]. destruct (underscores c s) as [u|] eqn:U; [|discriminate].
  intros H. injection H as <-. intros [A B]. f_equal. apply (IH c); [now apply letter_not_digit|exact U|exact B].
Qed.
Lemma letters_under s : forall prev, prev <> "_"%char -> every a_letter s -> underscores prev s = Some s.
Proof.
  induction s as [|c s IH]; intros prev P; cbn [underscores].
  - intros _. destruct (Ascii.eqb_spec prev "_"); [contradiction|reflexivity].
  - intros [A B]. rewrite (letter_not c "_" A (not_letter "_" eq_refl eq_refl)). destruct (Ascii.eqb_spec prev "_"); [contradiction|]. cbn [andb].
    rewrite IH; [reflexivity| |exact B]. intros ->. exact (not_letter "_" eq_refl eq_refl A).
Qed.
Lemma read_name s : identifier s -> read_float s =
  if (lowercase s =? "inf") || (lowercase s =? "infinity") then Some (Infinite false) else if lowercase s =? "nan" then Some NotANumber else None.
Proof.
  intros H. unfold read_float. rewrite (strip_identifier s H). destruct s as [|c s]; [contradiction|]. destruct H as [C W].
  destruct (underscores zero (String c s)) as [t|] eqn:U.
  - assert (a_letter c /\ exists r, t = String c r) as [L [r ->]].
    { cbn [underscores] in U. destruct (Ascii.eqb_spec c "_") as [->|N]; [discriminate U|]. cbn [Ascii.eqb andb Bool.eqb zero] in U. destruct C as [C|C]; [|contradiction].
      destruct (underscores c s) as [r|]; [|discriminate]. injection U as <-. split; [exact C|now exists r]. }
    assert (S : unsign (String c r) = String c r) by (cbn [unsign]; now rewrite (letter_not c "+" L (not_letter "+" eq_refl eq_refl)), (letter_not c "-" L (not_letter "-" eq_refl eq_refl))).
    cbv zeta. rewrite S.
    assert (D : decimal (String c r) = false).
    { unfold decimal. cbn [digits starts_digit]. rewrite (letter_not_digit c L). cbn [andb orb]. pose proof (letter_not c "." L (not_letter "." eq_refl eq_refl)) as P.
      destruct c as [[] [] [] [] [] [] [] []]; try reflexivity; discriminate P. }
    rewrite D. assert (M : (match String c r with String "-" _ => true | _ => false end) = false).
    { pose proof (letter_not c "-" L (not_letter "-" eq_refl eq_refl)) as P. destruct c as [[] [] [] [] [] [] [] []]; try reflexivity; discriminate P. }
    rewrite M.
    assert (Q : forall w, In w number_words -> (lowercase (String c r) =? w) = (lowercase (String c s) =? w)).
    { intros w W'. destruct (String.eqb_spec (lowercase (String c r)) w) as [E|E]; symmetry.
      - rewrite (under_letters _ zero _ eq_refl U (word_letters _ w W' E)), E. apply String.eqb_refl.
      - apply String.eqb_neq. intros F. apply E. pose proof (letters_under _ zero ltac:(discriminate) (word_letters _ w W' F)) as V. rewrite U in V. injection V as V. rewrite V. exact F. }
    rewrite !Q by (cbn; auto). reflexivity.
  - assert (Q : forall w, In w number_words -> (lowercase (String c s) =? w) = false).
    { intros w W'. apply String.eqb_neq. intros F. pose proof (letters_under _ zero ltac:(discriminate) (word_letters _ w W' F)) as V. rewrite U in V. discriminate. }
    rewrite !Q by (cbn; auto). reflexivity.
Qed.
Lemma tidy_name g6 s : identifier s -> (tidy_float g6 s = s <-> ~ exists w, In w number_words /\ spells w s /\ s <> "inf" /\ s <> "nan").
Proof.
  intros H. unfold tidy_float. rewrite (read_name s H).
  assert (Y : forall w, In w number_words -> lowercase s = w -> spells w s) by (intros w _ <-; apply lower_spells).
  assert (N : forall w, In w number_words -> spells w s -> lowercase s = w) by (intros w W S; apply spells_lower; [now apply words_small|exact S]).
  destruct (String.eqb_spec (lowercase s) "inf") as [E|E1]; [|destruct (String.eqb_spec (lowercase s) "infinity") as [E|E2]; [|destruct (String.eqb_spec (lowercase s) "nan") as [E|E3]]]; cbn [orb].
  - split; [intros <- (w & _ & _ & A & _); now apply A|]. intros K. destruct (string_dec s "inf") as [->|A]; [reflexivity|]. destruct K. exists "inf". repeat split; [cbn; auto|apply Y; cbn; auto|exact A|intros ->; discriminate E].
  - split; [intros <-; discriminate E|]. intros K. destruct K. exists "infinity". repeat split; [cbn; auto|apply Y; cbn; auto|intros ->; discriminate E|intros ->; discriminate E].
  - split; [intros <- (w & _ & _ & _ & A); now apply A|]. intros K. destruct (string_dec s "nan") as [->|A]; [reflexivity|]. destruct K. exists "nan". repeat split; [cbn; auto|apply Y; cbn; auto|intros ->; discriminate E|exact A].
  - split; [|reflexivity]. intros _ (w & W & S & _). pose proof (N w W S) as L. destruct W as [<-|[<-|[<-|[]]]]; contradiction.
Qed.

(** ** The second parameter of normal variables *)
Lemma some_app P s t : some P t -> some P (s ++ t).
Proof. induction s as [|c s IH]; cbn; auto. Qed.
Lemma squared_kept g6 latex s : tidy_float g6 (normal_param latex 1 s) = normal_param latex 1 s.
Proof.
  apply tidy_other. unfold normal_param. cbn [Nat.eqb].
  destruct latex; [left|apply some_app; left]; unfold number_char, word_char, a_letter, a_digit, code; cbn; intuition (try discriminate; try lia).
Qed.
Lemma normal_ok_line latex g6 name mu sigma k dims : lacks " " name -> (lacks "%" name \/ forall d, In d dims -> d <> None) ->
  normal_line latex g6 name [mu; sigma] k dims =
  Val (meant latex name (if latex then "\operatorname{N}" else "N") [tidy_float g6 mu; if latex then "{" ++ sigma ++ "}^{2}" else sigma ++ "**2"] k dims).
Proof.
  intros A B. unfold normal_line. cbn [mapi map]. rewrite squared_kept. unfold normal_param. cbn [Nat.eqb].
  rewrite (proj2 (line_exact latex name _ _ k dims) (conj A B)). now destruct latex.
Qed.

(** ** Numbers *)
Definition plain (c : ascii) : Prop := a_digit c \/ c = "."%char \/ c = "-"%char.
Lemma plain_blank c : plain c -> blank c = false.
Proof. intros W. unfold blank. apply orb_false_iff. rewrite !between_not. unfold plain, a_digit in W. destruct W as [W|[-> | ->]]; [lia|unfold code; cbn; lia..]. Qed.
Lemma plain_strip s : every plain s -> strip_back (strip_front s) = s.
Proof.
  intros H. replace (strip_front s) with s; [|destruct s as [|c s]; [reflexivity|]; cbn [strip_front]; destruct H as [A _]; now rewrite plain_blank].
  induction s as [|c s IH]; [reflexivity|]. destruct H as [A B]. cbn [strip_back]. rewrite (IH B). destruct s; [now rewrite plain_blank|reflexivity].
Qed.
Lemma plain_not c : plain c -> c <> "_"%char.
Proof. intros [A|[-> | ->]]; [intros ->; unfold a_digit, code in A; cbn in A; lia|discriminate..]. Qed.
Lemma plain_under s : forall prev, prev <> "_"%char -> every plain s -> underscores prev s = Some s.
Proof.
  induction s as [|c s IH]; intros prev P H; cbn [underscores]; [destruct (Ascii.eqb_spec prev "_"); [contradiction|reflexivity]|]. destruct H as [A B].
  destruct (Ascii.eqb_spec c "_") as [E|N]; [destruct (plain_not c A E)|]. destruct (Ascii.eqb_spec prev "_"); [contradiction|]. cbn [andb]. now rewrite IH.
Qed.
Lemma digits_app i t : every a_digit i -> digits (i ++ t) = digits t.
Proof. induction i as [|c i IH]; [reflexivity|]. intros [A B]. cbn. unfold digit at 1. rewrite (proj2 (between_iff 48 57 c)) by exact A. now apply IH. Qed.
Lemma every_app P s t : every P s -> every P t -> every P (s ++ t).
Proof. induction s as [|c s IH]; cbn; [auto|]. intros [A B] C. auto. Qed.
Lemma digit_first c s w : a_digit c -> In w number_words -> (lowercase (String c s) =? w) = false.
Proof.
  intros A W. apply String.eqb_neq. intros E. destruct (word_letters _ w W E) as [L _]. unfold a_letter, a_digit in *. lia.
Qed.
Lemma digits_all i : every a_digit i -> digits i = "".
Proof. induction i as [|c i IH]; [reflexivity|]. intros [A B]. cbn. unfold digit at 1. rewrite (proj2 (between_iff 48 57 c)) by exact A. now apply IH. Qed.
Lemma decimal_integer i : i <> "" -> every a_digit i -> decimal i = true.
Proof.
  intros N H. unfold decimal. rewrite (digits_all i H). destruct i as [|c i]; [contradiction|]. cbn. unfold digit. rewrite (proj2 (between_iff 48 57 c)) by apply H. reflexivity.
Qed.
Lemma decimal_point i f : i <> "" -> every a_digit i -> every a_digit f -> decimal (i ++ "." ++ f) = true.
Proof.
  intros N H F. unfold decimal. rewrite (digits_app i _ H). cbn [append digits]. change (digit ".") with false. cbn iota. rewrite (digits_all f F).
  destruct i as [|c i]; [contradiction|]. cbn. unfold digit. rewrite (proj2 (between_iff 48 57 c)) by apply H. reflexivity.
Qed.
Lemma read_plain (neg : bool) c r : a_digit c -> every plain r -> decimal (String c r) = true -> forall s, s = (if neg then "-" else "") ++ String c r -> read_float s = Some (Finite s).
Proof.
  intros C R D s ->. assert (P : every plain ((if neg then "-" else "") ++ String c r)).
  { apply every_app; [destruct neg; cbn; unfold plain; tauto|]. split; [now left|exact R]. }
  unfold read_float. rewrite (plain_strip _ P), (plain_under _ zero ltac:(discriminate) P). cbv zeta.
  assert (U : unsign ((if neg then "-" else "") ++ String c r) = String c r).
  { destruct neg; [reflexivity|]. cbn [append unsign]. destruct (Ascii.eqb_spec c "+") as [->|]; [unfold a_digit, code in C; cbn in C; lia|]. destruct (Ascii.eqb_spec c "-") as [->|]; [unfold a_digit, code in C; cbn in C; lia|reflexivity]. }
  rewrite U, !digit_first by (cbn; auto). cbn [orb]. now rewrite D.
Qed.
Lemma tidy_number g6 (neg : bool) i f : i <> "" -> every a_digit i -> every a_digit f ->
  let sign := if neg then "-" else "" in tidy_float g6 (sign ++ i) = g6 (sign ++ i) /\ tidy_float g6 (sign ++ i ++ "." ++ f) = g6 (sign ++ i ++ "." ++ f).
Proof.
  intros N H F sign. assert (DP : forall t, every a_digit t -> every plain t) by (intros t; apply every_imp; intros c; now left).
  pose proof (decimal_integer i N H) as D1. pose proof (decimal_point i f N H F) as D2. destruct i as [|c i]; [contradiction|]. destruct H as [C H]. unfold tidy_float. split.
  - rewrite (read_plain neg c i C (DP i H) D1 (sign ++ String c i) eq_refl). reflexivity.
  - rewrite (read_plain neg c (i ++ "." ++ f) C) with (s := sign ++ String c i ++ "." ++ f); [reflexivity| |exact D2|reflexivity].
    apply every_app; [now apply DP|]. split; [right; now left|now apply DP].
Qed.
