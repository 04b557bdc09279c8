(** C102: the parameters in the definitions of printed random variables. *)
From Coq Require Import List Arith Bool String Ascii Lia.
From Verif Require Import XR ModelVec ModelPrint ModelPrint2 SpecPrint2 ModelPrintNum SpecPrintNum LemPrintNum.
Import ListNotations.
Open Scope nat_scope.
Open Scope string_scope.

(** Texts with any character that numbers do not have, such as parentheses,
    brackets, commas or backslashes, stay as they are. *)
Theorem C102_expressions : forall g6 s, some (fun c => ~ number_char c) s -> tidy_float g6 s = s.
Proof. exact tidy_other. Qed.
Print Assumptions C102_expressions.
Example C102_expressions_ex : forall g6, tidy_float g6 "(1.0 + 2.0)" = "(1.0 + 2.0)".
Proof. intros g6. apply C102_expressions. left. unfold number_char, word_char, a_letter, a_digit, code. cbn. intuition (try discriminate; try lia). Qed.

(** Decimal numbers are rounded, with or without a sign. *)
Theorem C102_numbers : forall g6 (negative : bool) i f, i <> "" -> every a_digit i -> every a_digit f ->
  let sign := if negative then "-" else "" in tidy_float g6 (sign ++ i) = g6 (sign ++ i) /\ tidy_float g6 (sign ++ i ++ "." ++ f) = g6 (sign ++ i ++ "." ++ f).
Proof. exact tidy_number. Qed.
Print Assumptions C102_numbers.
Example C102_numbers_ex : forall g6, tidy_float g6 "-12.3456789" = g6 "-12.3456789".
Proof. intros g6. apply (C102_numbers g6 true "12" "3456789"); [discriminate|..]; cbn; unfold a_digit, code; cbn; lia. Qed.

(** A name stays exactly when it is not one of the words that Python reads as
    numbers, in any mixture of small and capital letters; "inf" and "nan" are
    written back as they were.  Missing: the claim for those words, which is
    false (below). *)
Theorem C102_names_partial : forall g6 s, identifier s -> (tidy_float g6 s = s <-> ~ exists w, In w number_words /\ spells w s /\ s <> "inf" /\ s <> "nan").
Proof. exact tidy_name. Qed.
Print Assumptions C102_names_partial.
Example C102_names_ex : forall g6, tidy_float g6 "info_1" = "info_1" /\ tidy_float g6 "inf" = "inf".
Proof.
  intros g6. split; apply C102_names_partial; try (cbn; unfold a_letter, word_char, a_letter, a_digit, code; cbn; intuition lia).
  - intros (w & [<-|[<-|[<-|[]]]] & S & _); repeat (match goal with H : spells (String _ _) _ |- _ => inversion H; clear H; subst | H : spells EmptyString _ |- _ => inversion H; clear H; subst end);
      repeat match goal with H : _ \/ _ |- _ => destruct H; [discriminate|unfold code in *; cbn in *; lia] end.
  - intros (w & _ & _ & A & _). now apply A.
Qed.

(** Two different variables may be shown as the same parameter. *)
Theorem C102_names_refuted : exists a b, a <> b /\ identifier a /\ identifier b /\
  forall latex g6 name sigma k dims, normal_line latex g6 name [a; sigma] k dims = normal_line latex g6 name [b; sigma] k dims.
Proof.
  exists "Infinity", "INF". split; [discriminate|]. split; [|split]; [cbn; unfold a_letter, word_char, a_letter, a_digit, code; cbn; intuition lia..|reflexivity].
Qed.
Print Assumptions C102_names_refuted.

(** The definition of a normal variable states the mean, rounded if it is a
    number, and the square of the scale, whose text is never rounded. *)
Theorem C102_normal : forall latex g6 name mu sigma k dims, lacks " " name -> (lacks "%" name \/ forall d, In d dims -> d <> None) ->
  normal_line latex g6 name [mu; sigma] k dims =
  Val (meant latex name (if latex then "\operatorname{N}" else "N") [tidy_float g6 mu; if latex then "{" ++ sigma ++ "}^{2}" else sigma ++ "**2"] k dims).
Proof. exact normal_ok_line. Qed.
Print Assumptions C102_normal.
Example C102_normal_ex : forall g6, normal_line false g6 "X" ["mu"; "0.123456789"] KFloat [Some 3] = Val "X ~ N(mu, 0.123456789**2) in R**(3)".
Proof.
  intros g6. rewrite C102_normal; [reflexivity| |].
  - intros [|[|i]]; discriminate.
  - right. intros d [<-|[]]. discriminate.
Qed.
(** Hence numbers are not rounded everywhere: the scale keeps all its digits
    where another parameter with the same text does not. *)
Theorem C102_rounded_refuted : exists text, forall g6, (forall s, String.length (g6 s) <= 12) ->
  String.length (tidy_float g6 text) <= 12 /\ ~ String.length (tidy_float g6 (normal_param false 1 text)) <= 12.
Proof.
  exists "0.12345678901234567". intros g6 G. split.
  - destruct (C102_numbers g6 false "0" "12345678901234567") as [_ E]; [discriminate|cbn; unfold a_digit, code; cbn; lia..|]. cbn zeta iota in E. cbn [append] in E. rewrite E. apply G.
  - rewrite squared_kept. cbn. lia.
Qed.
Print Assumptions C102_rounded_refuted.
