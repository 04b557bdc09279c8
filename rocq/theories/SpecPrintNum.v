(** Specification of the texts of parameters. *)
From Coq Require Import List Arith Bool String Ascii.
Import ListNotations.
Open Scope nat_scope.
Open Scope string_scope.

Definition code := nat_of_ascii.
Definition a_digit (c : ascii) : Prop := 48 <= code c <= 57.
Definition a_letter (c : ascii) : Prop := 65 <= code c <= 90 \/ 97 <= code c <= 122.
Definition word_char (c : ascii) : Prop := a_letter c \/ a_digit c \/ c = "_"%char.
Fixpoint every (P : ascii -> Prop) (s : string) : Prop := match s with EmptyString => True | String c r => P c /\ every P r end.
Fixpoint some (P : ascii -> Prop) (s : string) : Prop := match s with EmptyString => False | String c r => P c \/ some P r end.
(** the names of Python's variables *)
Definition identifier (s : string) : Prop := match s with EmptyString => False | String c r => (a_letter c \/ c = "_"%char) /\ every word_char r end.
(** [s] is the word [w] of small letters, in small or capital letters *)
Inductive spells : string -> string -> Prop :=
| sp_nil : spells "" ""
| sp_cons c d w s : d = c \/ code d + 32 = code c -> spells w s -> spells (String c w) (String d s).
Definition number_words : list string := ["inf"; "infinity"; "nan"].
(** characters that occur in numbers: letters, digits, underscores, signs, points and blanks *)
Definition number_char (c : ascii) : Prop :=
  word_char c \/ c = "+"%char \/ c = "-"%char \/ c = "."%char \/ 9 <= code c <= 13 \/ 28 <= code c <= 32.
