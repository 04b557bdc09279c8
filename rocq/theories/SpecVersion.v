(** What version strings are: the output of "git describe" (its manual) and
    the normal form of PEP 440. *)
From Coq Require Import List Arith Ascii String.
Import ListNotations.
Open Scope char_scope.

Definition text := list ascii.
Definition lit (s : string) : text := list_ascii_of_string s.
Definition decimal (c : ascii) : Prop := In c (lit "0123456789").
Definition lower_hex (c : ascii) : Prop := In c (lit "0123456789abcdef").
Definition alphanumeric (c : ascii) : Prop := In c (lit "0123456789abcdefghijklmnopqrstuvwxyz").
Definition number (s : text) : Prop := s <> [] /\ Forall decimal s.
(** the digits of [n], the last one first *)
Inductive written : nat -> text -> Prop :=
| w_digit d : d < 10 -> written d [nth d (lit "0123456789") "0"]
| w_more n d s : 0 < n -> d < 10 -> written n s -> written (10 * n + d) (nth d (lit "0123456789") "0" :: s).
Definition numeral (n : nat) (s : text) : Prop := written n (rev s).
(** an abbreviated commit *)
Definition commit (h : text) : Prop := h <> [] /\ Forall lower_hex h.
(** "git describe --tags --dirty --always --long" *)
Definition describes (tag : text) (n : nat) (h : text) (dirty : bool) (s : text) : Prop :=
  exists k, numeral n k /\ s = tag ++ lit "-" ++ k ++ lit "-g" ++ h ++ (if dirty then lit "-dirty" else []).
Definition describes_untagged (h : text) (dirty : bool) (s : text) : Prop := s = h ++ (if dirty then lit "-dirty" else []).

(** PEP 440, "Appendix B" in normal form: [N!]N(.N)*[{a|b|rc}N][.postN][.devN][+local] *)
Definition optional (P : text -> Prop) (s : text) : Prop := s = [] \/ P s.
Definition epoch (s : text) : Prop := exists n, number n /\ s = n ++ lit "!".
Inductive release : text -> Prop :=
| rel_one n : number n -> release n
| rel_more n s : number n -> release s -> release (n ++ lit "." ++ s).
Definition pre_release (s : text) : Prop := exists l n, In l [lit "a"; lit "b"; lit "rc"] /\ number n /\ s = l ++ n.
Definition post_release (s : text) : Prop := exists n, number n /\ s = lit ".post" ++ n.
Definition dev_release (s : text) : Prop := exists n, number n /\ s = lit ".dev" ++ n.
Definition segment (s : text) : Prop := s <> [] /\ Forall alphanumeric s.
Inductive segments : text -> Prop :=
| seg_one s : segment s -> segments s
| seg_more s t : segment s -> segments t -> segments (s ++ lit "." ++ t).
Definition local (s : text) : Prop := exists t, segments t /\ s = lit "+" ++ t.
(** a final or pre-release; a public version; a version *)
Definition base_version (s : text) : Prop := exists e r p, optional epoch e /\ release r /\ optional pre_release p /\ s = e ++ r ++ p.
Definition public_version (s : text) : Prop :=
  exists b p d, base_version b /\ optional post_release p /\ optional dev_release d /\ s = b ++ p ++ d.
Definition version (s : text) : Prop := exists v l, public_version v /\ optional local l /\ s = v ++ l.
(** [s] precedes [t] in the order of code points, or is equal *)
Inductive lexical : text -> text -> Prop :=
| lex_nil t : lexical [] t
| lex_less c d s t : nat_of_ascii c < nat_of_ascii d -> lexical (c :: s) (d :: t)
| lex_same c s t : lexical s t -> lexical (c :: s) (c :: t).
(** "%d" of an archive: " (HEAD -> main, tag: v1.0)" *)
Definition ref_text (r : text) : Prop :=
  r <> [] /\ Forall (fun c => 32 <= nat_of_ascii c <= 126 /\ ~ In c (lit ",()")) r /\ hd "x" r <> " " /\ last r "x" <> " ".
Fixpoint listed (rs : list text) : text :=
  match rs with [] => [] | [r] => r | r :: rs => r ++ lit ", " ++ listed rs end.
Definition decorated (rs : list text) (s : text) : Prop := rs <> [] /\ Forall ref_text rs /\ s = lit " (" ++ listed rs ++ lit ")".
