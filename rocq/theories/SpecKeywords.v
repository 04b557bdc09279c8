(** Version files: the lines that set a keyword, and dates. *)
From Coq Require Import List Arith Ascii String.
From Verif Require Import SpecVersion.
Import ListNotations.
Open Scope char_scope.
Open Scope list_scope.

Definition quote_mark : ascii := ascii_of_nat 34.
Definition line_feed : ascii := ascii_of_nat 10.
Definition white (c : ascii) : Prop := In (nat_of_ascii c) [9; 10; 11; 12; 13; 28; 29; 30; 31; 32].
(** the line assigns the text [v] to [name]; no quote follows *)
Definition assigns (name v line : text) : Prop :=
  exists i w rest, Forall white i /\ Forall white w /\ ~ In line_feed v /\ ~ In quote_mark rest /\
  line = i ++ name ++ lit " =" ++ w ++ [quote_mark] ++ v ++ [quote_mark] ++ rest.
(** the line does not start with an assignment to [name] *)
Definition silent (name line : text) : Prop := forall i t, Forall white i -> line <> i ++ name ++ lit " =" ++ t.
(** the last assignment to [name] in the file is [v] *)
Definition sets (name v : text) (file : list text) : Prop :=
  exists l1 line l2, file = l1 ++ line :: l2 /\ assigns name v line /\ Forall (silent name) l2.
Definition keyword_name (name : text) : Prop := In name [lit "git_refnames"; lit "git_full"; lit "git_date"].
Definition dark (s : text) : Prop := s <> [] /\ Forall (fun c => ~ white c) s.
(** "2023-01-02 03:04:05 +0100": day, time and zone *)
Definition git_date_text (d t z s : text) : Prop := dark d /\ dark t /\ dark z /\ s = d ++ lit " " ++ t ++ lit " " ++ z.
