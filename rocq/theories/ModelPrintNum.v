(** The texts of the parameters in the definition of a printed random variable,
    /repo/aeppl/printing.py 85-100, 120-133, 165-186 and 636-650.
    Simplifications: texts are ASCII; how a finite number is written with six
    digits ([g6], 177) is not modelled. *)
From Coq Require Import List Arith Bool String Ascii.
From Verif Require Import XR ModelVec ModelPrint ModelPrint2.
Import ListNotations.
Open Scope nat_scope.
Open Scope string_scope.

(** character classes of [float] (printing.py:177) *)
Definition between (a b : nat) (c : ascii) : bool := let n := nat_of_ascii c in Nat.leb a n && Nat.leb n b.
(** ** Python's [float] of a text, as used in 176-179: which texts are read *)
Definition blank (c : ascii) : bool := between 9 13 c || between 28 32 c.
Definition digit (c : ascii) : bool := between 48 57 c.
(** [float] leaves out blanks at the ends (printing.py:177) *)
Fixpoint strip_front (s : string) : string := match s with String c r => if blank c then strip_front r else s | EmptyString => s end.
(** likewise at the end (177) *)
Fixpoint strip_back (s : string) : string :=
  match s with
  | String c r => match strip_back r with EmptyString => if blank c then EmptyString else String c EmptyString | t => String c t end
  | EmptyString => s
  end.
(** underscores are allowed between digits (177): [prev] is the character before *)
Fixpoint underscores (prev : ascii) (s : string) : option string :=
  match s with
  | EmptyString => if Ascii.eqb prev "_" then None else Some EmptyString
  | String c r =>
      if Ascii.eqb c "_" then if digit prev then underscores c r else None
      else if Ascii.eqb prev "_" && negb (digit c) then None
      else option_map (String c) (underscores c r)
  end.
(** what follows the leading digits (177) *)
Fixpoint digits (s : string) : string := match s with String c r => if digit c then digits r else s | EmptyString => s end.
(** whether there are leading digits (177) *)
Definition starts_digit (s : string) : bool := match s with String c _ => digit c | _ => false end.
(** what follows an optional sign (177) *)
Definition unsign (s : string) : string := match s with String c r => if Ascii.eqb c "+" || Ascii.eqb c "-" then r else s | _ => s end.
(** an optional exponent at the end (177) *)
Definition exponent (s : string) : bool :=
  match s with
  | EmptyString => true
  | String c r => (Ascii.eqb c "e" || Ascii.eqb c "E") && (let t := unsign r in starts_digit t && match digits t with EmptyString => true | _ => false end)
  end.
(** digits with an optional point among them or beside them, then the exponent (177) *)
Definition decimal (s : string) : bool :=
  match digits s with
  | String "." r => (starts_digit s || starts_digit r) && exponent (digits r)
  | r => starts_digit s && exponent r
  end.
(** capital letters count as small ones in words (177) *)
Definition lower (c : ascii) : ascii := if between 65 90 c then ascii_of_nat (nat_of_ascii c + 32) else c.
(** the same for all characters (177) *)
Fixpoint lowercase (s : string) : string := match s with String c r => String (lower c) (lowercase r) | EmptyString => s end.
(** the numbers that [float] gives (177); a finite one is given by its text *)
Inductive float := Finite (text : string) | Infinite (negative : bool) | NotANumber.
(** [float(f_param)] (177); [None] is the ValueError *)
Definition read_float (s : string) : option float :=
  match underscores Ascii.zero (strip_back (strip_front s)) with
  | None => None
  | Some t =>
      let u := unsign t in let w := lowercase u in
      if (w =? "inf") || (w =? "infinity") then Some (Infinite (match t with String "-" _ => true | _ => false end))
      else if w =? "nan" then Some NotANumber
      else if decimal u then Some (Finite t) else None
  end.

(** ** printing.py:176-179: numbers are rounded, anything else is a ValueError and stays *)
Definition tidy_float (g6 : string -> string) (s : string) : string :=
  match read_float s with
  | None => s
  | Some (Finite t) => g6 t
  | Some (Infinite b) => if b then "-inf" else "inf"
  | Some NotANumber => "nan"
  end.
(** 640-647: NormalRVPrinter.process_param *)
Definition normal_param (latex : bool) (i : nat) (s : string) : string :=
  if Nat.eqb i 1 then if latex then "{" ++ s ++ "}^{2}" else s ++ "**2" else s.
(** 120-133, 637-638: the name of the distribution *)
Definition op_name (latex : bool) (name : string) : string := if latex then "\operatorname{" ++ name ++ "}" else name.
(** 170-186: the definition of a normal variable with the given parameters *)
Definition normal_line (latex : bool) (g6 : string -> string) (name : string) (params : list string) (k : kind) (dims : list (option nat)) : res string :=
  dist_line latex name (op_name latex "N") (map (tidy_float g6) (mapi (normal_param latex) 0 params)) k dims.
