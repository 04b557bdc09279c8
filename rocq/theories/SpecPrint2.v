(** Specification of the printed preamble of a model. *)
From Coq Require Import List Arith Bool String Ascii.
From Verif Require Import XR ModelVec ModelPrint ModelPrint2 SpecPrint.
Import ListNotations.
Open Scope nat_scope.
Open Scope string_scope.

Definition inputs_of (n : pnode) : list nat := match n with PExpr _ l | PRv _ _ _ _ l => l | _ => [] end.
Definition is_rv (n : pnode) : Prop := match n with PRv _ _ _ _ _ => True | _ => False end.
Definition is_named (n : pnode) : Prop := match n with PNamed _ _ => True | _ => False end.
(** the numbers of a graph: inputs come first *)
Definition acyclic (g : nat -> pnode) : Prop := forall v u, In u (inputs_of (g v)) -> u < v.
(** [w] occurs in what is printed for [u], or in the definitions of what occurs in it *)
Inductive occurs (g : nat -> pnode) : nat -> nat -> Prop :=
| occurs_self u : occurs g u u
| occurs_in u i w : In i (inputs_of (g u)) -> occurs g i w -> occurs g u w.
(** the variables of the print-out of [outs] *)
Definition shown (g : nat -> pnode) (outs : list nat) (w : nat) : Prop := exists u, In u outs /\ occurs g u w.
(** the text of every variable, given [text] *)
Definition reads (g : nat -> pnode) (text : nat -> string) (v : nat) : Prop :=
  match g v with PConst c => text v = c | PExpr f l => text v = f (map text l) | _ => True end.
(** variables that get a letter *)
Definition lettered (g : nat -> pnode) (name : nat -> option string) (v : nat) : Prop := (is_rv (g v) \/ is_named (g v)) /\ unnamed name v.
(** the letters that are not names of variables of the graph *)
Definition free_letter (name : nat -> option string) (variables : list nat) (n : string) : Prop := In n letters /\ ~ taken name variables n.
(** no character of [s] is [c] *)
Definition lacks (c : ascii) (s : string) : Prop := forall i, String.get i s <> Some c.
(** the sets of the integers, the natural numbers and the reals *)
Definition meant_set (k : kind) : string := match k with KInt => "Z" | KUint => "N" | KFloat => "R" | KOther => "?" end.
(** the line that is meant: the variable, its distribution, its space *)
Definition meant_dims (latex : bool) (name : string) (dims : list (option nat)) : list string :=
  map (fun '(i, d) => match d with Some n => dec n | None => if latex then "N^{" ++ name ++ "}_{" ++ dec i ++ "}" else "N^" ++ name ++ "_" ++ dec i end)
    (combine (seq 0 (List.length dims)) dims).
Definition meant (latex : bool) (name op : string) (params : list string) (k : kind) (dims : list (option nat)) : string :=
  if latex
  then name ++ " \sim " ++ op ++ "\left(" ++ concat ", " params ++ "\right)\,  \in \mathbb{" ++ meant_set k ++ "}" ++
       (match dims with [] => "" | _ => "^{" ++ concat " \times " (meant_dims latex name dims) ++ "}" end)
  else name ++ " ~ " ++ op ++ "(" ++ concat ", " params ++ ") in " ++ meant_set k ++
       (match dims with [] => "" | _ => "**(" ++ concat " x " (meant_dims latex name dims) ++ ")" end).
