(** Specifications for C48-C50. *)
From Coq Require Import List Arith Bool String.
From Verif Require Import XR ModelVec ModelPrint.
Import ListNotations.
Open Scope nat_scope.
Open Scope list_scope.

(** ** C48 *)
(** variables without a user-given name *)
Definition unnamed (name : nat -> option string) (v : nat) : Prop := name v = None \/ name v = Some EmptyString.
(** names given by the user to variables of the graph *)
Definition taken (name : nat -> option string) (variables : list nat) (n : string) : Prop := exists u, In u variables /\ name u = Some n.
(** the names printed for the variables [vs] *)
Definition unambiguous (name : nat -> option string) (variables vs : list nat) (names : list string) : Prop :=
  List.length names = List.length vs /\
  (forall i j v w n, nth_error vs i = Some v -> nth_error vs j = Some w -> nth_error names i = Some n -> nth_error names j = Some n ->
     unnamed name v -> v = w) /\
  (forall i j v n m, nth_error vs i = Some v -> nth_error vs j = Some v -> nth_error names i = Some n -> nth_error names j = Some m -> n = m) /\
  (forall i v n, nth_error vs i = Some v -> nth_error names i = Some n -> unnamed name v -> ~ taken name variables n) /\
  (forall i v n, nth_error vs i = Some v -> nth_error names i = Some n -> ~ unnamed name v -> name v = Some n).

(** ** C49 *)
Definition width (line : list string) : nat := list_sum (map String.length line).
(** lines filled up to the width: a line is ended by the first entry that makes
    it reach [W] *)
Definition filled (W : nat) (lines : list (list string)) : Prop :=
  (forall line, In line lines -> line <> [] /\ width (removelast line) < W) /\
  (forall a b line, lines = a ++ line :: b -> b <> [] -> W <= width line).

(** ** C50 *)
(** the entries in source order: inputs are taken from the front *)
Definition take_if {A} (b : bool) (l : list A) : option (option A * list A) :=
  if b then match l with x :: l => Some (Some x, l) | [] => None end else Some (None, l).
Fixpoint source_order (idxs : list entry) (inputs : list string) : option (list sidx) :=
  match idxs with
  | [] => Some []
  | EIdx :: idxs => match inputs with x :: inputs => option_map (cons (SIdx x)) (source_order idxs inputs) | [] => None end
  | ESlice b e t :: idxs =>
      match take_if b inputs with
      | Some (b, inputs) => match take_if e inputs with
        | Some (e, inputs) => match take_if t inputs with
          | Some (t, inputs) => option_map (cons (SSlice b e t)) (source_order idxs inputs)
          | None => None end
        | None => None end
      | None => None end
  end.
Definition entry_inputs (e : entry) : nat :=
  match e with EIdx => 1 | ESlice b e t => Nat.b2n b + Nat.b2n e + Nat.b2n t end.
Definition needed (idxs : list entry) : nat := list_sum (map entry_inputs idxs).
