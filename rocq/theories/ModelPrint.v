(** Pretty printing: /repo/aeppl/printing.py. *)
From Coq Require Import List Arith Bool String Ascii.
From Verif Require Import XR ModelVec.
Import ListNotations.
Open Scope nat_scope.
Open Scope list_scope.

(** ** Names (printing.py:250-352) *)
(** [string.ascii_letters] (printing.py:262) *)
Definition letters : list string := map (fun n => String (ascii_of_nat n) EmptyString) (seq 97 26 ++ seq 65 26).
(** Variables are numbers, [name v] is the user's name ([""] and None count as
    no name, printing.py:342).  The printer state holds the memo and, once
    initialised, the names that are left. *)
Record pstate := { memo : list (nat * string); available : option (list string) }.
Definition lookup (v : nat) (m : list (nat * string)) : option string := option_map snd (find (fun p => fst p =? v) m).
(** [available_names.pop(n, None)] *)
Definition pop (n : string) (l : list string) : list string := filter (fun x => negb (String.eqb x n)) l.
Definition user_name (name : nat -> option string) (v : nat) : option string :=
  match name v with Some EmptyString => None | o => o end.
(** printing.py:319-352 process_variable_name; [variables] are the variables of
    the FunctionGraph (334-340).  Running out of names is [popitem]'s KeyError. *)
Definition process_variable_name (name : nat -> option string) (variables : list nat) (v : nat) (s : pstate) : res (string * pstate) :=
  match lookup v (memo s) with
  | Some n => Val (n, s)
  | None =>
      let avail := match available s with
                   | Some a => a
                   | None => fold_left (fun a u => match name u with Some n => pop n a | None => a end) variables letters
                   end in
      match user_name name v with
      | Some n => Val (n, {| memo := (v, n) :: memo s; available := Some (pop n avail) |})
      | None =>
          match avail with
          | n :: rest => Val (n, {| memo := (v, n) :: memo s; available := Some rest |})
          | [] => Raise
          end
      end
  end.
(** the variables of a print-out, in the order in which they are met *)
Fixpoint process_all (name : nat -> option string) (variables vs : list nat) (s : pstate) : res (list string) :=
  match vs with
  | [] => Val []
  | v :: vs =>
      bind (process_variable_name name variables v s) (fun ns =>
      bind (process_all name variables vs (snd ns)) (fun l => Val (fst ns :: l)))
  end.
Definition initial : pstate := {| memo := []; available := None |}.

(** ** Preamble lines (printing.py:555-576) *)
(** [l.append] at a position *)
Fixpoint append_at {A} (i : nat) (x : A) (l : list (list A)) : list (list A) :=
  match l, i with
  | [], _ => []
  | z :: l, 0 => (z ++ [x]) :: l
  | z :: l, S i => z :: append_at i x l
  end.
Fixpoint break_loop (W : nat) (v : list string) (v_new : list (list string)) (c_len l_idx : nat) : list (list string) :=
  match v with
  | [] => v_new
  | l :: v =>
      let '(c_len, v_new) := if List.length v_new <=? l_idx then (W * l_idx, v_new ++ [[l]]) else (c_len, append_at l_idx l v_new) in
      let c_len := c_len + String.length l in
      let l_idx := l_idx + (if l_idx <? c_len / W then 1 else 0) in
      break_loop W v v_new c_len l_idx
  end.
Definition preamble_lines (W : nat) (v : list string) : list (list string) := break_loop W v [] 0 0.

(** ** Indices (printing.py:202-247) *)
(** entries of [idx_list]: an index or a slice, with which of start, stop and
    step are given *)
Inductive entry := EIdx | ESlice (start stop step : bool).
(** printed entries, before they are joined *)
Inductive sidx := SIdx (s : string) | SSlice (start stop step : option string).
(** [inputs.pop()] *)
Definition pop_last {A} (l : list A) : res (A * list A) :=
  match rev l with x :: r => Val (x, rev r) | [] => Raise end.
Definition pop_if {A} (b : bool) (l : list A) : res (option A * list A) :=
  if b then bind (pop_last l) (fun xl => Val (Some (fst xl), snd xl)) else Val (None, l).
(** printing.py:217-231, the loop; [inputs] are the printed inputs (without the
    object) *)
Fixpoint print_entries (idxs : list entry) (inputs : list string) : res (list sidx) :=
  match idxs with
  | [] => Val []
  | EIdx :: idxs =>
      bind (pop_last inputs) (fun xl =>
      bind (print_entries idxs (snd xl)) (fun r => Val (SIdx (fst xl) :: r)))
  | ESlice b e t :: idxs =>
      bind (pop_if b inputs) (fun b =>
      bind (pop_if e (snd b)) (fun e =>
      bind (pop_if t (snd e)) (fun t =>
      bind (print_entries idxs (snd t)) (fun r => Val (SSlice (fst b) (fst e) (fst t) :: r)))))
  end.
(** Without [idx_list] (AdvancedSubtensor and AdvancedSubtensor1) the loop runs
    over [inputs] itself (printing.py:211) while [inputs.pop()] shortens it:
    the [i]th iteration happens if [i] is still below the length. *)
Fixpoint print_inputs (fuel i : nat) (inputs : list string) : res (list sidx) :=
  match fuel with
  | 0 => Val []
  | S fuel =>
      if i <? List.length inputs
      then bind (pop_last inputs) (fun xl =>
           bind (print_inputs fuel (S i) (snd xl)) (fun r => Val (SIdx (fst xl) :: r)))
      else Val []
  end.
Definition print_advanced (inputs : list string) : res (list sidx) := print_inputs (List.length inputs) 0 inputs.
