(** C48-C50: pretty printing. *)
From Coq Require Import Lia List Arith Bool String.
From Verif Require Import XR ModelVec ModelPrint SpecPrint LemPrint.
Import ListNotations.
Open Scope nat_scope.
Open Scope list_scope.
Open Scope string_scope.

(** ** C48.  The variables of a print-out get unambiguous names; those with a
    name of their own have to be variables of the printed graph. *)
Theorem C48_unambiguous (name : nat -> option string) (variables vs : list nat) (names : list string) :
  (forall v, In v vs -> ~ unnamed name v -> In v variables) -> process_all name variables vs initial = Val names ->
  unambiguous name variables vs names.
Proof. exact (names_unambiguous name variables vs names). Qed.
Print Assumptions C48_unambiguous.
(** printing succeeds as long as there are enough letters that are nobody's name *)
Theorem C48_enough (name : nat -> option string) (variables vs : list nat) (free : list string) :
  (forall v, In v vs -> ~ unnamed name v -> In v variables) -> NoDup free -> (forall x, In x free -> In x letters /\ ~ taken name variables x) ->
  (forall ds, NoDup ds -> (forall v, In v ds -> In v vs /\ unnamed name v) -> List.length ds <= List.length free) ->
  exists names, process_all name variables vs initial = Val names.
Proof. exact (names_exist name variables vs free). Qed.
Print Assumptions C48_enough.
(** variables 0 and 3 named "b" and "x", 1 and 2 unnamed *)
Definition some_names (v : nat) : option string := match v with 0 => Some "b" | 2 => Some "" | 3 => Some "x" | _ => None end.
Example C48_case : process_all some_names [0; 1; 2; 3] [1; 0; 2; 1; 3] initial = Val ["a"; "b"; "c"; "a"; "x"] /\
  (forall v, In v [1; 0; 2; 1; 3] -> ~ unnamed some_names v -> In v [0; 1; 2; 3]).
Proof. split; [vm_compute; reflexivity|]. cbn. intuition. Qed.

(** ** C49 *)
Theorem C49_kept (W : nat) (v : list string) : 0 < W -> List.concat (preamble_lines W v) = v /\ filled W (preamble_lines W v).
Proof. exact (preamble_spec W v). Qed.
Print Assumptions C49_kept.
Example C49_case : preamble_lines 8 ["x in R"; "y in R"; "a very long entry"; "z"] = [["x in R"; "y in R"]; ["a very long entry"]; ["z"]].
Proof. vm_compute. reflexivity. Qed.

(** ** C50.  The full claim is false (refutations below): a Subtensor is printed
    with its inputs reversed, an AdvancedSubtensor with the last half of its
    indices, reversed. *)
Theorem C50_reversed_partial (idxs : list entry) (inputs : list string) :
  match print_entries idxs inputs with Val r => Some r | Raise => None end = source_order idxs (rev inputs).
Proof. exact (print_reversed idxs inputs). Qed.
Print Assumptions C50_reversed_partial.
Theorem C50_exactly_partial (idxs : list entry) (inputs : list string) : List.length inputs = needed idxs ->
  match print_entries idxs inputs with Val r => Some r | Raise => None end = source_order idxs inputs <-> rev inputs = inputs.
Proof. exact (print_exact idxs inputs). Qed.
Print Assumptions C50_exactly_partial.
Theorem C50_advanced_partial (inputs : list string) :
  print_advanced inputs = Val (map SIdx (firstn ((List.length inputs + 1) / 2) (rev inputs))).
Proof. exact (advanced_spec inputs). Qed.
Print Assumptions C50_advanced_partial.
Theorem C50_advanced_exactly_partial (inputs : list string) : print_advanced inputs = Val (map SIdx inputs) <-> List.length inputs <= 1.
Proof. exact (advanced_exact inputs). Qed.
Print Assumptions C50_advanced_exactly_partial.
(** x[i, j:k] is printed as x[k, j:i] *)
Theorem C50_order_refuted : exists idxs inputs r, List.length inputs = needed idxs /\ print_entries idxs inputs = Val r /\ source_order idxs inputs <> Some r.
Proof.
  exists [EIdx; ESlice true true false], ["i"; "j"; "k"], [SIdx "k"; SSlice (Some "j") (Some "i") None].
  split; [easy|]. split; [vm_compute; reflexivity|]. vm_compute. discriminate.
Qed.
Print Assumptions C50_order_refuted.
(** x[i, j] with index arrays is printed as x[j] *)
Theorem C50_lost_refuted : exists inputs r, print_advanced inputs = Val r /\ List.length r < List.length inputs.
Proof. exists ["i"; "j"], [SIdx "j"]. split; [vm_compute; reflexivity|cbn; lia]. Qed.
Print Assumptions C50_lost_refuted.
Example C50_case : List.length ["i"] = needed [ESlice false true false] /\ print_entries [ESlice false true false] ["i"] = Val [SSlice None (Some "i") None].
Proof. split; [easy|vm_compute; reflexivity]. Qed.
