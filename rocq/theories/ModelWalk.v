(** Graph walks of /repo/aeppl/utils.py (105-141) and the guards of the
    elementwise rewrites (transforms.py 386-597) and of the normal-sum rewrite
    (convolutions.py 8-48). *)
From Coq Require Import List Arith Bool.
From Verif Require Import ModelJoint.
Import ListNotations.
Open Scope nat_scope.

(** The owner of a variable, as far as the walks look at it: is its op
    registered as MeasurableVariable, is it a ValuedVariable (itself
    registered as measurable, abstract.py:171), is it a NormalRV; its inputs. *)
Record owner := { o_meas : bool; o_valued : bool; o_normal : bool; o_args : list nat }.
(** Variables are the positions; [None] is a variable without owner, and so is
    every variable outside the list.  Outputs of one node are separate entries. *)
Definition vgraph := list (option owner).
Definition owner_of (g : vgraph) (v : nat) : option owner :=
  match nth_error g v with Some o => o | None => None end.
Definition args_of (g : vgraph) (v : nat) : list nat :=
  match owner_of g v with Some o => o_args o | None => [] end.

(** aesara.graph.basic.walk(nodes, expand, bfs=False) by its code: a stack
    from which the last element is popped, a set of seen variables, [expand]
    called once per yielded variable.  The head of [stack] is the end of the
    deque.  [expand] may have a state (replace_rvs_in_graphs).  The fuel
    bounds the number of pops. *)
Fixpoint walk {St} (fuel : nat) (expand : St -> nat -> list nat * St) (s : St) (stack seen : list nat) : list nat * St :=
  match fuel with
  | 0 => ([], s)
  | S fuel =>
      match stack with
      | [] => ([], s)
      | v :: stack =>
          if mem v seen then walk fuel expand s stack seen
          else let (new, s) := expand s v in
               let (out, s) := walk fuel expand s (rev new ++ stack) (v :: seen) in (v :: out, s)
      end
  end.
(** enough fuel when [expand] returns at most [bound v] variables *)
Definition walk_fuel (n : nat) (bound : nat -> nat) (roots : list nat) : nat :=
  length roots + list_sum (map bound (seq 0 n)).

(** utils.py:127-139 [expand] of walk_model *)
Definition expands (g : vgraph) (walk_past_rvs : bool) (stop_at_vars : list nat) (v : nat) : list nat :=
  match owner_of g v with
  | Some o => if (walk_past_rvs || negb (o_meas o)) && negb (mem v stop_at_vars) then rev (o_args o) else []
  | None => []
  end.
(** utils.py:105-141 for an [expand_fn] without side effects *)
Definition walk_model (g : vgraph) (graphs : list nat) (walk_past_rvs : bool) (stop_at_vars : list nat)
    (expand_fn : nat -> list nat) : list nat :=
  fst (walk (walk_fuel (length g) (fun v => length (expand_fn v) + length (args_of g v)) graphs)
         (fun (_ : unit) v => (expand_fn v ++ expands g walk_past_rvs stop_at_vars v, tt)) tt (rev graphs) []).

(** ** construct_elemwise_transform *)
(** transforms.py:533-540 and 572-576: measurable and not a ValuedVariable *)
Definition is_source (g : vgraph) (v : nat) : bool :=
  match owner_of g v with Some o => o_meas o && negb (o_valued o) | None => false end.
(** transforms.py:557-567 *)
Definition elem_expand (g : vgraph) (v : nat) : list nat :=
  match owner_of g v with
  | Some o => if negb (o_meas o) && negb (o_valued o) then rev (o_args o) else []
  | None => []
  end.
(** transforms.py:507-581, the decision: the measurable input and the other
    inputs, or [None].  [int_dtype v]: the dtype of [v] starts with "int". *)
Definition construct_elemwise (g : vgraph) (int_dtype : nat -> bool) (inputs : list nat) : option (nat * list nat) :=
  match filter (is_source g) inputs with
  | [m] =>
      if int_dtype m then None
      else
        let others := filter (fun v => negb (v =? m)) inputs in
        if existsb (is_source g)
             (fst (walk (walk_fuel (length g) (fun v => length (args_of g v)) others)
                    (fun (_ : unit) v => (elem_expand g v, tt)) tt (rev others) []))
        then None else Some (m, others)
  | _ => None
  end.
(** transforms.py:409-433 [measurable_sub]: the node [mul(-1, subtrahend)] is
    made (its variable is the next one, the constant -1 the one after), turned
    into a measurable variable if possible, and added.  The clone of the
    subtrahend made by assign_custom_measurable_outputs is not distinguished
    from the subtrahend. *)
Definition measurable_sub (g : vgraph) (int_dtype : nat -> bool) (minuend subtrahend : nat) : option (nat * list nat) :=
  let c := length g in
  let made := match construct_elemwise g int_dtype [S c; subtrahend] with
              | Some (m, others) => {| o_meas := true; o_valued := false; o_normal := false; o_args := m :: others |}
              | None => {| o_meas := false; o_valued := false; o_normal := false; o_args := [S c; subtrahend] |}
              end in
  construct_elemwise (g ++ [Some made]) (fun v => (v <? c) && int_dtype v) [minuend; c].
(** transforms.py:386-406 [measurable_true_divide], likewise with [reciprocal(denominator)] *)
Definition measurable_true_divide (g : vgraph) (int_dtype : nat -> bool) (numerator denominator : nat) : option (nat * list nat) :=
  let c := length g in
  let made := match construct_elemwise g int_dtype [denominator] with
              | Some (m, others) => {| o_meas := true; o_valued := false; o_normal := false; o_args := m :: others |}
              | None => {| o_meas := false; o_valued := false; o_normal := false; o_args := [denominator] |}
              end in
  construct_elemwise (g ++ [Some made]) (fun v => (v <? c) && int_dtype v) [numerator; c].

(** ** add_independent_normals *)
(** convolutions.py:12-24, the decision *)
Definition add_normals_applies (g : vgraph) (inputs : list nat) : bool :=
  (2 <=? length inputs) &&
  forallb (fun v => match owner_of g v with Some o => o_normal o | None => false end) inputs.
