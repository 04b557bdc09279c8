(** Replacement of random variables in graphs: /repo/aeppl/utils.py 144-227. *)
From Coq Require Import List Arith Bool.
From Verif Require Import ModelJoint ModelWalk.
Import ListNotations.
Open Scope nat_scope.

(** A graph is a heap of single-output nodes; a variable is the position of its
    node.  [NIn]: a variable without owner.  [NOp f m]: any op [f], [m] when it
    is registered as MeasurableVariable. *)
Inductive rop := NIn | NOp (f : nat) (measurable : bool).
Record rnode := rn { r_op : rop; r_args : list nat }.
Definition rheap := list rnode.
Definition r_is_in (o : rop) : bool := match o with NIn => true | _ => false end.

(** the walk's view of a heap (none of these ops is a ValuedVariable) *)
Definition view (h : rheap) : vgraph :=
  map (fun nd => match r_op nd with
                 | NIn => None
                 | NOp _ m => Some {| o_meas := m; o_valued := false; o_normal := false; o_args := r_args nd |}
                 end) h.

(** utils.py:218-225 [replace_fn] inside 171-175 [expand_replace]: the
    dictionary is written with the value it already has *)
Definition expand_replace (h : rheap) (replacements : list (nat * nat)) (v : nat) : list nat * list (nat * nat) :=
  match owner_of (view h) v with
  | Some o => if o_meas o then
                match dget replacements v with Some r => ([r], dset replacements v r) | None => ([], replacements) end
              else ([], replacements)
  | None => ([], replacements)
  end.
(** utils.py:177-178, the walk (its yielded variables are not used) with
    [walk_past_rvs] and [stop_at_vars] from the keyword arguments *)
Definition walk_replace (h : rheap) (graphs : list nat) (past : bool) (stop : list nat) (initial : list (nat * nat)) : list (nat * nat) :=
  snd (walk (walk_fuel (length h) (fun v => 1 + length (args_of (view h) v)) graphs)
         (fun d v => let (new, d) := expand_replace h d v in (new ++ expands (view h) past stop v, d)) initial (rev graphs) []).

(** utils.py:181-183: clone_get_equiv with [memo = {k: k}]: nodes are copied,
    variables without owner are shared and so are the replaced variables, whose
    nodes (and therefore their own inputs) are the original ones.
    Simplification: nodes no output depends on are copied too. *)
Definition equiv (h : rheap) (keys : list nat) (v : nat) : nat :=
  match nth_error h v with
  | Some nd => if r_is_in (r_op nd) || mem v keys then v else v + length h
  | None => v
  end.
Definition clone (h : rheap) (keys : list nat) : rheap :=
  h ++ map (fun nd => rn (r_op nd) (map (equiv h keys) (r_args nd))) h.

(** the variables of FunctionGraph([...], outs, clone=False): everything the
    outputs depend on *)
Definition members (h : rheap) (outs : list nat) : list nat :=
  fst (walk (walk_fuel (length h) (fun v => length (args_of (view h) v)) outs)
        (fun (_ : unit) v => (args_of (view h) v, tt)) tt outs []).
(** FunctionGraph.replace(a, r, import_missing=True): nothing when [a] is not
    in the graph; otherwise the clients of [a] in the graph get [r], in place.
    Nodes that are not in the graph are left alone. *)
Definition subst1 (a r v : nat) : nat := if v =? a then r else v.
Definition fg_replace (s : rheap * list nat) (p : nat * nat) : rheap * list nat :=
  let (h, outs) := s in
  let ms := members h outs in
  if mem (fst p) ms then
    (map (fun iv => if mem (fst iv) ms then rn (r_op (snd iv)) (map (subst1 (fst p) (snd p)) (r_args (snd iv))) else snd iv)
         (combine (seq 0 (length h)) h),
     map (subst1 (fst p) (snd p)) outs)
  else s.
(** utils.py:200-227 with 144-197: the heap after the call, the new graphs and
    the replacements *)
Definition rvs_to_value_vars (h : rheap) (graphs : list nat) (past : bool) (stop : list nat) (initial : list (nat * nat))
  : rheap * list nat * list (nat * nat) :=
  let replacements := walk_replace h graphs past stop initial in
  match replacements with
  | [] => (h, graphs, [])
  | _ => (fold_left fg_replace replacements (clone h (map fst replacements), map (equiv h (map fst replacements)) graphs), replacements)
  end.
