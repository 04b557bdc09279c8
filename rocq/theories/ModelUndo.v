(** The last steps of construct_ir_fgraph: measurable forms given to variables
    without values are taken back (/repo/aeppl/rewriting.py 51-85, 240-296;
    abstract.py 68-127; transforms.py 141-240, 507-597; mixture.py 186-345).

    A graph is a heap of nodes with one output each; a variable is the index of
    the node that owns it.  Unlike [ModelGraph], nodes that have dropped out of
    the FunctionGraph keep the inputs they had at that moment, and can be
    imported again later. *)
From Coq Require Import List Arith Bool.
From Verif Require Import ModelJoint.
Import ListNotations.
Open Scope nat_scope.

Inductive uop :=
| UIn               (* no owner: inputs, constants, value variables *)
| UVal              (* ValuedVariable: [rv; value] (abstract.py:130-171) *)
| UFun (k : nat)    (* an Op that is not a MeasurableVariable *)
| UMeas (k : nat)   (* an Op that is a MeasurableVariable (RandomVariable, MixtureRV, MeasurableElemwiseTransform, ...) *)
| UBack (tr : nat)  (* the graph of [transform.backward(value, *inputs)] *)
| UTransd.          (* TransformedVariable: [backward value; value] (transforms.py:66-99) *)
Record unode := mku { uopr : uop; uargs : list nat }.
Definition uheap := list unode.
Definition node_op (h : uheap) (v : nat) : uop := match nth_error h v with Some nd => uopr nd | None => UIn end.
Definition node_args (h : uheap) (v : nat) : list nat := match nth_error h v with Some nd => uargs nd | None => [] end.
Definition is_val (o : uop) : bool := match o with UVal => true | _ => false end.

(** FunctionGraph.variables: what the outputs depend on.  A node without
    clients is pruned at once (FunctionGraph.remove_client), so these are
    exactly the variables reachable from the outputs; computed here by adding
    the inputs of what has been found as often as there are nodes. *)
Definition fresh_in (h : uheap) (seen l : list nat) : list nat :=
  nodup Nat.eq_dec (filter (fun a => (a <? length h) && negb (mem a seen)) l).
Fixpoint grow (fuel : nat) (h : uheap) (seen : list nat) : list nat :=
  match fuel with
  | 0 => seen
  | S fuel => grow fuel h (seen ++ fresh_in h seen (flat_map (node_args h) seen))
  end.
Definition live (h : uheap) (outs : list nat) : list nat := grow (length h) h (fresh_in h [] outs).

(** heap, outputs, measurable_conversions, value_clone_to_value *)
Record ustate := { u_heap : uheap; u_outs : list nat; u_conv : list (nat * nat); u_vals : list (nat * nat) }.
Definition u_live (s : ustate) : list nat := live (u_heap s) (u_outs s).

Definition usub (a b v : nat) : nat := if v =? a then b else v.
(** the inputs of the nodes in the graph only; [i] is the index of the first node *)
Fixpoint sub_live (l : list nat) (a b i : nat) (h : uheap) : uheap :=
  match h with
  | [] => []
  | nd :: h => (if mem i l then mku (uopr nd) (map (usub a b) (uargs nd)) else nd) :: sub_live l a b (S i) h
  end.
(** fgraph.clients[a], without the outputs.  Simplification: in the order of
    the nodes, not in the order in which they became clients; the order matters
    only for a variable that is an input of a ValuedVariable and of another
    node as well. *)
Definition clients (h : uheap) (l : list nat) (a : nat) : list nat :=
  filter (fun v => mem v l && mem a (node_args h v)) (seq 0 (length h)).
Definition valued_in (h : uheap) (l : list nat) : bool := existsb (fun v => is_val (node_op h v)) l.
(** rewriting.py:72-85 (on_change_input), over the clients of [a] in turn: when
    it is called for a client, that client and the ones before it are clients
    of [b] already, so the first call decides *)
Definition tracked (h : uheap) (l : list nat) (a b : nat) : bool :=
  match node_op h a, node_op h b with
  | UFun _, UMeas _ => negb (valued_in h (clients h l b)) && negb (valued_in h (firstn 1 (clients h l a)))
  | _, _ => false
  end.
(** FunctionGraph.replace (with import_missing): nothing happens if [a] is not
    in the graph *)
Definition ureplace (a b : nat) (s : ustate) : ustate :=
  let l := u_live s in
  if mem a l then
    {| u_heap := sub_live l a b 0 (u_heap s); u_outs := map (usub a b) (u_outs s);
       u_conv := if tracked (u_heap s) l a b then dset (u_conv s) a b else u_conv s; u_vals := u_vals s |}
  else s.

(** A measurable rewrite: [c_old] is replaced by a new node with a measurable
    Op, after copies of some nodes have been made, with ops of their own
    (assign_custom_measurable_outputs, abstract.py:68-127).  The new node's
    inputs are copies or variables of the graph.  (transforms.py:579-597,
    mixture.py:266-302 and 311-345, tensor.py:98-118, cumsum.py:70-77,
    censoring.py:60-70) *)
Record conversion := { c_copies : list (nat * uop); c_kind : nat; c_args : list nat; c_old : nat }.
Definition copy_nodes (h : uheap) (l : list (nat * uop)) : uheap := map (fun p => mku (snd p) (node_args h (fst p))) l.
Definition with_heap (s : ustate) (h : uheap) : ustate :=
  {| u_heap := h; u_outs := u_outs s; u_conv := u_conv s; u_vals := u_vals s |}.
(** the index of the new node *)
Definition c_new (s : ustate) (c : conversion) : nat := length (u_heap s) + length (c_copies c).
Definition convert (s : ustate) (c : conversion) : ustate :=
  ureplace (c_old c) (c_new s c)
    (with_heap s (u_heap s ++ copy_nodes (u_heap s) (c_copies c) ++ [mku (UMeas (c_kind c)) (c_args c)])).

(** transforms.py:141-240 at the node owning [fst p], transform [snd p]; [k] is
    the TransformedRV op.  The mapping returned at line 240 is applied in its
    order: the value first, then the ValuedVariable. *)
Definition utransform (s : ustate) (p : nat * (nat * nat)) : ustate :=
  let '(v, (tr, k)) := p in
  match node_op (u_heap s) v, node_args (u_heap s) v with
  | UVal, [r; x] =>
      let b := length (u_heap s) in    (* trans_value_var *)
      let ps := node_args (u_heap s) r in
      let s := with_heap s (u_heap s ++ [mku UIn []; mku (UMeas k) ps; mku (UBack tr) (b :: ps);
                                         mku UTransd [b + 2; b]; mku UVal [b + 1; b + 3]]) in
      let s := ureplace v (b + 4) (ureplace x (b + 3) s) in
      {| u_heap := u_heap s; u_outs := u_outs s; u_conv := u_conv s; u_vals := dset (u_vals s) x b |}
  | _, _ => s
  end.

(** rewriting.py:283-291 *)
Definition new_to_old (s : ustate) : list (nat * nat) := map (fun p => (snd p, fst p)) (u_conv s) ++ u_vals s.
Definition undo (s : ustate) : ustate := fold_left (fun s p => ureplace (fst p) (snd p) s) (new_to_old s) s.

(** rewriting.py:279-291: the measurable rewrites, the transforms, the undoing.
    Simplification: the rewrites are given as a list; which ones apply is the
    subject of other models.  Canonicalization is not modelled. *)
Definition finish (s : ustate) (cs : list conversion) (ts : list (nat * (nat * nat))) : ustate :=
  undo (fold_left utransform ts (fold_left convert cs s)).
