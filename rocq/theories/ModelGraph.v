(** Model graphs and the passes of construct_ir_fgraph, transform_values and
    conditional_logprob over them (/repo/aeppl/rewriting.py, transforms.py,
    joint_logprob.py).

    A graph is a heap of nodes; a variable is the index of the node that owns
    it, so nodes have one output each (the outputs of multi-output nodes are
    treated in ModelJoint).  The generator, size and dtype inputs of a
    RandomVariable are folded into its op.  The measurable-IR rewriter
    (construct_ir_fgraph's [ir_rewriter]) is not part of this model: graphs
    are taken to be in measurable form already, so a requested variable
    without a RandomVariable owner has no density here. *)
From Coq Require Import List Arith Bool.
From Verif Require Import XR ModelVec ModelJoint.
Import ListNotations.
Open Scope nat_scope.

Inductive op :=
| OIn                        (* no owner: inputs, constants, value variables *)
| ORv (rng dist : nat)       (* a RandomVariable with generator input [rng]; arguments are its parameters *)
| ODet (f : nat)             (* any deterministic Op *)
| OVal                       (* ValuedVariable: [rv; value] (abstract.py:130-171) *)
| OTrv (tr rng dist : nat)   (* TransformedRV (transforms.py:803-898) *)
| OBack (tr : nat)           (* the graph of [transform.backward(value, *inputs)] *)
| OTransd.                   (* TransformedVariable: [backward value; value] (transforms.py:66-99) *)
Record node := mk { nop : op; nargs : list nat }.
Definition heap := list node.

Definition is_in (o : op) : bool := match o with OIn => true | _ => false end.

(** ** FunctionGraph.replace *)
Definition sub1 (a b v : nat) : nat := if v =? a then b else v.
(** every use of [a] as an input becomes [b] *)
Definition replace (a b : nat) (h : heap) : heap :=
  map (fun nd => mk (nop nd) (map (sub1 a b) (nargs nd))) h.
(** FunctionGraph.replace_all: one replacement after the other *)
Definition replace_all (l : list (nat * nat)) (h : heap) : heap :=
  fold_left (fun h p => replace (fst p) (snd p) h) l h.

(** ** construct_ir_fgraph *)
(** the variables made for one item of [rvs_to_values] *)
Record measured := { m_rv : nat; m_val : nat; m_clone : nat; m_vclone : nat; m_out : nat }.

(** rewriting.py:242-251: clone the node of each variable and its value, and
    pair the clones in a ValuedVariable; [rv.owner.clone()] fails for a
    variable without owner *)
Fixpoint measure (h : heap) (rvs : list (nat * nat)) : outcome (heap * list measured) :=
  match rvs with
  | [] => Ok (h, [])
  | (rv, val) :: rvs =>
      match nth_error h rv with
      | None => Err AttributeError
      | Some nd =>
          if is_in (nop nd) then Err AttributeError else
          let c := length h in
          match measure (h ++ [nd; mk OIn []; mk OVal [c; c + 1]]) rvs with
          | Err e => Err e
          | Ok (h', ms) => Ok (h', {| m_rv := rv; m_val := val; m_clone := c; m_vclone := c + 1; m_out := c + 2 |} :: ms)
          end
      end
  end.

(** rewriting.py:257-264: FunctionGraph(clone=True, copy_inputs=False,
    copy_orphans=False): nodes are copied, variables without owner are shared.
    Simplification: nodes that no output depends on are copied as well; they
    are not used by anything. *)
Definition memo (h : heap) (v : nat) : nat :=
  match nth_error h v with Some nd => if is_in (nop nd) then v else v + length h | None => v end.
Definition clone_all (h : heap) : heap := h ++ map (fun nd => mk (nop nd) (map (memo h) (nargs nd))) h.

(** rewriting.py:267-271: the copies of valued variables are replaced by the
    un-copied ValuedVariables, which are imported *)
Definition value_non_outputs (h1 : heap) (ms : list measured) : heap :=
  replace_all (map (fun m => (memo h1 (m_rv m), m_out m)) ms) (clone_all h1).

(** ** TransformValuesRewrite *)
(** transforms.py:303-312: transforms are looked up by the cloned value variable *)
Fixpoint values_to_transforms (ms : list measured) (trs : list (nat * nat)) : outcome (list (nat * nat)) :=
  match trs with
  | [] => Ok []
  | (rv, tr) :: trs =>
      match dget (map (fun m => (m_rv m, m_vclone m)) ms) rv with
      | None => Err KeyError
      | Some v => match values_to_transforms ms trs with Err e => Err e | Ok l => Ok ((v, tr) :: l) end
      end
  end.

(** heap, outputs and value_clone_to_value *)
Record gstate := { g_heap : heap; g_outs : list nat; g_vals : list (nat * nat) }.

(** transforms.py:141-240 at the node owning variable [v].  Simplification:
    only RandomVariables are transformed (a transform of another op has no
    log-probability). *)
Definition transform_values (T : list (nat * nat)) (s : gstate) (v : nat) : gstate :=
  match nth_error (g_heap s) v with
  | Some {| nop := OVal; nargs := [r; x] |} =>
      match dget T x, nth_error (g_heap s) r with
      | Some tr, Some {| nop := ORv rng dist; nargs := ps |} =>
          let b := length (g_heap s) in    (* trans_value_var *)
          let h := g_heap s ++ [mk OIn []; mk (OTrv tr rng dist) ps; mk (OBack tr) (b :: ps);
                                mk OTransd [b + 2; b]; mk OVal [b + 1; b + 3]] in
          {| g_heap := replace v (b + 4) (replace x (b + 3) h);
             g_outs := map (sub1 v (b + 4)) (g_outs s);
             g_vals := dset (g_vals s) x b |}
      | _, _ => s
      end
  | _ => s
  end.

(** the traversal of in2out: Aesara's io_toposort, a depth-first post-order
    over the outputs in turn (inputs left to right here; the order among the
    inputs of one node is not used by any theorem) *)
Fixpoint dfs (fuel : nat) (h : heap) (done : list nat) (v : nat) : list nat :=
  match fuel with
  | 0 => done
  | S fuel =>
      if mem v done then done
      else match nth_error h v with
           | None => done
           | Some nd => if is_in (nop nd) then done
                        else fold_left (dfs fuel h) (nargs nd) done ++ [v]
           end
  end.
Definition toposort (h : heap) (outs : list nat) : list nat :=
  fold_left (dfs (S (length h)) h) outs [].

(** transforms.py:314-315 *)
Definition apply_transforms (trav : heap -> list nat -> list nat) (T : list (nat * nat)) (s : gstate) : gstate :=
  fold_left (transform_values T) (trav (g_heap s) (g_outs s)) s.

(** rewriting.py:240-296.  The conversions undone at line 285 come from the
    measurable-IR rewriter and are not modelled. *)
Definition construct_ir_fgraph (trav : heap -> list nat -> list nat) (h : heap) (rvs : list (nat * nat)) (trs : list (nat * nat))
  : outcome gstate :=
  match measure h rvs with
  | Err e => Err e
  | Ok (h1, ms) =>
      match values_to_transforms ms trs with
      | Err e => Err e
      | Ok T =>
          let s := {| g_heap := value_non_outputs h1 ms; g_outs := map (fun m => memo h1 (m_out m)) ms;
                      g_vals := map (fun m => (m_vclone m, m_val m)) ms |} in
          let s := apply_transforms trav T s in
          Ok {| g_heap := replace_all (g_vals s) (g_heap s); g_outs := g_outs s; g_vals := g_vals s |}
      end
  end.

(** ** conditional_logprob *)
(** the log-probability graph of one variable: [_logprob(dist, value, *params)],
    plus [log_jac_det(trans_val, *params)] for a TransformedRV unless
    [use_jacobian=False] (transforms.py:860-880) *)
Record factor := { f_dist : nat; f_params : list nat; f_value : nat; f_trans : option (nat * nat) }.

(** [_logprob(rv_node.op, vals, *rv_node.inputs)]; [None] stands for the
    failure of the assertion at transforms.py:871 or of the unpacking of [values] *)
Definition node_logprob (use_jacobian : bool) (h : heap) (r : nat) (vals : list nat) : list (option factor) :=
  match nth_error h r with
  | Some {| nop := ORv rng dist; nargs := ps |} =>
      match vals with
      | [z] => [Some {| f_dist := dist; f_params := ps; f_value := z; f_trans := None |}]
      | _ => [None]
      end
  | Some {| nop := OTrv tr rng dist; nargs := ps |} =>
      match vals with
      | [z] => match nth_error h z with
               | Some {| nop := OTransd; nargs := [c; b] |} =>
                   [Some {| f_dist := dist; f_params := ps; f_value := c;
                             f_trans := if use_jacobian then Some (tr, b) else None |}]
               | _ => [None]
               end
      | _ => [None]
      end
  | _ => []
  end.
(** get_measurable_outputs: RandomVariables only (see above) *)
Definition node_measurable (h : heap) (r : nat) : list nat :=
  match nth_error h r with
  | Some {| nop := ORv _ _ |} => [r]
  | Some {| nop := OTrv _ _ _ |} => [r]
  | _ => []
  end.

(** joint_logprob.py:152-160: what the loop sees; [None] for an output that is
    not a ValuedVariable (the assertion at line 154) *)
Definition binding_of (h : heap) (old out val : nat) : option binding :=
  match nth_error h out with
  | Some {| nop := OVal; nargs := [r; z] |} =>
      Some {| b_old := old;
              b_node := match nth_error h r with Some nd => if is_in (nop nd) then None else Some r | None => None end;
              b_var := r; b_valvar := z; b_val := val |}
  | _ => None
  end.
Fixpoint bindings_of (h : heap) (olds outs vals : list nat) : option (list binding) :=
  match olds, outs, vals with
  | o :: olds, u :: outs, v :: vals =>
      match binding_of h o u v, bindings_of h olds outs vals with Some b, Some bs => Some (b :: bs) | _, _ => None end
  | _, _, _ => Some []
  end.

Fixpoint all_some {A B} (l : list (A * option B)) : option (list (A * B)) :=
  match l with
  | [] => Some []
  | (a, Some b) :: l => match all_some l with Some m => Some ((a, b) :: m) | None => None end
  | (a, None) :: l => None
  end.

(** ir_cleanup_db (rewriting.py:299-311, transforms.py:102-110): ValuedVariables
    are replaced by their second input, then TransformedVariables by their first *)
Definition skip_valued (h : heap) (v : nat) : nat :=
  match nth_error h v with Some {| nop := OVal; nargs := [r; x] |} => x | _ => v end.
Definition skip_transd (h : heap) (v : nat) : nat :=
  match nth_error h v with Some {| nop := OTransd; nargs := [c; b] |} => c | _ => v end.
Definition rewire (f : nat -> nat) (h : heap) : heap := map (fun nd => mk (nop nd) (map f (nargs nd))) h.
Definition refactor (f : nat -> nat) (x : factor) : factor :=
  {| f_dist := f_dist x; f_params := map f (f_params x); f_value := f (f_value x);
     f_trans := option_map (fun p => (fst p, f (snd p))) (f_trans x) |}.
Definition cleanup (h : heap) (fs : list (nat * factor)) : heap * list (nat * factor) :=
  let f := skip_valued h in
  let h1 := rewire f h in
  let fs1 := map (fun p => (fst p, refactor f (snd p))) fs in
  let g := skip_transd h1 in
  (rewire g h1, map (fun p => (fst p, refactor g (snd p))) fs1).

(** joint_logprob.py:21-219; [realized] maps variables to variables of the
    graph, [trs] is the argument of TransformValuesRewrite *)
Definition conditional_logprob (trav : heap -> list nat -> list nat) (use_jacobian : bool) (g : heap)
    (requested : list nat) (realized trs : list (nat * nat)) : outcome (heap * list (nat * factor) * list nat) :=
  let h0 := g ++ repeat (mk OIn []) (length requested) in
  let rvs := rv_values requested (seq (length g) (length requested)) realized in
  match construct_ir_fgraph trav h0 rvs trs with
  | Err e => Err e
  | Ok s =>
      match bindings_of (g_heap s) (map fst rvs) (g_outs s) (map snd (g_vals s)) with
      | None => Err AssertionError
      | Some bs =>
          match assign (node_measurable (g_heap s)) (node_logprob use_jacobian (g_heap s)) (map fst realized) bs with
          | Err e => Err e
          | Ok (out, vv) =>
              match all_some out with
              | None => Err AssertionError
              | Some fs => let (h, fs) := cleanup (g_heap s) fs in Ok (h, fs, vv)
              end
          end
      end
  end.
