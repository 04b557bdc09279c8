(** What a graph means and what the steps before the undoing may do, for
    [ModelUndo]. *)
From Coq Require Import List Arith.
From Verif Require Import ModelJoint ModelUndo.
Import ListNotations.
Open Scope nat_scope.

(** [w] is computed from in order to compute [v]; a ValuedVariable may be met,
    but is not looked into *)
Inductive below (h : uheap) : nat -> nat -> Prop :=
| b_arg v a : node_op h v <> UVal -> In a (node_args h v) -> below h v a
| b_step v a w : node_op h v <> UVal -> In a (node_args h v) -> below h a w -> below h v w.

(** a variable of the graph with the given outputs *)
Inductive reach (h : uheap) (outs : list nat) : nat -> Prop :=
| r_out v : In v outs -> v < length h -> reach h outs v
| r_arg v a : reach h outs v -> In a (node_args h v) -> a < length h -> reach h outs a.

Section Meaning.
Context {A : Type}.
(** values of the variables without owner; what the operations compute from
    the values of their inputs, [None] if they raise.  Draws are operations:
    a random variable's generator is one of its inputs. *)
Variable env : nat -> A.
Variable sem : uop -> list A -> option A.

(** the value of a variable when the graph is evaluated: a ValuedVariable is
    its value, a TransformedVariable its first input *)
Inductive umeans (h : uheap) : nat -> A -> Prop :=
| um_in v : nth_error h v = Some (mku UIn []) -> umeans h v (env v)
| um_val v r x a : nth_error h v = Some (mku UVal [r; x]) -> umeans h x a -> umeans h v a
| um_transd v x y a : nth_error h v = Some (mku UTransd [x; y]) -> umeans h x a -> umeans h v a
| um_op v o l xs a : nth_error h v = Some (mku o l) -> o <> UIn -> o <> UVal -> o <> UTransd ->
    Forall2 (umeans h) l xs -> sem o xs = Some a -> umeans h v a.

(** A graph as it stands after the requested variables have been replaced by
    their values (rewriting.py:240-271): its outputs are the ValuedVariables;
    the copy of the requested variable in a ValuedVariable and the copy of its
    value are used by nothing else. *)
Record prepared (s : ustate) : Prop := {
  p_bound : forall v a, In a (node_args (u_heap s) v) -> a < length (u_heap s);
  p_acyclic : exists rank : nat -> nat, forall v a, In a (node_args (u_heap s) v) -> rank a < rank v;
  p_in : forall v, node_op (u_heap s) v = UIn -> node_args (u_heap s) v = [];
  p_plain : forall v, node_op (u_heap s) v <> UTransd /\ forall tr, node_op (u_heap s) v <> UBack tr;
  p_val : forall v, node_op (u_heap s) v = UVal -> In v (u_outs s) /\
          exists r x, node_args (u_heap s) v = [r; x] /\ node_op (u_heap s) r <> UIn /\ node_op (u_heap s) r <> UVal /\
                      node_op (u_heap s) x = UIn /\ In x (map fst (u_vals s)) /\
                      forall u, In r (node_args (u_heap s) u) \/ In x (node_args (u_heap s) u) -> u = v;
  p_outs : forall o, In o (u_outs s) -> node_op (u_heap s) o = UVal;
  p_conv : u_conv s = [];
  p_keys : NoDup (map fst (u_vals s));
  p_vals : forall x b, In (x, b) (u_vals s) ->
           x < length (u_heap s) /\ b < length (u_heap s) /\ node_op (u_heap s) x = UIn /\ node_op (u_heap s) b = UIn /\
           env x = env b /\ ~ In b (map fst (u_vals s)) /\ forall u, ~ In b (node_args (u_heap s) u) }.

(** A measurable rewrite of the variable [c_old] in the state [s]: the new node
    is computed from copies of measurable variables that [c_old] is computed
    from and from such variables themselves. *)
Record valid_conversion (s : ustate) (c : conversion) : Prop := {
  v_live : In (c_old c) (u_live s);
  v_fun : exists k, node_op (u_heap s) (c_old c) = UFun k;
  v_once : ~ In (c_old c) (map fst (u_conv s));
  v_copies : forall w o, In (w, o) (c_copies c) ->
             below (u_heap s) (c_old c) w /\ (exists k, node_op (u_heap s) w = UMeas k) /\ exists k, o = UMeas k;
  v_args : forall a, In a (c_args c) ->
           length (u_heap s) <= a < length (u_heap s) + length (c_copies c) \/
           below (u_heap s) (c_old c) a }.
Inductive valid_conversions : ustate -> list conversion -> Prop :=
| vc_nil s : valid_conversions s []
| vc_cons s c cs : valid_conversion s c -> valid_conversions (convert s c) cs -> valid_conversions s (c :: cs).

(** A transform of a requested random variable that was not rewritten, at the
    state [s]; [s0] is the state before all rewrites.  The new value variable
    is the next node; its value is one whose back-transform is the value of the
    random variable. *)
Definition valid_transform (s0 s : ustate) (p : nat * (nat * nat)) : Prop :=
  let '(v, (tr, k)) := p in
  exists r x xs, v < length (u_heap s0) /\ In v (u_outs s) /\
    node_op (u_heap s0) v = UVal /\ node_args (u_heap s0) v = [r; x] /\ node_args (u_heap s) v = [r; x] /\
    Forall2 (umeans (u_heap s0)) (node_args (u_heap s0) r) xs /\
    sem (UBack tr) (env (length (u_heap s)) :: xs) = Some (env x).
Inductive valid_transforms (s0 : ustate) : ustate -> list (nat * (nat * nat)) -> Prop :=
| vt_nil s : valid_transforms s0 s []
| vt_cons s p ps : valid_transform s0 s p -> valid_transforms s0 (utransform s p) ps -> valid_transforms s0 s (p :: ps).

(** The recorded rewrites may be taken back in their order: for each, either
    the new node computes the old variable's value, or no other recorded
    variable is computed from the old one. *)
Definition revertible (s0 s1 : ustate) : Prop := forall r n, In (r, n) (u_conv s1) ->
  (forall a, umeans (u_heap s1) r a <-> umeans (u_heap s1) n a) \/
  forall r' n', In (r', n') (u_conv s1) -> ~ below (u_heap s0) r' r.
End Meaning.
