(** The rewrites of the body of a scan before it is looked at:
    /repo/aeppl/scan.py 490-526 (add_opts_to_inner_graphs), which applies the
    measurable rewrites (rewriting.py:157-183) to the inner graph, and 316-361
    (find_measurable_scans) on its result.  add_opts_to_inner_graphs is
    registered first (scan.py:537-552) and Aesara tries the rewrites of a node in
    that order.  The inner graph has no ValuedVariables, so every random
    variable of the body counts as measurable and without a value.
    Simplifications: one output per node; canonicalization, the lifts of
    subtensors and transpositions, cumulative sums and mixtures are not included;
    bounds of a clip that are the clipped variable (censoring.py:57-58) are
    visited with it. *)
From Coq Require Import List Arith Bool.
From Verif Require Import XR ModelJoint ModelGraph ModelScanBody.
Import ListNotations.
Open Scope nat_scope.

(** which rewrite looks at an Op: transforms.py:386-504 (exp, log, add, mul,
    reciprocal, sub, true_divide), censoring.py:36-72 (clip), 155-215 (ceil,
    floor, round; [fl]: only floats), tensor.py:77-116 (MakeVector, Join), or none *)
Inductive rkind := KNone | KElem | KFirst (fl : bool) | KAll.

Section Opts.
Variable kind : nat -> rkind.
Variable discrete : nat -> bool.
Variable g : heap.

(** the dtype starts with "int": a discrete distribution, a clip of integers
    or a stack of integers only (MakeVector and Join take the common dtype) *)
Fixpoint is_int (fuel v : nat) : bool :=
  match fuel with
  | 0 => false
  | S fuel =>
      match nth_error g v with
      | Some {| nop := ORv _ d |} => discrete d
      | Some {| nop := ODet f; nargs := l |} =>
          match kind f, l with
          | KFirst _, a :: _ => is_int fuel a
          | KAll, _ => forallb (is_int fuel) l
          | _, _ => false
          end
      | _ => false
      end
  end.
(** transforms.py:557-578: some measurable variable is reached from [a] *)
Fixpoint touches (m : nat -> bool) (fuel a : nat) : bool :=
  m a || match fuel with
         | 0 => false
         | S fuel => match nth_error g a with Some nd => existsb (touches m fuel) (nargs nd) | None => false end
         end.
(** is the node measurable after the run?  A RandomVariable, or a node that was
    converted because of its operands: transforms.py:532-580 (exactly one
    measurable input, no integers, nothing measurable behind the others),
    censoring.py:47-53 and 205-215, tensor.py:96-102 *)
Fixpoint measurable (fuel v : nat) : bool :=
  match fuel with
  | 0 => false
  | S fuel =>
      match nth_error g v with
      | Some {| nop := ORv _ _ |} => true
      | Some {| nop := ODet f; nargs := l |} =>
          match kind f with
          | KNone => false
          | KElem =>
              match filter (measurable fuel) l with
              | [x] => negb (is_int (length g) x) && forallb (fun b => measurable fuel b || negb (touches (measurable fuel) (length g) b)) l
              | _ => false
              end
          | KFirst fl => match l with a :: _ => measurable fuel a && negb (fl && is_int (length g) a) | [] => false end
          | KAll => negb (match l with [] => true | _ => false end) && forallb (measurable fuel) l
          end
      | _ => false
      end
  end.
Definition m (v : nat) : bool := measurable (length g) v.
Definition converted (v : nat) : bool := m v && negb (is_rv g v).
(** The inputs of node [v] in the rewritten graph.  A converted node reads copies
    of its measurable operands that are not the operands themselves
    (abstract.py:73-118, assign_custom_measurable_outputs; [true]): all of them, for
    a clip or rounding the first.  The copies have the inputs of the originals. *)
Definition new_inputs (v : nat) : list (nat * bool) :=
  match nth_error g v with
  | Some nd =>
      if converted v then
        match nop nd, nargs nd with
        | ODet f, a :: l => match kind f with KFirst _ => (a, true) :: map (fun b => (b, false)) l | _ => map (fun b => (b, m b)) (a :: l) end
        | _, l => map (fun b => (b, m b)) l
        end
      else map (fun b => (b, false)) (nargs nd)
  | None => []
  end.
(** scan.py:328-351: every measurable node from which an output is computed is an
    output; copies still are instances of MeasurableVariable (abstract.py:110-112)
    and never outputs *)
Fixpoint only_outputs (outs : list nat) (fuel : nat) (p : nat * bool) : bool :=
  (negb (m (fst p)) || (negb (snd p) && mem (fst p) outs)) &&
  match fuel with 0 => true | S fuel => forallb (only_outputs outs fuel) (new_inputs (fst p)) end.
Definition scan_accepted (outs : list nat) : bool := forallb (fun o => only_outputs outs (length g) (o, false)) outs.
End Opts.
