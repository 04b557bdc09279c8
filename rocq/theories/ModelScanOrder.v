(** The rewrites of the body of a scan one node at a time, in any order: the
    equilibrium run of /repo/aeppl/scan.py 512-514 over the rewrites of
    ModelScanOpts.  A state says which nodes are measurable. *)
From Coq Require Import List Arith Bool.
From Verif Require Import XR ModelJoint ModelGraph ModelScanBody ModelScanOpts.
Import ListNotations.
Open Scope nat_scope.

Section Order.
Variable kind : nat -> rkind.
Variable discrete : nat -> bool.
Variable g : heap.
(** the rewrite of an Op with operands [l] succeeds in state [st]:
    transforms.py:532-580, censoring.py:47-53 and 205-215, tensor.py:96-102 *)
Definition succeeds (st : nat -> bool) (f : nat) (l : list nat) : bool :=
  match kind f with
  | KNone => false
  | KElem =>
      match filter st l with
      | [x] => negb (is_int kind discrete g (length g) x) && forallb (fun b => st b || negb (touches g st (length g) b)) l
      | _ => false
      end
  | KFirst fl => match l with a :: _ => st a && negb (fl && is_int kind discrete g (length g) a) | [] => false end
  | KAll => negb (match l with [] => true | _ => false end) && forallb st l
  end.
Inductive convert : (nat -> bool) -> (nat -> bool) -> Prop :=
| cv_node st v f l : st v = false -> nth_error g v = Some (mk (ODet f) l) -> succeeds st f l = true -> convert st (fun w => (w =? v) || st w).
Inductive conversions : (nat -> bool) -> (nat -> bool) -> Prop :=
| cs_none st : conversions st st
| cs_more a b c : convert a b -> conversions b c -> conversions a c.
Definition finished (st : nat -> bool) : Prop := forall st', ~ convert st st'.
End Order.
