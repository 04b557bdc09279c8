(** Indexed random variables in the body of a scan: the subtensor lift among
    the rewrites of the inner graph, /repo/aeppl/scan.py 490-526 with
    rewriting.py:179.  Aesara's local_subtensor_rv_lift is not in /repo; by its
    contract X[idx] becomes a RandomVariable of X's family whose parameters are
    X's, indexed alike.  Simplifications: the indexing of the parameters is part
    of the new variable, whose arguments are X's parameters and the indices;
    shapes and the check that X is not used elsewhere are left out, so that X
    keeps its other uses; transpositions are not lifted. *)
From Coq Require Import List Arith Bool.
From Verif Require Import XR ModelJoint ModelGraph ModelScanBody ModelScanOpts.
Import ListNotations.
Open Scope nat_scope.

Section Lift.
(** the Subtensor Ops: first argument the array, then the indices *)
Variable takes : nat -> bool.
Variable g : heap.
(** the RandomVariable that node [v] is or is replaced by *)
Fixpoint drawn (fuel v : nat) : option node :=
  match fuel with
  | 0 => None
  | S fuel =>
      match nth_error g v with
      | Some {| nop := ORv r d; nargs := ps |} => Some (mk (ORv r d) ps)
      | Some {| nop := ODet f; nargs := a :: idx |} =>
          if takes f then match drawn fuel a with Some {| nop := o; nargs := ps |} => Some (mk o (ps ++ idx)) | None => None end else None
      | _ => None
      end
  end.
Definition lift : heap := map (fun p => match drawn (length g) (fst p) with Some nd => nd | None => snd p end) (combine (seq 0 (length g)) g).
End Lift.
(** scan.py:490-526, then 316-361 *)
Definition scan_accepted_lifted (takes : nat -> bool) (kind : nat -> rkind) (discrete : nat -> bool) (g : heap) (outs : list nat) : bool :=
  scan_accepted kind discrete (lift takes g) outs.
