(** The distributions of /repo/aeppl/logprob.py with scalar parameters, as the
    interpretation of the bodies of scans of ModelScanBody
    (/repo/aeppl/scan.py 218-226 and 276-284: conditional_logprob of the inner graph). *)
From Coq Require Import Reals List.
From Verif Require Import XR ModelVec ModelGraph SpecGraph ModelLaw.
Import ListNotations.
Open Scope R_scope.

(** [D dist params] is the law of an op, logprob.py:127-545 its log-probability;
    [det] gives the functions of the deterministic nodes.  The inputs and draws
    are supplied per step ([with_inputs]); scan bodies have no transforms. *)
Definition scan_sem (D : nat -> list R -> law) (det : nat -> list R -> R) : sem R (res xr) :=
  {| s_in := fun _ => 0; s_draw := fun _ _ _ => 0; s_det := det; s_back := fun _ _ _ => 0;
     s_ld := fun dist ps x => law_logprob (D dist ps) (Fin x);
     s_lj := fun _ _ _ => Raise;
     s_add := fun a b => bind a (fun x => bind b (fun y => Val (xadd x y))) |}.
