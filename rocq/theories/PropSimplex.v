(** C13: the simplex transform. *)
From Coq Require Import Reals Lra Lia ZArith List Bool.
From Verif Require Import XR ModelVec RMx SpecVec ModelSimplex SpecSimplex LemSimplex LemSimplex3.
Import ListNotations.
Open Scope R_scope.

(** [backward] is a function into the open simplex whose Jacobian matrix has
    the determinant [log_jac_det] says, at every vector of every dimension. *)
Theorem C13_simplex : exists f : list R -> list R,
  (forall v, simplex_backward (map Fin v) = map Fin (f v) /\ in_simplex (length v) (f v)) /\
  (forall v, exists J, is_jacobian (length v) f v J /\ rdet (length v) J <> 0 /\
     simplex_log_jac_det (map Fin v) = Fin (ln (Rabs (rdet (length v) J)))).
Proof.
  exists soft. split.
  - intros v. split; [apply backward_soft|apply soft_simplex].
  - intros v. exists (Js v). split; [apply soft_jacobian|apply simplex_det].
Qed.
Print Assumptions C13_simplex.

Theorem C13_forward_backward : forall v : list R, simplex_forward (simplex_backward (map Fin v)) = map Fin v.
Proof. exact forward_backward. Qed.
Print Assumptions C13_forward_backward.

Theorem C13_backward_forward : forall (n : nat) (x : list R), in_simplex n x -> simplex_backward (simplex_forward (map Fin x)) = map Fin x.
Proof. exact backward_forward. Qed.
Print Assumptions C13_backward_forward.
Example C13_backward_forward_ex : simplex_backward (simplex_forward (map Fin [1/2; 1/3; 1/6])) = map Fin [1/2; 1/3; 1/6].
Proof. apply (C13_backward_forward 2). split; [reflexivity|split; [repeat constructor; lra|cbn; lra]]. Qed.

(** [forward] lands in the right space: one coordinate fewer, all finite *)
Theorem C13_forward : forall (n : nat) (x : list R), in_simplex n x -> exists w, simplex_forward (map Fin x) = map Fin w /\ length w = n.
Proof.
  intros n x (L & P & _). eexists. split; [apply forward_fin; [intros ->; discriminate|exact P]|].
  rewrite map_length. destruct (exists_last (l := x)) as (w & a & ->); [intros ->; discriminate|]. rewrite removelast_last.
  rewrite app_length in L. cbn in L. lia.
Qed.
Print Assumptions C13_forward.
