(** C83: the simplex transform of arrays and of batches of Dirichlet variables. *)
From Coq Require Import Reals Lra Lia List Arith ZArith Bool.
From Verif Require Import XR SpecDist ModelVec SpecVec RMx ModelTen SpecIdx ModelBatch SpecBatch LemIdx LemIdx2 LemElem LemBatch ModelSimplex SpecSimplex LemSimplex LemSimplex3 ModelSimplexB LemSimplexB.
Import ListNotations.
Open Scope R_scope.

(** Whatever the leading axes are, [backward] maps every vector along the last
    axis into the open simplex by one function, and [log_jac_det] has the leading
    axes and holds the log-determinant of the Jacobian matrix of this function
    at each vector. *)
Theorem C83_transform : exists (f : list R -> list R) (J : list R -> nat -> nat -> R),
  (forall v, in_simplex (length v) (f v) /\ is_jacobian (length v) f v (J v) /\ rdet (length v) (J v) <> 0) /\
  forall value b n v, batch Fin value b n v ->
    (exists r, simplex_backward_nd value = Val r /\ batch Fin r b (S n) (fun c => f (v c))) /\
    (exists l, simplex_log_jac_det_nd value = Val l /\ array_of Fin l b (fun c => ln (Rabs (rdet n (J (v c)))))).
Proof.
  exists soft, Js. split; [intros v; split; [apply soft_simplex|split; [apply soft_jacobian|apply simplex_det]]|].
  intros value b n v B. split; [now apply batch_backward|]. destruct (batch_jac value b n v B) as (l & E & S & H). exists l. split; [exact E|].
  split; [exact S|]. intros c Hc. rewrite (H c Hc). unfold ldet. destruct (proj2 B c Hc) as (L & _). now rewrite L.
Qed.
Print Assumptions C83_transform.
Theorem C83_forward_backward : forall value b n v, batch Fin value b n v ->
  exists x r, simplex_backward_nd value = Val x /\ simplex_forward_nd x = Val r /\ batch Fin r b n v.
Proof.
  intros value b n v B. destruct (batch_backward value b n v B) as (x & E & Bx).
  destruct (batch_forward x b n _ Bx) as (w & r & E' & Br & W).
  - intros c Hc. destruct (proj2 B c Hc) as (L & _). rewrite <- L. apply soft_simplex.
  - exists x, r. split; [exact E|]. split; [exact E'|]. apply batch_of_rows; [apply Br|]. intros c Hc.
    rewrite (batch_row Fin r b n w c Br Hc), <- (W c Hc), <- backward_soft. apply forward_backward.
Qed.
Print Assumptions C83_forward_backward.
Theorem C83_backward_forward : forall value b n x, batch Fin value b (S n) x -> (forall c, inside b c -> in_simplex n (x c)) ->
  exists w r, simplex_forward_nd value = Val w /\ simplex_backward_nd w = Val r /\ batch Fin r b (S n) x.
Proof.
  intros value b n x B X. destruct (batch_forward value b n x B X) as (w & u & E & Bu & W). destruct (batch_backward u b n w Bu) as (r & E' & Br).
  exists u, r. split; [exact E|]. split; [exact E'|]. apply batch_of_rows; [apply Br|]. intros c Hc.
  rewrite (batch_row Fin r b (S n) _ c Br Hc). cbn beta. rewrite <- backward_soft, <- (W c Hc). now apply (backward_forward n), X.
Qed.
Print Assumptions C83_backward_forward.
(** An array without axes has no vectors. *)
Theorem C83_no_axes : forall value : nd xr, nshp value = [] ->
  simplex_forward_nd value = Raise /\ simplex_backward_nd value = Raise /\ simplex_log_jac_det_nd value = Raise.
Proof. intros value E. unfold simplex_forward_nd, simplex_backward_nd, simplex_log_jac_det_nd, keepdims. cbn [elem1 nshp]. rewrite E. auto. Qed.
Print Assumptions C83_no_axes.

(** A batch of Dirichlet variables with the default transform: every position
    has the density of its own vector times the Jacobian determinant of the
    simplex transform there, with broadcasting between the concentrations and
    the values; without [use_jacobian] the determinant is missing. *)
Theorem C83_dirichlet : exists (f : list R -> list R) (J : list R -> nat -> nat -> R),
  (forall v, in_simplex (length v) (f v) /\ is_jacobian (length v) f v (J v)) /\
  forall use_jacobian alpha value ba bv n o (al v : list nat -> list R),
    batch Fin alpha ba (S n) al -> batch Fin value bv n v -> is_broadcast [ba; bv] o ->
    (forall c, inside ba c -> List.Forall (fun a => 0 < a) (al c)) ->
    exists r, dirichlet_transformed_nd use_jacobian alpha value = Val r /\ nshp r = o /\
      forall i ka kv, inside o i -> aligned ba i ka -> aligned bv i kv ->
        denotes (Val (nelt r i)) (dirichlet_pdf (al ka) (f (v kv)) * if use_jacobian then Rabs (rdet n (J (v kv))) else 1).
Proof. exists soft, Js. split; [intros v; split; [apply soft_simplex|apply soft_jacobian]|]. exact dirichlet_simplex. Qed.
Print Assumptions C83_dirichlet.

(** two values, one vector of concentrations *)
Definition exv (c : list nat) : list R := match c with [0%nat] => [1; -1] | _ => [0; 3] end.
Definition ex_value : nd xr := {| nshp := [2; 2]%nat; nelt := fun i => match i with [0; 0]%nat => Fin 1 | [0; _]%nat => Fin (-1) | [_; 0]%nat => Fin 0 | _ => Fin 3 end |}.
Definition ex_alpha : nd xr := {| nshp := [3]%nat; nelt := fun i => match i with [0]%nat => Fin (1/2) | [1]%nat => Fin 3 | _ => Fin 2 end |}.
Lemma ex_batch : batch Fin ex_value [2]%nat 2 exv.
Proof.
  split; [reflexivity|]. intros c Hc. inversion Hc as [|i d l m H T]; subst. inversion T; subst. destruct i as [|[|i]]; [| |lia];
    (split; [reflexivity|]; intros [|[|k]] Hk; [reflexivity|reflexivity|lia]).
Qed.
Example C83_dirichlet_ex : exists r, dirichlet_transformed_nd true ex_alpha ex_value = Val r /\ nshp r = [2]%nat /\ exists (y : R), 0 <= y /\ denotes (Val (nelt r [1]%nat)) y.
Proof.
  destruct C83_dirichlet as (f & J & _ & H).
  destruct (H true ex_alpha ex_value [] [2]%nat 2%nat [2]%nat (fun _ => [1/2; 3; 2]) exv) as (r & E & S & D).
  - split; [reflexivity|]. intros c Hc. inversion Hc; subst. split; [reflexivity|]. intros [|[|[|k]]] Hk; [reflexivity|reflexivity|reflexivity|lia].
  - exact ex_batch.
  - apply bcast_all_spec. reflexivity.
  - intros c _. repeat constructor; lra.
  - exists r. split; [exact E|]. split; [exact S|]. specialize (D [1]%nat [] [1]%nat). assert (I : inside [2]%nat [1]%nat) by (constructor; [lia|constructor]).
    eexists. split; [|apply D; [exact I|apply aligned_iff; cbn; auto|apply aligned_iff; cbn; auto]].
    specialize (D I). match type of D with _ -> _ -> denotes _ ?x => assert (DD : denotes (Val (nelt r [1%nat])) x) by (apply D; apply aligned_iff; cbn; auto) end.
    revert DD. cbn [denotes]. destruct (nelt r [1%nat]) as [y| | |]; intros DD; try easy; [rewrite <- DD; left; apply exp_pos|rewrite DD; lra].
Qed.
Example C83_transform_ex : exists x r, simplex_backward_nd ex_value = Val x /\ simplex_forward_nd x = Val r /\ nshp x = [2; 3]%nat /\ batch Fin r [2]%nat 2 exv.
Proof.
  destruct (C83_forward_backward ex_value [2]%nat 2 exv ex_batch) as (x & r & E & E' & B). exists x, r. split; [exact E|]. split; [exact E'|]. split; [|exact B].
  destruct C83_transform as (f & J & _ & H). destruct (H ex_value [2]%nat 2%nat exv ex_batch) as ((x' & Q & S) & _). assert (x' = x) as <- by congruence. apply S.
Qed.
