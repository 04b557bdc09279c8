(** Property C42: sums and differences of independent normal variables. *)
From Coq Require Import Reals Lra Lia List.
From Coquelicot Require Import Coquelicot.
From Verif Require Import XR SpecDist ModelDist ModelVec ModelIdx ModelTen ModelConv SpecConv LemConv.
Import ListNotations.
Open Scope R_scope.

(** mean and variance of an element of the new variable *)
Theorem C42_parameters : forall b l w i ps, add_independent_normals b l = Val w -> in_range w i -> (b = true -> length l = 2%nat) -> l <> [] ->
  Forall2 (fun v p => has_params v i p) l ps ->
  exists m s, mu_at w i = Fin m /\ sigma_at w i = Fin s /\ 0 < s /\ s ^ 2 = rsum (map (fun p => snd p ^ 2) ps) /\
    m = (if b then match map fst ps with [x; y] => x - y | _ => 0 end else rsum (map fst ps)).
Proof. exact params_formula. Qed.
Print Assumptions C42_parameters.
(** the log-probability of an element of the new variable is the log of the
    convolution of the densities of the terms *)
Theorem C42_sum : forall l w i ps, add_independent_normals false l = Val w -> in_range w i -> l <> [] -> Forall2 (fun v p => has_params v i p) l ps ->
  exists h, sum_law (map (fun p => normal_pdf (fst p) (snd p)) ps) h /\ forall x, denotes (normal_logprob (mu_at w i) (sigma_at w i) (Fin x)) (h x).
Proof. exact add_law. Qed.
Print Assumptions C42_sum.
Theorem C42_difference : forall u v w i p q, add_independent_normals true [u; v] = Val w -> in_range w i -> has_params u i p -> has_params v i q ->
  exists h, difference_law (normal_pdf (fst p) (snd p)) (normal_pdf (fst q) (snd q)) h /\
    forall x, denotes (normal_logprob (mu_at w i) (sigma_at w i) (Fin x)) (h x).
Proof. exact sub_law. Qed.
Print Assumptions C42_difference.
(** the new variable has the shape of the sum exactly when no size or the right
    size results from the sizes of the terms *)
Theorem C42_shape_partial : forall b l w shs s, add_independent_normals b l = Val w -> Forall2 (fun v sh => rv_shape v = Val sh) l shs -> bcast_all shs = Val s ->
  (rv_shape w = Val s <-> bcast_all (map n_size l) = Val [] \/ bcast_all (map n_size l) = Val s).
Proof. exact new_shape. Qed.
Print Assumptions C42_shape_partial.

(** three terms of shapes (2,), (1,) and () : element 1 *)
Definition vec (l : list R) : nd xr := {| nshp := [length l]; nelt := fun i => Fin (nth (hd 0%nat i) l 0) |}.
Definition scal (x : R) : nd xr := {| nshp := []; nelt := fun _ => Fin x |}.
Definition three : list nrv :=
  [{| n_size := []; n_mu := vec [1; 2]; n_sigma := scal 2 |}; {| n_size := []; n_mu := vec [5]; n_sigma := vec [3] |};
   {| n_size := []; n_mu := scal (-4); n_sigma := scal 6 |}].
Example C42_case : exists w, add_independent_normals false three = Val w /\ in_range w [1%nat] /\
  Forall2 (fun v p => has_params v [1%nat] p) three [(2, 2); (5, 3); (-4, 6)] /\
  mu_at w [1%nat] = Fin 3 /\ sigma_at w [1%nat] = Fin 7 /\ rv_shape w = Val [2%nat] /\
  exists h, sum_law [normal_pdf 2 2; normal_pdf 5 3; normal_pdf (-4) 6] h /\ denotes (normal_logprob (Fin 3) (Fin 7) (Fin 1)) (h 1).
Proof.
  eexists. split; [reflexivity|]. set (w := Build_nrv _ _ _). assert (R : in_range w [1%nat]) by (split; cbn; lia). split; [exact R|].
  assert (F : Forall2 (fun v p => has_params v [1%nat] p) three [(2, 2); (5, 3); (-4, 6)]) by (repeat constructor; cbn; lra). split; [exact F|].
  assert (M : mu_at w [1%nat] = Fin 3) by (cbn; f_equal; lra).
  assert (S : sigma_at w [1%nat] = Fin 7).
  { destruct (new_sigma false three w [1%nat] _ eq_refl R ltac:(discriminate) F) as (E & _). rewrite E. f_equal. cbn [map rsum fold_right snd].
    replace (2 ^ 2 + (3 ^ 2 + (6 ^ 2 + 0))) with (7 * 7) by ring. apply sqrt_square. lra. }
  split; [exact M|]. split; [exact S|]. split; [reflexivity|].
  destruct (C42_sum three w [1%nat] _ eq_refl R ltac:(discriminate) F) as (h & L & D). exists h. split; [exact L|]. rewrite M, S in D. apply D.
Qed.

(** a term that is broadcast is one variable in the sum, but the elements of
    the new variable are independent: for X of shape (2,) and Y of shape (1,)
    the density of (X0 + Y, X1 + Y) is not the product of the elements' *)
Theorem C42_broadcast_refuted : exists l w, add_independent_normals false l = Val w /\ map rv_shape l = [Val [2%nat]; Val [1%nat]] /\ rv_shape w = Val [2%nat] /\
  (forall v i, In v l -> mu_at v i = Fin 0 /\ sigma_at v i = Fin 1) /\
  forall p0 p1, denotes (normal_logprob (mu_at w [0%nat]) (sigma_at w [0%nat]) (Fin 0)) p0 -> denotes (normal_logprob (mu_at w [1%nat]) (sigma_at w [1%nat]) (Fin 0)) p1 ->
    ~ shared_term_density (normal_pdf 0 1) (normal_pdf 0 1) (normal_pdf 0 1) 0 0 (p0 * p1).
Proof. exact broadcast_refuted. Qed.
Print Assumptions C42_broadcast_refuted.
(** parameters of shape (2, 3) without size plus size (3,): no valid shape *)
Theorem C42_shape_refuted : exists l w s, add_independent_normals false l = Val w /\ map rv_shape l = [Val [2%nat; 3%nat]; Val [3%nat]] /\
  bcast_all [[2%nat; 3%nat]; [3%nat]] = Val s /\ rv_shape w = Raise.
Proof. exact shape_refuted. Qed.
Print Assumptions C42_shape_refuted.
