(** C05, C06 (categorical) and C52 (multinomial, Dirichlet). *)
From Coq Require Import Reals Lra Lia ZArith List Bool.
From Verif Require Import XR Special SpecDist ModelDist ModelVec SpecVec LemVec.
Import ListNotations.
Open Scope R_scope.

(** The weights need not be normalised. *)
Theorem C06_categorical : forall (w : list R) (k : nat), weights w -> (k < length w)%nat ->
  denotes (categorical_logprob (map Fin w) (Z.of_nat k)) (categorical_pmf w k).
Proof. exact categorical_mass. Qed.
Print Assumptions C06_categorical.
Example C06_categorical_ex : denotes (categorical_logprob (map Fin [1; 0; 3]) 2) (categorical_pmf [1; 0; 3] 2) /\
  categorical_logprob (map Fin [1; 0; 3]) (-2) = Val NInf.
Proof.
  assert (W : weights [1; 0; 3]) by (split; [repeat constructor; lra|cbn; lra]).
  split; [apply (C06_categorical [1; 0; 3] 2 W); cbn; lia|apply categorical_neg; [exact W|cbn; lia]].
Qed.

Theorem C06_categorical_neg_partial : forall (w : list R) (z : Z), weights w -> (- Z.of_nat (length w) <= z < 0)%Z ->
  categorical_logprob (map Fin w) z = Val NInf.
Proof. exact categorical_neg. Qed.
Print Assumptions C06_categorical_neg_partial.

(** Values from the number of categories on, and values below minus that number,
    have mass zero, but the code fails on them instead of giving -inf. *)
Theorem C06_categorical_range_refuted : exists (w : list R) (z : Z), weights w /\ (Z.of_nat (length w) <= z)%Z /\
  categorical_logprob (map Fin w) z = Raise.
Proof.
  exists [1; 1], 2%Z. split; [split; [repeat constructor; lra|cbn; lra]|]. split; [cbn; lia|].
  apply categorical_raise. right. cbn. lia.
Qed.
Print Assumptions C06_categorical_range_refuted.
Theorem C06_categorical_raises : forall (p : list xr) (z : Z), (z < - Z.of_nat (length p) \/ Z.of_nat (length p) <= z)%Z ->
  categorical_logprob p z = Raise.
Proof. exact categorical_raise. Qed.
Print Assumptions C06_categorical_raises.
Example C06_categorical_raises_ex : categorical_logprob (map Fin [1; 1]) (-3) = Raise.
Proof. apply C06_categorical_raises. cbn. lia. Qed.

Theorem C05_categorical : forall w : list R, weights w -> exists f : nat -> R,
  (forall k, (k < length w)%nat -> denotes (categorical_logprob (map Fin w) (Z.of_nat k)) (f k)) /\
  rtotal (map f (seq 0 (length w))) = 1.
Proof. exact categorical_one. Qed.
Print Assumptions C05_categorical.
Example C05_categorical_ex : exists f : nat -> R,
  (forall k, (k < 3)%nat -> denotes (categorical_logprob (map Fin [1; 0; 3]) (Z.of_nat k)) (f k)) /\ rtotal (map f (seq 0 3)) = 1.
Proof. apply (C05_categorical [1; 0; 3]). split; [repeat constructor; lra|cbn; lra]. Qed.

(** ** Multinomial *)
Theorem C52_multinomial : forall (n : nat) (p : list R) (k : list nat), prob_vector p -> length k = length p ->
  denotes (multinomial_logprob (Fin (INR n)) (map Fin p) (map (fun j => Fin (INR j)) k)) (multinomial_pmf n p k).
Proof. exact multinomial_mass. Qed.
Print Assumptions C52_multinomial.
(** three categories, one of them of probability zero *)
Example C52_multinomial_ex :
  denotes (multinomial_logprob (Fin (INR 3)) (map Fin [1/4; 0; 3/4]) (map (fun j => Fin (INR j)) [1; 0; 2]%nat)) (27/64) /\
  denotes (multinomial_logprob (Fin (INR 3)) (map Fin [1/4; 0; 3/4]) (map (fun j => Fin (INR j)) [1; 1; 1]%nat)) 0 /\
  denotes (multinomial_logprob (Fin (INR 3)) (map Fin [1/4; 0; 3/4]) (map (fun j => Fin (INR j)) [1; 0; 1]%nat)) 0.
Proof.
  assert (P : prob_vector [1/4; 0; 3/4]) by (split; [repeat constructor; lra|cbn; lra]).
  split; [|split].
  - replace (27/64) with (multinomial_pmf 3 [1/4; 0; 3/4] [1; 0; 2]%nat) by (unfold multinomial_pmf; cbn; field).
    now apply (C52_multinomial 3 [1/4; 0; 3/4] [1; 0; 2]%nat).
  - assert (E : multinomial_pmf 3 [1/4; 0; 3/4] [1; 1; 1]%nat = 0) by (unfold multinomial_pmf; cbn; field).
    pose proof (C52_multinomial 3 [1/4; 0; 3/4] [1; 1; 1]%nat P eq_refl) as D. rewrite E in D. exact D.
  - now apply (C52_multinomial 3 [1/4; 0; 3/4] [1; 0; 1]%nat).
Qed.

Theorem C52_multinomial_neg : forall (n : nat) (p v : list R), prob_vector p -> (exists x, In x v /\ x < 0) ->
  multinomial_logprob (Fin (INR n)) (map Fin p) (map Fin v) = Val NInf.
Proof. exact multinomial_neg. Qed.
Print Assumptions C52_multinomial_neg.
Example C52_multinomial_neg_ex : multinomial_logprob (Fin (INR 2)) (map Fin [1/4; 3/4]) (map Fin [-1; 3]) = Val NInf.
Proof. apply C52_multinomial_neg; [split; [repeat constructor; lra|cbn; lra]|]. exists (-1). split; [now left|lra]. Qed.

(** The masses of all count vectors total one. *)
Theorem C52_multinomial_total : forall (n : nat) (p : list R) (l : list (list nat)), prob_vector p -> count_vectors (length p) n l ->
  exists f, (forall k, In k l -> denotes (multinomial_logprob (Fin (INR n)) (map Fin p) (map (fun j => Fin (INR j)) k)) (f k)) /\
    rtotal (map f l) = 1.
Proof. exact multinomial_one. Qed.
Print Assumptions C52_multinomial_total.
(** such a list exists for every number of categories and trials *)
Example C52_multinomial_total_ex : (forall m n, exists l, count_vectors m n l) /\ prob_vector [1/4; 0; 3/4].
Proof. split; [exact count_vectors_ex|split; [repeat constructor; lra|cbn; lra]]. Qed.

(** Vectors with fractions have mass zero, but get a finite log-probability. *)
Theorem C52_multinomial_fraction_refuted : exists (p v : list R), prob_vector p /\ rtotal v = 1 /\ length v = length p /\
  (exists x, In x v /\ forall z, x <> IZR z) /\ exists r, multinomial_logprob (Fin 1) (map Fin p) (map Fin v) = Val (Fin r).
Proof. exact multinomial_fraction. Qed.
Print Assumptions C52_multinomial_fraction_refuted.

(** ** Dirichlet *)
(** The textbook density at positive vectors.  That the density is zero off the
    plane "total one" is missing: [C52_dirichlet_sum_refuted]. *)
Theorem C52_dirichlet_partial : forall alpha x : list R, alpha <> [] -> length x = length alpha ->
  List.Forall (fun a => 0 < a) alpha -> List.Forall (fun v => 0 < v <= 1) x ->
  denotes (dirichlet_logprob (map Fin alpha) (map Fin x)) (dirichlet_pdf alpha x).
Proof. exact dirichlet_density. Qed.
Print Assumptions C52_dirichlet_partial.
Example C52_dirichlet_partial_ex :
  denotes (dirichlet_logprob (map Fin [2; 3; 1/2]) (map Fin [1/2; 1/3; 1/6])) (dirichlet_pdf [2; 3; 1/2] [1/2; 1/3; 1/6]).
Proof. apply C52_dirichlet_partial; [discriminate|reflexivity|repeat constructor; lra|repeat constructor; lra]. Qed.

Theorem C52_dirichlet_outside : forall alpha x : list R, List.Forall (fun a => 0 < a) alpha -> (exists v, In v x /\ (v < 0 \/ 1 < v)) ->
  dirichlet_logprob (map Fin alpha) (map Fin x) = Val NInf.
Proof. exact dirichlet_outside. Qed.
Print Assumptions C52_dirichlet_outside.
Example C52_dirichlet_outside_ex : dirichlet_logprob (map Fin [2; 3]) (map Fin [3/2; -1/2]) = Val NInf.
Proof. apply C52_dirichlet_outside; [repeat constructor; lra|]. exists (3/2). split; [now left|lra]. Qed.

Theorem C52_dirichlet_raises : forall (alpha : list R) (x : list xr), (exists a, In a alpha /\ a <= 0) ->
  dirichlet_logprob (map Fin alpha) x = Raise.
Proof. exact dirichlet_raises. Qed.
Print Assumptions C52_dirichlet_raises.
Example C52_dirichlet_raises_ex : dirichlet_logprob (map Fin [2; 0]) (map Fin [1/2; 1/2]) = Raise.
Proof. apply C52_dirichlet_raises. exists 0. split; [right; now left|lra]. Qed.

(** a vector that does not total one gets a finite log-density *)
Theorem C52_dirichlet_sum_refuted : exists alpha x : list R, length x = length alpha /\ List.Forall (fun a => 0 < a) alpha /\ List.Forall (fun v => 0 < v <= 1) x /\
  rtotal x <> 1 /\ exists r, dirichlet_logprob (map Fin alpha) (map Fin x) = Val (Fin r).
Proof. exact dirichlet_no_sum. Qed.
Print Assumptions C52_dirichlet_sum_refuted.
