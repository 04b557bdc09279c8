(** C79: arrays of univariate variables. *)
From Coq Require Import Reals Lra Lia List Arith.
From Verif Require Import XR Special SpecDist ModelDist ModelIdx SpecIdx ModelTen SpecVec SpecBatch ModelUniv SpecUniv LemUniv LemUniv2.
Import ListNotations.
Open Scope R_scope.

(** Every graph has the common shape of its parameters and its value, and each
    of its entries is the scalar function of the entries that broadcasting
    brings together there. *)
Theorem C79_values : forall u env s a, common u env s -> univ_nd u env = Val a ->
  nshp a = s /\ forall i x, inside s i -> entries u env i x -> scalar u x = Val (nelt a i).
Proof. exact univ_values. Qed.
Print Assumptions C79_values.
(** There are such entries at every position. *)
Theorem C79_entries : forall u env s i, common u env s -> inside s i -> exists x, entries u env i x.
Proof. exact entries_exist. Qed.
Print Assumptions C79_entries.
(** Arrays without empty axes: the graph raises when one element does, and only then. *)
Theorem C79_raises_partial : forall u env s, common u env s -> List.Forall (fun n => 0 < n)%nat s ->
  (univ_nd u env = Raise <-> exists i x, inside s i /\ entries u env i x /\ scalar u x = Raise).
Proof. exact univ_raises. Qed.
Print Assumptions C79_raises_partial.
(** Shapes that do not broadcast are refused. *)
Theorem C79_shapes : forall u env, (forall s, ~ common u env s) -> univ_nd u env = Raise.
Proof. exact univ_shapes. Qed.
Print Assumptions C79_shapes.
(** The sum of the log-probabilities denotes the product of the densities at all positions. *)
Theorem C79_joint_partial : forall u env s (d : list nat -> R) l, common u env s -> List.Forall (fun n => 0 < n)%nat s -> lists s l ->
  (forall i x, inside s i -> entries u env i x -> denotes (scalar u x) (d i)) ->
  exists a, univ_nd u env = Val a /\ denotes (Val (nd_total a)) (rprod (map d l)).
Proof. exact univ_joint. Qed.
Print Assumptions C79_joint_partial.
(** For normal variables: the product of the normal densities. *)
Theorem C79_normal_partial : forall env s (mu sigma x : list nat -> R) l, common UNormal env s -> List.Forall (fun n => 0 < n)%nat s -> lists s l ->
  array_of Fin (env 0%nat) (nshp (env 0%nat)) mu -> array_of Fin (env 1%nat) (nshp (env 1%nat)) sigma -> array_of Fin (env 2%nat) (nshp (env 2%nat)) x ->
  (forall c, inside (nshp (env 1%nat)) c -> 0 < sigma c) ->
  exists a d, univ_nd UNormal env = Val a /\ denotes (Val (nd_total a)) (rprod (map d l)) /\
    forall i km ks kx, inside s i -> aligned (nshp (env 0%nat)) i km -> aligned (nshp (env 1%nat)) i ks -> aligned (nshp (env 2%nat)) i kx ->
      d i = normal_pdf (mu km) (sigma ks) (x kx).
Proof. exact normal_arrays. Qed.
Print Assumptions C79_normal_partial.
(** A row of means, a column of standard deviations and a table of values. *)
Example C79_table : exists a, univ_nd UNormal (table_env 3) = Val a /\ nshp a = [2; 3]%nat /\
  nelt a [1; 2]%nat = Fin (- (1/2) * ((12 - 2) / 3 * ((12 - 2) / 3)) - ln (sqrt (2 * PI)) - ln 3).
Proof. exact table_value. Qed.
(** One standard deviation that is not positive. *)
Example C79_table_raises : univ_nd UNormal (table_env (-3)) = Raise.
Proof. exact table_raises. Qed.
(** Rows of two and of three entries. *)
Example C79_ragged : forall s, ~ common UNormal ragged_env s.
Proof. exact ragged. Qed.
(** A check is made even where there is no element: an empty value with an
    invalid standard deviation raises, although no element of the variable
    has a log-probability that raises. *)
Theorem C79_empty_refuted : exists env s, common UNormal env s /\ (forall i, ~ inside s i) /\ univ_nd UNormal env = Raise.
Proof. exact empty_raises. Qed.
Print Assumptions C79_empty_refuted.
