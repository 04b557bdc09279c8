(** C28 - C31: dimension shuffles, stacks and joins, cumulative sums. *)
From Coq Require Import Reals Lra List Arith ZArith Bool Lia.
From Coquelicot Require Import Coquelicot.
From Verif Require Import XR ModelDist ModelVec SpecIdx ModelMix ModelSub ModelTen SpecTen LemTen LemTen2 RMx LemTen3 LemTen4.
Import ListNotations.
Open Scope nat_scope.

(** ** C28 *)
(** Un-shuffling recovers x from any shuffle of it (any order, dropped
    length-one axes, inserted axes). *)
Theorem C28_unshuffle : forall A o (x y : nd A), valid_order (length (nshp x)) o -> is_shuffle o x y ->
  nshp (unshuffled (length (nshp x)) o y) = nshp x /\
  forall p, inside (nshp x) p -> nelt (unshuffled (length (nshp x)) o y) p = nelt x p.
Proof. exact @unshuffle_ok. Qed.
Print Assumptions C28_unshuffle.
(** The log-probability at position q of the shuffle is the one of the base
    variable's element there. *)
Theorem C28_logprob : forall o base y, valid_order (length (cshp base)) o -> shuffled_shape o (cshp base) (nshp y) ->
  nshp (logprob_dimshuffle o base y) = nshp y /\
  forall q p, inside (nshp y) q -> source o (length (cshp base)) q p -> nelt (logprob_dimshuffle o base y) q = clp base p (nelt y q).
Proof. exact dimshuffle_logprob. Qed.
Print Assumptions C28_logprob.
(** order (2, x, 0) on shape (3, 1, 4): axis 1 dropped *)
Definition ex_o : list (option nat) := [Some 2; None; Some 0].
Definition ex_b : comp := {| cshp := [3; 1; 4]; clp := fun p => normal_logprob (Fin (INR (nth 0 p 0))) (Fin (INR (nth 2 p 0 + 1))) |}.
Definition ex_y : nd xr := {| nshp := [4; 1; 3]; nelt := fun q => Fin (INR (10 * nth 0 q 0 + nth 2 q 0)) |}.
Lemma ex_valid : valid_order 3 ex_o.
Proof.
  split.
  - intros [|[|[|j]]] [|[|[|j']]] d H H'; cbn in *; try discriminate; auto; try congruence;
      repeat match goal with X : nth_error [] ?k = _ |- _ => destruct k; discriminate end.
  - intros [|[|[|j]]] d H; cbn in *; try discriminate; [| |destruct j; discriminate]; injection H as <-; lia.
Qed.
Lemma ex_shuffled : shuffled_shape ex_o [3; 1; 4] [4; 1; 3].
Proof.
  split; [reflexivity|]. split; [|split].
  - intros [|[|[|j]]] d H; cbn in *; try discriminate; [| |destruct j; discriminate]; injection H as <-; reflexivity.
  - intros [|[|[|j]]] H; cbn in *; try discriminate; auto. destruct j; discriminate.
  - intros [|[|[|d]]] Hd D; cbn in *; auto; [now destruct (D 2)|now destruct (D 0)|lia].
Qed.
Example C28_ex : nelt (logprob_dimshuffle ex_o ex_b ex_y) [3; 0; 1] = normal_logprob (Fin (INR 1)) (Fin (INR 4)) (Fin (INR 31)).
Proof.
  destruct (C28_logprob ex_o ex_b ex_y ex_valid ex_shuffled) as (_ & H). rewrite (H [3; 0; 1] [1; 0; 3]); [reflexivity|repeat constructor|].
  split; [reflexivity|]. split.
  - intros [|[|[|j]]] d E; cbn in *; try discriminate; [| |destruct j; discriminate]; injection E as <-; reflexivity.
  - intros [|[|[|d]]] Hd D; cbn in *; auto; [now destruct (D 2)|now destruct (D 0)|lia].
Qed.
(** The same order really is a shuffle of some array. *)
Theorem C28_dimshuffle_op : forall A o (x : nd A), valid_order (length (nshp x)) o ->
  (forall d, d < length (nshp x) -> dropped o d -> nth_error (nshp x) d = Some 1) -> is_shuffle o x (dimshuffle o x).
Proof. exact @dimshuffle_is_shuffle. Qed.
Print Assumptions C28_dimshuffle_op.
Example C28_unshuffle_ex : nelt (unshuffled 3 ex_o (dimshuffle ex_o {| nshp := [3; 1; 4]; nelt := fun p => (nth 0 p 0, nth 2 p 0) |})) [2; 0; 3] = (2, 3).
Proof.
  pose (x := {| nshp := [3; 1; 4]; nelt := fun p => (nth 0 p 0, nth 2 p 0) |}).
  destruct (C28_unshuffle _ ex_o x _ ex_valid (C28_dimshuffle_op _ ex_o x ex_valid (proj2 (proj2 (proj2 ex_shuffled))))) as (_ & H).
  apply (H [2; 0; 3]). repeat constructor.
Qed.

(** ** C29 *)
Theorem C29_make_vector : forall bases value l, length value = length bases ->
  Forall2 (fun (bv : (xr -> res xr) * xr) x => fst bv (snd bv) = Val x) (combine bases value) l -> logprob_make_vector bases value = Val l.
Proof. exact make_vector_ok. Qed.
Print Assumptions C29_make_vector.
Example C29_make_vector_ex : logprob_make_vector [uniform_logprob (Fin 0) NaN; fun v => Val v; fun _ => Val NInf] [NaN; Fin 3; NaN] = Val [NInf; Fin 3; NInf].
Proof. apply C29_make_vector; repeat constructor. Qed.
(** Joins of variables with scalar support, along any axis (also counted from
    the end), any number of parts of any sizes. *)
Theorem C29_join_univariate : forall axis ax bases lps sizes sh value, joinable ax (map pshp bases) sizes sh -> axis_is (length sh) axis ax ->
  Forall2 univariate bases lps ->
  exists r, logprob_join axis bases sh value = Val r /\ nshp r = sh /\
    forall k q p lp, nth_error lps k = Some lp -> part_at ax sizes q k p -> nelt r q = lp p (value q).
Proof. exact join_ok. Qed.
Print Assumptions C29_join_univariate.
Definition ex_part (n : nat) : jpart := {| pshp := [2; n]; psupp := 0; plp := fun v p => normal_logprob (Fin (INR n)) (Fin (INR (nth 1 p 0 + 1))) (v p) |}.
Lemma ex_joinable : joinable 1 (map pshp [ex_part 3; ex_part 2]) [3; 2] [2; 5].
Proof.
  split; [easy|]. split; [cbn; lia|]. split; [repeat constructor|]. split; [|reflexivity].
  repeat constructor; intros [|[|k]] N; cbn; auto; lia.
Qed.
(** concatenation of shapes (2,3) and (2,2) along axis -1: element (1,4) is element (1,1) of the second *)
Example C29_join_ex : exists r, logprob_join (-1) [ex_part 3; ex_part 2] [2; 5] (fun q => Fin (INR (nth 1 q 0))) = Val r /\
  nelt r [1; 4] = normal_logprob (Fin (INR 2)) (Fin (INR 2)) (Fin (INR 4)).
Proof.
  destruct (C29_join_univariate (-1) 1 [ex_part 3; ex_part 2] [fun p => normal_logprob (Fin (INR 3)) (Fin (INR (nth 1 p 0 + 1))); fun p => normal_logprob (Fin (INR 2)) (Fin (INR (nth 1 p 0 + 1)))]
    [3; 2] [2; 5] (fun q => Fin (INR (nth 1 q 0))) ex_joinable) as (r & E & _ & H).
  - split; cbn; lia.
  - repeat constructor.
  - exists r. split; [exact E|]. rewrite (H 1 [1; 4] [1; 1] _ eq_refl); [reflexivity|].
    split; [split; [reflexivity|]; intros [|[|k]] N; cbn; auto; lia|]. exists 2, 1. repeat split. lia.
Qed.
Theorem C29_mixed_ranks : forall axis bases sh value b b', In b bases -> In b' bases -> length (logp_shape b) <> length (logp_shape b') ->
  logprob_join axis bases sh value = Raise.
Proof. exact join_ranks. Qed.
Print Assumptions C29_mixed_ranks.
Definition ex_mv (n : nat) : jpart := {| pshp := [2; n]; psupp := 1; plp := fun v p => Val (Fin 0) |}.
Example C29_mixed_ex : forall v, logprob_join 0 [ex_part 2; ex_mv 2] [4; 2] v = Raise.
Proof. intros v. apply (C29_mixed_ranks 0 _ _ v (ex_part 2) (ex_mv 2)); cbn; auto. Qed.
(** Variables with support axes, along a batch axis counted from the front,
    with as many support axes as batch axes.  Missing for C29: every other
    number of batch axes, which the code gets wrong (below). *)
Theorem C29_join_multivariate_partial : forall axis ax s bases sizes sh value, joinable ax (map pshp bases) sizes sh -> axis = Z.of_nat ax ->
  List.Forall (fun b => psupp b = s) bases -> length sh = s + s -> ax < s ->
  exists r, logprob_join axis bases sh value = Val r /\ nshp r = firstn s sh /\
    forall k q p b, nth_error bases k = Some b -> part_at ax sizes q k p ->
      exists w, nelt r q = plp b w p /\ part_value ax sizes k value w.
Proof. exact join_square. Qed.
Print Assumptions C29_join_multivariate_partial.
Definition ex_pm (n : nat) : jpart := {| pshp := [n; 2]; psupp := 1; plp := fun v p => Val (xadd (v (p ++ [0])) (v (p ++ [1]))) |}.
Example C29_join_multivariate_ex : exists r, logprob_join 0 [ex_pm 3; ex_pm 2] [5; 2] (fun q => Fin (INR (nth 0 q 0 + nth 1 q 0))) = Val r /\
  nshp r = [5] /\ nelt r [4] = Val (Fin (INR 4 + INR 5)).
Proof.
  destruct (C29_join_multivariate_partial 0 0 1 [ex_pm 3; ex_pm 2] [3; 2] [5; 2] (fun q => Fin (INR (nth 0 q 0 + nth 1 q 0)))) as (r & E & S & H); auto.
  - split; [easy|]. split; [cbn; lia|]. split; [repeat constructor|]. split; [|reflexivity].
    repeat constructor; intros [|[|k]] N; cbn; auto; lia.
  - exists r. split; [exact E|]. split; [exact S|]. destruct (H 1 [4] [1] (ex_pm 2) eq_refl) as (w & Hw & Hp).
    + split; [split; [reflexivity|]; intros [|k] N; cbn; auto; lia|]. exists 2, 1. repeat split. lia.
    + rewrite Hw. cbn [plp ex_pm app]. rewrite (Hp [1; 0] [4; 0]), (Hp [1; 1] [4; 1]); [reflexivity| |];
      (split; [split; [reflexivity|]; intros [|[|k]] N; cbn; auto; lia|]; exists 2, 1; repeat split; lia).
Qed.
(** Two batch axes, one support axis, joined along axis 0: the
    log-probabilities (2,3) and (2,3) are concatenated to (2,6) instead of (4,3). *)
Definition ex_pm2 : jpart := {| pshp := [2; 3; 2]; psupp := 1; plp := fun v p => Val (xadd (v (p ++ [0])) (v (p ++ [1]))) |}.
(** multivariate variables joined along a batch axis: wrong shape *)
Theorem C29_join_multivariate_refuted : exists axis ax s bases sizes sh, joinable ax (map pshp bases) sizes sh /\ axis_is (length sh) axis ax /\
  List.Forall (fun b => psupp b = s) bases /\ ax < length sh - s /\
  forall value, exists r, logprob_join axis bases sh value = Val r /\ nshp r <> firstn (length sh - s) sh.
Proof.
  exists 0%Z, 0, 1, [ex_pm2; ex_pm2], [2; 2], [4; 3; 2]. split.
  - split; [easy|]. split; [cbn; lia|]. split; [repeat constructor|]. split; [|reflexivity].
    repeat constructor; intros [|[|[|k]]] N; cbn; auto; lia.
  - split; [split; cbn; lia|]. split; [repeat constructor|]. split; [cbn; lia|]. intros value. eexists. split; [reflexivity|]. discriminate.
Qed.
Print Assumptions C29_join_multivariate_refuted.
(** Axis counted from the end with one batch and one support axis: an error. *)
Theorem C29_join_negative_axis_refuted : exists axis ax s bases sizes sh, joinable ax (map pshp bases) sizes sh /\ axis_is (length sh) axis ax /\
  List.Forall (fun b => psupp b = s) bases /\ ax < length sh - s /\ forall value, logprob_join axis bases sh value = Raise.
Proof.
  exists (-2)%Z, 0, 1, [ex_pm 3; ex_pm 2], [3; 2], [5; 2]. split.
  - split; [easy|]. split; [cbn; lia|]. split; [repeat constructor|]. split; [|reflexivity].
    repeat constructor; intros [|[|k]] N; cbn; auto; lia.
  - split; [split; cbn; lia|]. split; [repeat constructor|]. split; [cbn; lia|]. reflexivity.
Qed.
Print Assumptions C29_join_negative_axis_refuted.

(** ** C30 *)
(** The rewrite looks at each part alone, so a repeated variable is accepted,
    and the parts are then scored independently: [stack([U, U])] with
    U ~ Uniform(0, 1) gets density one at (1/4, 3/4). *)
Theorem C30_accepts_iff : forall measurable valued vs, (exists r, find_measurable_stacks measurable valued vs = Some r) <->
  List.Forall (fun v => measurable v = true /\ valued v = false) vs.
Proof. exact stacks_iff. Qed.
Print Assumptions C30_accepts_iff.
(** the same variable stacked twice is scored at two different values *)
Theorem C30_repeated_refuted : exists measurable valued vs (lp : nat -> xr -> res xr) value l, ~ NoDup vs /\
  find_measurable_stacks measurable valued vs = Some vs /\
  nth_error vs 0 = nth_error vs 1 /\ nth_error value 0 <> nth_error value 1 /\
  logprob_make_vector (map lp vs) value = Val l /\ List.Forall (fun x => exists r, x = Fin r) l.
Proof.
  exists (fun _ => true), (fun _ => false), [7; 7], (fun _ v => Val (Fin 0)), [Fin (1 / 4); Fin (3 / 4)], [Fin 0; Fin 0].
  split; [intros N; inversion N as [|? ? K ?]; apply K; now left|]. split; [reflexivity|]. split; [reflexivity|]. split; [cbn; intros E; injection E; lra|].
  split; [reflexivity|]. repeat constructor; eauto.
Qed.
Print Assumptions C30_repeated_refuted.

(** ** C31 *)
(** The base variable is scored at the only array whose cumulative sum is the value. *)
Theorem C31_logprob : forall axis ax n v y, axis_is (length (nshp v)) axis ax -> nth_error (nshp v) ax = Some n -> 1 <= n ->
  (forall p, inside (nshp v) p -> nelt v p = Fin (y p)) -> forall base,
  exists r x, logprob_cumsum axis base v = Val r /\ nshp r = nshp v /\
  (forall p, inside (nshp v) p -> nelt r p = clp base p (Fin (x p))) /\
  (forall p, inside (nshp v) p -> cumsum ax x p = y p) /\
  (forall x', (forall p, inside (nshp v) p -> cumsum ax x' p = y p) -> forall p, inside (nshp v) p -> x' p = x p).
Proof. exact cumsum_logprob. Qed.
Print Assumptions C31_logprob.
(** Unit Jacobian: the matrix of partial derivatives of the cumulative sum of
    an array of shape [sh], over all its positions, has determinant one. *)
Theorem C31_unit_jacobian : forall ax sh x, ax < length sh ->
  exists J, (forall p q, inside sh p -> inside sh q -> is_derive (fun t => cumsum ax (upd x q t) p) (x q) (J p q)) /\
    rdet (length (positions sh)) (fun i j => J (nth i (positions sh) []) (nth j (positions sh) [])) = 1%R.
Proof. exact cumsum_unit_jacobian. Qed.
Print Assumptions C31_unit_jacobian.
(** 2x2 array, along axis -1 *)
Example C31_ex : exists r x, logprob_cumsum (-1) {| cshp := [2; 2]; clp := fun p => normal_logprob (Fin 0) (Fin 1) |}
    {| nshp := [2; 2]; nelt := fun p => Fin (INR (3 * nth 1 p 0 + nth 0 p 0)) |} = Val r /\
  nelt r [1; 1] = normal_logprob (Fin 0) (Fin 1) (Fin (x [1; 1])) /\ x [1; 0] = 1%R /\ Rplus (x [1; 0]) (x [1; 1]) = 4%R.
Proof.
  destruct (C31_logprob (-1) 1 2 {| nshp := [2; 2]; nelt := fun p => Fin (INR (3 * nth 1 p 0 + nth 0 p 0)) |} (fun p => INR (3 * nth 1 p 0 + nth 0 p 0)))
    with (base := {| cshp := [2; 2]; clp := fun p => normal_logprob (Fin 0) (Fin 1) |}) as (r & x & E & S & H & C & _); auto.
  - split; cbn; lia.
  - exists r, x. split; [exact E|]. split; [apply (H [1; 1]); repeat constructor|].
    pose proof (C [1; 0] ltac:(repeat constructor)) as C0. pose proof (C [1; 1] ltac:(repeat constructor)) as C1.
    unfold cumsum in C0, C1. cbn -[INR] in C0, C1. cbn in C0, C1. lra.
Qed.
Example C31_jacobian_ex : exists J, (forall p q, inside [2; 3] p -> inside [2; 3] q -> is_derive (fun t => cumsum 0 (upd (fun p => INR (nth 1 p 0)) q t) p) (INR (nth 1 q 0)) (J p q)) /\
    rdet 6 (fun i j => J (nth i (positions [2; 3]) []) (nth j (positions [2; 3]) [])) = 1%R.
Proof. exact (C31_unit_jacobian 0 [2; 3] (fun p => INR (nth 1 p 0)) ltac:(cbn; lia)). Qed.
(** Flattening sums are only accepted for rank at most one, where they are sums along axis 0;
    other axes are kept. *)
Theorem C31_axis : forall m me va nd_ a r, find_measurable_cumsum m me va nd_ a = Some r ->
  m = true /\ me = true /\ va = false /\ (a = Some r \/ (a = None /\ nd_ <= 1 /\ r = 0%Z)).
Proof. exact cumsum_axis. Qed.
Print Assumptions C31_axis.
Example C31_axis_ex : find_measurable_cumsum true true false 3 (Some (-2)%Z) = Some (-2)%Z. Proof. reflexivity. Qed.
