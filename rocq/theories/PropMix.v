(** C23 - C25: mixtures. *)
From Coq Require Import Reals Lra List Arith ZArith Bool Lia.
From Verif Require Import XR ModelDist ModelVec ModelIdx SpecIdx LemIdx LemIdx2 ModelMix SpecMix LemMix XTac SpecDist LemDist LemSupp.
Import ListNotations.
Open Scope nat_scope.

(** ** C23 *)
(** Scalar index: whatever the other components are (they may raise, or be
    -inf or NaN at [v]). *)
Theorem C23_scalar : forall lps k v lp, nth_error lps k = Some lp -> mixture_scalar lps (Z.of_nat k) v = lp v.
Proof. exact mixture_scalar_in. Qed.
Print Assumptions C23_scalar.
Example C23_scalar_ex : mixture_scalar [fun _ => Val NaN; normal_logprob (Fin 1) (Fin 2); fun _ => Raise; fun _ => Val NInf] 1 (Fin 4)
  = normal_logprob (Fin 1) (Fin 2) (Fin 4).
Proof. apply (C23_scalar _ 1 (Fin 4)). reflexivity. Qed.

(** Arrays of indices, scalar components ([MakeVector]): any index tuple,
    given by an advanced node (its constant entries are inputs as well) or by a
    basic node whose entries are all symbolic. *)
Theorem C23_array_scalars : forall (lp : nat -> list nat -> xr -> res xr) n b es o value i r, 1 <= n -> all_inputs b es ->
  positive_steps (entries es) -> first_axis_nonneg (entries es) -> np_shape (entries es) [n] o -> inside o i ->
  mixture_spec lp n 0 [] (entries es) i (value i) r ->
  exists f, mixture_array JVector (mixing_indices b es) (map (fun m => {| cshp := []; clp := lp m |}) (seq 0 n)) value = Val (o, f) /\ f i = Some r.
Proof. exact node_vector_ok. Qed.
Print Assumptions C23_array_scalars.
Definition ex_I : index := IArr {| shp := [2; 2]; get := fun i => Z.of_nat (hd 0 i + hd 0 (tl i)) |}.
Definition ex_lp (m : nat) (_ : list nat) (v : xr) : res xr := normal_logprob (Fin (INR m)) (Fin 1) v.
Lemma ex_I_shape n : np_shape [ex_I] [n] [2; 2].
Proof.
  apply np_shape_iff; [easy|repeat constructor|]. eexists; split; [reflexivity|]. split; [reflexivity|]. repeat constructor.
Qed.
Lemma ex_I_nonneg : first_axis_nonneg [ex_I].
Proof. intros c _. cbn. lia. Qed.
(** [stack([N(0,1), N(1,1), N(2,1)])[[[0,1],[1,2]]]] at position (1,1): component 2 *)
Example C23_array_scalars_ex : exists f, mixture_array JVector (mixing_indices false [EConst ex_I]) (map (fun m => {| cshp := []; clp := ex_lp m |}) (seq 0 3)) (fun _ => Fin 5) = Val ([2; 2], f)
  /\ f [1; 1] = Some (ex_lp 2 [] (Fin 5)).
Proof.
  apply (C23_array_scalars ex_lp 3 false [EConst ex_I] [2; 2] (fun _ => Fin 5) [1; 1]); auto.
  - discriminate.
  - repeat constructor.
  - exact ex_I_nonneg.
  - exact (ex_I_shape 3).
  - repeat constructor.
  - exists [3], [2], 2, []. split; [|split; [|split; [|reflexivity]]].
    + split; [easy|]. split; [easy|]. intros [|k]; cbn; now rewrite ?nth_error_nil.
    + destruct (proj1 (expand_indices_spec [ex_I] [3] ltac:(easy) ltac:(repeat constructor)) _ (ex_I_shape 3)) as (advs & E & _ & _ & H).
      apply H; [repeat constructor|]. vm_compute in E. injection E as <-. repeat constructor; cbn; auto; lia.
    + split; [easy|]. split; [easy|]. intros [|k]; cbn; now rewrite ?nth_error_nil.
Qed.
(** Array components of any shape joined along the first axis, when that axis
    is indexed by an integer or an integer array (other axes by anything).
    Missing for C23: components joined along another axis and slices along the
    join axis, which the code gets wrong (below). *)
Theorem C23_array_partial : forall (lp : nat -> list nat -> xr -> res xr) n csh b es o value i r, 1 <= n -> all_inputs b es ->
  positive_steps (entries es) -> first_axis_advanced (entries es) -> first_axis_nonneg (entries es) -> np_shape (entries es) (n :: csh) o -> inside o i ->
  mixture_spec lp n 0 csh (entries es) i (value i) r ->
  exists f, mixture_array (JJoin 0) (mixing_indices b es) (map (fun m => expand_dims 0 {| cshp := csh; clp := lp m |}) (seq 0 n)) value = Val (o, f) /\
            f i = Some r.
Proof. exact node_join_ok. Qed.
Print Assumptions C23_array_partial.
Definition ex_lp2 (m : nat) (c : list nat) (v : xr) : res xr := normal_logprob (Fin (INR (10 * m + hd 0 c))) (Fin 1) v.
(** [stack([X, Y])[[1, 0], 2:]] with X, Y of length 4: element (0, 1) is [Y[3]] *)
Definition ex_ix2 : list index := [IArr {| shp := [2]; get := fun i => Z.of_nat (1 - hd 0 i) |}; ISlice (Some 2%Z) None None].
Lemma ex_ix2_shape : np_shape ex_ix2 [2; 4] [2; 2].
Proof.
  apply np_shape_iff; [easy|repeat constructor|]. eexists; split; [reflexivity|]. split; [reflexivity|]. repeat constructor.
Qed.
Example C23_array_partial_ex : exists f, mixture_array (JJoin 0) (mixing_indices false (map EConst ex_ix2)) (map (fun m => expand_dims 0 {| cshp := [4]; clp := ex_lp2 m |}) (seq 0 2)) (fun _ => Fin 5)
  = Val ([2; 2], f) /\ f [0; 1] = Some (ex_lp2 1 [3] (Fin 5)).
Proof.
  apply (C23_array_partial ex_lp2 2 [4] false (map EConst ex_ix2) [2; 2] (fun _ => Fin 5) [0; 1]); auto.
  - discriminate.
  - repeat constructor.
  - exact I.
  - intros c _. cbn. lia.
  - exact ex_ix2_shape.
  - repeat constructor.
  - exists [2; 4], [1; 3], 1, [3]. split; [|split; [|split; [|reflexivity]]].
    + split; [easy|]. split; [easy|]. intros [|[|k]]; cbn; now rewrite ?nth_error_nil.
    + destruct (proj1 (expand_indices_spec ex_ix2 [2; 4] ltac:(easy) ltac:(repeat constructor)) _ ex_ix2_shape) as (advs & E & _ & _ & H).
      apply H; [repeat constructor|]. vm_compute in E. injection E as <-. repeat constructor; cbn; auto; lia.
    + split; [easy|]. split; [easy|]. intros [|[|k]]; cbn; now rewrite ?nth_error_nil.
Qed.
(** Join axis other than the first: [rv[0]] drops axis 0 instead of the join
    axis.  [stack([X, Y], axis=2)[:, 0:1, [0]]] for 2x2 components: element
    (1, 0) of the result is [X[1,0]] but is scored as [X[0,1]]. *)
Definition ex_lp3 (m : nat) (c : list nat) (v : xr) : res xr :=
  diracdelta_logprob 0 0 (Fin (match c with [0; 1] => 1%R | _ => 0%R end)) v.
Definition ex_ix3 : list index := [ISlice None None None; ISlice (Some 0%Z) (Some 1%Z) None; IArr {| shp := [1]; get := fun _ => 0%Z |}].
(** components joined along another axis than the first: the wrong component is used *)
Theorem C23_join_axis_refuted : exists lp n j csh ix value o i r f,
  positive_steps ix /\ np_shape ix (insert j n csh) o /\ inside o i /\ mixture_spec lp n j csh ix i (value i) r /\
  mixture_array (JJoin j) ix (map (fun m => expand_dims j {| cshp := csh; clp := lp m |}) (seq 0 n)) value = Val (o, f) /\
  exists r', f i = Some r' /\ r' <> r.
Proof.
  assert (Hs : np_shape ex_ix3 [2; 2; 2] [2; 1; 1]).
  { apply np_shape_iff; [easy|repeat constructor|]. eexists; split; [reflexivity|]. split; [reflexivity|]. repeat constructor. }
  exists ex_lp3, 2, 2, [2; 2], ex_ix3, (fun _ => Fin 0), [2; 1; 1], [1; 0; 0], (ex_lp3 0 [1; 0] (Fin 0)). eexists.
  split; [repeat constructor|]. split; [exact Hs|]. split; [repeat constructor|]. split; [|split; [reflexivity|]].
  - exists [2; 2; 2], [1; 0; 0], 0, [1; 0]. split; [|split; [|split; [|reflexivity]]].
    + split; [easy|]. split; [easy|]. intros [|[|[|k]]]; reflexivity.
    + destruct (proj1 (expand_indices_spec ex_ix3 [2; 2; 2] ltac:(easy) ltac:(repeat constructor)) _ Hs) as (advs & E & _ & _ & H).
      apply H; [repeat constructor|]. vm_compute in E. injection E as <-. repeat constructor; cbn; auto; lia.
    + split; [easy|]. split; [easy|]. intros [|[|[|k]]]; reflexivity.
  - eexists. split; [reflexivity|].
    change (ex_lp3 0 [0; 1] (Fin 0) <> ex_lp3 0 [1; 0] (Fin 0)).
    unfold ex_lp3, diracdelta_logprob, xisclose. intros H.
    assert (Ht : Rleb (Rabs (0 - 0))%R (0 + 0 * Rabs 0)%R = true) by (apply Rleb_true; replace (0 - 0)%R with 0%R by ring; rewrite Rabs_R0; lra).
    assert (Hf : Rleb (Rabs (0 - 1))%R (0 + 0 * Rabs 1)%R = false) by (apply Rleb_false; rewrite (Rabs_left (0 - 1)) by lra; lra).
    rewrite Ht, Hf in H. discriminate H.
Qed.
Print Assumptions C23_join_axis_refuted.

(** A slice along the join axis sees an axis of length one: only the first
    component takes part.  [stack([X, Y])[:, [0]]] has shape (2, 1). *)
Definition ex_ix4 : list index := [ISlice None None None; IArr {| shp := [1]; get := fun _ => 0%Z |}].
(** a slice as the mixing index: wrong shape *)
Theorem C23_slice_refuted : exists n csh ix o, positive_steps ix /\ first_axis_nonneg ix /\ np_shape ix (n :: csh) o /\
  forall (lp : nat -> list nat -> xr -> res xr) value, exists o' f,
  mixture_array (JJoin 0) ix (map (fun m => expand_dims 0 {| cshp := csh; clp := lp m |}) (seq 0 n)) value = Val (o', f) /\ o' <> o.
Proof.
  exists 2, [2], ex_ix4, [2; 1]. split; [repeat constructor|]. split; [exact I|]. split.
  - apply np_shape_iff; [easy|repeat constructor|]. eexists; split; [reflexivity|]. split; [reflexivity|]. repeat constructor.
  - intros lp value. exists [1; 1]. eexists. split; [reflexivity|discriminate].
Qed.
Print Assumptions C23_slice_refuted.

(** Constant entries of a basic index are not consulted:
    [stack([X, Y])[i, 0, j]] for 2x2 components is a scalar, but is scored as
    [stack([X, Y])[i, j]]. *)
Definition ex_es : list entry := [EInput (IInt 1); EConst (IInt 0); EInput (IInt 1)].
(** a constant index entry after the mixing index: wrong shape *)
Theorem C23_constant_entry_refuted : exists n csh es o, positive_steps (entries es) /\ first_axis_advanced (entries es) /\
  first_axis_nonneg (entries es) /\ np_shape (entries es) (n :: csh) o /\
  forall (lp : nat -> list nat -> xr -> res xr) value, exists o' f,
  mixture_array (JJoin 0) (mixing_indices true es) (map (fun m => expand_dims 0 {| cshp := csh; clp := lp m |}) (seq 0 n)) value = Val (o', f) /\ o' <> o.
Proof.
  exists 2, [2; 2], ex_es, []. split; [repeat constructor|]. split; [exact I|]. split; [cbn; lia|]. split.
  - apply np_shape_iff; [easy|repeat constructor|]. eexists; split; [reflexivity|]. split; [reflexivity|]. repeat constructor.
  - intros lp value. exists [2]. eexists. split; [reflexivity|discriminate].
Qed.
Print Assumptions C23_constant_entry_refuted.

(** ** C24 *)
(** Every index outside 0..n-1 yields the log-probability 0 (density one
    everywhere), for every component list and value: negative indices do not
    select from the end, other values are neither an error nor -inf. *)
Theorem C24_out_of_range_zero : forall lps i v, (i < 0 \/ Z.of_nat (length lps) <= i)%Z -> mixture_scalar lps i v = Val (Fin 0).
Proof. exact mixture_scalar_out. Qed.
Print Assumptions C24_out_of_range_zero.
Definition ex_pair : list (xr -> res xr) := [normal_logprob (Fin 0) (Fin 1); uniform_logprob (Fin 0) (Fin 1)].
(** a negative scalar index gives log-probability 0 instead of that of a component *)
Theorem C24_negative_refuted : exists lps i v lp, (- Z.of_nat (length lps) <= i < 0)%Z /\
  nth_error lps (Z.to_nat (Z.of_nat (length lps) + i)) = Some lp /\ mixture_scalar lps i v <> lp v.
Proof.
  exists ex_pair, (-1)%Z, (Fin 2), (uniform_logprob (Fin 0) (Fin 1)). split; [cbn; lia|]. split; [reflexivity|].
  rewrite C24_out_of_range_zero by (cbn; lia). rewrite (uniform_out 0 1 2) by lra. discriminate.
Qed.
Print Assumptions C24_negative_refuted.
(** index 7 into two components: neither an error nor -inf *)
Theorem C24_beyond_refuted : exists lps i v, (Z.of_nat (length lps) <= i)%Z /\ mixture_scalar lps i v <> Raise /\ mixture_scalar lps i v <> Val NInf.
Proof.
  exists ex_pair, 7%Z, (Fin 2). rewrite C24_out_of_range_zero by (cbn; lia). cbn. repeat split; try discriminate; lia.
Qed.
Print Assumptions C24_beyond_refuted.
(** Array index -1: the element of the result is never written ([at.empty]),
    although the sampled expression is well defined there. *)
Definition ex_neg : list index := [IArr {| shp := [1]; get := fun _ => (-1)%Z |}].
(** a negative mixing index in an array selects no component *)
Theorem C24_array_refuted : exists n ix o i, positive_steps ix /\ np_shape ix [n] o /\ inside o i /\ np_element ix [n] i [n - 1] /\
  forall (lp : nat -> list nat -> xr -> res xr) value, exists f,
  mixture_array JVector ix (map (fun m => {| cshp := []; clp := lp m |}) (seq 0 n)) value = Val (o, f) /\ f i = None.
Proof.
  assert (Hs : np_shape ex_neg [2] [1]).
  { apply np_shape_iff; [easy|repeat constructor|]. eexists; split; [reflexivity|]. split; [reflexivity|]. repeat constructor. }
  exists 2, ex_neg, [1], [0]. split; [repeat constructor|]. split; [exact Hs|]. split; [repeat constructor|]. split.
  - destruct (proj1 (expand_indices_spec ex_neg [2] ltac:(easy) ltac:(repeat constructor)) _ Hs) as (advs & E & _ & _ & H).
    apply H; [repeat constructor|]. vm_compute in E. injection E as <-. repeat constructor; cbn; auto; lia.
  - intros lp value. eexists. split; reflexivity.
Qed.
Print Assumptions C24_array_refuted.

(** ** C25 *)
(** The components are taken in the order of the [switch] node, so condition
    0 (false) selects the true branch and condition 1 (true) the false one. *)
Theorem C25_false_takes_first : forall lpA lpB v, switch_mixture 0 lpA lpB v = lpA v.
Proof. exact (fun lpA lpB v => mixture_scalar_in [lpA; lpB] 0 v lpA eq_refl). Qed.
Print Assumptions C25_false_takes_first.
Theorem C25_true_takes_second : forall lpA lpB v, switch_mixture 1 lpA lpB v = lpB v.
Proof. exact (fun lpA lpB v => mixture_scalar_in [lpA; lpB] 1 v lpB eq_refl). Qed.
Print Assumptions C25_true_takes_second.
(** any other non-zero condition yields density one *)
Theorem C25_other_zero : forall c lpA lpB v, (c < 0 \/ 2 <= c)%Z -> switch_mixture c lpA lpB v = Val (Fin 0).
Proof. exact (fun c lpA lpB v H => mixture_scalar_out [lpA; lpB] c v H). Qed.
Print Assumptions C25_other_zero.
(** a switch with a scalar condition: both components are swapped *)
Theorem C25_switch_refuted : exists lpA lpB v, switch_mixture 1 lpA lpB v <> lpA v /\ switch_mixture 0 lpA lpB v <> lpB v.
Proof.
  exists (uniform_logprob (Fin 0) (Fin 1)), (uniform_logprob (Fin 2) (Fin 3)), (Fin (1 / 2)).
  rewrite C25_true_takes_second, C25_false_takes_first. rewrite (uniform_out 2 3 (1 / 2)) by lra.
  assert (H : uniform_logprob (Fin 0) (Fin 1) (Fin (1 / 2)) <> Val NInf).
  { intros E. pose proof (uniform_ok 0 1 (1 / 2) ltac:(lra)) as H. rewrite E in H. cbn in H. unfold uniform_pdf in H.
    destruct (Rle_dec 0 (1 / 2)); destruct (Rle_dec (1 / 2) 1); try lra; pose proof (Rinv_0_lt_compat (1 - 0) ltac:(lra)); lra. }
  split; congruence.
Qed.
Print Assumptions C25_switch_refuted.
Example C25_ex : switch_mixture 5 (uniform_logprob (Fin 0) (Fin 1)) (uniform_logprob (Fin 2) (Fin 3)) (Fin 9) = Val (Fin 0).
Proof. apply C25_other_zero. lia. Qed.
