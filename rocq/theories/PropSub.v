(** C26, C27: reconstruction of symbolic indices; partially overwritten variables. *)
From Coq Require Import Reals Lra List Arith ZArith Bool Lia.
From Verif Require Import XR ModelDist ModelVec ModelIdx SpecIdx LemIdx LemIdx2 ModelMix LemMix ModelSub SpecSub LemSub SpecDist XTac LemDist LemSupp.
Import ListNotations.
Open Scope nat_scope.

(** ** C26 *)
(** Exactly when reconstruction gives back the tuple: the variables of every
    entry must be the first ones of the whole list. *)
Theorem C26_exact_partial : forall V (ix : list (rent V)), List.Forall written ix -> ix <> [] ->
  (indices_from_subtensor (Some (map template ix)) (flat_map variables ix) = ix <->
   List.Forall (fun e => exists r, flat_map variables ix = variables e ++ r) ix).
Proof. exact @reconstruct_iff. Qed.
Print Assumptions C26_exact_partial.
(** In particular tuples with one symbolic entry, anywhere, of any form. *)
Theorem C26_one_symbolic_partial : forall V (ix : list (rent V)), List.Forall written ix -> one_symbolic ix -> ix <> [] ->
  indices_from_subtensor (Some (map template ix)) (flat_map variables ix) = ix.
Proof. exact @reconstruct_one. Qed.
Print Assumptions C26_one_symbolic_partial.
(** [Y[0, None, i:j:2, 3]] with variables 7 and 8 *)
Definition ex_w : list (rent nat) := [XInt 0; XNone; XSlice (XVar 7) (XVar 8) (XInt 2); XInt 3].
Example C26_ex : indices_from_subtensor (Some (map template ex_w)) [7; 8] = ex_w.
Proof.
  apply (C26_one_symbolic_partial nat ex_w); [repeat constructor| |discriminate].
  intros [|[|[|[|i]]]] [|[|[|[|j]]]] e e' Hi Hj Hv Hv'; cbn in Hi, Hj; auto;
    try (injection Hi as <-); try (injection Hj as <-); try (now destruct Hv); try (now destruct Hv'); try (destruct i; discriminate); destruct j; discriminate.
Qed.
(** [Y[i, j]] is reconstructed as [Y[i, i]]. *)
Theorem C26_two_symbolic_refuted : exists ix : list (rent nat), List.Forall written ix /\ ix <> [] /\
  indices_from_subtensor (Some (map template ix)) (flat_map variables ix) <> ix.
Proof. exists [XVar 1; XVar 2]. split; [repeat constructor|]. split; [easy|]. cbn. discriminate. Qed.
Print Assumptions C26_two_symbolic_refuted.

(** ** C27 *)
(** Basic indices with one symbolic entry.  Missing for C27: tuples with two
    or more symbolic entries (C26) and increments, both refuted below. *)
Theorem C27_basic_partial : forall (n : inc_node) wx ix osh y, List.Forall written wx -> one_symbolic wx -> wx <> [] -> Forall2 denotes_index wx ix ->
  idx_list n = Some (map template wx) -> inputs n = flat_map variables wx ->
  cshp (base n) <> [] -> positive_steps ix -> assignable ix (cshp (base n)) osh (dshape n) ->
  exists f, incsubtensor_logprob n y = Val f /\
    (forall p, (forall o, ~ targets ix (cshp (base n)) osh o p) -> f p = clp (base n) p (y p)) /\
    (forall p v, (forall o c, targets ix (cshp (base n)) osh o p -> aligned (dshape n) o c -> data n c = v) ->
                 (exists o, targets ix (cshp (base n)) osh o p) -> f p = clp (base n) p v).
Proof. exact inc_basic_ok. Qed.
Print Assumptions C27_basic_partial.
(** Advanced indices (any tuple of integers, arrays, positive-step slices, newaxis). *)
Theorem C27_advanced_partial : forall (n : inc_node) osh y, idx_list n = None ->
  cshp (base n) <> [] -> positive_steps (inputs n) -> assignable (inputs n) (cshp (base n)) osh (dshape n) ->
  exists f, incsubtensor_logprob n y = Val f /\
    (forall p, (forall o, ~ targets (inputs n) (cshp (base n)) osh o p) -> f p = clp (base n) p (y p)) /\
    (forall p v, (forall o c, targets (inputs n) (cshp (base n)) osh o p -> aligned (dshape n) o c -> data n c = v) ->
                 (exists o, targets (inputs n) (cshp (base n)) osh o p) -> f p = clp (base n) p v).
Proof. exact inc_adv_ok. Qed.
Print Assumptions C27_advanced_partial.

(** [Y[[2, 0]] = [5, 6]] for Y of length 3: position 2 scored at 5, 0 at 6, 1 at its value *)
Definition ex_base : comp := {| cshp := [3]; clp := fun p => normal_logprob (Fin (INR (hd 0 p))) (Fin 1) |}.
Definition ex_inputs : list index := [IArr {| shp := [2]; get := fun i => (2 - 2 * Z.of_nat (hd 0%nat i))%Z |}].
Definition ex_node : inc_node := {| set_instead_of_inc := true; base := ex_base; dshape := [2];
  data := fun c => Fin (INR (5 + hd 0 c)); idx_list := None; inputs := ex_inputs |}.
Lemma ex_shape : np_shape ex_inputs [3] [2].
Proof. apply np_shape_iff; [easy|repeat constructor|]. eexists; split; [reflexivity|]. split; [reflexivity|]. repeat constructor. Qed.
Lemma ex_targets o p : targets ex_inputs [3] [2] o p <-> (o = [0] /\ p = [2]) \/ (o = [1] /\ p = [0]).
Proof.
  assert (Ha : exists a, expand_indices ex_inputs [3] = Val [a] /\ get a [0] = 2%Z /\ get a [1] = 0%Z) by (eexists; repeat split; reflexivity).
  destruct Ha as (a & E & H0 & H1).
  assert (G : forall z q, Forall2 (fun (na : nat * Z) x => wraps (fst na) (snd na) x) [(3, z)] q <-> exists k, q = [k] /\ wraps 3 z k).
  { intros z q. split; [intros H; inversion H as [|? k ? r Hk Hr]; subst; inversion Hr; subst; eauto|]. intros (k & -> & Hk). (constructor; [exact Hk|constructor]). }
  assert (T : forall o, inside [2] o -> (targets ex_inputs [3] [2] o p <-> exists k, p = [k] /\ wraps 3 (get a o) k)).
  { intros o' Hin. rewrite (targets_iff ex_inputs [3] [2] _ o' p ltac:(easy) ltac:(repeat constructor) ex_shape E Hin). cbn [combine].
    rewrite <- G. split; intros H; inversion H as [|? ? ? ? Hk Hr]; subst; inversion Hr; subst; (constructor; [exact Hk|constructor]). }
  split.
  - intros Ht. pose proof (proj1 Ht) as Hin. apply T in Ht; auto. destruct Ht as (k & -> & Hk).
    inversion Hin as [|x d o' s Hx Hn]; subst. inversion Hn; subst. destruct x as [|[|x]]; [rewrite H0 in Hk|rewrite H1 in Hk|lia];
    destruct Hk as [Hk Hk']; [left|right]; split; auto; f_equal; lia.
  - intros [(-> & ->)|(-> & ->)]; (apply T; [repeat constructor|]); eexists; (split; [reflexivity|]); rewrite ?H0, ?H1; split; lia.
Qed.
Lemma ex_assignable : assignable ex_inputs [3] [2] [2].
Proof.
  split; [exact ex_shape|]. split; [apply bcast_all_spec; reflexivity|].
  intros o Hin. inversion Hin as [|x d o' s Hx Hn]; subst. inversion Hn; subst.
  destruct x as [|[|x]]; [exists [2]|exists [0]|lia]; apply ex_targets; auto.
Qed.
Example C27_ex : exists f, incsubtensor_logprob ex_node (fun _ => Fin 9) = Val f /\
  f [0] = normal_logprob (Fin (INR 0)) (Fin 1) (Fin (INR 6)) /\ f [1] = normal_logprob (Fin (INR 1)) (Fin 1) (Fin 9) /\
  f [2] = normal_logprob (Fin (INR 2)) (Fin 1) (Fin (INR 5)).
Proof.
  destruct (C27_advanced_partial ex_node [2] (fun _ => Fin 9) eq_refl ltac:(easy) ltac:(repeat constructor) ex_assignable) as (f & E & H1 & H2).
  exists f. split; [exact E|]. split; [|split].
  - apply (H2 [0] (Fin (INR 6))).
    + intros o c Ht Hc. apply ex_targets in Ht as [(-> & K)|(-> & _)]; [discriminate|]. apply aligned_iff in Hc; [|cbn; lia]. now subst c.
    + exists [1]. apply ex_targets. auto.
  - apply (H1 [1]). intros o Ht. apply ex_targets in Ht as [(_ & K)|(_ & K)]; discriminate.
  - apply (H2 [2] (Fin (INR 5))).
    + intros o c Ht Hc. apply ex_targets in Ht as [(-> & _)|(-> & K)]; [|discriminate]. apply aligned_iff in Hc; [|cbn; lia]. now subst c.
    + exists [0]. apply ex_targets. auto.
Qed.
(** [Y[i] = 5] with i = -2: position 1 *)
Definition ex_basic : inc_node := {| set_instead_of_inc := true; base := ex_base; dshape := []; data := fun _ => Fin 5;
  idx_list := Some [EType]; inputs := [IInt (-2)] |}.
Example C27_basic_ex : exists f, incsubtensor_logprob ex_basic (fun _ => Fin 9) = Val f /\
  f [1] = normal_logprob (Fin (INR 1)) (Fin 1) (Fin 5) /\ f [2] = normal_logprob (Fin (INR 2)) (Fin 1) (Fin 9).
Proof.
  assert (Hs : np_shape [IInt (-2)] [3] []).
  { apply np_shape_iff; [easy|repeat constructor|]. eexists; split; [reflexivity|]. split; [reflexivity|]. repeat constructor. }
  assert (T : forall p, targets [IInt (-2)] [3] [] [] p <-> p = [1]).
  { intros p. rewrite (targets_iff [IInt (-2)] [3] [] _ [] p ltac:(easy) ltac:(repeat constructor) Hs eq_refl ltac:(constructor)).
    split; intros H.
    - inversion H as [|? k ? r Hk Hr]; subst. inversion Hr; subst. destruct Hk as [Hk Hk']. vm_compute in Hk'. f_equal. cbn in Hk.
      destruct k as [|[|[|k]]]; cbn in Hk'; destruct Hk'; try discriminate; lia.
    - subst p. constructor; [|constructor]. split; cbn; lia. }
  destruct (C27_basic_partial ex_basic [XVar (IInt (-2))] [IInt (-2)] [] (fun _ => Fin 9)) as (f & E & H1 & H2); try (repeat constructor; fail); try easy.
  - intros [|i] [|j] e e' Hi Hj; auto; cbn in Hi, Hj; [destruct j|destruct i|destruct i]; discriminate.
  - split; [exact Hs|]. split; [apply bcast_all_spec; reflexivity|]. intros o Ho. inversion Ho. exists [1]. now apply T.
  - exists f. split; [exact E|]. split.
    + apply (H2 [1] (Fin 5)); [reflexivity|]. exists []. now apply T.
    + apply (H1 [2]). intros o Ht. pose proof (proj1 Ht) as Ho. inversion Ho; subst. apply T in Ht. discriminate.
Qed.
(** [Y[0] += 1] at value 1 is scored as if Y[0] were 1: Y ~ Uniform(-1/2, 1/2)
    gets -inf although Y[0] = 0 is in the support. *)
Definition ex_inc : inc_node := {| set_instead_of_inc := false; base := {| cshp := [1]; clp := fun _ => uniform_logprob (Fin (- (1 / 2))) (Fin (1 / 2)) |};
  dshape := []; data := fun _ => Fin 1; idx_list := Some [EInt 0]; inputs := [] |}.
(** an increment is scored as if the data were assigned *)
Theorem C27_increment_refuted : exists n y f p, set_instead_of_inc n = false /\ incsubtensor_logprob n y = Val f /\
  (exists wx ix, List.Forall written wx /\ one_symbolic wx /\ Forall2 denotes_index wx ix /\ idx_list n = Some (map template wx) /\
     inputs n = flat_map variables wx /\ np_element ix (cshp (base n)) [] p) /\
  f p <> clp (base n) p (xsub (y p) (data n [])).
Proof.
  exists ex_inc, (fun _ => Fin 1). eexists. exists [0]. split; [reflexivity|]. split; [reflexivity|]. split.
  - exists [XInt 0], [IInt 0]. repeat split; try (repeat constructor; fail).
    + intros [|i] [|j] e e' Hi Hj; auto; cbn in Hi, Hj; [destruct j|destruct i|destruct i]; discriminate.
    + assert (Hs : np_shape [IInt 0] [1] []).
      { apply np_shape_iff; [easy|repeat constructor|]. eexists; split; [reflexivity|]. split; [reflexivity|]. repeat constructor. }
      apply (targets_iff [IInt 0] [1] [] _ [] [0] ltac:(easy) ltac:(repeat constructor) Hs eq_refl ltac:(constructor)).
      constructor; [|constructor]. split; cbn; lia.
  - change (uniform_logprob (Fin (- (1 / 2))) (Fin (1 / 2)) (Fin 1) <> uniform_logprob (Fin (- (1 / 2))) (Fin (1 / 2)) (Fin (1 - 1))).
    rewrite (uniform_out (- (1 / 2)) (1 / 2) 1) by lra. intros E.
    pose proof (uniform_ok (- (1 / 2)) (1 / 2) (1 - 1) ltac:(lra)) as H. rewrite <- E in H. cbn in H. unfold uniform_pdf in H.
    destruct (Rle_dec (- (1 / 2)) (1 - 1)); [|lra]; destruct (Rle_dec (1 - 1) (1 / 2)); [|lra].
    pose proof (Rinv_0_lt_compat (1 / 2 - - (1 / 2)) ltac:(lra)). lra.
Qed.
Print Assumptions C27_increment_refuted.
(** [Y[i, j] = 5] with i = 0, j = 1 overwrites [Y[0, 0]] instead of [Y[0, 1]]. *)
Definition ex_two : inc_node := {| set_instead_of_inc := true; base := {| cshp := [2; 2]; clp := fun _ => uniform_logprob (Fin 0) (Fin 1) |};
  dshape := []; data := fun _ => Fin 5; idx_list := Some (map template [XVar (IInt 0); XVar (IInt 1)]); inputs := [IInt 0; IInt 1] |}.
(** with two symbolic indices the wrong positions are overwritten *)
Theorem C27_two_symbolic_refuted : exists n wx ix y f p, set_instead_of_inc n = true /\ incsubtensor_logprob n y = Val f /\
  List.Forall written wx /\ Forall2 denotes_index wx ix /\ idx_list n = Some (map template wx) /\ inputs n = flat_map variables wx /\
  np_element ix (cshp (base n)) [] p /\ f p <> clp (base n) p (data n []).
Proof.
  exists ex_two, [XVar (IInt 0); XVar (IInt 1)], [IInt 0; IInt 1], (fun _ => Fin (1 / 2)). eexists. exists [0; 1].
  split; [reflexivity|]. split; [reflexivity|]. split; [repeat constructor|]. split; [repeat constructor|]. split; [reflexivity|]. split; [reflexivity|]. split.
  - assert (Hs : np_shape [IInt 0; IInt 1] [2; 2] []).
    { apply np_shape_iff; [easy|repeat constructor|]. eexists; split; [reflexivity|]. split; [reflexivity|]. repeat constructor. }
    apply (targets_iff [IInt 0; IInt 1] [2; 2] [] _ [] [0; 1] ltac:(easy) ltac:(repeat constructor) Hs eq_refl ltac:(constructor)).
    constructor; [|constructor; [|constructor]]; split; cbn; lia.
  - change (uniform_logprob (Fin 0) (Fin 1) (Fin (1 / 2)) <> uniform_logprob (Fin 0) (Fin 1) (Fin 5)).
    rewrite (uniform_out 0 1 5) by lra. intros E.
    pose proof (uniform_ok 0 1 (1 / 2) ltac:(lra)) as H. rewrite E in H. cbn in H. unfold uniform_pdf in H.
    destruct (Rle_dec 0 (1 / 2)); [|lra]; destruct (Rle_dec (1 / 2) 1); [|lra].
    pose proof (Rinv_0_lt_compat (1 - 0) ltac:(lra)). lra.
Qed.
Print Assumptions C27_two_symbolic_refuted.
