(** C69, C70: resized random variables; observed data with missing entries. *)
From Coq Require Import Reals Lra List Arith ZArith Bool Lia String.
From Verif Require Import XR ModelVec ModelIdx SpecIdx LemIdx LemIdx2 ModelMix LemMix ModelTen ModelSub SpecSub LemSub SpecElem LemBatch ModelUtil SpecUtil LemUtil.
Import ListNotations.
Open Scope nat_scope.

(** ** C69 *)
(** Expanding puts the new dimensions in front, and every copy has the
    parameters of the original.  Missing: vectors drawn with batched parameters
    and no size (refuted below). *)
Theorem C69_expand_partial : forall fresh r new B, well_formed r -> expandable r -> batch_shape r B -> exists r',
  change_rv_size fresh r new true = Val r' /\ same_but_size r r' /\ batch_shape r' (dims new ++ B) /\
  (forall i j k c x, List.length i = List.length (dims new) -> inside B j -> (param_at r' (i ++ j) k c x <-> param_at r j k c x)).
Proof. exact expand_ok. Qed.
Print Assumptions C69_expand_partial.
(** Resizing: the array has exactly the new dimensions, whatever the old
    size, and is drawable exactly when the parameters broadcast to them. *)
Theorem C69_resize : forall fresh r new, well_formed r -> dims new <> [] -> exists r',
  change_rv_size fresh r new false = Val r' /\ same_but_size r r' /\
  ((forall k b, batch_dims r k b -> broadcasts b (dims new)) <-> batch_shape r' (dims new)) /\
  (forall B, batch_shape r' B -> B = dims new) /\
  (forall i k c x, param_at r' i k c x <-> param_at r i k c x).
Proof. exact resize_ok. Qed.
Print Assumptions C69_resize.
(** The name stays, and no tag is lost. *)
Theorem C69_tags : forall fresh r new e r', change_rv_size fresh r new e = Val r' -> vname r' = vname r /\
  forall k, lookup k (vtag r') = match lookup k fresh with Some v => Some v | None => lookup k (vtag r) end.
Proof. exact change_tags. Qed.
Print Assumptions C69_tags.

(** a normal with two means and one scale, without a size *)
Definition ex_normal : rvar := {| vop := {| ndim_supp := 0; ndims_params := [0; 0]; supp_shape := fun _ => [] |};
  vrng := 5; vsize := []; vdtype := 1; vparams := [ {| nshp := [2]; nelt := fun i => Fin (INR (7 + hd 0 i)) |}; {| nshp := []; nelt := fun _ => Fin 1 |} ];
  vname := Some "x"%string; vtag := [("a"%string, 3)] |}.
Lemma ex_normal_wf : well_formed ex_normal.
Proof.
  split; [reflexivity|]. intros [|[|k]] H; cbn in H; [|  |lia]; [exists [2]|exists []]; do 2 eexists; exists [];
  (split; [reflexivity|]); (split; [reflexivity|]); split; reflexivity.
Qed.
Lemma ex_normal_shape : batch_shape ex_normal [2].
Proof.
  split; [|easy]. intros _. exists (batches (vop ex_normal) (vparams ex_normal)). split; [apply batches_iff, ex_normal_wf|].
  apply bcast_all_spec. reflexivity.
Qed.
Example C69_ex : exists r', change_rv_size [] ex_normal (NInt 3) true = Val r' /\ batch_shape r' [3; 2] /\
  param_at r' [2; 1] 0 [] (Fin (INR 8)) /\ lookup "a" (vtag r') = Some 3.
Proof.
  destruct (C69_expand_partial [] ex_normal (NInt 3) [2] ex_normal_wf (or_introl eq_refl) ex_normal_shape) as (r' & E & _ & S & P).
  exists r'. split; [exact E|]. split; [exact S|]. split.
  - apply (P [2] [1] 0 [] (Fin (INR 8)) eq_refl ltac:(repeat constructor)).
    eexists; exists [2], [1]. split; [reflexivity|]. split; [|split; [|reflexivity]].
    + do 2 eexists; exists []. repeat split.
    + apply aligned_iff; cbn; auto.
  - rewrite (proj2 (C69_tags _ _ _ _ _ E)). reflexivity.
Qed.
(** resizing a drawn array of four to five *)
Example C69_resize_ex : exists r', change_rv_size [] ex_normal (NVec [5; 2]) false = Val r' /\ batch_shape r' [5; 2].
Proof.
  destruct (C69_resize [] ex_normal (NVec [5; 2]) ex_normal_wf ltac:(easy)) as (r' & E & _ & S & _). exists r'. split; [exact E|].
  apply S. intros k b Hb. change (broadcasts b ([5] ++ [2])). apply broadcasts_prefix. eapply batch_broadcasts; [exact ex_normal_shape|exact Hb].
Qed.
(** Two normal vectors, of length 3, from a 2x3 array of means and no size:
    expanding by 4 gives size 4, to which the batch of two means does not
    broadcast (instead of 4x2 vectors). *)
Theorem C69_batched_refuted : exists r B new r', well_formed r /\ batch_shape r B /\ change_rv_size [] r new true = Val r' /\
  ~ batch_shape r' (dims new ++ B) /\ forall B', ~ batch_shape r' B'.
Proof.
  set (r := {| vop := {| ndim_supp := 1; ndims_params := [1; 2]; supp_shape := fun l => match l with m :: _ => [last m 0] | [] => [] end |};
    vrng := 0; vsize := []; vdtype := 1; vparams := [ {| nshp := [2; 3]; nelt := fun _ => Fin 0 |}; {| nshp := [3; 3]; nelt := fun _ => Fin 1 |} ];
    vname := None; vtag := [] |}).
  assert (W : well_formed r).
  { split; [reflexivity|]. intros [|[|k]] H; cbn in H; [| |lia]; [exists [2]|exists []]; do 2 eexists;
    [exists [3]|exists [3; 3]]; (split; [reflexivity|]); (split; [reflexivity|]); split; reflexivity. }
  exists r, [2], (NInt 4), (resized [] r [4]). split; [exact W|]. split; [|split; [reflexivity|]].
  - split; [|easy]. intros _. exists (batches (vop r) (vparams r)). split; [apply batches_iff, W|]. apply bcast_all_spec. reflexivity.
  - assert (N : forall B', ~ batch_shape (resized [] r [4]) B').
    { intros B' (_ & H). destruct (H ltac:(easy)) as (-> & H').
      assert (D : batch_dims (resized [] r [4]) 0 [2]) by (do 2 eexists; exists [3]; repeat split).
      apply H' in D. unfold broadcasts in D. apply bcast_all_spec in D. discriminate. }
    split; [apply N|exact N].
Qed.
Print Assumptions C69_batched_refuted.

(** ** C70 *)
(** An entry that is not masked has the extracted value whatever is written. *)
Theorem C70_unmasked : forall x sh a m, legal x sh -> extract_obs_data x = Val (a, m) -> forall env y, value env x y ->
  forall p, ~ masked m p -> nelt y p = nelt a p.
Proof. intros x sh a m L E env y V p N. eapply unmasked_known; eauto. destruct (mask_of m p) eqn:Q; auto. now apply masked_iff in Q. Qed.
Print Assumptions C70_unmasked.
(** A masked entry does depend on the unknowns: it differs whenever they all
    have one value or another.  Missing: known values written into the data,
    which are masked as well (refuted below). *)
Theorem C70_masked_partial : forall x sh a m, legal x sh -> all_unknown x -> extract_obs_data x = Val (a, m) -> forall p, masked m p ->
  forall c c' y y', c <> c' -> value (fun _ _ => c) x y -> value (fun _ _ => c') x y' -> nelt y p <> nelt y' p.
Proof. intros x sh a m L U E p M. eapply masked_varies; eauto. now apply masked_iff. Qed.
Print Assumptions C70_masked_partial.
(** Every legal expression has values and extracted data of its shape. *)
Theorem C70_succeeds : forall x sh, legal x sh -> (forall env, exists y, value env x y) /\
  exists a m, extract_obs_data x = Val (a, m) /\ nshp a = sh.
Proof. intros x sh L. split; [now apply (value_exists x sh)|]. destruct (extract_legal x sh L) as (a & m & E & S & _). eauto. Qed.
Print Assumptions C70_succeeds.
(** Anything not made of data, or an index that is not, is refused. *)
Theorem C70_refuses : forall x, unreadable x -> extract_obs_data x = Raise.
Proof. exact unreadable_raises. Qed.
Print Assumptions C70_refuses.

(** the data [1, 2, 3] with unknowns at positions 2 and 0 *)
Definition ex_ix : list index := [IArr {| shp := [2]; get := fun i => (2 - 2 * Z.of_nat (hd 0%nat i))%Z |}].
Definition ex_data : nd R := {| nshp := [3]; nelt := fun i => INR (S (hd 0 i)) |}.
Definition ex_obs (w : inserted) : obs := OInc true (OConst ex_data) w [2] (map Some ex_ix).
Lemma ex_ix_shape : np_shape ex_ix [3] [2].
Proof. apply np_shape_iff; [easy|repeat constructor|]. eexists; split; [reflexivity|]. split; [reflexivity|]. repeat constructor. Qed.
Lemma ex_ix_targets o p : targets ex_ix [3] [2] o p <-> (o = [0] /\ p = [2]) \/ (o = [1] /\ p = [0]).
Proof.
  assert (Ha : exists a, expand_indices ex_ix [3] = Val [a] /\ get a [0] = 2%Z /\ get a [1] = 0%Z) by (eexists; repeat split; reflexivity).
  destruct Ha as (a & E & H0 & H1).
  assert (G : forall z q, Forall2 (fun (na : nat * Z) x => wraps (fst na) (snd na) x) [(3, z)] q <-> exists k, q = [k] /\ wraps 3 z k).
  { intros z q. split; [intros H; inversion H as [|? k ? r Hk Hr]; subst; inversion Hr; subst; eauto|]. intros (k & -> & Hk). (constructor; [exact Hk|constructor]). }
  assert (T : forall o, inside [2] o -> (targets ex_ix [3] [2] o p <-> exists k, p = [k] /\ wraps 3 (get a o) k)).
  { intros o' Hin. rewrite (targets_iff ex_ix [3] [2] _ o' p ltac:(easy) ltac:(repeat constructor) ex_ix_shape E Hin). cbn [combine].
    rewrite <- G. split; intros H; inversion H as [|? ? ? ? Hk Hr]; subst; inversion Hr; subst; (constructor; [exact Hk|constructor]). }
  split.
  - intros Ht. pose proof (proj1 Ht) as Hin. apply T in Ht; auto. destruct Ht as (k & -> & Hk).
    inversion Hin as [|x d o' s Hx Hn]; subst. inversion Hn; subst. destruct x as [|[|x]]; [rewrite H0 in Hk|rewrite H1 in Hk|lia];
    destruct Hk as [Hk Hk']; [left|right]; split; auto; f_equal; lia.
  - intros [(-> & ->)|(-> & ->)]; (apply T; [repeat constructor|]); eexists; (split; [reflexivity|]); rewrite ?H0, ?H1; split; lia.
Qed.
Lemma ex_ix_assignable : assignable ex_ix [3] [2] [2].
Proof.
  split; [exact ex_ix_shape|]. split; [apply bcast_all_spec; reflexivity|].
  intros o Hin. inversion Hin as [|x d o' s Hx Hn]; subst. inversion Hn; subst.
  destruct x as [|[|x]]; [exists [2]|exists [0]|lia]; apply ex_ix_targets; auto.
Qed.
Lemma ex_legal w : legal (ex_obs w) [3].
Proof. apply (l_inc true _ w [2] ex_ix [3] [2]); [exact (l_const ex_data ltac:(easy))|repeat constructor|exact ex_ix_assignable]. Qed.
Example C70_ex : exists m, extract_obs_data (ex_obs (Unknown 0)) = Val (ex_data, Some m) /\ m [0] = true /\ m [1] = false /\ m [2] = true.
Proof. eexists. split; [vm_compute; reflexivity|]. repeat split. Qed.
Example C70_ex_value : forall env, exists y, value env (ex_obs (Unknown 0)) y /\ nelt y [1] = 2%R.
Proof.
  intros env. destruct (proj1 (C70_succeeds _ _ (ex_legal (Unknown 0))) env) as (y & V). exists y. split; [exact V|].
  destruct C70_ex as (m & E & _ & M & _). rewrite (C70_unmasked _ _ _ _ (ex_legal _) E env y V [1]); [cbn; lra|].
  intros (f & Ef & Q). injection Ef as <-. congruence.
Qed.
(** Writing the known values 9 over entries of the data: the entries are
    masked and their extracted values are the old ones. *)
Theorem C70_known_refuted : exists x sh a m p, legal x sh /\ none_unknown x /\ extract_obs_data x = Val (a, m) /\
  masked m p /\ forall env y, value env x y -> nelt y p <> nelt a p.
Proof.
  destruct C70_ex as (m & E & M & _). exists (ex_obs (Known (fun _ => 9%R))), [3], ex_data, (Some m), [0].
  split; [apply ex_legal|]. split; [repeat split; eexists; reflexivity|]. split; [exact E|]. split; [exists m; auto|].
  intros env y V. destruct (value_inv env true (OConst ex_data) (Known (fun _ => 9%R)) [2] ex_ix [3] [2] y (l_const ex_data ltac:(easy)) ltac:(repeat constructor) ex_ix_assignable V) as (y0 & _ & _ & H).
  destruct (H [0]) as (o & c & _ & _ & ->); [exists [1]; apply ex_ix_targets; auto|]. cbn. lra.
Qed.
Print Assumptions C70_known_refuted.
