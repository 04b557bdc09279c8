(** Examples and corollaries for the univariate variables on arrays. *)
From Coq Require Import Reals Lra Lia List Arith Bool.
From Verif Require Import XR Special ModelDist ModelVec ModelIdx ModelTen ModelSub ModelBatch SpecIdx SpecElem SpecVec SpecBatch SpecDist
  LemDist LemIdx LemIdx2 LemSub LemDisc LemUtil LemElem LemBatch ModelUniv SpecUniv LemUniv.
Import ListNotations.
Open Scope R_scope.

Lemma entries_exist u env s i : common u env s -> inside s i -> exists x, entries u env i x.
Proof. intros C I. exists (at_ env i). now apply (entries_ex u env s). Qed.

Lemma normal_arrays env s (mu sigma x : list nat -> R) l : common UNormal env s -> List.Forall (fun n => 0 < n)%nat s -> lists s l ->
  array_of Fin (env 0%nat) (nshp (env 0%nat)) mu -> array_of Fin (env 1%nat) (nshp (env 1%nat)) sigma -> array_of Fin (env 2%nat) (nshp (env 2%nat)) x ->
  (forall c, inside (nshp (env 1%nat)) c -> 0 < sigma c) ->
  exists a d, univ_nd UNormal env = Val a /\ denotes (Val (nd_total a)) (rprod (map d l)) /\
    forall i km ks kx, inside s i -> aligned (nshp (env 0%nat)) i km -> aligned (nshp (env 1%nat)) i ks -> aligned (nshp (env 2%nat)) i kx ->
      d i = normal_pdf (mu km) (sigma ks) (x kx).
Proof.
  intros C P L (_ & M) (_ & G) (_ & X) Pos.
  assert (Len : forall k i, (k <= 2)%nat -> inside s i -> (length (nshp (env k)) <= length i)%nat).
  { intros k i K I. rewrite (inside_length _ _ I). apply (proj1 C). apply in_map_iff. exists k. split; [reflexivity|]. apply in_seq. cbn. lia. }
  assert (Ins : forall k i, (k <= 2)%nat -> inside s i -> inside (nshp (env k)) (align (nshp (env k)) i)).
  { intros k i K I. apply (align_inside _ s); [|exact I]. apply (bc_in _ s _ C). apply in_map_iff. exists k. split; [reflexivity|]. apply in_seq. cbn. lia. }
  pose (d := fun i => normal_pdf (mu (align (nshp (env 0%nat)) i)) (sigma (align (nshp (env 1%nat)) i)) (x (align (nshp (env 2%nat)) i))).
  destruct (univ_joint UNormal env s d l C P L) as (a & E & D).
  { intros i y I H. cbn [scalar].
    rewrite !(entries_at UNormal env s i y C I H) by (cbn; lia). unfold at_.
    rewrite M, G, X by (apply Ins; [lia|exact I]). apply normal_ok. apply Pos. apply Ins; [lia|exact I]. }
  exists a, d. split; [exact E|]. split; [exact D|]. intros i km ks kx I Am As Ax. unfold d.
  apply aligned_iff in Am, As, Ax; try (apply Len; [lia|exact I]). now subst.
Qed.

(** means 0, 1, 2 along the row; deviations 1 and [c] down the column; values 10 i + j *)
Definition table_env (c : R) (k : nat) : nd xr :=
  match k with
  | 0%nat => {| nshp := [3]%nat; nelt := fun i => Fin (INR (nth 0 i 0%nat)) |}
  | 1%nat => {| nshp := [2; 1]%nat; nelt := fun i => if (nth 0 i 0 =? 0)%nat then Fin 1 else Fin c |}
  | _ => {| nshp := [2; 3]%nat; nelt := fun i => Fin (10 * INR (nth 0 i 0%nat) + INR (nth 1 i 0%nat)) |}
  end.
Lemma table_common c : common UNormal (table_env c) [2; 3]%nat.
Proof. apply bcast_all_spec. reflexivity. Qed.
Lemma table_value : exists a, univ_nd UNormal (table_env 3) = Val a /\ nshp a = [2; 3]%nat /\
  nelt a [1; 2]%nat = Fin (- (1/2) * ((12 - 2) / 3 * ((12 - 2) / 3)) - ln (sqrt (2 * PI)) - ln 3).
Proof.
  destruct (univ_defined UNormal (table_env 3) [2; 3]%nat (table_common 3)) as (a & E).
  { repeat constructor. }
  { intros i x I H. rewrite (scalar_at _ _ _ _ _ (table_common 3) I H), eval1_graph. cbn [scalar].
    unfold at_ at 2. cbn [table_env nelt nshp]. destruct (_ =? 0)%nat; unfold normal_logprob; rewrite check1; unfold xgt, xlt;
    match goal with |- context [Rltb 0 ?r] => replace (Rltb 0 r) with true by (symmetry; apply Rltb_true; lra) end; discriminate. }
  destruct (univ_values _ _ _ _ (table_common 3) E) as (S & F). exists a. split; [exact E|]. split; [exact S|].
  assert (I : inside [2; 3]%nat [1; 2]%nat) by (repeat constructor).
  pose proof (F _ _ I (entries_ex _ _ _ _ (table_common 3) I)) as H. cbn [scalar] in H.
  change (normal_logprob (Fin (1 + 1)) (Fin 3) (Fin (10 * 1 + (1 + 1))) = Val (nelt a [1; 2]%nat)) in H.
  unfold normal_logprob in H. rewrite check1 in H. unfold xgt, xlt in H. replace (Rltb 0 3) with true in H by (symmetry; apply Rltb_true; lra).
  injection H as H. rewrite <- H. clear H. unfold xdiv, xsub, xadd, xneg, xsq, xmul. destruct (Req_EM_T 3 0) as [K|_]; [lra|].
  unfold xsqrt. pose proof PI_RGT_0 as Pp. destruct (Rle_dec 0 (2 * PI)) as [_|N]; [|lra].
  unfold xlog. destruct (Rlt_dec 0 (sqrt (2 * PI))) as [_|N]; [|exfalso; apply N, sqrt_lt_R0; lra]. destruct (Rlt_dec 0 3) as [_|N]; [|lra].
  apply f_equal. replace (10 * 1 + (1 + 1) + - (1 + 1)) with (12 - 2) by ring. ring.
Qed.
Lemma table_raises : univ_nd UNormal (table_env (-3)) = Raise.
Proof.
  apply (univ_raises UNormal _ [2; 3]%nat (table_common (-3))); [repeat constructor|].
  assert (I : inside [2; 3]%nat [1; 2]%nat) by (repeat constructor).
  exists [1; 2]%nat, (at_ (table_env (-3)) [1; 2]%nat). split; [exact I|]. split; [exact (entries_ex _ _ _ _ (table_common _) I)|].
  cbn [scalar]. unfold normal_logprob. rewrite check1. unfold at_ at 4. cbn. replace (Rltb 0 (-3)) with false by (symmetry; apply Rltb_false; lra). reflexivity.
Qed.
Definition ragged_env (k : nat) : nd xr := {| nshp := [match k with 0 => 2 | _ => 3 end]%nat; nelt := fun _ => Fin 1 |}.
Lemma ragged s : ~ common UNormal ragged_env s.
Proof. intros H. apply bcast_all_spec in H. discriminate. Qed.
Definition empty_env (k : nat) : nd xr :=
  match k with 0%nat => {| nshp := []; nelt := fun _ => Fin 0 |} | 1%nat => {| nshp := []; nelt := fun _ => Fin (-1) |} | _ => {| nshp := [0]%nat; nelt := fun _ => Fin 0 |} end.
Lemma empty_raises : exists env s, common UNormal env s /\ (forall i, ~ inside s i) /\ univ_nd UNormal env = Raise.
Proof.
  exists empty_env, [0]%nat. split; [apply bcast_all_spec; reflexivity|]. split; [intros i I; inversion I; lia|].
  unfold univ_nd, graph, g_normal. cbn. unfold all_of. cbn. replace (Rltb 0 (-1)) with false by (symmetry; apply Rltb_false; lra). reflexivity.
Qed.
