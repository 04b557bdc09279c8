(** C21, C22: index expansion against NumPy's indexing rules. *)
From Coq Require Import List Arith ZArith Bool Lia.
From Verif Require Import XR ModelVec ModelIdx SpecIdx LemIdx LemIdx2.
Import ListNotations.
Open Scope nat_scope.

(** C21: [expand_indices] succeeds exactly when NumPy accepts the index tuple
    (as far as shapes are concerned), returns one integer array per dimension,
    all of the result's shape, and element [i] of [A[ix]] is element [src] of
    [A] iff the returned arrays hold [src] at [i] (up to negative indices
    counting from the end, as NumPy resolves them).  An array of no dimension
    has no index array to return. *)
Theorem C21_expand_indices : forall ix sh, sh <> [] -> positive_steps ix ->
  (forall o, np_shape ix sh o -> exists advs, expand_indices ix sh = Val advs /\ length advs = length sh /\
     List.Forall (fun a => shp a = o) advs /\
     forall i src, inside o i ->
       (np_element ix sh i src <-> Forall2 (fun na x => wraps (fst na) (get (snd na) i) x) (combine sh advs) src)) /\
  (forall advs, expand_indices ix sh = Val advs -> exists o, np_shape ix sh o).
Proof. exact expand_indices_spec. Qed.
Print Assumptions C21_expand_indices.

(** A case: [A[1:, [[0],[1]], None, -1]] of shape (3,2,4) has shape (2,1,2,1)
    (separated advanced indices first); element (1,0,1,0) is [A[2,1,3]]. *)
Definition ex_ix : list index :=
  [ISlice (Some 1%Z) None None; IArr {| shp := [2; 1]; get := fun i => Z.of_nat (hd 0 i) |}; INew; IInt (-1)].
Example ex_ix_positive : positive_steps ex_ix.
Proof. repeat constructor. Qed.
Example ex_ix_values :
  match expand_indices ex_ix [3; 2; 4] with
  | Val advs => map (fun a => (shp a, get a [1; 0; 1; 0])) advs = [([2; 1; 2; 1], 2%Z); ([2; 1; 2; 1], 1%Z); ([2; 1; 2; 1], (-1)%Z)]
  | Raise => False
  end.
Proof. reflexivity. Qed.
Example ex_ix_shape : np_shape ex_ix [3; 2; 4] [2; 1; 2; 1].
Proof.
  apply np_shape_iff; [easy|exact ex_ix_positive|].
  eexists; split; [reflexivity|]. split; [reflexivity|]. repeat constructor.
Qed.
Example ex_ix_element : np_element ex_ix [3; 2; 4] [1; 0; 1; 0] [2; 1; 3].
Proof.
  destruct (proj1 (C21_expand_indices ex_ix [3; 2; 4] ltac:(easy) ex_ix_positive) _ ex_ix_shape) as (advs & E & _ & _ & H).
  apply H; [repeat constructor|]. vm_compute in E. injection E as <-.
  repeat constructor; cbn; auto; lia.
Qed.
(** contiguous advanced indices stay in place: [A[:, [0,1], 0]] *)
Example ex_contiguous_shape :
  np_shape [ISlice None None None; IArr {| shp := [2]; get := fun i => Z.of_nat (hd 0 i) |}; IInt 0] [3; 2; 4] [3; 2].
Proof.
  apply np_shape_iff; [easy|repeat constructor|].
  eexists; split; [reflexivity|]. split; [reflexivity|]. repeat constructor.
Qed.
(** shapes that do not broadcast are refused: [A[[0,1], [0,1,2]]] *)
Example ex_refused :
  expand_indices [IArr {| shp := [2]; get := fun i => Z.of_nat (hd 0 i) |}; IArr {| shp := [3]; get := fun i => Z.of_nat (hd 0 i) |}] [3; 4] = Raise.
Proof. reflexivity. Qed.

Local Ltac sl := unfold slice_nth, py_start, py_stop, py_step; cbn -[Z.of_nat Z.mul Z.add Z.sub Nat.sub Nat.mul]; lia.
(** C22 is false of the code: the reversal flag of the canonical slice is
    dropped, so [A[::-1]] is expanded to [0, 1, 2] instead of [2, 1, 0]. *)
Theorem C22_negative_step_refuted : exists ix sh o advs i src,
  np_shape ix sh o /\ inside o i /\ expand_indices ix sh = Val advs /\
  np_element ix sh i src /\ ~ Forall2 (fun na x => wraps (fst na) (get (snd na) i) x) (combine sh advs) src.
Proof.
  assert (P0 : placed [ISlice None None (Some (-1)%Z)] [] [3] [3]) by (apply placed_insertion; reflexivity).
  assert (P1 : placed [ISlice None None (Some (-1)%Z)] [] [0] [0]) by (apply placed_insertion; reflexivity).
  assert (C : completes [ISlice None None (Some (-1)%Z)] [3] [ISlice None None (Some (-1)%Z)]).
  { constructor; [easy|]. exact (cp_done []). }
  assert (B0 : is_broadcast [] []).
  { split; [easy|]. split; [auto|]. cbn; lia. }
  exists [ISlice None None (Some (-1)%Z)], [3], [3]. eexists. exists [0], [2]. split; [|split; [|split; [reflexivity|split]]].
  - exists [ISlice None None (Some (-1)%Z)], [], [3]. split; [exact C|]. split; [exact B0|]. split; [|exact P0].
    constructor; [easy| |constructor]. intros k. split.
    + intros H. exists (2 - k). sl.
    + intros (p & H). revert H. sl.
  - repeat constructor.
  - exists [ISlice None None (Some (-1)%Z)], [], [], [0]. split; [exact C|]. split; [exact B0|]. split; [easy|]. split; [exact P1|].
    constructor; [|constructor]. sl.
  - intros H. inversion H as [|? ? ? ? (_ & W) _]; subst. vm_compute in W. destruct W; discriminate.
Qed.
Print Assumptions C22_negative_step_refuted.

(** What does hold for a negative step: the right elements are selected, in
    the opposite order.  Missing: the order itself. *)
Theorem C22_reversed_partial : forall start stop step n, (py_step step < 0)%Z ->
  exists c adv, expand_indices [ISlice start stop step] [n] = Val [adv] /\
    shp adv = [c] /\ slice_count start stop step n c /\
    forall k, k < c -> exists x, slice_nth start stop step n (c - 1 - k) x /\ get adv [k] = Z.of_nat x.
Proof. exact neg_slice_expand. Qed.
Print Assumptions C22_reversed_partial.
(** [A[8:1:-3]] for ten elements: NumPy gives 8, 5, 2 *)
Example C22_reversed_case : slice_count (Some 8%Z) (Some 1%Z) (Some (-3)%Z) 10 3 /\ slice_nth (Some 8%Z) (Some 1%Z) (Some (-3)%Z) 10 1 5.
Proof.
  split; [|sl]. intros k. split.
  - intros H. exists (8 - 3 * k). sl.
  - intros (p & H). revert H. sl.
Qed.
