(** C90: measurable forms of variables without values are taken back. *)
From Coq Require Import List Arith Bool Lia.
From Verif Require Import ModelJoint ModelUndo SpecUndo LemUndo6.
Import ListNotations.
Open Scope nat_scope.

Section C90.
Context {A : Type}.
Variable env : nat -> A.
Variable sem : uop -> list A -> option A.

(** C90, for rewrites that can be taken back in their order ([revertible]):
    after the measurable rewrites, the transforms and the undoing, every output
    is still a ValuedVariable with its value, and a requested variable that was
    not rewritten itself has parameters with the values they had before all
    rewrites, draws of unrequested variables included. *)
Theorem C90_undo_partial s0 cs ts : let s1 := fold_left convert cs s0 in
  prepared env s0 -> valid_conversions s0 cs -> revertible env sem s0 s1 -> valid_transforms env sem s0 s1 ts ->
  let h0 := u_heap s0 in let hf := u_heap (finish s0 cs ts) in
  forall i v r x, nth_error (u_outs s0) i = Some v -> node_args h0 v = [r; x] -> ~ In r (map c_old cs) ->
  exists v' r' y, nth_error (u_outs (finish s0 cs ts)) i = Some v' /\
    node_op hf v' = UVal /\ node_args hf v' = [r'; y] /\ umeans env sem hf v' (env x) /\
    (v' = v /\ r' = r \/ exists tr k, In (v, (tr, k)) ts /\ node_op hf r' = UMeas k) /\
    Forall2 (fun a a' => forall c, umeans env sem h0 a c <-> umeans env sem hf a' c) (node_args h0 r) (node_args hf r').
Proof.
  intros s1 P V Rv T h0 hf i v r x Ei Ea N.
  destruct (finish_spec env sem s0 cs ts P V Rv T i v r x Ei Ea) as (v' & r' & y & E1 & E2 & E3 & E4 & E5 & _).
  destruct (E5 N) as (E6 & E7). exists v', r', y. repeat (split; [assumption|]). exact E7.
Qed.

(** C90, the measurable form of a requested variable is kept: the output's
    first input is still the node its rewrite put there. *)
Theorem C90_valued_kept_partial s0 cs ts : let s1 := fold_left convert cs s0 in
  prepared env s0 -> valid_conversions s0 cs -> revertible env sem s0 s1 -> valid_transforms env sem s0 s1 ts ->
  let h0 := u_heap s0 in let hf := u_heap (finish s0 cs ts) in
  forall i v r x, nth_error (u_outs s0) i = Some v -> node_args h0 v = [r; x] -> In r (map c_old cs) ->
  exists v' r' y c, nth_error (u_outs (finish s0 cs ts)) i = Some v' /\
    node_op hf v' = UVal /\ node_args hf v' = [r'; y] /\ umeans env sem hf v' (env x) /\
    In c cs /\ c_old c = r /\ node_op hf r' = UMeas (c_kind c).
Proof.
  intros s1 P V Rv T h0 hf i v r x Ei Ea I.
  destruct (finish_spec env sem s0 cs ts P V Rv T i v r x Ei Ea) as (v' & r' & y & E1 & E2 & E3 & E4 & _ & E6).
  destruct (E6 I) as (c & E7). exists v', r', y, c. repeat (split; [assumption|]). exact E7.
Qed.

(** C90, no copy of a value variable is left in the graph, whatever rewrites
    and transforms were made. *)
Theorem C90_no_copies s0 cs ts x : prepared env s0 -> In x (map fst (u_vals s0)) ->
  ~ reach (u_heap (finish s0 cs ts)) (u_outs (finish s0 cs ts)) x.
Proof. exact (finish_no_copy env s0 cs ts x). Qed.
End C90.
Print Assumptions C90_undo_partial.
Print Assumptions C90_no_copies.
Print Assumptions C90_valued_kept_partial.

(** ** A model: X is requested and transformed, Y is not requested, Z is
    requested, normal around X + Y, and U = exp(T) is requested *)
Local Definition ex_heap : uheap :=
  [mku UIn []; mku UIn []; mku UIn []; mku UIn [];        (* copy of x, x, copy of z, z *)
   mku (UMeas 0) []; mku UVal [4; 0];                     (* X *)
   mku (UMeas 0) []; mku (UFun 0) [5; 6];                 (* Y; X + Y *)
   mku (UMeas 1) [7]; mku UVal [8; 2];                    (* Z *)
   mku UIn []; mku UIn [];                                (* copy of u, u *)
   mku (UMeas 0) []; mku (UFun 1) [12]; mku UVal [13; 10]]. (* T; exp T; U *)
Local Definition ex_s0 : ustate :=
  {| u_heap := ex_heap; u_outs := [5; 9; 14]; u_conv := []; u_vals := [(0, 1); (2, 3); (10, 11)] |}.
Local Definition ex_cs : list conversion :=
  [ {| c_copies := [(6, UMeas 0)]; c_kind := 3; c_args := [15; 5]; c_old := 7 |};
    {| c_copies := [(12, UMeas 0)]; c_kind := 4; c_args := [17]; c_old := 13 |} ].
Local Definition ex_ts : list (nat * (nat * nat)) := [(5, (0, 5))].
Local Definition ex_env (v : nat) : nat := match v with 0 | 1 => 8 | 2 | 3 => 6 | 10 | 11 => 7 | 19 => 4 | _ => 0 end.
Local Definition ex_sem (o : uop) (l : list nat) : option nat :=
  match o, l with
  | UMeas 0, [] => Some 5
  | UFun 0, [a; b] => Some (a + b)
  | UMeas 3, [a; b] => None                (* stand-ins cannot be computed *)
  | UMeas 1, [a] => Some a
  | UFun 1, [a] => Some (a + 1)
  | UBack 0, [a] => Some (2 * a)
  | _, _ => None
  end.

Local Ltac nodes v := repeat (destruct v as [|v]; [cbn|]).
Local Ltac fin := cbn in *; intuition (try lia; try congruence; try discriminate).
Local Ltac each n v := match n with 0 => idtac | S ?m => destruct v as [|v]; [|each m v] end.
Local Ltac prep n rk :=
  constructor;
  [ let v := fresh in let a := fresh in intros v a; each n v; fin; destruct v; fin
  | exists rk; let v := fresh in let a := fresh in intros v a; each n v; fin; destruct v; fin
  | let v := fresh in intros v; each n v; fin; destruct v; fin
  | let v := fresh in intros v; each n v; (split; [|intros tr]); try easy; destruct v; easy
  | let v := fresh in intros v; each n v; try easy; [..|destruct v; easy]; intros _; (split; [fin|]); do 2 eexists; (split; [reflexivity|]);
    (split; [easy|]); (split; [easy|]); (split; [easy|]); (split; [fin|]);
    let u := fresh in intros u; each n u; fin; destruct u; fin
  | intros o I; cbn in I; intuition subst; reflexivity
  | reflexivity
  | cbn; repeat constructor; fin
  | intros x b I; cbn in I; repeat (destruct I as [I|I]; [injection I as <- <-; repeat (split; [fin|]);
      let u := fresh in intros u; each n u; fin; destruct u; fin|]); easy ].
Local Ltac bel := first [apply b_arg; [easy|cbn; tauto] | eapply b_step; [easy|cbn; tauto|bel]].

Local Lemma ex_prepared : prepared ex_env ex_s0.
Proof. prep 15 (fun v : nat => v). Qed.
Local Lemma ex_conversions : valid_conversions ex_s0 ex_cs.
Proof.
  constructor.
  - constructor; try (vm_compute; tauto); try (eexists; reflexivity).
    + intros w o [E|[]]. injection E as <- <-. split; [bel|]. split; eexists; reflexivity.
    + intros a [<-|[<-|[]]]; [left; cbn; lia|right; bel].
  - constructor; [|constructor].
    constructor; try (vm_compute; tauto); try (eexists; vm_compute; reflexivity).
    + vm_compute. intuition discriminate.
    + intros w o [E|[]]. injection E as <- <-. split; [apply b_arg; [vm_compute; easy|vm_compute; tauto]|].
      split; eexists; vm_compute; reflexivity.
    + intros a [<-|[]]. left. vm_compute. lia.
Qed.
Local Lemma ex_revertible : revertible ex_env ex_sem ex_s0 (fold_left convert ex_cs ex_s0).
Proof.
  intros r n I. vm_compute in I. destruct I as [I|[]]. injection I as <- <-. right.
  intros r' n' I B. vm_compute in I. destruct I as [I|[]]. injection I as <- <-.
  assert (K : forall v w, below ex_heap v w -> w < v).
  { intros v w D. induction D as [v a _ Ia|v a w _ Ia _ IH];
      (assert (a < v); [revert Ia; clear; each 15 v; fin; destruct v; fin|lia]). }
  specialize (K _ _ B). lia.
Qed.
Local Lemma ex_transforms : valid_transforms ex_env ex_sem ex_s0 (fold_left convert ex_cs ex_s0) ex_ts.
Proof.
  constructor; [|constructor]. exists 4, 0, []. repeat (split; [vm_compute; try lia; tauto|]). split; [constructor|reflexivity].
Qed.
(** Z's mean is the value 8 of X plus the draw 5 of Y, before and after; the
    stand-in for X + Y has been taken back, the one for U is there *)
Example C90_case :
  prepared ex_env ex_s0 /\ valid_conversions ex_s0 ex_cs /\
  revertible ex_env ex_sem ex_s0 (fold_left convert ex_cs ex_s0) /\
  valid_transforms ex_env ex_sem ex_s0 (fold_left convert ex_cs ex_s0) ex_ts /\
  u_conv (fold_left convert ex_cs ex_s0) = [(7, 16)] /\
  node_args (u_heap (fold_left convert ex_cs ex_s0)) 8 = [16] /\
  node_args (u_heap (finish ex_s0 ex_cs ex_ts)) 8 = [7] /\
  umeans ex_env ex_sem (u_heap (finish ex_s0 ex_cs ex_ts)) 7 13 /\
  node_op (u_heap (finish ex_s0 ex_cs ex_ts)) (hd 0 (node_args (u_heap (finish ex_s0 ex_cs ex_ts)) 14)) = UMeas 4.
Proof.
  split; [exact ex_prepared|]. split; [exact ex_conversions|]. split; [exact ex_revertible|]. split; [exact ex_transforms|].
  split; [reflexivity|]. split; [reflexivity|]. split; [reflexivity|]. split; [|reflexivity].
  apply (um_op _ _ _ 7 (UFun 0) [5; 6] [8; 5] 13); try easy.
  constructor; [|constructor; [|constructor]].
  - apply (um_val _ _ _ 5 4 22); [reflexivity|]. apply (um_transd _ _ _ 22 21 19); [reflexivity|].
    apply (um_op _ _ _ 21 (UBack 0) [19] [4] 8); try easy. constructor; [|constructor]. change 4 with (ex_env 19). now apply um_in.
  - now apply (um_op _ _ _ 6 (UMeas 0) [] [] 5).
Qed.

(** ** Not every rewrite can be taken back *)
Local Definition nest_heap : uheap :=
  [mku UIn []; mku UIn []; mku UIn []; mku UIn [];                     (* copy of z, z, i, j *)
   mku (UMeas 0) []; mku (UMeas 0) []; mku (UMeas 0) [];               (* A, B, C *)
   mku (UFun 0) [2; 4; 5]; mku (UFun 0) [3; 7; 6];                     (* switch(i, A, B); switch(j, that, C) *)
   mku (UMeas 1) [8]; mku UVal [9; 0]].                                (* Z *)
Local Definition nest_s0 : ustate := {| u_heap := nest_heap; u_outs := [10]; u_conv := []; u_vals := [(0, 1)] |}.
Local Definition nest_cs : list conversion :=
  [ {| c_copies := [(4, UMeas 0); (5, UMeas 0)]; c_kind := 2; c_args := [2; 11; 12]; c_old := 7 |};
    {| c_copies := [(13, UMeas 2); (6, UMeas 0)]; c_kind := 2; c_args := [3; 14; 15]; c_old := 8 |} ].
Local Definition nest_sem (o : uop) (l : list nat) : option nat :=
  match o, l with
  | UMeas 0, [] => Some 5
  | UFun 0, [c; a; b] => Some (if c =? 0 then b else a)
  | UMeas 1, [a] => Some a
  | _, _ => None                           (* MixtureRV.perform raises, mixture.py:197-198 *)
  end.
(** Z is normal around switch(j, switch(i, A, B), C), and only Z is requested.
    Both switches become MixtureRVs.  The outer one holds a copy of the inner
    one, so the inner one is not in the graph when it is to be replaced; taking
    the outer one back brings it in again.  Z's mean then cannot be computed,
    though it could before. *)
Theorem C90_nested_refuted : exists (env : nat -> nat) sem s0 cs,
  prepared env s0 /\ valid_conversions s0 cs /\
  exists v r x m a, nth_error (u_outs s0) 0 = Some v /\ node_args (u_heap s0) v = [r; x] /\ ~ In r (map c_old cs) /\
    node_args (u_heap s0) r = [m] /\ umeans env sem (u_heap s0) m a /\
    nth_error (u_outs (finish s0 cs [])) 0 = Some v /\
    node_args (u_heap (finish s0 cs [])) v = [r; 1] /\ node_args (u_heap (finish s0 cs [])) r = [m] /\
    forall b, ~ umeans env sem (u_heap (finish s0 cs [])) m b.
Proof.
  exists (fun _ => 0), nest_sem, nest_s0, nest_cs. split; [prep 11 (fun v : nat => v)|]. split.
  { constructor; [|constructor; [|constructor]].
    - constructor; try (vm_compute; tauto); try (eexists; reflexivity).
      + intros w o I. cbn in I. destruct I as [E|[E|[]]]; injection E as <- <-; (split; [bel|]); split; eexists; reflexivity.
      + intros a I. cbn in I. destruct I as [<-|[<-|[<-|[]]]]; [right; bel|left; cbn; lia|left; cbn; lia].
    - constructor; try (vm_compute; tauto); try (eexists; vm_compute; reflexivity).
      + vm_compute. intuition discriminate.
      + intros w o I. cbn in I. destruct I as [E|[E|[]]]; injection E as <- <-;
          (split; [apply b_arg; [vm_compute; easy|vm_compute; tauto]|]); split; eexists; vm_compute; reflexivity.
      + intros a I. cbn in I. destruct I as [<-|[<-|[<-|[]]]]; [right; apply b_arg; [vm_compute; easy|vm_compute; tauto]|left; vm_compute; lia|left; vm_compute; lia]. }
  exists 10, 9, 0, 8, 5. do 3 (split; [cbn; intuition lia|]). split; [reflexivity|]. split.
  { assert (D : forall v, In v [4; 5; 6] -> umeans (fun _ => 0) nest_sem nest_heap v 5).
    { intros v [<-|[<-|[<-|[]]]]; eapply um_op; try reflexivity; try discriminate; constructor. }
    assert (I : forall v, In v [2; 3] -> umeans (fun _ => 0) nest_sem nest_heap v 0).
    { intros v I. apply (um_in (fun _ => 0)). destruct I as [<-|[<-|[]]]; reflexivity. }
    apply (um_op _ _ _ 8 (UFun 0) [3; 7; 6] [0; 5; 5] 5); try easy. constructor; [apply I; cbn; tauto|]. constructor; [|constructor; [apply D; cbn; tauto|constructor]].
    apply (um_op _ _ _ 7 (UFun 0) [2; 4; 5] [0; 5; 5] 5); try easy. constructor; [apply I; cbn; tauto|]. constructor; [apply D; cbn; tauto|]. constructor; [apply D; cbn; tauto|constructor]. }
  do 3 (split; [reflexivity|]). intros b Hb. vm_compute in Hb.
  inversion Hb as [| | |v o l xs a E ? ? ? F S]; subst; try discriminate. injection E as <- <-.
  inversion F as [|? ? ? ? F1 F2]; subst. inversion F2 as [|? ? ? ? F3 F4]; subst.
  inversion F3 as [| | |v' o' l' xs' a' E' ? ? ? F' S']; subst; try discriminate. injection E' as <- <-. discriminate S'.
Qed.

Local Definition lift_heap : uheap :=
  [mku UIn []; mku UIn []; mku UIn [];                                 (* copy of z, z, mu *)
   mku (UMeas 0) [2]; mku (UFun 0) [3]; mku (UFun 1) [4];              (* X; X[1]; exp(X[1]) *)
   mku (UMeas 1) [5; 4]; mku UVal [6; 0]].                             (* Z *)
Local Definition lift_s0 : ustate := {| u_heap := lift_heap; u_outs := [7]; u_conv := []; u_vals := [(0, 1)] |}.
Local Definition lift_cs : list conversion :=
  [ {| c_copies := []; c_kind := 2; c_args := [2]; c_old := 4 |};
    {| c_copies := [(8, UMeas 2)]; c_kind := 3; c_args := [9]; c_old := 5 |} ].
Local Definition lift_sem (o : uop) (l : list nat) : option nat :=
  match o, l with
  | UMeas 0, [m] => Some (m + 3)           (* a draw of X *)
  | UFun 0, [x] => Some (x + 1)            (* another element of it *)
  | UMeas 2, [m] => Some (m + 3)           (* a draw of the lifted variable *)
  | UFun 1, [x] => Some (2 * x)
  | UMeas 3, [x] => Some (2 * x)
  | _, _ => None
  end.
(** Z is normal with mean exp(X[1]) and scale X[1], and only Z is requested.
    X[1] becomes a random variable of its own (subtensor_lift), exp of that a
    MeasurableElemwiseTransform of a copy.  Afterwards the scale is the draw
    X[1] again, but the mean is exp of a draw of the other random variable:
    the two parameters, functions of one draw before, are now functions of two
    different ones. *)
Theorem C90_lifted_refuted : exists (env : nat -> nat) sem s0 cs,
  prepared env s0 /\ valid_conversions s0 cs /\
  exists v r x m sd a b a', nth_error (u_outs s0) 0 = Some v /\ node_args (u_heap s0) v = [r; x] /\ ~ In r (map c_old cs) /\
    node_args (u_heap s0) r = [m; sd] /\ umeans env sem (u_heap s0) m a /\ umeans env sem (u_heap s0) sd b /\
    nth_error (u_outs (finish s0 cs [])) 0 = Some v /\
    node_args (u_heap (finish s0 cs [])) v = [r; 1] /\ node_args (u_heap (finish s0 cs [])) r = [m; sd] /\
    umeans env sem (u_heap (finish s0 cs [])) sd b /\ umeans env sem (u_heap (finish s0 cs [])) m a' /\
    ~ umeans env sem (u_heap (finish s0 cs [])) m a.
Proof.
  exists (fun _ => 0), lift_sem, lift_s0, lift_cs. split; [prep 8 (fun v : nat => v)|]. split.
  { constructor; [|constructor; [|constructor]].
    - constructor; try (vm_compute; tauto); try (eexists; reflexivity).
      + intros a [<-|[]]. right. bel.
    - constructor; try (vm_compute; tauto); try (eexists; vm_compute; reflexivity).
      + vm_compute. intuition discriminate.
      + intros w o I. cbn in I. destruct I as [E|[]]; injection E as <- <-;
          (split; [apply b_arg; [vm_compute; easy|vm_compute; tauto]|]); split; eexists; vm_compute; reflexivity.
      + intros a I. cbn in I. destruct I as [<-|[]]. left; vm_compute; lia. }
  assert (I0 : umeans (fun _ => 0) lift_sem lift_heap 2 0) by now apply (um_in (fun _ => 0)).
  assert (X0 : umeans (fun _ => 0) lift_sem lift_heap 4 4).
  { apply (um_op _ _ _ 4 (UFun 0) [3] [3]); try easy. constructor; [|constructor]. apply (um_op _ _ _ 3 (UMeas 0) [2] [0]); try easy. now repeat constructor. }
  exists 7, 6, 0, 5, 4, 8, 4, 6. do 3 (split; [cbn; intuition lia|]). split; [reflexivity|]. split.
  { apply (um_op _ _ _ 5 (UFun 1) [4] [4]); try easy. constructor; [exact X0|constructor]. }
  split; [exact X0|]. do 3 (split; [reflexivity|]).
  set (hf := u_heap (finish lift_s0 lift_cs [])).
  assert (I1 : umeans (fun _ => 0) lift_sem hf 2 0) by now apply (um_in (fun _ => 0)).
  split.
  { apply (um_op _ _ _ 4 (UFun 0) [3] [3]); try easy. constructor; [|constructor]. apply (um_op _ _ _ 3 (UMeas 0) [2] [0]); try easy. now repeat constructor. }
  split.
  { apply (um_op _ _ _ 5 (UFun 1) [8] [3]); try easy. constructor; [|constructor]. apply (um_op _ _ _ 8 (UMeas 2) [2] [0]); try easy. now repeat constructor. }
  intros Hb. vm_compute in hf. subst hf. clear I1.
  inversion Hb as [| | |v o l xs a E ? ? ? F S]; subst; try discriminate. injection E as <- <-.
  inversion F as [|? ? ? ? F1 F2]; subst. inversion F2; subst.
  inversion F1 as [| | |v' o' l' xs' a' E' ? ? ? F' S']; subst; try discriminate. injection E' as <- <-.
  inversion F' as [|? ? ? ? F3 F4]; subst. inversion F4; subst. cbn in S'. injection S' as <-.
  inversion F3; subst; try discriminate.
  match goal with H : nth_error _ _ = Some (mku ?o _), N : ?o <> UIn |- _ => cbn in H; injection H as <- <-; now apply N end.
Qed.
Print Assumptions C90_nested_refuted.
Print Assumptions C90_lifted_refuted.
