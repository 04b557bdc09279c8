(** Lemmas for C41. *)
From Coq Require Import List Arith Bool Lia.
From Verif Require Import XR ModelReg SpecReg.
Import ListNotations.
Open Scope nat_scope.

Section Reg.
Variables (hp : nat -> nat) (H : nat -> nat -> nat -> nat).
Notation hs := (hash hp H). Notation teq := (ty_eq hp H). Notation look := (lookup hp H). Notation rgst := (register hp H). Notation asg := (assign hp H).

Lemma teq_refl : forall t, teq t t = true.
Proof. destruct t; cbn; apply Nat.eqb_refl. Qed.
Lemma teq_sym : forall t t', teq t t' = teq t' t.
Proof. destruct t, t'; cbn; try reflexivity; apply Nat.eqb_sym. Qed.
Lemma teq_trans : forall a b c, teq a b = true -> teq a c = teq b c.
Proof.
  destruct a, b; try easy; intros c E; cbn in E; apply Nat.eqb_eq in E.
  - subst. easy.
  - destruct c; [easy|]. cbn. rewrite E. easy.
Qed.
Lemma look_register : forall r t f t', look (rgst r t f) t' = if teq t' t then Some f else look r t'.
Proof.
  intros r t f t'. induction r as [|[u g] r IH]; cbn; [easy|]. destruct (teq t u) eqn:E; cbn.
  - rewrite (teq_sym t' u), (teq_sym t' t), <- (teq_trans _ _ t' E). destruct (teq t t'); easy.
  - rewrite IH. destruct (teq t' u) eqn:E2; [|easy]. rewrite (teq_trans _ _ t E2), teq_sym, E. easy.
Qed.

Definition okreg (s : state) : Prop :=
  forall i b p f q, nth_error (ops s) i = Some {| o_ty := Unm b p f; o_props := q |} -> look (reg s) (Unm b p f) = Some f /\ is_unm b = false.
Definition okfn (s : state) (ns : list anode) : Prop := forall n, In n ns -> a_op n < length (ops s).
Definition inv (w : state * list anode) : Prop := okreg (fst w) /\ okfn (fst w) (snd w).

(** what one call does *)
Lemma assign_cases : forall s n f s' n', asg s n f = Val (s', n') ->
  exists o, nth_error (ops s) (a_op n) = Some o /\
  ((s' = s /\ n' = n /\ is_unm (o_ty o) = true /\ look (reg s) (o_ty o) = Some f) \/
   ((is_unm (o_ty o) = true -> look (reg s) (o_ty o) = None) /\
    ops s' = ops s ++ [{| o_ty := Unm (o_ty o) (o_props o) f; o_props := o_props o |}] /\ reg s' = rgst (reg s) (Unm (o_ty o) (o_props o) f) f /\
    a_op n' = length (ops s) /\ a_outs n' = seq (fresh s) (length (a_outs n)))).
Proof.
  intros s n f s' n' E. unfold assign in E. destruct (nth_error (ops s) (a_op n)) as [o|]; [|discriminate]. exists o. split; [easy|].
  destruct (if is_unm (o_ty o) then look (reg s) (o_ty o) else None) as [g|] eqn:L.
  - destruct (g =? f) eqn:G; [|discriminate]. apply Nat.eqb_eq in G. subst g. injection E as <- <-. left. destruct (is_unm (o_ty o)); [easy|discriminate].
  - injection E as <- <-. right. cbn. split; [|easy]. intros I. rewrite I in L. exact L.
Qed.
Lemma event_ops : forall w w', event hp H w w' -> exists l, ops (fst w') = ops (fst w) ++ l.
Proof.
  intros w w' E. destruct E as [s ns k p|s ns i l L|s ns n f s' n' I E]; cbn; [eexists; reflexivity|exists []; rewrite app_nil_r; easy|].
  apply assign_cases in E as (o & _ & [(-> & _)|(_ & -> & _)]); [exists []; rewrite app_nil_r; easy|eexists; reflexivity].
Qed.
Lemma coll_mono : forall s s' l, ops s' = ops s ++ l -> no_collision hp H s' -> no_collision hp H s.
Proof.
  intros s s' l E N i j b p f b' p' f' q q' E1 E2. apply (N i j b p f b' p' f' q q'); rewrite E.
  - rewrite nth_error_app1; [exact E1|]. apply nth_error_Some. congruence.
  - rewrite nth_error_app1; [exact E2|]. apply nth_error_Some. congruence.
Qed.
Lemma event_nodes : forall w w', event hp H w w' -> forall n, In n (snd w) -> In n (snd w').
Proof. intros w w' E n I. destruct E; cbn in *; auto. Qed.
Lemma event_inv : forall w w', inv w -> event hp H w w' -> no_collision hp H (fst w') -> inv w'.
Proof.
  intros w w' (R & A) E N. destruct E as [s ns k p|s ns i l L|s ns n f s' n' I E]; cbn in *.
  - split; cbn.
    + intros i b p' f q E. cbn in E. destruct (lt_dec i (length (ops s))) as [L|L].
      * rewrite nth_error_app1 in E by exact L. apply (R i b p' f q E).
      * rewrite nth_error_app2 in E by lia. destruct (i - length (ops s)) as [|[|x]]; discriminate.
    + intros n I. cbn. rewrite app_length. specialize (A n I). lia.
  - split; [exact R|]. intros n [<-|I]; [exact L|apply A, I].
  - apply assign_cases in E as (o & Eo & [(-> & -> & _)|(Un & Eops & Ereg & Eop & _)]).
    + split; [exact R|]. intros m [<-|J]; [apply A, I|apply A, J].
    + assert (U0 : is_unm (o_ty o) = false).
      { destruct (is_unm (o_ty o)) eqn:Q; [|easy]. specialize (Un eq_refl). destruct o as [[k|b p f'] q]; [discriminate|]. cbn in Un. rewrite (proj1 (R _ _ _ _ _ Eo)) in Un. discriminate. }
      assert (Q1 : nth_error (ops s') (length (ops s)) = Some {| o_ty := Unm (o_ty o) (o_props o) f; o_props := o_props o |}).
      { rewrite Eops, nth_error_app2, Nat.sub_diag by lia. easy. }
      split; cbn.
      * intros i b p f' q E. assert (E' := E). rewrite Eops in E. rewrite Ereg, look_register.
        destruct (lt_dec i (length (ops s))) as [L|L].
        -- rewrite nth_error_app1 in E by exact L. destruct (R _ _ _ _ _ E) as (R1 & R2). split; [|exact R2].
           destruct (teq (Unm b p f') (Unm (o_ty o) (o_props o) f)) eqn:T; [|exact R1]. f_equal.
           cbn [ty_eq] in T. apply Nat.eqb_eq in T. symmetry. apply (N _ _ _ _ _ _ _ _ _ _ E' Q1 T).
        -- rewrite nth_error_app2 in E by lia. destruct (i - length (ops s)) as [|[|x]]; [|discriminate|discriminate].
           injection E as <- <- <- _. rewrite teq_refl. auto.
      * intros m [<-|J]; rewrite Eops, app_length; cbn; [lia|]. specialize (A m J). lia.
Qed.
Lemma later_ops : forall w w', later hp H w w' -> exists l, ops (fst w') = ops (fst w) ++ l.
Proof.
  intros w w' L. induction L as [w|w w' w'' L (l & IH) E]; [exists []; rewrite app_nil_r; easy|].
  apply event_ops in E as (l' & E). exists (l ++ l'). rewrite E, IH, app_assoc. easy.
Qed.
Lemma later_nodes : forall w w', later hp H w w' -> forall n, In n (snd w) -> In n (snd w').
Proof. intros w w' L. induction L as [w|w w' w'' L IH E]; intros n I; [exact I|]. eapply event_nodes; eauto. Qed.
Lemma later_inv : forall w w', later hp H w w' -> inv w -> no_collision hp H (fst w') -> inv w'.
Proof.
  intros w w' L. induction L as [w|w w' w'' L IH E]; intros I N; [exact I|].
  eapply event_inv; [|exact E|exact N]. apply IH; [exact I|]. destruct (event_ops _ _ E) as (l & El). eapply coll_mono; eauto.
Qed.
Lemma reach_inv : forall w, reachable hp H w -> no_collision hp H (fst w) -> inv w.
Proof.
  intros w (w0 & (r & x & ->) & L) N. eapply later_inv; [exact L| |exact N]. split; cbn.
  - intros i b p f q E. destruct i; discriminate.
  - intros n [].
Qed.
Lemma op_later : forall w w' n, later hp H w w' -> inv w -> In n (snd w) -> nth_error (ops (fst w')) (a_op n) = nth_error (ops (fst w)) (a_op n).
Proof.
  intros w w' n L (_ & A) I. destruct (later_ops _ _ L) as (l & E). rewrite E. apply nth_error_app1. apply A, I.
Qed.
Lemma mark_op : forall s ns n f s' n', inv (s, ns) -> In n ns -> asg s n f = Val (s', n') ->
  exists b p q, nth_error (ops s') (a_op n') = Some {| o_ty := Unm b p f; o_props := q |} /\
    exists t, ty_of s n = Some t /\ ((t = b /\ is_unm t = false) \/ t = Unm b p f).
Proof.
  intros s ns n f s' n' (R & _) I E. cbn in R. unfold ty_of. apply assign_cases in E as (o & Eo & [(-> & -> & U & L)|(Un & Eops & Ereg & Eop & _)]).
  - destruct o as [[k|b p f'] q]; [discriminate|]. cbn in L. rewrite (proj1 (R _ _ _ _ _ Eo)) in L. injection L as ->. exists b, p, q. rewrite Eo. cbn. eauto.
  - exists (o_ty o), (o_props o), (o_props o). rewrite Eops, Eop, nth_error_app2, Nat.sub_diag by lia. split; [easy|]. exists (o_ty o). rewrite Eo. split; [easy|]. left. split; [easy|].
    destruct o as [[k|b p f'] q]; [easy|]. cbn in Un. specialize (Un eq_refl). rewrite (proj1 (R _ _ _ _ _ Eo)) in Un. discriminate.
Qed.

Lemma remark : forall s ns n f s1 n1 s2 ns2, reachable hp H (s, ns) -> In n ns -> asg s n f = Val (s1, n1) ->
  later hp H (s1, n1 :: ns) (s2, ns2) -> no_collision hp H s2 ->
  asg s2 n1 f = Val (s2, n1) /\ forall g, g <> f -> asg s2 n1 g = Raise.
Proof.
  intros s ns n f s1 n1 s2 ns2 R I E L N.
  assert (N1 : no_collision hp H s1) by (destruct (later_ops _ _ L) as (l & El); cbn in El; eapply coll_mono; eauto).
  assert (Ev : event hp H (s, ns) (s1, n1 :: ns)) by (eapply ev_mark; eauto).
  assert (N0 : no_collision hp H s) by (destruct (event_ops _ _ Ev) as (l & El); cbn in El; eapply coll_mono; eauto).
  assert (I0 := reach_inv _ R N0). assert (I1 := event_inv _ _ I0 Ev N1). assert (I2 := later_inv _ _ L I1 N).
  destruct (mark_op s ns n f s1 n1 I0 I E) as (b & p & q & Q & _).
  assert (OL := op_later _ _ n1 L I1 (or_introl eq_refl)). cbn in OL. rewrite <- OL in Q. destruct I2 as (R2 & _). cbn in R2.
  assert (K := proj1 (R2 _ _ _ _ _ Q)). unfold assign. rewrite Q. cbn [o_ty is_unm]. rewrite K. split.
  - rewrite Nat.eqb_refl. easy.
  - intros g G. rewrite (proj2 (Nat.eqb_neq f g)) by congruence. easy.
Qed.

Variables (mro : nat -> list nat) (meas : nat -> bool) (F : nat -> list nat -> option (list nat)).
Notation gmo := (get_measurable_outputs hp H mro meas F).
Lemma look_plain_later : forall w w', later hp H w w' -> forall k, look (reg (fst w')) (Plain k) = look (reg (fst w)) (Plain k).
Proof.
  intros w w' L k. induction L as [w|w w' w'' L IH E]; [easy|]. rewrite <- IH. destruct E as [s ns k' p|s ns i l Li|s ns n f s' n' I E]; cbn; try easy.
  apply assign_cases in E as (o & _ & [(-> & _)|(_ & _ & -> & _)]); [easy|]. rewrite look_register. easy.
Qed.
Lemma dispatch_plain : forall r r' l, (forall k, look r (Plain k) = look r' (Plain k)) -> dispatch hp H r (map Plain l) = dispatch hp H r' (map Plain l).
Proof. intros r r' l E. induction l as [|k l IH]; [easy|]. cbn [map dispatch]. rewrite E, IH. easy. Qed.
Lemma outputs_kept : forall s ns s2 ns2, reachable hp H (s, ns) -> later hp H (s, ns) (s2, ns2) -> no_collision hp H s2 ->
  forall n, In n ns -> gmo s2 n = gmo s n /\ gmo s n <> None.
Proof.
  intros s ns s2 ns2 R L N n I.
  assert (N0 : no_collision hp H s) by (destruct (later_ops _ _ L) as (l & El); cbn in El; eapply coll_mono; eauto).
  assert (I0 := reach_inv _ R N0). assert (I2 := later_inv _ _ L I0 N).
  unfold get_measurable_outputs, ty_of. assert (Q := op_later _ _ n L I0 I). cbn in Q. rewrite Q.
  destruct (nth_error (ops s) (a_op n)) as [[t q]|] eqn:E; [|exfalso; apply nth_error_None in E; destruct I0 as (_ & A); specialize (A n I); cbn in A; lia].
  cbn. split; [|easy]. f_equal. destruct t as [k|b p f].
  - cbn [supers is_measurable]. rewrite (dispatch_plain _ (reg s)); [easy|]. apply (look_plain_later _ _ L).
  - cbn [supers dispatch]. destruct I2 as (R2 & _), I0 as (R0 & _). cbn in R2, R0. rewrite (proj1 (R2 _ _ _ _ _ Q)), (proj1 (R0 _ _ _ _ _ E)). easy.
Qed.
Lemma marked_outputs : forall s ns n f s1 n1 s2 ns2, reachable hp H (s, ns) -> In n ns -> asg s n f = Val (s1, n1) ->
  later hp H (s1, n1 :: ns) (s2, ns2) -> no_collision hp H s2 ->
  exists t, ty_of s n = Some t /\ gmo s2 n1 = Some (if is_measurable meas t then F f (a_outs n1) else Some []).
Proof.
  intros s ns n f s1 n1 s2 ns2 R I E L N.
  assert (N1 : no_collision hp H s1) by (destruct (later_ops _ _ L) as (l & El); cbn in El; eapply coll_mono; eauto).
  assert (Ev : event hp H (s, ns) (s1, n1 :: ns)) by (eapply ev_mark; eauto).
  assert (N0 : no_collision hp H s) by (destruct (event_ops _ _ Ev) as (l & El); cbn in El; eapply coll_mono; eauto).
  assert (I0 := reach_inv _ R N0). assert (I1 := event_inv _ _ I0 Ev N1). assert (I2 := later_inv _ _ L I1 N).
  destruct (mark_op s ns n f s1 n1 I0 I E) as (b & p & q & Q & t & Et & T).
  assert (OL := op_later _ _ n1 L I1 (or_introl eq_refl)). cbn in OL. rewrite <- OL in Q. destruct I2 as (R2 & _). cbn in R2.
  assert (K := proj1 (R2 _ _ _ _ _ Q)). exists t. split; [exact Et|]. unfold get_measurable_outputs, ty_of. rewrite Q. cbn [option_map o_ty supers dispatch]. rewrite K.
  f_equal. destruct T as [(-> & _)| ->]; easy.
Qed.
End Reg.

(** a hash with finitely many values *)
Lemma pigeon : forall (h : nat -> nat) B, (forall x, h x < B) -> exists x y, x <> y /\ h x = h y.
Proof.
  intros h B L. set (l := seq 0 (S B)).
  assert (D : ~ NoDup (map h l)).
  { intros N. assert (Q : incl (map h l) (seq 0 B)). { intros y I. apply in_map_iff in I as (x & <- & _). apply in_seq. specialize (L x). lia. }
    apply (NoDup_incl_length N) in Q. unfold l in Q. rewrite map_length, !seq_length in Q. lia. }
  assert (G : forall m : list nat, NoDup m -> NoDup (map h m) \/ exists x y, x <> y /\ h x = h y).
  { induction m as [|a m IH]; intros N; [left; constructor|]. inversion N as [|a' m' Na Nm]; subst. destruct (IH Nm) as [IH'|E]; [|auto].
    destruct (in_dec Nat.eq_dec (h a) (map h m)) as [I|I]; [|left; constructor; assumption]. right.
    apply in_map_iff in I as (y & Ey & Iy). exists y, a. split; [|exact Ey]. intros ->. contradiction. }
  destruct (G l (seq_NoDup _ _)) as [G'|G']; [contradiction|exact G'].
Qed.
Lemma collision : forall hp H B, (forall x y z, H x y z < B) -> exists s ns n s2 ns2 mro meas F,
  reachable hp H (s, ns) /\ later hp H (s, ns) (s2, ns2) /\ In n ns /\
  get_measurable_outputs hp H mro meas F s2 n <> get_measurable_outputs hp H mro meas F s n.
Proof.
  intros hp H B L. destruct (pigeon (H (hp 0) 0) B (L _ _)) as (f & g & N & E).
  set (s0 := {| ops := [{| o_ty := Plain 0; o_props := 0 |}]; reg := []; fresh := 1 |}).
  set (n := {| a_op := 0; a_outs := [0] |}).
  destruct (assign hp H s0 n f) as [[s1 n1]|] eqn:A1; [|discriminate].
  destruct (assign hp H s1 n g) as [[s2 n2]|] eqn:A2; cbn in A1; injection A1 as <- <-; [|discriminate].
  eexists _, [{| a_op := 1; a_outs := [1] |}; n], {| a_op := 1; a_outs := [1] |}, s2, _, (fun k => [k]), (fun _ => true), (fun f _ => Some [f]).
  assert (R : reachable hp H (s0, [n])).
  { exists ({| ops := []; reg := map (fun p => (Plain (fst p), snd p)) []; fresh := 0 |}, []). split; [exists [], 0; easy|].
    eapply la_step; [eapply la_step; [apply la_refl|apply (ev_op hp H _ _ 0 0)]|]. exact (ev_node hp H {| ops := [{| o_ty := Plain 0; o_props := 0 |}]; reg := []; fresh := 0 |} [] 0 1 (le_n 1)). }
  split; [|split; [eapply la_step; [apply la_refl|]; eapply ev_mark; [right; left; reflexivity|exact A2]|split; [left; reflexivity|]]].
  - destruct R as (w0 & I0 & R). exists w0. split; [exact I0|]. eapply la_step; [exact R|]. eapply (ev_mark _ _ _ _ _ f); [left; reflexivity|]. reflexivity.
  - cbn in A2. rewrite E, Nat.eqb_refl in A2. injection A2 as <- _. cbn. rewrite E, Nat.eqb_refl. cbn. congruence.
Qed.
