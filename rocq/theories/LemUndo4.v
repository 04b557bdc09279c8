(** Transforms keep the assignment of intended values, and taking the rewrites
    back makes it the meaning. *)
From Coq Require Import List Arith Bool Lia.
From Verif Require Import ModelJoint ModelUndo SpecUndo LemUndo1 LemUndo2 LemUndo3.
Import ListNotations.
Open Scope nat_scope.

Lemma sargs_sub a b s v : sargs (u_heap (ureplace a b s)) v =
  if mem v (u_live s) && mem a (u_live s) then map (usub a b) (sargs (u_heap s) v) else sargs (u_heap s) v.
Proof.
  unfold sargs. rewrite ureplace_op, ureplace_args. destruct (_ && _); [|easy].
  destruct (node_op (u_heap s) v); try easy; destruct (node_args (u_heap s) v) as [|? [|? []]]; easy.
Qed.
Lemma sargs_incl h v a : In a (sargs h v) -> In a (node_args h v).
Proof.
  unfold sargs. destruct (node_op h v), (node_args h v) as [|? [|? []]]; cbn; tauto.
Qed.
Lemma sargs_sub_in a b s v c : In c (sargs (u_heap (ureplace a b s)) v) ->
  In c (sargs (u_heap s) v) \/ c = b /\ In a (sargs (u_heap s) v) /\ In v (u_live s).
Proof.
  rewrite sargs_sub. destruct (mem v (u_live s)) eqn:E; cbn; [|auto]. apply mem_In in E.
  destruct (mem a (u_live s)); [|auto]. rewrite in_map_iff. intros (d & Ed & Id). unfold usub in Ed.
  destruct (d =? a) eqn:Q; subst; [|auto]. apply Nat.eqb_eq in Q. subst. auto.
Qed.
Lemma ureplace_unused a b s v : ~ In a (node_args (u_heap s) v) -> node_args (u_heap (ureplace a b s)) v = node_args (u_heap s) v.
Proof. intros N. rewrite ureplace_args. destruct (_ && _); [now apply map_usub_id|easy]. Qed.

Section Core.
Context {A : Type}.
Variable env : nat -> A.
Variable sem : uop -> list A -> option A.
Variable bad : nat -> Prop.

Record core (s : ustate) (M : nat -> option A) (rk : nat -> nat) : Prop := {
  co_bound : forall v a, In a (node_args (u_heap s) v) -> a < length (u_heap s);
  co_rank : forall v a, In a (sargs (u_heap s) v) -> rk a < rk v;
  co_in : forall v, node_op (u_heap s) v = UIn -> node_args (u_heap s) v = [];
  co_val : forall v, node_op (u_heap s) v = UVal -> exists r y, node_args (u_heap s) v = [r; y] /\ rk r + 3 <= rk v;
  co_transd : forall v, node_op (u_heap s) v = UTransd -> exists x y, node_args (u_heap s) v = [x; y];
  co_eqn : forall v, v < length (u_heap s) -> ~ bad v -> eqn env sem M (u_heap s) v }.

Lemma core_replace s M rk a b : core s M rk -> b < length (u_heap s) -> M a = M b ->
  (forall u, In a (sargs (u_heap s) u) -> rk b < rk u) ->
  (forall u y, node_op (u_heap s) u = UVal -> node_args (u_heap s) u = [a; y] -> rk b + 3 <= rk u) ->
  core (ureplace a b s) M rk.
Proof.
  intros [B R NI VA T E] Lb EM HR HV. constructor.
  - intros v c Ic. rewrite ureplace_length. apply ureplace_args_in in Ic as [?|(-> & _)]; eauto.
  - intros v c Ic. apply sargs_sub_in in Ic as [?|(-> & ? & _)]; auto.
  - intros v Ev. rewrite ureplace_op in Ev. rewrite ureplace_unused; auto. rewrite (NI v Ev). auto.
  - intros v Ev. rewrite ureplace_op in Ev. destruct (VA v Ev) as (r & y & Ea & Q). rewrite ureplace_args, Ea.
    destruct (_ && _); cbn; [|eauto]. exists (usub a b r), (usub a b y). split; [easy|].
    unfold usub. destruct (r =? a) eqn:K; [|easy]. apply Nat.eqb_eq in K. subst. eauto.
  - intros v Ev. rewrite ureplace_op in Ev. destruct (T v Ev) as (r & y & Ea). rewrite ureplace_args, Ea. destruct (_ && _); cbn; eauto.
  - intros v Lv Nv. rewrite ureplace_length in Lv. unfold eqn in *. rewrite ureplace_op, (E v Lv Nv). apply value_of_ext. symmetry. now apply ureplace_map.
Qed.
Lemma core_unused s M rk a b : core s M rk -> (forall u, ~ In a (node_args (u_heap s) u)) -> core (ureplace a b s) M rk.
Proof.
  intros [B R NI VA T E] U. assert (Q : forall v, node_args (u_heap (ureplace a b s)) v = node_args (u_heap s) v) by (intros; apply ureplace_unused; auto).
  assert (Qs : forall v, sargs (u_heap (ureplace a b s)) v = sargs (u_heap s) v) by (intros; unfold sargs; now rewrite ureplace_op, Q).
  constructor; intros v; rewrite ?Q, ?Qs, ?ureplace_length, ?ureplace_op; [apply B|apply R|apply NI|apply VA|apply T|].
  unfold eqn in *. rewrite Q, ureplace_op. apply E.
Qed.

(** ** Taking back *)
Section Taking.
Variables (s : ustate) (M : nat -> option A) (rk : nat -> nat) (l : list (nat * nat)).
Hypothesis K : core s M rk.
(** reached from the outputs without meeting a variable that is to be replaced *)
Inductive kept : nat -> Prop :=
| k_out v : In v (u_outs s) -> v < length (u_heap s) -> kept v
| k_arg v a : kept v -> In a (node_args (u_heap s) v) -> ~ In a (map fst l) -> kept a.
Variable C : nat -> Prop.
Hypothesis Outs : forall o, In o (u_outs s) -> ~ In o (map fst l).
Hypothesis L1 : forall a b, In (a, b) l -> b < length (u_heap s) /\ C b /\ ~ In b (map fst l).
Hypothesis L2 : forall a b, In (a, b) l -> (M a = M b /\ rk b <= rk a) \/ forall u, ~ In a (node_args (u_heap s) u).
Hypothesis Ck : forall v, kept v -> C v.
Hypothesis Cl : forall v a, C v -> In a (sargs (u_heap s) v) -> C a.
Hypothesis Cb : forall v a, C v -> In a (sargs (u_heap s) v) -> bad a -> kept v.
Hypothesis Bl : forall v, bad v -> In v (map fst l).
Hypothesis CL : forall v, C v -> v < length (u_heap s).

Record taken (d : list (nat * nat)) (s' : ustate) : Prop := {
  tk_core : core s' M rk;
  tk_len : length (u_heap s') = length (u_heap s);
  tk_op : forall v, node_op (u_heap s') v = node_op (u_heap s) v;
  tk_outs : u_outs s' = u_outs s;
  tk_kept : forall v, kept v -> reach (u_heap s') (u_outs s') v;
  tk_keep : forall v a, kept v -> In a (node_args (u_heap s) v) -> ~ In a (map fst l) -> In a (node_args (u_heap s') v);
  tk_gone : forall v a, kept v -> In a (map fst d) -> ~ In a (node_args (u_heap s') v);
  tk_cl : forall v a, C v -> In a (sargs (u_heap s') v) -> C a;
  tk_cb : forall v a, C v -> In a (sargs (u_heap s') v) -> bad a -> kept v;
  tk_un : forall a, In a (map fst l) -> (forall u, ~ In a (node_args (u_heap s) u)) -> forall u, ~ In a (node_args (u_heap s') u);
  tk_pos : forall v, Forall2 (fun a a' => In a (map fst l) \/ a' = a) (node_args (u_heap s) v) (node_args (u_heap s') v);
  tk_map : forall v, map M (node_args (u_heap s') v) = map M (node_args (u_heap s) v) }.

Lemma taken_start : taken [] s.
Proof.
  constructor; auto.
  - intros v Kv. induction Kv as [v Iv Lv|v a Kv IH Ia Na]; [now apply r_out|]. eapply r_arg; eauto. eapply co_bound; eauto.
  - intros v. induction (node_args (u_heap s) v); constructor; auto.
Qed.
Lemma taken_step d a b s' : taken d s' -> In (a, b) l -> incl d l -> taken (d ++ [(a, b)]) (ureplace a b s').
Proof.
  intros [TC TL TO TU TK TP TG TCl TCb TUn TPos TM] Iab Id.
  destruct (L1 a b Iab) as (Lb & Cb' & Nb). assert (Ia : In a (map fst l)) by (apply in_map_iff; exists (a, b); auto).
  assert (Nab : a <> b) by (intros ->; auto).
  assert (Q2 : (M a = M b /\ rk b <= rk a) \/ forall u, ~ In a (node_args (u_heap s') u)).
  { destruct (L2 a b Iab) as [?|U]; [now left|]. right. now apply TUn. }
  assert (EO : u_outs (ureplace a b s') = u_outs s').
  { apply ureplace_outs. rewrite TU. intros I. now apply (Outs a I). }
  assert (HK : forall v c, kept v -> In c (node_args (u_heap s) v) -> ~ In c (map fst l) -> In c (node_args (u_heap (ureplace a b s')) v)).
  { intros v c Kv Ic Nc. rewrite ureplace_args. destruct (_ && _); [|auto]. apply in_map_iff. exists c. split; [|auto].
    unfold usub. destruct (c =? a) eqn:E; [|easy]. apply Nat.eqb_eq in E. now subst. }
  constructor.
  - destruct Q2 as [(EM & ER)|U]; [|now apply core_unused]. apply core_replace; auto; [now rewrite TL| |].
    + intros u Iu. pose proof (co_rank _ _ _ TC u a Iu). lia.
    + intros u y Eu Ea. destruct (co_val _ _ _ TC u Eu) as (r & y' & Ea' & Q). rewrite Ea in Ea'. injection Ea' as <- <-. lia.
  - now rewrite ureplace_length.
  - intros v. now rewrite ureplace_op.
  - now rewrite EO.
  - intros v Kv. rewrite EO. induction Kv as [v Iv Lv|v c Kv IH Ic Nc].
    + apply r_out; [now rewrite TU|now rewrite ureplace_length, TL].
    + eapply r_arg; [exact IH|now apply HK|]. rewrite ureplace_length, TL. eapply co_bound; eauto.
  - exact HK.
  - intros v c Kv Ic. rewrite map_app, in_app_iff in Ic.
    assert (Lv : In v (u_live s')) by (apply live_reach; auto).
    rewrite (ureplace_args_live _ _ _ _ Lv) by (intros; eapply co_bound; eauto).
    destruct Ic as [Ic|[<-|[]]]; [|now apply usub_gone]. intros In'. apply in_map_iff in In' as (e & Ee & Ie).
    unfold usub in Ee. destruct (e =? a); [|subst; now apply (TG v c Kv Ic)]. subst.
    apply Nb. apply in_map_iff in Ic as (p & E & Ip). apply in_map_iff. exists p. auto.
  - intros v c Cv Ic. apply sargs_sub_in in Ic as [?|(-> & _)]; eauto.
  - intros v c Cv Ic Bc. apply sargs_sub_in in Ic as [?|(-> & _)]; eauto. exfalso. auto.
  - intros c Ic Uc u Iu. apply ureplace_args_in in Iu as [Iu|(-> & _)]; [|now apply Nb]. revert Iu. now apply TUn.
  - intros v. specialize (TPos v). rewrite ureplace_args. destruct (_ && _); [|easy]. induction TPos as [|e e' le le' He _ IH]; cbn; constructor; auto.
    destruct He as [?| ->]; [now left|]. unfold usub. destruct (e =? a) eqn:E; [|now right]. apply Nat.eqb_eq in E. subst. now left.
  - intros v. destruct Q2 as [(EM & _)|U]; [rewrite ureplace_map by easy; auto|]. rewrite ureplace_unused by auto. auto.
Qed.
Lemma taken_fold l' : forall d s', taken d s' -> incl d l -> incl l' l -> taken (d ++ l') (fold_left (fun s p => ureplace (fst p) (snd p) s) l' s').
Proof.
  induction l' as [|[a b] l' IH]; intros d s' T Id Il; cbn.
  - now rewrite app_nil_r.
  - replace (d ++ (a, b) :: l') with ((d ++ [(a, b)]) ++ l') by now rewrite <- app_assoc. apply IH.
    + apply taken_step; auto. apply Il. now left.
    + intros p Ip. apply in_app_iff in Ip as [?|[<-|[]]]; [auto|]. apply Il. now left.
    + intros p Ip. apply Il. now right.
Qed.
(** afterwards the intended values are the values *)
Lemma taken_back : let s' := fold_left (fun s p => ureplace (fst p) (snd p) s) l s in taken l s' /\
  forall v, C v -> ~ bad v -> forall a, M v = Some a <-> umeans env sem (u_heap s') v a.
Proof.
  intros s'. assert (T : taken l s') by (apply (taken_fold l [] s taken_start); [easy|apply incl_refl]). split; [exact T|].
  intros v Cv Nv a. apply (assignment_meaning env sem M (u_heap s') rk (fun v => C v /\ ~ bad v)); [| | | | | |easy].
  - intros u (Cu & Nu). rewrite (tk_len _ _ T). auto.
  - intros u c (Cu & Nu) Ic. split; [|now apply (co_rank _ _ _ (tk_core _ _ T))]. split; [eapply (tk_cl _ _ T); eauto|].
    intros Bc. apply (tk_gone _ _ T u c); [eapply (tk_cb _ _ T); eauto|now apply Bl|now apply sargs_incl].
  - intros u _. apply (co_in _ _ _ (tk_core _ _ T)).
  - intros u _ Eu. destruct (co_val _ _ _ (tk_core _ _ T) u Eu) as (r & y & E & _). eauto.
  - intros u _. apply (co_transd _ _ _ (tk_core _ _ T)).
  - intros u (Cu & Nu). apply (co_eqn _ _ _ (tk_core _ _ T)); [|easy]. rewrite (tk_len _ _ T). auto.
Qed.
End Taking.
End Core.
