(** The measurable rewrites, the transforms and the undoing together. *)
From Coq Require Import List Arith Bool Lia.
From Verif Require Import ModelJoint ModelUndo SpecUndo LemUndo1 LemUndo2 LemUndo3 LemUndo4 LemUndo5.
Import ListNotations.
Open Scope nat_scope.

Section Finish.
Context {A : Type}.
Variable env : nat -> A.
Variable sem : uop -> list A -> option A.

Lemma finish_spec s0 cs ts : let s1 := fold_left convert cs s0 in
  prepared env s0 -> valid_conversions s0 cs -> revertible env sem s0 s1 -> valid_transforms env sem s0 s1 ts ->
  let sf := finish s0 cs ts in
  forall i v r0 x, nth_error (u_outs s0) i = Some v -> node_args (u_heap s0) v = [r0; x] ->
  exists v' r' y, nth_error (u_outs sf) i = Some v' /\ node_op (u_heap sf) v' = UVal /\ node_args (u_heap sf) v' = [r'; y] /\
    umeans env sem (u_heap sf) v' (env x) /\
    (~ In r0 (map c_old cs) ->
       (v' = v /\ r' = r0 \/ exists tr k, In (v, (tr, k)) ts /\ node_op (u_heap sf) r' = UMeas k) /\
       Forall2 (fun a a' => forall c, umeans env sem (u_heap s0) a c <-> umeans env sem (u_heap sf) a' c)
         (node_args (u_heap s0) r0) (node_args (u_heap sf) r')) /\
    (In r0 (map c_old cs) -> exists c, In c cs /\ c_old c = r0 /\ node_op (u_heap sf) r' = UMeas (c_kind c)).
Proof.
  intros s1 P V Rv T sf i v r0 x Ei Ea. destruct (p_acyclic _ _ P) as (rank & R).
  set (rho := fun v => match node_op (u_heap s0) v with UIn => 0 | _ => S (rank v) end).
  assert (R0 : forall v a, In a (node_args (u_heap s0) v) -> rho a < rho v).
  { intros u a I. specialize (R u a I). unfold rho at 2. destruct (node_op (u_heap s0) u) eqn:E;
      [rewrite (p_in _ _ P u E) in I; easy|..]; unfold rho; destruct (node_op (u_heap s0) a); lia. }
  assert (R1 : forall v, node_op (u_heap s0) v = UIn -> rho v = 0) by (intros u E; unfold rho; now rewrite E).
  pose proof (converted_start env sem s0 (fun v => values env sem (S (rho v)) (u_heap s0) v) P
    (fun v => values_eqn env sem (u_heap s0) rho R0 v)) as C0.
  destruct (converted_all env sem s0 _ P cs [] s0 _ _ C0 V) as (M1 & tau & C1). rewrite app_nil_r in C1.
  set (olds := rev (map (fun c => (c_old c, c_kind c)) cs)) in *.
  assert (Io : forall r, In r (map fst olds) <-> In r (map c_old cs)).
  { intros r. unfold olds. rewrite map_rev, <- in_rev, map_map. reflexivity. }
  pose proof (settled_start env sem s0 rho P R0 R1 olds s1 M1 tau C1 Rv) as S1.
  destruct (settled_all env sem s0 rho P R0 olds s1 M1 tau C1 ts [] s1 _ _ S1 T) as (M & rk & S2). cbn [app] in S2.
  destruct (final env sem s0 rho P R0 olds s1 M1 tau C1 ts _ M rk S2 i v r0 x Ei Ea) as (v' & r' & y & E1 & E2 & E3 & E4 & E5 & E6).
  exists v', r', y. split; [exact E1|]. split; [exact E2|]. split; [exact E3|]. split; [exact E4|]. split.
  - intros N. apply E5. now rewrite Io.
  - intros Y. apply Io in Y. destruct (E6 Y) as (k & Ik & Ek). unfold olds in Ik. apply in_rev, in_map_iff in Ik as (c & E & Ic).
    injection E as Eo Ekk. exists c. split; [easy|]. split; [easy|]. now rewrite Ekk.
Qed.
End Finish.

(** ** No copy of a value variable is left *)
Lemma ureplace_reach a b s v : node_args (u_heap s) b = [] -> In v (u_live (ureplace a b s)) ->
  v = b \/ In v (u_live s) /\ (a <> b -> v <> a).
Proof.
  intros Eb. unfold u_live. rewrite !live_reach. unfold ureplace, u_live. destruct (mem a (live (u_heap s) (u_outs s))) eqn:Ea.
  2:{ intros R. right. split; [easy|]. intros _ ->. apply mem_false in Ea. apply Ea. now apply live_reach. }
  cbn [u_heap u_outs]. induction 1 as [v Iv Lv|v c R IH Ic Lc].
  - rewrite sub_live_length in Lv. apply in_map_iff in Iv as (w & E & Iw). unfold usub in E. destruct (w =? a) eqn:Q; [now left|].
    subst w. right. split; [now apply r_out|]. intros _ ->. now rewrite Nat.eqb_refl in Q.
  - rewrite sub_live_length in Lc. rewrite node_args_sub in Ic. destruct IH as [->|[Rv _]].
    { rewrite Eb in Ic. destruct (mem _ _) in Ic; easy. }
    assert (Mv : mem v (live (u_heap s) (u_outs s)) = true) by (apply mem_In, live_reach; exact Rv). rewrite Mv in Ic.
    apply in_map_iff in Ic as (w & E & Iw). unfold usub in E. destruct (w =? a) eqn:Q; [now left|].
    subst w. right. split; [eapply r_arg; eauto|]. intros _ ->. now rewrite Nat.eqb_refl in Q.
Qed.

Section Copies.
Variable K : list nat.
Record leaves (s : ustate) : Prop := {
  lv_pair : forall x b, In (x, b) (u_vals s) -> b < length (u_heap s) /\ node_args (u_heap s) b = [] /\ ~ In b K;
  lv_keys : forall x, In x K -> In x (map fst (u_vals s)) /\ x < length (u_heap s) }.

Lemma leaves_replace a b s : leaves s -> leaves (ureplace a b s).
Proof.
  intros [P Q]. constructor; rewrite ureplace_vals, ureplace_length; [|easy]. intros x c I. destruct (P x c I) as (L & E & N).
  split; [easy|]. split; [|easy]. rewrite ureplace_args, E. now destruct (_ && _).
Qed.
Lemma leaves_with s l : leaves s -> leaves (with_heap s (u_heap s ++ l)).
Proof.
  intros [P Q]. constructor; cbn.
  - intros x c I. destruct (P x c I) as (L & E & N). rewrite app_length, node_args_app1 by easy. split; [lia|easy].
  - intros x I. rewrite app_length. destruct (Q x I). split; [easy|lia].
Qed.
Lemma leaves_convert s c : leaves s -> leaves (convert s c).
Proof. intros H. apply leaves_replace, leaves_with, H. Qed.
Lemma leaves_transform s p : leaves s -> leaves (utransform s p).
Proof.
  intros H. destruct p as [v [tr k]]. unfold utransform. destruct (node_op (u_heap s) v); try easy.
  destruct (node_args (u_heap s) v) as [|r [|x [|]]]; try easy. set (b := length (u_heap s)).
  set (l := [mku UIn []; _; _; _; _]). pose proof (leaves_replace v (b + 4) _ (leaves_replace x (b + 3) _ (leaves_with s l H))) as H2.
  set (s2 := ureplace v (b + 4) _) in *. destruct H2 as [P Q]. constructor; cbn.
  - intros y c I. apply dset_in in I as [I|I]; [eauto|]. injection I as -> ->.
    assert (Lb : b < length (u_heap s2)) by (unfold s2; rewrite !ureplace_length; cbn; rewrite app_length; cbn; unfold b; lia).
    split; [easy|]. split.
    + unfold s2. rewrite !ureplace_args. cbn [u_heap with_heap]. rewrite (node_args_app2 (u_heap s) l b) by (unfold b; lia).
      unfold b. rewrite Nat.sub_diag. cbn. repeat destruct (_ && _); easy.
    + intros I. destruct H as [_ HQ]. destruct (HQ b I). unfold b in *. lia.
  - intros y I. destruct (Q y I) as (I1 & L). split; [|easy]. apply in_map_iff in I1 as ([y' c] & E & Ip). cbn in E. subst y'.
    destruct (Nat.eq_dec y x) as [->|Ny].
    + apply in_map_iff. exists (x, b). split; [easy|]. apply dset_new.
    + apply in_map_iff. exists (y, c). split; [easy|]. now apply dset_old.
Qed.

Lemma fold_vals l : forall s, (forall x b, In (x, b) l -> node_args (u_heap s) b = [] /\ ~ In b K) ->
  forall x, In x K -> In x (map fst l) \/ ~ In x (u_live s) ->
  ~ In x (u_live (fold_left (fun s p => ureplace (fst p) (snd p) s) l s)).
Proof.
  induction l as [|[a b] l IH]; intros s P x Ix D; cbn [fold_left fst snd]; [destruct D as [[]|D]; exact D|].
  destruct (P a b (or_introl eq_refl)) as (Eb & Nb).
  apply IH; [|easy|].
  - intros y c I. destruct (P y c (or_intror I)) as (E & N). split; [|easy]. rewrite ureplace_args, E. now destruct (_ && _).
  - destruct (Nat.eq_dec a x) as [->|Na].
    + right. intros I. apply ureplace_reach in I as [->|[_ I]]; try easy. apply I; [|easy]. intros ->. easy.
    + destruct D as [[E|D]|D]; [easy|now left|]. right. intros I. apply ureplace_reach in I as [->|[I _]]; easy.
Qed.

Lemma finish_copies s cs ts x : leaves s -> In x K -> ~ In x (u_live (finish s cs ts)).
Proof.
  intros H Ix. unfold finish.
  assert (H1 : leaves (fold_left utransform ts (fold_left convert cs s))).
  { assert (H2 : leaves (fold_left convert cs s)) by (clear Ix; revert s H; induction cs as [|c cs IH]; intros; cbn; auto using leaves_convert).
    clear H. revert H2. generalize (fold_left convert cs s). induction ts as [|p ts IH]; intros; cbn; auto using leaves_transform. }
  set (s2 := fold_left utransform ts _) in *. clearbody s2. unfold undo, new_to_old. rewrite fold_left_app. apply fold_vals; [|easy|].
  - assert (G : forall l s3, leaves s3 -> leaves (fold_left (fun s p => ureplace (fst p) (snd p) s) l s3)).
    { induction l as [|q l IH]; intros; cbn; auto using leaves_replace. }
    specialize (G (map (fun p => (snd p, fst p)) (u_conv s2)) s2 H1).
    assert (Ev : forall l s3, u_vals (fold_left (fun s p => ureplace (fst p) (snd p) s) l s3) = u_vals s3).
    { induction l as [|q l IH]; intros; cbn; [easy|]. now rewrite IH, ureplace_vals. }
    intros y b I. destruct G as [P _]. rewrite Ev in P. destruct (P y b I) as (_ & E & N). auto.
  - left. now apply (lv_keys _ H1).
Qed.
End Copies.

Lemma finish_no_copy {A} (env : nat -> A) s0 cs ts x : prepared env s0 -> In x (map fst (u_vals s0)) ->
  ~ reach (u_heap (finish s0 cs ts)) (u_outs (finish s0 cs ts)) x.
Proof.
  intros P I. assert (L : leaves (map fst (u_vals s0)) s0).
  { constructor.
    - intros y b Ip. destruct (p_vals _ _ P y b Ip) as (? & ? & ? & Eb & ? & ? & ?). split; [easy|]. split; [now apply (p_in _ _ P)|easy].
    - intros y Iy. split; [easy|]. apply in_map_iff in Iy as ([y' b] & E & Ip). cbn in E. subst y'. now destruct (p_vals _ _ P y b Ip). }
  rewrite <- live_reach. exact (finish_copies _ s0 cs ts x L I).
Qed.
