(** Lemmas for C47. *)
From Coq Require Import Reals Lra Lia List Bool.
From Verif Require Import XR ModelVec ModelIdx ModelTen ModelDirac SpecDirac.
Import ListNotations.
Open Scope R_scope.

Lemma isclose_iff rtol atol v c : isclose rtol atol v c = true <-> within rtol atol v c.
Proof.
  destruct v as [x| | |], c as [y| | |]; cbn; try easy. destruct (Rle_dec (Rabs (x - y)) (atol + rtol * Rabs y)) as [H|H].
  - split; [intros _|easy]. revert H. unfold Rabs at 1. destruct (Rcase_abs (x - y)); lra.
  - split; [easy|]. intros Q. exfalso. apply H. unfold Rabs at 1. destruct (Rcase_abs (x - y)); lra.
Qed.
Lemma dirac_score rtol atol values c s i : bcast_all [nshp values; nshp c] = Val s ->
  exists out, diracdelta_logprob rtol atol values c = Val out /\ nshp out = s /\
    (within rtol atol (nelt values (align (nshp values) i)) (nelt c (align (nshp c) i)) -> nelt out i = Fin 0) /\
    (~ within rtol atol (nelt values (align (nshp values) i)) (nelt c (align (nshp c) i)) -> nelt out i = NInf).
Proof.
  intros E. unfold diracdelta_logprob. rewrite E. eexists. split; [reflexivity|]. split; [easy|]. cbn [nelt]. rewrite <- isclose_iff.
  destruct (isclose _ _ _ _); split; intros H; try easy; exfalso; apply H; easy.
Qed.
Lemma dirac_shape rtol atol values c : bcast_all [nshp values; nshp c] = Raise -> diracdelta_logprob rtol atol values c = Raise.
Proof. intros E. unfold diracdelta_logprob. rewrite E. easy. Qed.

Lemma local_value t t' : local_lift_DiracDelta t = Some t' -> eval t' = eval t.
Proof. destruct t as [|r a t|o [|[|r a c|] rest]]; cbn; try discriminate. destruct (_ && _); [|discriminate]. intros [= <-]. easy. Qed.
Lemma lifts_value t t' : lifts t t' -> eval t' = eval t.
Proof.
  induction 1 as [t t' E|r a t t' _ IH|o l t t' m _ IH]; [apply local_value, E|exact IH|]. cbn. rewrite !map_app. cbn. rewrite IH. easy.
Qed.
Lemma star_value t t' : lifts_star t t' -> eval t' = eval t.
Proof. induction 1 as [t|t u v H _ IH]; [easy|]. rewrite IH. apply lifts_value, H. Qed.

Lemma chain_snoc ops o t : chain (ops ++ [o]) t = TOp (fst o) (chain ops t :: map TVar (snd o)).
Proof. unfold chain. rewrite fold_left_app. easy. Qed.
Lemma no_lift_var a t : ~ lifts (TVar a) t.
Proof. intros H. remember (TVar a) as u eqn:E. destruct H as [u t H| |]; try discriminate. subst. discriminate. Qed.
Lemma vars_no_lift l o t l1 l2 t' : map TVar l = l1 ++ t :: l2 -> lifts t t' -> o = l -> False.
Proof.
  intros E H _. assert (I : In t (map TVar l)) by (rewrite E; apply in_or_app; right; left; easy).
  apply in_map_iff in I as (a & <- & _). apply (no_lift_var a t' H).
Qed.
Lemma lifts_op o args t : lifts (TOp o args) t -> local_lift_DiracDelta (TOp o args) = Some t \/ exists l x x' m, args = l ++ x :: m /\ lifts x x' /\ t = TOp o (l ++ x' :: m).
Proof.
  intros H. remember (TOp o args) as u eqn:E. destruct H as [u t H|r a u t H|o' l x x' m H]; [left; exact H|discriminate|]. injection E as -> <-. right. exists l, x, x', m. easy.
Qed.
Lemma lifts_delta r a u t : lifts (TDelta r a u) t -> exists u', lifts u u' /\ t = TDelta r a u'.
Proof. intros H. remember (TDelta r a u) as w eqn:E. destruct H as [w t H|r' a' w t H|]; [subst; discriminate| |discriminate]. injection E as -> -> ->. exists t. easy. Qed.
(** no rewrite below the delta *)
Lemma chain_var_no_lift ops a t : ~ lifts (chain ops (TVar a)) t.
Proof.
  revert t. induction ops as [|o ops IH] using rev_ind; intros t H; [apply (no_lift_var a t H)|]. rewrite chain_snoc in H.
  apply lifts_op in H as [E|(l & x & x' & m & E1 & H & ->)].
  - cbn in E. destruct ops as [|o2 ops2 _] using rev_ind; [discriminate|]. rewrite chain_snoc in E. discriminate.
  - destruct l as [|u l]; cbn in E1; injection E1 as E3 E4; subst; [apply (IH x' H)|apply (vars_no_lift _ _ _ _ _ _ E4 H eq_refl)].
Qed.
(** a term of the form: ops2 applied to the delta of (ops1 applied to the constant) *)
Lemma chain_lifts ops1 r a c : forall ops2 t, lifts (chain ops2 (TDelta r a (chain ops1 (TVar c)))) t ->
  exists o ops2', ops2 = o :: ops2' /\ t = chain ops2' (TDelta r a (chain (ops1 ++ [o]) (TVar c))).
Proof.
  induction ops2 as [|o ops2 IH] using rev_ind; intros t H.
  - exfalso. apply lifts_delta in H as (u & H & _). apply (chain_var_no_lift ops1 c u H).
  - rewrite chain_snoc in H. apply lifts_op in H as [E|(l & x & x' & m & E1 & H & ->)].
    + destruct ops2 as [|o2 ops2' _] using rev_ind.
      * cbn in E. destruct (_ && _); [|discriminate]. injection E as <-. exists o, []. split; [easy|]. rewrite chain_snoc. easy.
      * rewrite chain_snoc in E. cbn in E. discriminate.
    + destruct l as [|u l]; cbn in E1; injection E1 as E3 E4; subst.
      * destruct (IH x' H) as (o1 & ops' & -> & ->). exists o1, (ops' ++ [o]). split; [easy|]. rewrite (chain_snoc ops' o). reflexivity.
      * exfalso. apply (vars_no_lift _ _ _ _ _ _ E4 H eq_refl).
Qed.
Lemma basic_lift o t r a : basic_op o -> local_lift_DiracDelta (TOp (fst o) (TDelta r a t :: map TVar (snd o))) = Some (TDelta r a (TOp (fst o) (t :: map TVar (snd o)))).
Proof.
  intros (L & S & E). cbn. rewrite L, S. destruct (o_elemwise (fst o)) eqn:W; [rewrite (E eq_refl); easy|easy].
Qed.
Lemma chain_lift_ctx ops : forall t t', lifts t t' -> lifts (chain ops t) (chain ops t').
Proof.
  induction ops as [|o ops IH] using rev_ind; intros t t' H; [exact H|]. rewrite !chain_snoc. apply (l_arg _ [] _ _ _ (IH _ _ H)).
Qed.
Lemma chain_steps ops2 r a c : forall ops1, (forall o, In o ops2 -> basic_op o) ->
  lifts_star (chain ops2 (TDelta r a (chain ops1 (TVar c)))) (TDelta r a (chain (ops1 ++ ops2) (TVar c))).
Proof.
  induction ops2 as [|o ops2 IH]; intros ops1 B; [rewrite app_nil_r; apply ls_refl|].
  apply (ls_step _ (chain ops2 (TDelta r a (chain (ops1 ++ [o]) (TVar c))))).
  - change (chain (o :: ops2) ?t) with (chain ops2 (TOp (fst o) (t :: map TVar (snd o)))). apply chain_lift_ctx, l_here. rewrite chain_snoc. apply basic_lift, B. left. easy.
  - replace (ops1 ++ o :: ops2) with ((ops1 ++ [o]) ++ ops2) by (rewrite <- app_assoc; easy). apply IH. intros o' I. apply B. right. exact I.
Qed.
(** whatever the order of rewriting, the end is the delta of the result *)
Lemma chain_normal ops r a c t : (forall o, In o ops -> basic_op o) -> lifts_star (chain ops (TDelta r a (TVar c))) t -> (forall u, ~ lifts t u) ->
  t = TDelta r a (chain ops (TVar c)).
Proof.
  intros B H N.
  assert (G : forall s s', lifts_star s s' -> forall ops1 ops2, ops = ops1 ++ ops2 -> s = chain ops2 (TDelta r a (chain ops1 (TVar c))) ->
    (forall u, ~ lifts s' u) -> s' = TDelta r a (chain ops (TVar c))).
  { clear H N. induction 1 as [s|s u v H _ IH]; intros ops1 ops2 E Es N.
    - destruct ops2 as [|o ops2]; [rewrite app_nil_r in E; subst; easy|]. exfalso. apply (N (chain ops2 (TDelta r a (chain (ops1 ++ [o]) (TVar c))))). subst s.
      change (chain (o :: ops2) ?t) with (chain ops2 (TOp (fst o) (t :: map TVar (snd o)))). apply chain_lift_ctx, l_here. rewrite chain_snoc. apply basic_lift, B. rewrite E. apply in_or_app. right. left. easy.
    - subst s. destruct (chain_lifts _ _ _ _ _ _ H) as (o & ops2' & -> & ->). apply (IH (ops1 ++ [o]) ops2'); [rewrite <- app_assoc; exact E|easy|exact N]. }
  exact (G _ _ H [] ops eq_refl eq_refl N).
Qed.
(** nested induction *)
Lemma dterm_ind' (P : dterm -> Prop) : (forall a, P (TVar a)) -> (forall r a t, P t -> P (TDelta r a t)) -> (forall o l, List.Forall P l -> P (TOp o l)) -> forall t, P t.
Proof. intros V D O. fix F 1. intros [a|r a t|o l]; [apply V|apply D, F|apply O]. induction l as [|x l IH]; constructor; [apply F|exact IH]. Qed.
Lemma remove_value t : eval (remove_DiracDelta t) = eval t /\ delta_free (remove_DiracDelta t).
Proof.
  induction t as [a|r a t IH|o l IH] using dterm_ind'; [easy|exact IH|]. cbn. split.
  - rewrite map_map. f_equal. f_equal. apply map_ext_in. intros x I. apply (proj1 (List.Forall_forall _ _) IH x I).
  - induction IH as [|x l [_ Hx] _ IHl]; cbn; auto.
Qed.
Lemma star_refls l : Forall2 lifts_star l l.
Proof. induction l; constructor; [constructor|assumption]. Qed.
Lemma star_trans t u v : lifts_star t u -> lifts_star u v -> lifts_star t v.
Proof. induction 1 as [|? ? ? L _ IH]; [auto|]. intros W. exact (ls_step _ _ _ L (IH W)). Qed.
Lemma stars_trans a b c : Forall2 lifts_star a b -> Forall2 lifts_star b c -> Forall2 lifts_star a c.
Proof.
  intros H. revert c. induction H as [|x y a b X _ IH]; intros c K; inversion K; subst; constructor; [eapply star_trans; eauto|auto].
Qed.
Lemma stars_len a b : Forall2 lifts_star a b -> length a = length b.
Proof. induction 1; cbn; auto. Qed.
Lemma lift_kept o args t : kept_op o (length args) -> lifts (TOp o args) t -> exists args', t = TOp o args' /\ Forall2 lifts_star args args'.
Proof.
  intros K H. apply lifts_op in H as [E|(l & x & x' & m & -> & L & ->)].
  - exfalso. unfold local_lift_DiracDelta in E. destruct args as [|a rest]; [discriminate|]. destruct a as [a|r a c|o' l]; try discriminate.
    destruct K as [K|[K|[K N]]].
    + rewrite K in E. discriminate.
    + rewrite K in E. rewrite andb_false_r in E. discriminate.
    + rewrite K in E. destruct rest; [now destruct N|]. cbn in E. rewrite andb_false_r in E. discriminate.
  - exists (l ++ x' :: m). split; [reflexivity|]. apply Forall2_app; [apply star_refls|]. constructor; [|apply star_refls].
    exact (ls_step _ _ _ L (ls_refl _)).
Qed.
Lemma star_kept o t : forall args, kept_op o (length args) -> lifts_star (TOp o args) t -> exists args', t = TOp o args' /\ Forall2 lifts_star args args'.
Proof.
  intros args K H. remember (TOp o args) as s eqn:Es. revert args K Es. induction H as [t|s u v L _ IH]; intros args K ->.
  - exists args. split; [reflexivity|apply star_refls].
  - destruct (lift_kept o args u K L) as (b & -> & B). destruct (IH b) as (c & -> & C); [now rewrite <- (stars_len _ _ B)|reflexivity|].
    exists c. split; [reflexivity|]. eapply stars_trans; eauto.
Qed.
