(** Lemmas on draws that stay in the log-probability graph: they count as constants. *)
From Coq Require Import Reals Lra Lia List Arith Bool.
From Coquelicot Require Import Coquelicot.
From Verif Require Import XR XTac SpecDist ModelDist LemDist ModelVec SpecVec LemDisc ModelJoint LemJoint ModelTrans ModelNest SpecNest LemNest LemNest2 RMx ModelSys SpecSys LemSys LemSys2 LemSys3 ModelStack SpecStack LemStack LemStack2.
Import ListNotations.
Open Scope nat_scope.

Lemma construct_dt dt dt' l mk : (forall a i, In a l -> a_m a = Some (MBase i) -> dt i = dt' i) -> construct dt l mk = construct dt' l mk.
Proof.
  intros H. unfold construct. destruct (measurable_of l) as [|m [|m' t]] eqn:E; try reflexivity.
  assert (Q : starts_int dt m = starts_int dt' m).
  { assert (I : In m (measurable_of l)) by (rewrite E; now left). unfold measurable_of in I. apply in_flat_map in I as (a & A & I).
    destruct (a_m a) as [m0|] eqn:Ea; [|destruct I]. destruct I as [->|[]]. destruct m as [i|]; [|reflexivity]. cbn. now rewrite (H a i A Ea). }
  now rewrite Q.
Qed.
Lemma base_in dt fs e i : a_m (annotate dt fs e) = Some (MBase i) -> In i (occs e).
Proof. intros E. destruct (accepted_chain dt fs e _ E) as [C _]. rewrite (chain_occs _ _ C). now left. Qed.
Lemma construct_elem dt l mk i : construct dt l mk <> Some (MBase i).
Proof. unfold construct. destruct (measurable_of l) as [|m [|m' t]]; try discriminate. destruct (starts_int dt m); try discriminate. destruct (existsb a_rand (others_of l)); try discriminate. now destruct (mk (map a_val (others_of l))). Qed.
Lemma annotate_dt dt dt' fs e : (forall i, In i (occs e) -> dt i = dt' i) -> annotate dt fs e = annotate dt' fs e.
Proof.
  induction e as [i|c|u e IH|n l IH|a b IHa IHb|a b IHa IHb|k l IH] using nexpr_ind'; cbn [annotate occs]; intros H; try reflexivity.
  - rewrite IH by exact H. unfold rw_unary. f_equal. apply construct_dt. intros a i [<-|[]] E. apply H, (base_in dt' fs e i E).
  - assert (Q : map (annotate dt fs) l = map (annotate dt' fs) l).
    { apply map_ext_in. intros e I. rewrite List.Forall_forall in IH. apply (IH e I). intros i J. apply H, in_flat_map. eauto. }
    rewrite Q. unfold rw_nary. f_equal. apply construct_dt. intros a i A E. apply in_map_iff in A as (e & <- & I). apply H, in_flat_map. exists e. split; [exact I|]. exact (base_in dt' fs e i E).
  - rewrite IHa, IHb by (intros; apply H, in_or_app; auto). unfold rw_sub, rw_nary.
    rewrite (construct_dt dt dt' [con (Fin (-1)); annotate dt' fs b]).
    2:{ intros x i [<-|[<-|[]]] E; [discriminate|]. apply H, in_or_app. right. exact (base_in dt' fs b i E). }
    f_equal. apply construct_dt. intros x i [<-|[<-|[]]] E; [apply H, in_or_app; left; exact (base_in dt' fs a i E)|]. cbn [a_m] in E. now destruct (construct_elem _ _ _ _ E).
  - rewrite IHa, IHb by (intros; apply H, in_or_app; auto). unfold rw_div, rw_unary.
    rewrite (construct_dt dt dt' [annotate dt' fs b]).
    2:{ intros x i [<-|[]] E. apply H, in_or_app. right. exact (base_in dt' fs b i E). }
    unfold rw_nary. f_equal. apply construct_dt. intros x i [<-|[<-|[]]] E; [apply H, in_or_app; left; exact (base_in dt' fs a i E)|]. cbn [a_m] in E. now destruct (construct_elem _ _ _ _ E).
  - assert (Q : map (annotate dt fs) l = map (annotate dt' fs) l); [|now rewrite Q].
    apply map_ext_in. intros e I. rewrite List.Forall_forall in IH. apply (IH e I). intros i J. apply H, in_flat_map. eauto.
Qed.

Section Fix.
Variable bs : list nat.
Variable rho : nat -> R.
Definition fixn (i : nat) (nd : snode) : snode := match nd with SRv d ps => if mem i bs then nd else SCon (Fin (rho i)) | _ => nd end.
Fixpoint fixl (i : nat) (l : list snode) : list snode := match l with [] => [] | nd :: l => fixn i nd :: fixl (S i) l end.
Lemma fixl_nth l : forall k i, nth_error (fixl k l) i = option_map (fixn (k + i)) (nth_error l i).
Proof. induction l as [|nd l IH]; intros k [|i]; cbn; try reflexivity; [now rewrite Nat.add_0_r|]. rewrite IH. now rewrite Nat.add_succ_r. Qed.
Lemma fixl_length l : forall k, length (fixl k l) = length l. Proof. induction l; intros; cbn; auto. Qed.
Variable fs : nat -> list xr -> xr.
Variable h : list snode.
Hypothesis Ac : acyclic h.
Definition h0 : list snode := fixl 0 h.
Lemma h0_nth i : nth_error h0 i = option_map (fixn i) (nth_error h i). Proof. apply fixl_nth. Qed.
Lemma h0_length : length h0 = length h. Proof. apply fixl_length. Qed.
Lemma h0_det i nd : nth_error h i = Some nd -> (forall d ps, nd <> SRv d ps) -> nth_error h0 i = Some nd.
Proof. intros E N. rewrite h0_nth, E. cbn. f_equal. destruct nd; try reflexivity. now destruct (N d ps). Qed.
Lemma h0_base i d ps : In i bs -> nth_error h i = Some (SRv d ps) -> nth_error h0 i = Some (SRv d ps).
Proof. intros I E. rewrite h0_nth, E. cbn. now rewrite (proj2 (mem_In i bs) I). Qed.
Lemma h0_base_inv i d ps : nth_error h0 i = Some (SRv d ps) -> In i bs /\ nth_error h i = Some (SRv d ps).
Proof. rewrite h0_nth. destruct (nth_error h i) as [[]|]; cbn; try discriminate. destruct (mem i bs) eqn:M; [|discriminate]. intros E. injection E as -> ->. split; [now apply mem_In|reflexivity]. Qed.
Lemma h0_acyclic : acyclic h0.
Proof.
  intros v nd a E I. rewrite h0_nth in E. destruct (nth_error h v) as [nd'|] eqn:E'; [|discriminate]. injection E as <-. apply (Ac v nd' a E').
  destruct nd'; cbn in I |- *; auto. destruct (mem v bs); [exact I|destruct I].
Qed.
(** draws other than those of [bs] keep their values *)
Definition agrees (r : nat -> R) : Prop := forall i, ~ In i bs -> r i = rho i.
Lemma sval_h0 r : agrees r -> forall v x, svalue fs h r v x -> svalue fs h0 r v x.
Proof.
  intros Ag v. induction v as [v IH] using lt_wf_ind. intros x V.
  assert (L : forall nd a s, nth_error h v = Some nd -> In a (node_inputs nd) -> svalue fs h r a s -> svalue fs h0 r a s) by (intros nd a s E I; apply IH, (Ac v nd a E I)).
  inversion V as [? c E|? d ps E|? a s E A|? a s E A P|? a s E A P|? l rs E F|? l rs E F|? a c s s' E A B|? a c s s' E A B P|? k l rs ? E F K]; subst.
  2:{ destruct (in_dec Nat.eq_dec v bs) as [I|I]; [exact (v_rv fs h0 r v d ps (h0_base v d ps I E))|]. rewrite (Ag v I). apply v_con. rewrite h0_nth, E. cbn. now rewrite (proj2 (mem_not v bs) I). }
  all: assert (E0 := h0_det v _ E ltac:(discriminate)).
  - now apply v_con.
  - apply (v_exp _ _ _ _ a s E0). apply (L _ _ _ E); cbn; auto.
  - apply (v_log _ _ _ _ a s E0); [|exact P]. apply (L _ _ _ E); cbn; auto.
  - apply (v_recip _ _ _ _ a s E0); [|exact P]. apply (L _ _ _ E); cbn; auto.
  - apply (v_add _ _ _ _ l rs E0). revert F. apply Forall2_imp2. intros a s I. exact (L _ a s E I).
  - apply (v_mul _ _ _ _ l rs E0). revert F. apply Forall2_imp2. intros a s I. exact (L _ a s E I).
  - apply (v_sub _ _ _ _ a c s s' E0); apply (L _ _ _ E); cbn; auto.
  - apply (v_div _ _ _ _ a c s s' E0); [apply (L _ _ _ E); cbn; auto|apply (L _ _ _ E); cbn; auto|exact P].
  - apply (v_other _ _ _ _ k l rs x E0); [|exact K]. revert F. apply Forall2_imp2. intros a s I. exact (L _ a s E I).
Qed.
(** every node of [h0] comes from [h] *)
Lemma h0_inv v nd : nth_error h0 v = Some nd -> nth_error h v = Some nd \/ exists d ps, nth_error h v = Some (SRv d ps) /\ ~ In v bs /\ nd = SCon (Fin (rho v)).
Proof.
  rewrite h0_nth. destruct (nth_error h v) as [nd'|]; [|discriminate]. cbn. intros E. injection E as <-. destruct nd'; auto. cbn. destruct (mem v bs) eqn:M; [auto|]. right. exists d, ps. apply mem_not in M. auto.
Qed.
Lemma h0_sval r : agrees r -> forall v x, svalue fs h0 r v x -> svalue fs h r v x.
Proof.
  intros Ag v. induction v as [v IH] using lt_wf_ind. intros x V.
  assert (L : forall nd a s, nth_error h0 v = Some nd -> In a (node_inputs nd) -> svalue fs h0 r a s -> svalue fs h r a s) by (intros nd a s E I; apply IH, (h0_acyclic v nd a E I)).
  inversion V as [? c E|? d ps E|? a s E A|? a s E A P|? a s E A P|? l rs E F|? l rs E F|? a c s s' E A B|? a c s s' E A B P|? k l rs ? E F K]; subst;
    (destruct (h0_inv v _ E) as [E0|(d0 & ps0 & E0 & NI & Q)]; [|try discriminate Q]).
  - now apply v_con.
  - injection Q as ->. rewrite <- (Ag v NI). exact (v_rv fs h r v d0 ps0 E0).
  - exact (v_rv fs h r v d ps E0).
  - apply (v_exp _ _ _ _ a s E0). apply (L _ _ _ E); cbn; auto.
  - apply (v_log _ _ _ _ a s E0); [|exact P]. apply (L _ _ _ E); cbn; auto.
  - apply (v_recip _ _ _ _ a s E0); [|exact P]. apply (L _ _ _ E); cbn; auto.
  - apply (v_add _ _ _ _ l rs E0). revert F. apply Forall2_imp2. intros a s I. exact (L _ a s E I).
  - apply (v_mul _ _ _ _ l rs E0). revert F. apply Forall2_imp2. intros a s I. exact (L _ a s E I).
  - apply (v_sub _ _ _ _ a c s s' E0); apply (L _ _ _ E); cbn; auto.
  - apply (v_div _ _ _ _ a c s s' E0); [apply (L _ _ _ E); cbn; auto|apply (L _ _ _ E); cbn; auto|exact P].
  - apply (v_other _ _ _ _ k l rs x E0); [|exact K]. revert F. apply Forall2_imp2. intros a s I. exact (L _ a s E I).
Qed.
Lemma agrees_refl : agrees rho. Proof. intros i _. reflexivity. Qed.
Lemma agrees_upd b t : In b bs -> agrees (upd rho b t).
Proof. intros B i I. unfold upd. destruct (Nat.eqb_spec i b); [subst; contradiction|reflexivity]. Qed.
Lemma partial_h0 v b D : In b bs -> partial fs h rho v b D -> partial fs h0 rho v b D.
Proof. intros B (g & L & G). exists g. split; [|exact G]. revert L. apply filter_imp. intros t. apply sval_h0, agrees_upd, B. Qed.
Lemma draw_h0 pdf b p : In b bs -> draw_density fs h pdf rho b p -> draw_density fs h0 pdf rho b p.
Proof.
  intros B (d & ps & rs & E & F & ->). exists d, ps, rs. split; [now apply h0_base|]. split; [|reflexivity]. revert F. apply Forall2_imp2. intros a s _. apply sval_h0, agrees_refl.
Qed.
Variable req : list nat.
Lemma known_h0 : forall v, known h req v -> known h0 req v.
Proof.
  intros v. induction v as [v IH] using lt_wf_ind. intros K. inversion K as [? R|? nd E N F]; subst; [now apply k_req|].
  apply (k_det h0 req v nd (h0_det v nd E N) N). rewrite List.Forall_forall in F |- *. intros a I. apply IH; [exact (Ac v nd a E I)|auto].
Qed.
Lemma knowns_h0 l : List.Forall (known h req) l -> List.Forall (known h0 req) l.
Proof. apply List.Forall_impl, known_h0. Qed.
Lemma svals_h0 l rs : Forall2 (svalue fs h rho) l rs -> Forall2 (svalue fs h0 rho) l rs.
Proof. apply Forall2_imp2. intros a s _. apply sval_h0, agrees_refl. Qed.
Lemma smooth_h0 v b : In b bs -> smooth fs h req rho v b -> smooth fs h0 req rho v b.
Proof.
  intros B H. induction H as [v d ps E|v u a b r E N H IH V P|v l a r b E N H IH Kl Kr NE|v l a r b ls rs E N H IH Kl Kr NE Vl Vr NZ|v a c b E N H IH K|v a c b E K N H IH|v a c b E N H IH K|v a c b r s E K N H IH Va Nr Vc Ps].
  1: exact (s_rv fs h0 req rho v d ps (h0_base v d ps B E)).
  all: assert (E0 := h0_det v _ E ltac:(discriminate)); specialize (IH B).
  - apply (s_one fs h0 req rho v u a b r E0 N IH); [now apply sval_h0; [apply agrees_refl|]|exact P].
  - exact (s_add fs h0 req rho v l a r b E0 N IH (knowns_h0 _ Kl) (knowns_h0 _ Kr) NE).
  - exact (s_mul fs h0 req rho v l a r b ls rs E0 N IH (knowns_h0 _ Kl) (knowns_h0 _ Kr) NE (svals_h0 _ _ Vl) (svals_h0 _ _ Vr) NZ).
  - exact (s_sub_l fs h0 req rho v a c b E0 N IH (known_h0 _ K)).
  - exact (s_sub_r fs h0 req rho v a c b E0 (known_h0 _ K) N IH).
  - exact (s_div_l fs h0 req rho v a c b E0 N IH (known_h0 _ K)).
  - exact (s_div_r fs h0 req rho v a c b r s E0 (known_h0 _ K) N IH (sval_h0 _ agrees_refl _ _ Va) Nr (sval_h0 _ agrees_refl _ _ Vc) Ps).
Qed.
(** the trees *)
Fixpoint subst (e : nexpr) : nexpr :=
  match e with
  | NRv i => if mem i bs then NRv i else NCon (Fin (rho i))
  | NCon c => NCon c
  | NOne u e => NOne u (subst e)
  | NMany n l => NMany n (map subst l)
  | NSub a b => NSub (subst a) (subst b)
  | NDiv a b => NDiv (subst a) (subst b)
  | NOther k l => NOther k (map subst l)
  end.
Lemma subst_id : forall e, (forall i, In i (occs e) -> In i bs) -> subst e = e.
Proof.
  induction e as [i|c|u e IH|n l IH|a b IHa IHb|a b IHa IHb|k l IH] using nexpr_ind'; cbn [subst occs]; intros H; try reflexivity.
  - now rewrite (proj2 (mem_In i bs) (H i (or_introl eq_refl))).
  - f_equal. auto.
  - f_equal. rewrite <- (map_id l) at 2. apply map_ext_in. intros e I. rewrite List.Forall_forall in IH. apply (IH e I). intros i J. apply H, in_flat_map. eauto.
  - f_equal; [apply IHa|apply IHb]; intros i I; apply H, in_or_app; auto.
  - f_equal; [apply IHa|apply IHb]; intros i I; apply H, in_or_app; auto.
  - f_equal. rewrite <- (map_id l) at 2. apply map_ext_in. intros e I. rewrite List.Forall_forall in IH. apply (IH e I). intros i J. apply H, in_flat_map. eauto.
Qed.
Lemma subst_occs : forall e i, In i (occs (subst e)) -> In i (occs e) /\ In i bs.
Proof.
  assert (G : forall l, List.Forall (fun e => forall i, In i (occs (subst e)) -> In i (occs e) /\ In i bs) l -> forall i, In i (flat_map occs (map subst l)) -> In i (flat_map occs l) /\ In i bs).
  { intros l F i I. apply in_flat_map in I as (x & X & I). apply in_map_iff in X as (e & <- & E). rewrite List.Forall_forall in F. destruct (F e E i I) as [A B]. split; [apply in_flat_map; eauto|exact B]. }
  induction e as [j|c|u e IH|n l IH|a b IHa IHb|a b IHa IHb|k l IH] using nexpr_ind'; cbn [subst occs]; intros i I; auto.
  - destruct (mem j bs) eqn:M; [|destruct I]. apply mem_In in M. cbn in I. destruct I as [<-|[]]. cbn. auto.
  - destruct I.
  - apply in_app_or in I as [I|I]; [apply IHa in I|apply IHb in I]; destruct I; (split; [apply in_or_app|]); auto.
  - apply in_app_or in I as [I|I]; [apply IHa in I|apply IHb in I]; destruct I; (split; [apply in_or_app|]); auto.
Qed.
Lemma draw_subst (rho0 : nat -> xr) : (forall i, ~ In i bs -> rho0 i = Fin (rho i)) -> forall e, draw rho0 (subst e) = draw rho0 e.
Proof.
  intros Ag. induction e as [j|c|u e IH|n l IH|a b IHa IHb|a b IHa IHb|k l IH] using nexpr_ind'; cbn [subst draw]; try congruence.
  - destruct (mem j bs) eqn:M; [reflexivity|]. cbn. apply mem_not in M. now rewrite Ag.
  - f_equal. rewrite map_map. apply map_ext_in. intros e I. rewrite List.Forall_forall in IH. now apply IH.
  - f_equal. rewrite map_map. apply map_ext_in. intros e I. rewrite List.Forall_forall in IH. now apply IH.
Qed.
Lemma draw_occs (rho0 : nat -> xr) : forall e, occs (draw rho0 e) = [].
Proof.
  assert (G : forall l, List.Forall (fun e => occs (draw rho0 e) = []) l -> flat_map occs (map (draw rho0) l) = []).
  { intros l F. induction F as [|e l E F IH]; [reflexivity|]. cbn. now rewrite E, IH. }
  induction e as [j|c|u e IH|n l IH|a b IHa IHb|a b IHa IHb|k l IH] using nexpr_ind'; cbn [draw occs]; auto; now rewrite IHa, IHb.
Qed.
Variable y : nat -> xr.
Lemma expand_subst go go' v : (forall nd a, nth_error h v = Some nd -> In a (node_inputs nd) -> go' a = subst (go a)) -> expand h0 go' v = subst (expand h go v).
Proof.
  intros H. unfold expand. rewrite h0_nth. destruct (nth_error h v) as [nd|]; [|reflexivity]. specialize (H nd). destruct nd as [c|d ps|u a|n l|a b|a b|k l]; cbn in *; try reflexivity.
  - now destruct (mem v bs).
  - f_equal. auto.
  - f_equal. rewrite map_map. apply map_ext_in. auto.
  - f_equal; auto. - f_equal; auto.
  - f_equal. rewrite map_map. apply map_ext_in. auto.
Qed.
Lemma unfold_subst : forall fuel v, unfold h0 req y fuel v = subst (unfold h req y fuel v).
Proof. induction fuel as [|fuel IH]; intros v; [reflexivity|]. cbn [unfold]. destruct (mem v req); [reflexivity|]. apply expand_subst. auto. Qed.
Lemma top_subst v : top h0 req y v = subst (top h req y v).
Proof. unfold top. rewrite h0_length. apply expand_subst. intros. apply unfold_subst. Qed.
End Fix.

Section Joint.
Variable ddt : nat -> dtype.
Variable fs : nat -> list xr -> xr.
Variable dlp : nat -> list xr -> xr -> res xr.
Variable h : list snode.
Variable y : nat -> xr.
Variable rho : nat -> R.
Variable rho0 : nat -> xr.
Variable qs : list request.
Variable bs : list nat.
Hypothesis Ac : acyclic h.
Hypothesis Ag : forall i, ~ In i bs -> rho0 i = Fin (rho i).
Notation h0 := (h0 bs rho h).
Lemma dtype_h0 i : In i bs -> rv_dtype ddt h i = rv_dtype ddt h0 i.
Proof. intros I. unfold rv_dtype. rewrite h0_nth. destruct (nth_error h i) as [[]|]; try reflexivity. cbn. now rewrite (proj2 (mem_In i bs) I). Qed.
Lemma rv_h0 i x : In i bs -> u_rv_logprob ddt fs dlp h0 y rho0 qs i x = u_rv_logprob ddt fs dlp h y rho0 qs i x.
Proof.
  intros I. unfold u_rv_logprob. rewrite h0_nth. destruct (nth_error h i) as [[| d ps | | | | |]|]; try reflexivity. cbn. rewrite (proj2 (mem_In i bs) I).
  f_equal. apply map_ext. intros p. unfold u_node. rewrite h0_length, unfold_subst, draw_subst by exact Ag. f_equal. apply annotate_dt. intros j J. rewrite draw_occs in J. destruct J.
Qed.
Lemma measure_h0 e x : (forall i, In i (occs e) -> In i bs) ->
  match a_m (annotate (rv_dtype ddt h0) fs (subst bs rho e)) with None => None | Some m => Some (nested_logprob (u_rv_logprob ddt fs dlp h0 y rho0 qs) m x) end =
  match a_m (annotate (rv_dtype ddt h) fs e) with None => None | Some m => Some (nested_logprob (u_rv_logprob ddt fs dlp h y rho0 qs) m x) end.
Proof.
  intros O. rewrite subst_id by exact O. rewrite (annotate_dt (rv_dtype ddt h0) (rv_dtype ddt h)) by (intros i I; symmetry; apply dtype_h0; auto).
  destruct (a_m _) as [m|] eqn:E; [|reflexivity]. f_equal. apply nested_ext. intros z. apply rv_h0, O. destruct (accepted_chain _ _ _ _ E) as [C _]. rewrite (chain_occs _ _ C). now left.
Qed.
Lemma cond_h0 v : (forall i, In i (occs (top h (q_req qs) y v)) -> In i bs) -> u_conditional ddt fs dlp h0 y rho0 qs v = u_conditional ddt fs dlp h y rho0 qs v.
Proof. intros O. unfold u_conditional. rewrite top_subst. now apply measure_h0. Qed.
Lemma stack_h0 l : forall xs, (forall a i, In a l -> In i (occs (u_node h y qs a)) -> In i bs) -> stack_logprob ddt fs dlp h0 y rho0 qs l xs = stack_logprob ddt fs dlp h y rho0 qs l xs.
Proof.
  induction l as [|a l IH]; intros xs O; [reflexivity|]. cbn [stack_logprob]. rewrite IH by (intros b i B; apply O; now right).
  assert (U : u_node h0 y qs a = subst bs rho (u_node h y qs a)) by (unfold u_node; rewrite h0_length; apply unfold_subst). rewrite U.
  assert (Oa : forall i, In i (occs (u_node h y qs a)) -> In i bs) by (intros i; apply O; now left).
  pose proof (fun x => measure_h0 (u_node h y qs a) x Oa) as M.
  destruct (a_m (annotate (rv_dtype ddt h0) fs (subst bs rho (u_node h y qs a)))) as [m|], (a_m (annotate (rv_dtype ddt h) fs (u_node h y qs a))) as [m'|]; try (specialize (M NaN); discriminate); [|reflexivity].
  destruct (stack_logprob ddt fs dlp h y rho0 qs l (tl xs)); [|reflexivity]. destruct xs as [|x xs]; [reflexivity|]. specialize (M x). injection M as M. now rewrite M.
Qed.
Hypothesis Oc : forall v i, In v (q_req qs) -> In i (occs (top h (q_req qs) y v)) -> In i bs.
Hypothesis Os : forall a i, In a (q_elems qs) -> In i (occs (u_node h y qs a)) -> In i bs.
Lemma sums_h0 ql : incl ql qs -> q_sums ddt fs dlp h0 y rho0 qs ql = q_sums ddt fs dlp h y rho0 qs ql.
Proof.
  induction ql as [|q ql IH]; intros I; [reflexivity|]. cbn [q_sums]. rewrite IH by (intros x X; apply I; now right).
  assert (Q : In q qs) by (apply I; now left).
  assert (E : q_sum ddt fs dlp h0 y rho0 qs q = q_sum ddt fs dlp h y rho0 qs q); [|now rewrite E].
  destruct q as [v|l xs]; cbn [q_sum].
  - apply cond_h0. intros i. apply Oc. unfold q_req. apply in_flat_map. exists (QVar v). split; [exact Q|now left].
  - rewrite stack_h0; [reflexivity|]. intros a i A. apply Os. unfold q_elems. apply in_flat_map. exists (QStack l xs). auto.
Qed.
Lemma joint_h0 : stack_joint ddt fs dlp h0 y rho0 qs = stack_joint ddt fs dlp h y rho0 qs.
Proof. unfold stack_joint. now rewrite sums_h0 by apply incl_refl. Qed.
End Joint.

Lemma q_req_vars l : q_req (map QVar l) = l.
Proof. unfold q_req. induction l; cbn; congruence. Qed.
Lemma needs_h0 bs rho h req v b : needs (h0 bs rho h) req v b -> needs h req v b.
Proof.
  assert (G : forall v nd a, nth_error (h0 bs rho h) v = Some nd -> In a (node_inputs nd) -> nth_error h v = Some nd).
  { intros w nd a E I. destruct (h0_inv bs rho h w nd E) as [E0|(d & ps & _ & _ & ->)]; [exact E0|destruct I]. }
  induction 1 as [v nd b E I|v nd a b E I R N IH]; [apply (n_in h req v nd); eauto|]. apply (n_step h req v nd a); eauto.
Qed.
Lemma given_density ddt fs dlp pdf h qs y base rho (rho0 : nat -> xr) J ps : acyclic h -> NoDup (q_vars qs) ->
  (forall l xs, In (QStack l xs) qs -> xs = map (fun v => Fin (y v)) l) ->
  (forall v b, In v (q_vars qs) -> In b (q_elems qs) -> ~ needs h (q_req qs) v b) ->
  (forall v, In v (q_vars qs) -> svalue fs h rho v (y v)) ->
  (forall v, In v (q_vars qs) -> smooth fs h (q_vars qs) rho v (base v) /\ (rv_dtype ddt h (base v) <> DInt \/ base v = v)) ->
  (forall v w, In v (q_vars qs) -> In w (q_vars qs) -> base v = base w -> v = w) ->
  (forall v w, In v (q_vars qs) -> In w (q_vars qs) -> needs h (q_vars qs) (base v) (base w) -> In (base w) (q_vars qs)) ->
  (forall i, ~ In i (map base (q_vars qs)) -> rho0 i = Fin (rho i)) ->
  Forall2 (fun v p => draw_density fs h pdf rho (base v) p) (q_vars qs) ps ->
  (forall v d l rs, In v (q_vars qs) -> nth_error h (base v) = Some (SRv d l) -> Forall2 (svalue fs h rho) l rs ->
    denotes (dlp d (map Fin rs) (Fin (rho (base v)))) (pdf d rs (rho (base v)))) ->
  (forall i j, i < length (q_vars qs) -> j < length (q_vars qs) -> partial fs h rho (nth i (q_vars qs) 0) (base (nth j (q_vars qs) 0)) (J i j)) ->
  rdet (length (q_vars qs)) J <> 0%R /\
  exists r, stack_joint ddt fs dlp h (fun v => Fin (y v)) rho0 qs = Some r /\ denotes r (rprod ps / Rabs (rdet (length (q_vars qs)) J)).
Proof.
  intros Ac ND Vs Sep Val Sm Inj Own Ag Den Dlp Pa.
  set (bs := map base (q_vars qs)). assert (Bs : forall v, In v (q_vars qs) -> In (base v) bs) by (intros v V; now apply in_map).
  assert (Lead : forall v, In v (q_vars qs) -> leads h (q_vars qs) v (base v)) by (intros v V; eapply smooth_leads, Sm, V).
  assert (Oall : forall v i, In v (q_vars qs) -> In i (occs (top h (q_req qs) (fun v => Fin (y v)) v)) -> In i bs).
  { intros v i V I. rewrite (top_same h qs (fun v => Fin (y v)) v) in I by (intros b B; now apply Sep).
    destruct (proj1 (leads_chain h (q_vars qs) y Ac v (base v)) (Lead v V)) as [C _]. rewrite (chain_occs _ _ C) in I. destruct I as [<-|[]]. auto. }
  rewrite <- (joint_h0 ddt fs dlp h (fun v => Fin (y v)) rho rho0 qs bs); [|exact Ag| |].
  - apply (stack_density ddt fs dlp pdf (h0 bs rho h) qs y base rho rho0 J ps); auto.
    + now apply h0_acyclic.
    + intros v b V B N. apply (Sep v b V B), (needs_h0 bs rho), N.
    + intros v V. apply sval_h0; auto. apply agrees_refl.
    + intros v V. destruct (Sm v V) as [S1 S2]. split; [apply smooth_h0; auto|]. rewrite <- dtype_h0 by auto. exact S2.
    + intros v d l V E. apply h0_base_inv in E as [_ E]. rewrite List.Forall_forall. intros p P. destruct (in_range h Ac _ _ p E P) as [L1 L2].
      apply (known_occs (h0 bs rho h) (q_vars qs) y (h0_acyclic bs rho h Ac) (length h) p); [lia|rewrite h0_length; lia|]. rewrite unfold_subst.
      destruct (occs (subst bs rho (unfold h (q_vars qs) (fun v => Fin (y v)) (length h) p))) as [|i t] eqn:Eo; [reflexivity|exfalso].
      assert (I : In i (occs (subst bs rho (unfold h (q_vars qs) (fun v => Fin (y v)) (length h) p)))) by (rewrite Eo; now left).
      apply subst_occs in I as [I B]. unfold bs in B. apply in_map_iff in B as (w & <- & W).
      pose proof (unf_occs h (map QVar (q_vars qs)) (fun v => Fin (y v)) (length h) p (base w)) as U. rewrite q_req_vars in U. apply U in I as (Np & [Q|[N R]]).
      * apply Np. rewrite <- Q. apply (Own v w V W). rewrite Q. now apply (n_in h _ (base v) (SRv d l)).
      * apply R, (Own v w V W). now apply (n_step h _ (base v) (SRv d l) p).
    + clear - Den Bs Ac. assert (G : forall l ps, incl l (q_vars qs) -> Forall2 (fun v p => draw_density fs h pdf rho (base v) p) l ps -> Forall2 (fun v p => draw_density fs (h0 bs rho h) pdf rho (base v) p) l ps).
      { intros l ps' I F. induction F as [|v p l ps' D F IH]; constructor; [apply draw_h0; auto; apply Bs, I; now left|]. apply IH. intros x X. apply I. now right. }
      apply G; [apply incl_refl|exact Den].
    + intros v d l rs V E F. apply h0_base_inv in E as [_ E]. apply (Dlp v d l rs V E). revert F. apply Forall2_imp2. intros a s _. apply h0_sval; auto. apply agrees_refl.
    + intros i j Li Lj. apply partial_h0; auto. apply Bs, nth_In, Lj.
  - intros v i V. apply Oall, q_vars_in. now left.
  - intros a i A I. destruct (in_dec Nat.eq_dec a (q_req qs)) as [R|R].
    + unfold u_node in I. destruct (length h); cbn [unfold] in I; [destruct I|]. rewrite (proj2 (mem_In a _) R) in I. destruct I.
    + assert (V : In a (q_vars qs)) by (apply q_vars_in; auto). apply (Oall a i V). unfold u_node in I. rewrite (unfold_top h (q_req qs) y Ac a R) in I; [exact I|].
      apply (leads_chain h (q_vars qs) y Ac a (base a)), Lead, V.
Qed.

Lemma q_vars_vars l : q_vars (map QVar l) = l.
Proof. unfold q_vars. induction l; cbn; congruence. Qed.
Lemma q_elems_vars l : q_elems (map QVar l) = [].
Proof. unfold q_elems. induction l; cbn; auto. Qed.
Lemma given_vars ddt fs dlp pdf h req y base rho (rho0 : nat -> xr) J ps : acyclic h -> NoDup req ->
  (forall v, In v req -> svalue fs h rho v (y v)) ->
  (forall v, In v req -> smooth fs h req rho v (base v) /\ (rv_dtype ddt h (base v) <> DInt \/ base v = v)) ->
  (forall v w, In v req -> In w req -> base v = base w -> v = w) ->
  (forall v w, In v req -> In w req -> needs h req (base v) (base w) -> In (base w) req) ->
  (forall i, ~ In i (map base req) -> rho0 i = Fin (rho i)) ->
  Forall2 (fun v p => draw_density fs h pdf rho (base v) p) req ps ->
  (forall v d l rs, In v req -> nth_error h (base v) = Some (SRv d l) -> Forall2 (svalue fs h rho) l rs ->
    denotes (dlp d (map Fin rs) (Fin (rho (base v)))) (pdf d rs (rho (base v)))) ->
  (forall i j, i < length req -> j < length req -> partial fs h rho (nth i req 0) (base (nth j req 0)) (J i j)) ->
  rdet (length req) J <> 0%R /\
  exists r, stack_joint ddt fs dlp h (fun v => Fin (y v)) rho0 (map QVar req) = Some r /\ denotes r (rprod ps / Rabs (rdet (length req) J)).
Proof.
  intros Ac ND Val Sm Inj Own Ag Den Dlp Pa.
  pose proof (given_density ddt fs dlp pdf h (map QVar req) y base rho rho0 J ps) as G. rewrite !q_vars_vars, q_elems_vars in G. apply G; auto.
  - intros l xs I. apply in_map_iff in I as (v & E & _). discriminate.
Qed.

(** Z = exp X and Y ~ N(X, 1) requested without X *)
Definition fr_h : list snode := [SCon (Fin 0); SCon (Fin 1); SRv 0 [0; 1]; SOne UExp 2; SRv 0 [2; 1]].
Definition fr_y (v : nat) : R := if v =? 3 then 1%R else 0%R.
Lemma fr_acyclic : acyclic fr_h.
Proof. intros v nd a E I. do 5 (destruct v as [|v]; [injection E as <-; cbn in I; repeat (destruct I as [<-|I]; [lia|]); destruct I|]). now destruct v. Qed.
Lemma fr_joint x : exists r, stack_joint (fun _ => DFloat) nfs nlp fr_h (fun v => Fin (fr_y v)) (fun _ => Fin x) [QVar 3; QVar 4] = Some r /\
  denotes r (normal_pdf 0 1 0 * normal_pdf x 1 0).
Proof.
  set (lps := u_rv_logprob (fun _ => DFloat) nfs nlp fr_h (fun v => Fin (fr_y v)) (fun _ => Fin x) [QVar 3; QVar 4]).
  destruct (nested_density (rv_dtype (fun _ => DFloat) fr_h) nfs (fun _ => 0%R) 2 lps (normal_pdf 0 1) (top fr_h [3; 4] (fun v => Fin (fr_y v)) 3) (fr_y 3)
    ltac:(discriminate) (normal_ok 0 1 0 ltac:(lra))) as (m & d & E & (g & g' & Lg & Eg & Dg & Ng & Ed) & Den).
  - apply (g_one nfs (fun _ => 0%R) 2 UExp (NRv 2) 0%R); [apply g_rv|apply (m_rv nfs (fun _ => 0%R) 2)|discriminate].
  - replace (fr_y 3) with (exp 0) by (rewrite exp_0; reflexivity). apply m_exp, (m_rv nfs (fun _ => 0%R) 2).
  - assert (g' = 1%R) as ->.
    { assert (EQ : locally 0%R (fun t => exp t = g t)).
      { generalize Lg. apply filter_imp. intros t B. apply (means_fun nfs (upd (fun _ => 0%R) 2 t) (top fr_h [3; 4] (fun v => Fin (fr_y v)) 3)); [|exact B].
        exact (m_exp nfs (upd (fun _ => 0%R) 2 t) (NRv 2) t (m_rv nfs (upd (fun _ => 0%R) 2 t) 2)). }
      pose proof (is_derive_ext_loc exp g 0%R (exp 0) EQ) as G. specialize (G (proj2 (is_derive_Reals exp 0%R (exp 0)) (derivable_pt_lim_exp 0))). apply is_derive_unique in G, Dg. rewrite exp_0 in G. congruence. }
    exists (rmap xsum (rseq [nested_logprob lps m (Fin (fr_y 3)); normal_logprob (Fin x) (Fin 1) (Fin 0)])). split.
    + unfold stack_joint. cbn [q_sums q_sum]. unfold u_conditional at 1. change (q_req [QVar 3; QVar 4]) with [3; 4]. rewrite E. reflexivity.
    + apply two_sum; [|apply normal_ok; lra]. replace (normal_pdf 0 1 0) with d; [exact Den|]. rewrite Ed, Rabs_R1. field.
Qed.
Lemma pdf_shift : normal_pdf 0 1 0 <> normal_pdf 1 1 0.
Proof.
  unfold normal_pdf. intros E. apply Rmult_eq_reg_l in E.
  - apply exp_inv in E. field_simplify in E. lra.
  - pose proof PI_RGT_0. pose proof (sqrt_lt_R0 (2 * PI) ltac:(lra)). apply Rinv_neq_0_compat. lra.
Qed.
Lemma fresh_draw : exists h req y, acyclic h /\ NoDup req /\
  (exists rho, (forall v, In v req -> svalue nfs h rho v (y v)) /\
    forall rho', (forall v, In v req -> svalue nfs h rho' v (y v)) -> forall i d ps, nth_error h i = Some (SRv d ps) -> rho' i = rho i) /\
  exists rho1 rho2 r1 r2 d1 d2, stack_joint (fun _ => DFloat) nfs nlp h (fun v => Fin (y v)) rho1 (map QVar req) = Some r1 /\ denotes r1 d1 /\
    stack_joint (fun _ => DFloat) nfs nlp h (fun v => Fin (y v)) rho2 (map QVar req) = Some r2 /\ denotes r2 d2 /\ d1 <> d2.
Proof.
  exists fr_h, [3; 4], fr_y. split; [exact fr_acyclic|]. split; [repeat constructor; cbn; intuition lia|]. split.
  - assert (V3 : forall rho, svalue nfs fr_h rho 3 (exp (rho 2))) by (intros rho; exact (v_exp nfs fr_h rho 3 2 _ eq_refl (v_rv nfs fr_h rho 2 0 [0; 1] eq_refl))).
    assert (V4 : forall rho, svalue nfs fr_h rho 4 (rho 4)) by (intros rho; exact (v_rv nfs fr_h rho 4 0 [2; 1] eq_refl)).
    exists (fun _ => 0%R). split.
    + intros v [<-|[<-|[]]]; [|exact (V4 (fun _ => 0%R))]. replace (fr_y 3) with (exp 0) by (rewrite exp_0; reflexivity). apply V3.
    + intros rho' H i d ps E.
      pose proof (svalue_fun nfs fr_h fr_acyclic rho' 3 _ _ (H 3 ltac:(cbn; auto)) (V3 rho')) as A. pose proof (svalue_fun nfs fr_h fr_acyclic rho' 4 _ _ (H 4 ltac:(cbn; auto)) (V4 rho')) as B.
      cbn in A, B. destruct i as [|[|[|[|[|i]]]]]; try discriminate E; [| |now destruct i].
      * apply exp_inv. rewrite exp_0. congruence.
      * congruence.
  - destruct (fr_joint 0) as (r1 & E1 & D1), (fr_joint 1) as (r2 & E2 & D2). exists (fun _ => Fin 0), (fun _ => Fin 1), r1, r2. do 2 eexists. split; [exact E1|]. split; [exact D1|]. split; [exact E2|]. split; [exact D2|].
    intros E. apply Rmult_eq_reg_l in E; [now apply pdf_shift|]. apply Rgt_not_eq, pdf_pos.
Qed.
