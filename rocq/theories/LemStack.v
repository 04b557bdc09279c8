(** Lemmas on requested stacks. *)
From Coq Require Import Reals Lra Lia List Arith Bool.
From Coquelicot Require Import Coquelicot.
From Verif Require Import XR XTac SpecDist ModelDist LemDist ModelVec SpecVec LemDisc ModelJoint LemJoint ModelTrans ModelNest SpecNest LemNest LemNest2 RMx ModelSys SpecSys LemSys LemSys2 LemSys3 ModelStack SpecStack.
Import ListNotations.
Open Scope nat_scope.

Lemma q_vars_in qs v : In v (q_vars qs) <-> In v (q_req qs) \/ In v (q_elems qs).
Proof. unfold q_vars, q_req, q_elems. induction qs as [|[w|l xs] qs IH]; cbn; [tauto|tauto|]. rewrite !in_app_iff. tauto. Qed.

Lemma draw_closed rho : forall e, occs e = [] -> draw rho e = e.
Proof.
  induction e as [i|c|u e IH|n l IH|a b IHa IHb|a b IHa IHb|k l IH] using nexpr_ind'; cbn; intros O; try reflexivity; try discriminate.
  - f_equal. auto.
  - f_equal. induction IH as [|x l Hx F IHl]; [reflexivity|]. cbn in O |- *. apply app_eq_nil in O as [O1 O2]. f_equal; auto.
  - apply app_eq_nil in O as [O1 O2]. f_equal; auto.
  - apply app_eq_nil in O as [O1 O2]. f_equal; auto.
  - f_equal. induction IH as [|x l Hx F IHl]; [reflexivity|]. cbn in O |- *. apply app_eq_nil in O as [O1 O2]. f_equal; auto.
Qed.

Section Same.
Variable h : list snode.
Variable qs : list request.
Variable y : nat -> xr.
Hypothesis Ac : acyclic h.
Notation req := (q_req qs).
Notation all := (q_vars qs).

Lemma expand_ext go go' v : (forall nd a, nth_error h v = Some nd -> In a (node_inputs nd) -> go a = go' a) -> expand h go v = expand h go' v.
Proof.
  intros H. unfold expand. destruct (nth_error h v) as [nd|]; [|reflexivity]. specialize (H nd). destruct nd as [c|d ps|u a|n l|a b|a b|k l]; cbn in H; try reflexivity.
  - f_equal. auto. - f_equal. apply map_ext_in. auto. - f_equal; auto. - f_equal; auto. - f_equal. apply map_ext_in. auto.
Qed.
Lemma unf_same : forall fuel v, ~ In v (q_elems qs) -> (In v req \/ forall b, In b (q_elems qs) -> ~ needs h req v b) -> unfold h req y fuel v = unfold h all y fuel v.
Proof.
  induction fuel as [|fuel IH]; intros v NE NN; [reflexivity|]. cbn [unfold]. destruct (mem v req) eqn:M.
  - apply mem_In in M. assert (M' : mem v all = true) by (apply mem_In, q_vars_in; auto). now rewrite M'.
  - apply mem_not in M. assert (M' : mem v all = false) by (apply mem_not; rewrite q_vars_in; tauto). rewrite M'. destruct NN as [NN|NN]; [tauto|].
    apply expand_ext. intros nd a E I. apply IH.
    + intros A. apply (NN a A). now apply (n_in h req v nd).
    + destruct (in_dec Nat.eq_dec a req) as [R|R]; [auto|right]. intros b B N. apply (NN b B). now apply (n_step h req v nd a).
Qed.
Lemma top_same v : (forall b, In b (q_elems qs) -> ~ needs h req v b) -> top h req y v = top h all y v.
Proof.
  intros NN. apply expand_ext. intros nd a E I. apply unf_same.
  - intros A. apply (NN a A). now apply (n_in h req v nd).
  - destruct (in_dec Nat.eq_dec a req) as [R|R]; [auto|right]. intros b B N. apply (NN b B). now apply (n_step h req v nd a).
Qed.
Lemma needs_trans v a b : needs h req v a -> ~ In a req -> needs h req a b -> needs h req v b.
Proof. intros N R N2. induction N as [v nd a E I|v nd c a E I Rc N IH]; [now apply (n_step h req v nd a)|]. apply (n_step h req v nd c); auto. Qed.
Lemma expand_in go v i : In i (occs (expand h go v)) -> i = v \/ exists nd a, nth_error h v = Some nd /\ In a (node_inputs nd) /\ In i (occs (go a)).
Proof.
  unfold expand. destruct (nth_error h v) as [nd|] eqn:E; [|intros []].
  assert (G : forall l, In i (flat_map occs (map go l)) -> exists a, In a l /\ In i (occs (go a))).
  { intros l H. apply in_flat_map in H as (x & X & I). apply in_map_iff in X as (a & <- & A). eauto. }
  destruct nd as [c|d ps|u a|n l|a b|a b|k l]; cbn [occs].
  - intros [].
  - intros [<-|[]]. auto.
  - intros I. right. do 2 eexists. repeat split; [|exact I]. cbn. auto.
  - intros I. apply G in I as (a & A & I). right. do 2 eexists. repeat split; [|exact I]. exact A.
  - intros I. right. apply in_app_or in I as [I|I]; do 2 eexists; (repeat split; [|exact I]); cbn; auto.
  - intros I. right. apply in_app_or in I as [I|I]; do 2 eexists; (repeat split; [|exact I]); cbn; auto.
  - intros I. apply G in I as (a & A & I). right. do 2 eexists. repeat split; [|exact I]. exact A.
Qed.
Lemma unf_occs : forall fuel v i, In i (occs (unfold h req y fuel v)) -> ~ In v req /\ (i = v \/ needs h req v i /\ ~ In i req).
Proof.
  induction fuel as [|fuel IH]; intros v i; cbn [unfold]; [intros []|]. destruct (mem v req) eqn:M; [intros []|]. apply mem_not in M. intros I.
  split; [exact M|]. apply expand_in in I as [->|(nd & a & E & A & I)]; [auto|right]. apply IH in I as (Ra & [->|[N R]]).
  - split; [now apply (n_in h req v nd)|exact Ra].
  - split; [now apply (n_step h req v nd a)|exact R].
Qed.
Lemma top_occs v i : In i (occs (top h req y v)) -> i = v \/ needs h req v i /\ ~ In i req.
Proof.
  intros I. apply expand_in in I as [->|(nd & a & E & A & I)]; [auto|right]. apply unf_occs in I as (Ra & [->|[N R]]).
  - split; [now apply (n_in h req v nd)|exact Ra].
  - split; [now apply (n_step h req v nd a)|exact R].
Qed.
End Same.

Lemma nested_ext lps lps' m : (forall x, lps (mbase m) x = lps' (mbase m) x) -> forall x, nested_logprob lps m x = nested_logprob lps' m x.
Proof.
  induction m as [i|t m IH]; cbn; intros H x; [apply H|]. specialize (IH H). unfold elemwise_logprob. destruct (backward t x); cbn [bind]; [now rewrite IH|reflexivity].
Qed.
Lemma conditionals_app ddt fs dlp h req y l m : conditionals ddt fs dlp h req y (l ++ m) =
  match conditionals ddt fs dlp h req y l, conditionals ddt fs dlp h req y m with Some a, Some b => Some (a ++ b) | _, _ => None end.
Proof.
  induction l as [|v l IH]; cbn [app conditionals]; [now destruct (conditionals ddt fs dlp h req y m)|]. rewrite IH.
  destruct (conditional ddt fs dlp h req y v); [|reflexivity]. now destruct (conditionals ddt fs dlp h req y l), (conditionals ddt fs dlp h req y m).
Qed.
Definition radd (a b : res xr) : res xr := bind a (fun s => bind b (fun t => Val (xadd s t))).
Lemma rsum_app a b : rmap xsum (rseq (a ++ b)) = radd (rmap xsum (rseq a)) (rmap xsum (rseq b)).
Proof.
  induction a as [|r a IH]; cbn [app rseq]; unfold radd in *.
  - destruct (rseq b) as [l|]; [|reflexivity]. cbn [rseq rmap bind xsum fold_right]. now rewrite xadd_0_l.
  - destruct r as [x|]; cbn [bind rmap]; [|reflexivity]. destruct (rseq (a ++ b)) as [l|], (rseq a) as [la|], (rseq b) as [lb|]; cbn [bind rmap] in IH |- *; try discriminate; try reflexivity.
    injection IH as IH. f_equal. change (xadd x (xsum l) = xadd (xadd x (xsum la)) (xsum lb)). rewrite IH. apply xadd_assoc.
Qed.
Lemma rsum_cons r b : rmap xsum (rseq (r :: b)) = radd r (rmap xsum (rseq b)).
Proof. unfold radd. cbn [rseq]. destruct r as [x|]; cbn [bind rmap]; [|reflexivity]. destruct (rseq b); reflexivity. Qed.

Section Joint.
Variable ddt : nat -> dtype.
Variable fs : nat -> list xr -> xr.
Variable dlp : nat -> list xr -> xr -> res xr.
Variable h : list snode.
Variable y : nat -> R.
Variable rho : nat -> xr.
Variable qs : list request.
Hypothesis Ac : acyclic h.
Notation req := (q_req qs).
Notation all := (q_vars qs).
Notation yy := (fun v => Fin (y v)).
Hypothesis Sep : forall v b, In v all -> In b (q_elems qs) -> ~ needs h req v b.
Hypothesis Disj : forall b, In b (q_elems qs) -> ~ In b req.
Hypothesis Kn : forall v b d l, In v all -> leads h all v b -> nth_error h b = Some (SRv d l) -> List.Forall (known h all) l.
Notation dt := (rv_dtype ddt h).

Lemma rv_same v i x : In v all -> leads h all v i -> i = v \/ needs h req v i /\ ~ In i req ->
  u_rv_logprob ddt fs dlp h yy rho qs i x = rv_logprob ddt fs dlp h all yy i x.
Proof.
  intros V L C. unfold u_rv_logprob, rv_logprob. destruct (nth_error h i) as [[| d ps | | | | |]|] eqn:E; try reflexivity.
  f_equal. apply map_ext_in. intros p P. pose proof (Kn v i d ps V L E) as K. rewrite List.Forall_forall in K. specialize (K p P).
  pose proof (in_range h Ac i _ p E P) as Rg.
  assert (Nd : forall b, needs h req i b -> In b (q_elems qs) -> False).
  { intros b N B. apply (Sep v b V B). destruct C as [->|[N1 R]]; [exact N|]. now apply (needs_trans h qs v i b). }
  assert (U : u_node h yy qs p = unfold h all yy (length h) p).
  { unfold u_node. apply unf_same.
    - intros B. apply (Nd p); [|exact B]. now apply (n_in h req i (SRv d ps)).
    - destruct (in_dec Nat.eq_dec p req) as [R|R]; [auto|right]. intros b B N. apply (Nd b); [|exact B]. now apply (n_step h req i (SRv d ps) p). }
  rewrite U, draw_closed; [reflexivity|]. apply (known_occs h all y Ac (length h) p); [lia|lia|exact K].
Qed.
Lemma measure_same v x : In v all ->
  match a_m (annotate dt fs (top h req yy v)) with None => None | Some m => Some (nested_logprob (u_rv_logprob ddt fs dlp h yy rho qs) m x) end =
  match a_m (annotate dt fs (top h all yy v)) with None => None | Some m => Some (nested_logprob (rv_logprob ddt fs dlp h all yy) m x) end.
Proof.
  intros V. rewrite <- (top_same h qs yy v) by (intros b B; now apply Sep). destruct (a_m (annotate dt fs (top h req yy v))) as [m|] eqn:E; [|reflexivity].
  f_equal. apply nested_ext. intros z. destruct (accepted_chain dt fs _ m E) as [C _].
  apply (rv_same v).
  - exact V.
  - apply (leads_chain h all y Ac). rewrite (top_same h qs yy v) in C by (intros b B; now apply Sep). split; [exact C|].
    destruct (le_lt_dec (length h) v) as [L|L]; [|exact L]. apply nth_error_None in L. unfold top, expand in C. rewrite L in C. inversion C.
  - apply (top_occs h qs yy). rewrite (chain_occs _ _ C). now left.
Qed.
Lemma cond_same v : In v all -> u_conditional ddt fs dlp h yy rho qs v = conditional ddt fs dlp h all yy v.
Proof. intros V. unfold u_conditional, conditional. now apply measure_same. Qed.
Lemma elem_node a : In a (q_elems qs) -> a < length h -> u_node h yy qs a = top h req yy a.
Proof. intros A L. apply (unfold_top h req y Ac); auto. Qed.
Lemma elem_out a : length h <= a -> a_m (annotate dt fs (u_node h yy qs a)) = None /\ conditional ddt fs dlp h all yy a = None.
Proof.
  intros L. apply nth_error_None in L. unfold u_node, conditional, top. split.
  - destruct (length h); cbn [unfold]; [reflexivity|]. destruct (mem a req); [reflexivity|]. unfold expand. now rewrite L.
  - unfold expand. now rewrite L.
Qed.
Lemma stack_same l : incl l (q_elems qs) -> stack_logprob ddt fs dlp h yy rho qs l (map yy l) = conditionals ddt fs dlp h all yy l.
Proof.
  induction l as [|a l IH]; intros I; [reflexivity|]. cbn [stack_logprob conditionals map tl]. rewrite IH by (intros b B; apply I; now right).
  assert (A : In a (q_elems qs)) by (apply I; now left).
  destruct (le_lt_dec (length h) a) as [L|L]; [destruct (elem_out a L) as [-> ->]; reflexivity|].
  rewrite elem_node by assumption. pose proof (measure_same a (Fin (y a))) as Q. unfold conditional at 1. rewrite <- Q by (apply q_vars_in; auto).
  destruct (a_m _); [|reflexivity]. reflexivity.
Qed.
Hypothesis Vals : forall l xs, In (QStack l xs) qs -> xs = map yy l.
Lemma sums_same ql : incl ql qs -> match conditionals ddt fs dlp h all yy (q_vars ql), q_sums ddt fs dlp h yy rho qs ql with
  | Some rs, Some ss => rmap xsum (rseq ss) = rmap xsum (rseq rs) | None, None => True | _, _ => False end.
Proof.
  induction ql as [|q ql IH]; intros I; [reflexivity|]. specialize (IH (fun x X => I x (or_intror X))). cbn [q_sums]. unfold q_vars in *. cbn [flat_map]. rewrite conditionals_app.
  assert (Q : In q qs) by (apply I; now left). destruct q as [v|l xs]; cbn [q_sum].
  - rewrite cond_same by (apply in_flat_map; exists (QVar v); cbn; auto). cbn [conditionals].
    destruct (conditional _ _ _ _ _ _ v); [|destruct (conditionals _ _ _ _ _ _ _), (q_sums _ _ _ _ _ _ _ _); auto].
    destruct (conditionals _ _ _ _ _ _ _), (q_sums _ _ _ _ _ _ _ _); auto. cbn [app]. now rewrite !rsum_cons, IH.
  - rewrite (Vals l xs Q), stack_same by (intros a A; apply in_flat_map; exists (QStack l xs); auto).
    destruct (conditionals _ _ _ _ _ _ l) as [rl|]; [|destruct (conditionals _ _ _ _ _ _ _), (q_sums _ _ _ _ _ _ _ _); auto].
    destruct (conditionals _ _ _ _ _ _ _) as [rr|], (q_sums _ _ _ _ _ _ _ _) as [ss|]; auto. now rewrite rsum_cons, rsum_app, IH.
Qed.
Lemma joint_same : stack_joint ddt fs dlp h yy rho qs = joint ddt fs dlp h all yy.
Proof.
  unfold stack_joint, joint. pose proof (sums_same qs (incl_refl _)) as Q. destruct (conditionals _ _ _ _ _ _ _), (q_sums _ _ _ _ _ _ _ _); try easy. now rewrite Q.
Qed.
End Joint.
