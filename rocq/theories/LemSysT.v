(** Lemmas on whole models in the transformed space. *)
From Coq Require Import Reals Lra Lia List Arith Bool FunctionalExtensionality.
From Coquelicot Require Import Coquelicot.
From Verif Require Import XR SpecDist ModelDist ModelVec SpecVec LemDisc ModelTrans SpecTrans LemTrans LemTrans2 ModelJoint ModelNest SpecNest LemNest LemNest2 RMx LemMvn2 ModelSys SpecSys LemSys LemSys2 LemSys3 LemSound ModelSysT SpecSysT.
Import ListNotations.
Open Scope nat_scope.

Lemma operands_inputs h v nd : nth_error h v = Some nd -> operands h v = node_inputs nd.
Proof. intros E. unfold operands. rewrite E. now destruct nd. Qed.

Section Ext.
Variable h : list snode.
Variable req : list nat.
Hypothesis Ac : acyclic h.
Lemma unfold_ext N (y1 y2 : nat -> xr) : (forall q, In q req -> q < N -> y1 q = y2 q) -> forall fuel v, v < N -> unfold h req y1 fuel v = unfold h req y2 fuel v.
Proof.
  intros Q. induction fuel as [|fuel IH]; intros v L; [reflexivity|]. cbn [unfold]. destruct (mem v req) eqn:M; [apply mem_In in M; now rewrite Q|].
  unfold expand. destruct (nth_error h v) as [nd|] eqn:E; [|reflexivity].
  assert (H : forall a, In a (node_inputs nd) -> unfold h req y1 fuel a = unfold h req y2 fuel a) by (intros a I; apply IH; pose proof (Ac v nd a E I); lia).
  destruct nd as [c|d ps|u a|n l|a b|a b|k l]; cbn [node_inputs] in H; try reflexivity.
  - f_equal. apply H; cbn; auto.
  - f_equal. apply map_ext_in. intros a I. now apply H.
  - f_equal; apply H; cbn; auto.
  - f_equal; apply H; cbn; auto.
  - f_equal. apply map_ext_in. intros a I. now apply H.
Qed.
Lemma unfold_same (y1 y2 : nat -> xr) : (forall q, In q req -> y1 q = y2 q) -> unfold h req y1 = unfold h req y2.
Proof. intros Q. extensionality fuel. extensionality v. apply (unfold_ext (S v)); [intros; now apply Q|lia]. Qed.
Lemma cond_same ddt fs dlp (y1 y2 : nat -> xr) v : In v req -> (forall q, In q req -> y1 q = y2 q) -> conditional ddt fs dlp h req y1 v = conditional ddt fs dlp h req y2 v.
Proof. intros I Q. unfold conditional, top, rv_logprob. rewrite (unfold_same y1 y2 Q), (Q v I). reflexivity. Qed.
Lemma operand_ext ddt fs y1 y2 v : (forall q, In q req -> q < v -> y1 q = y2 q) -> operand_values ddt fs h req y1 v = operand_values ddt fs h req y2 v.
Proof.
  intros Q. unfold operand_values. apply map_ext_in. intros a I. f_equal. f_equal.
  destruct (nth_error h v) as [nd|] eqn:E; [|unfold operands in I; rewrite E in I; destruct I]. rewrite (operands_inputs h v nd E) in I. apply (unfold_ext v); [exact Q|]. exact (Ac v nd a E I).
Qed.
Section Vals.
Variable ddt : nat -> dtype.
Variable fs : nat -> list xr -> xr.
Variable tf : nat -> option (list xr -> tr).
Variable z : nat -> xr.
Notation vals := (values ddt fs h req tf z).
Lemma values_length n : length (vals n) = n.
Proof. induction n as [|n IH]; [reflexivity|]. cbn [values]. rewrite app_length, IH. cbn. lia. Qed.
Lemma values_stable n : forall m i, i < n -> n <= m -> nth i (vals m) NaN = nth i (vals n) NaN.
Proof.
  induction m as [|m IH]; intros i L M; [lia|]. destruct (Nat.eq_dec n (S m)) as [->|N]; [reflexivity|]. cbn [values]. rewrite app_nth1 by (rewrite values_length; lia). apply IH; lia.
Qed.
Lemma value_eq v : v < length h -> value_of ddt fs h req tf z v = untransformed ddt fs h req tf z (value_of ddt fs h req tf z) v.
Proof.
  intros L. unfold value_of at 1. rewrite (values_stable (S v)) by lia. cbn [values]. rewrite app_nth2 by (rewrite values_length; lia). rewrite values_length, Nat.sub_diag. cbn [nth].
  unfold untransformed. destruct (tf v) as [f|]; [|reflexivity]. rewrite (operand_ext ddt fs (fun i => nth i (vals v) NaN) (value_of ddt fs h req tf z) v); [reflexivity|].
  intros q _ Lq. unfold value_of. symmetry. apply values_stable; lia.
Qed.
End Vals.
Lemma below_sound v : forall fuel w, below h fuel w v = true -> computed_from h w v.
Proof.
  induction fuel as [|fuel IH]; intros w B; [discriminate|]. cbn [below] in B. apply existsb_exists in B as (a & I & B).
  destruct (nth_error h w) as [nd|] eqn:E; [|unfold operands in I; rewrite E in I; destruct I]. rewrite (operands_inputs h w nd E) in I.
  apply orb_prop in B as [B|B]; [apply Nat.eqb_eq in B; subst; exact (c_here h w v nd E I)|exact (c_there h w a v nd E I (IH a B))].
Qed.
Lemma below_complete v w : computed_from h w v -> forall fuel, w < fuel -> below h fuel w v = true.
Proof.
  induction 1 as [w v nd E I|w a v nd E I C IH]; intros fuel L; (destruct fuel as [|fuel]; [lia|]); cbn [below]; apply existsb_exists; rewrite (operands_inputs h w nd E).
  - exists v. split; [exact I|]. now rewrite Nat.eqb_refl.
  - exists a. split; [exact I|]. pose proof (Ac w nd a E I). rewrite IH by lia. apply orb_true_r.
Qed.
Lemma output_ok tf l v r : in_order h tf req -> req = l ++ v :: r -> tf v <> None -> output_transformed h l v = true.
Proof.
  intros O E T. unfold output_transformed. apply forallb_forall. intros w W. apply negb_true_iff. destruct (below h (length h) w v) eqn:B; [|reflexivity].
  exfalso. exact (O l v r w E T W (below_sound v _ w B)).
Qed.
End Ext.

Section Model.
Variable fs : nat -> list xr -> xr.
Variable h : list snode.
Variable req : list nat.
Variable y z : nat -> R.
Hypothesis Ac : acyclic h.
Variable tf : nat -> option (list xr -> tr).
Hypothesis St : steady h tf.
Variable ddt : nat -> dtype.
Variable dlp : nat -> list xr -> xr -> res xr.
Variable rho : nat -> R.
Hypothesis TV : forall v, In v req -> tvalue fs h tf rho v (y v) (z v).
Variable base : nat -> nat.
Hypothesis Lead : forall v, In v req -> leads h req v (base v).
Hypothesis Inj : forall v w, In v req -> In w req -> base v = base w -> v = w.
Hypothesis Kn : forall v d l, In v req -> nth_error h (base v) = Some (SRv d l) -> List.Forall (known h req) l.
Notation sval := (svalue fs h).
Notation val := (value_of ddt fs h req tf (fun v => Fin (z v))).

Lemma own_base v d l : In v req -> nth_error h v = Some (SRv d l) -> base v = v.
Proof. intros I E. pose proof (Lead v I) as L. inversion L; subst; try (rewrite E in *; discriminate). congruence. Qed.
Lemma own_known v d l : In v req -> nth_error h v = Some (SRv d l) -> List.Forall (known h req) l.
Proof. intros I E. apply (Kn v d l I). now rewrite (own_base v d l I E). Qed.
Lemma req_range v : In v req -> v < length h.
Proof. intros I. pose proof (Lead v I) as L. inversion L; subst; apply nth_error_Some; congruence. Qed.

(** the transform used *)
Lemma trans_here v f : In v req -> (forall q, In q req -> q < v -> val q = Fin (y q)) -> tf v = Some f ->
  exists nd rs, nth_error h v = Some nd /\ Forall2 (sval rho) (node_inputs nd) rs /\ f (operand_values ddt fs h req val v) = f (map Fin rs) /\ tmaps (f (map Fin rs)) (y v) (z v).
Proof.
  intros I Q T. destruct (TV v I) as [V H]. rewrite T in H. destruct H as (nd & rs & E & F & M). exists nd, rs. split; [exact E|]. split; [exact F|]. split; [|exact M].
  destruct (St v f T) as [(d & l & E')|[t C]]; [|now rewrite !C]. rewrite E in E'. injection E' as ->. cbn [node_inputs] in F. f_equal.
  rewrite (operand_ext h req Ac ddt fs val (fun v => Fin (y v)) v Q). unfold operand_values. rewrite (operands_inputs h v _ E). cbn [node_inputs].
  rewrite <- (vals_plain (rv_dtype ddt h) fs rho (map (unfold h req (fun v => Fin (y v)) (length h)) l) rs).
  - now rewrite !map_map.
  - apply (knowns_occs h req y Ac v _ l E (incl_refl _)). exact (own_known v d l I E).
  - apply (svals_means fs h req y Ac rho v (SRv d l)); auto; [|apply incl_refl]. intros q Iq _. apply (TV q Iq).
Qed.
Lemma values_right : forall v, In v req -> val v = Fin (y v).
Proof.
  intros v. induction v as [v IH] using lt_wf_ind. intros I. rewrite value_eq by (auto; now apply req_range). unfold untransformed.
  destruct (tf v) as [f|] eqn:T.
  - destruct (trans_here v f I) as (nd & rs & E & F & -> & M); [intros q Iq L; now apply IH|exact T|]. now rewrite (proj2 (maps_both _ _ _ M)).
  - destruct (TV v I) as [_ H]. rewrite T in H. now rewrite H.
Qed.
Lemma no_deps w a : In w req -> known h req a -> a <= w -> a <> w -> a < length h -> ~ deps h (base w) a.
Proof.
  intros W K L NE LN D. destruct (mem a req) eqn:M.
  - apply mem_In in M. destruct (deps_order h req y Ac base Lead Inj w W a M D); lia.
  - apply mem_not in M. destruct (deps_cases h req y Ac (base w) a D) as [O|(q & Q & Lq & Dq)].
    + apply (known_occs h req y Ac (length h) a LN LN) in K. rewrite (unfold_top h req y Ac a M LN) in K. rewrite K in O. destruct O.
    + destruct (deps_order h req y Ac base Lead Inj w W q Q Dq); lia.
Qed.
Lemma same_trans v w f nd rs s x r : In v req -> In w req -> ~ w < v -> tf v = Some f -> nth_error h v = Some nd -> Forall2 (sval rho) (node_inputs nd) rs ->
  tvalue fs h tf (upd rho (base w) s) v x r -> tmaps (f (map Fin rs)) x r.
Proof.
  intros V W L T E F [_ H]. rewrite T in H. destruct H as (nd' & rs' & E' & F' & M). rewrite E in E'. injection E' as <-.
  destruct (St v f T) as [(d & l & E2)|[t C]]; [|now rewrite C in *]. rewrite E in E2. injection E2 as ->. cbn [node_inputs] in *.
  assert (rs' = rs) as ->; [|exact M]. pose proof (own_known v d l V E) as K. assert (IN : forall a, In a l -> a < v) by (intros a A; exact (Ac v _ a E A)).
  pose proof (req_range v V) as LV. clear - F F' K IN Ac Lead Inj W L LV y. revert rs' F'. induction F as [|a b l rs A F IH]; intros rs' F'; inversion F' as [|? b' ? rs2 A' F2]; subst; [reflexivity|].
  inversion K; subst. f_equal; [|apply IH; auto; intros; apply IN; now right]. apply (svalue_fun fs h Ac (upd rho (base w) s) a); [exact A'|]. apply (svalue_indep fs h Ac); [|exact A].
  pose proof (IN a (or_introl eq_refl)). apply no_deps; auto; lia.
Qed.
Lemma upd_same b : upd rho b (rho b) = rho.
Proof. extensionality i. unfold upd. destruct (Nat.eqb_spec i b); congruence. Qed.
Lemma tpartial_zero v w : In v req -> In w req -> v <> w -> ~ w < v -> forall D, tpartial fs h tf rho v (base w) D -> D = 0%R.
Proof.
  intros V W N L D (g & k & Lk & Dk). assert (ND : ~ deps h (base w) v). { intros X. destruct (deps_order h req y Ac base Lead Inj w W v V X); auto. }
  assert (EQ : locally (rho (base w)) (fun s => k s = z v)).
  { revert Lk. apply filter_imp. intros s H. pose proof H as [Vg H2]. assert (Eg : g s = y v). { apply (svalue_fun fs h Ac (upd rho (base w) s) v); [exact Vg|]. apply (svalue_indep fs h Ac); auto. apply (TV v V). }
    destruct (TV v V) as [Vv H3]. destruct (tf v) as [f|] eqn:T; [|congruence]. destruct H3 as (nd & rs & E & F & [_ Mz]).
    destruct (same_trans v w f nd rs s (g s) (k s) V W L T E F H) as [_ M]. rewrite Eg in M. congruence. }
  pose proof (is_derive_ext_loc k (fun _ => z v) _ D EQ Dk) as K2. apply is_derive_unique in K2. rewrite Derive_const in K2. congruence.
Qed.
(** the derivative of the value itself *)
Lemma tpartial_partial v D : In v req -> tsigned fs h tf rho v -> tpartial fs h tf rho v (base v) D ->
  match tf v with
  | None => partial fs h rho v (base v) D
  | Some f => exists d l, log_jac_det (f (operand_values ddt fs h req val v)) (Fin (z v)) = Val (Fin l) /\
      backward (f (operand_values ddt fs h req val v)) (Fin (z v)) = Val (Fin (y v)) /\ d <> 0%R /\ l = ln (Rabs d) /\ partial fs h rho v (base v) (d * D)
  end.
Proof.
  intros V Sg (g & k & Lk & Dk). destruct (tf v) as [f|] eqn:T.
  - destruct (trans_here v f V) as (nd & rs & E & F & Ef & M); [intros; now apply values_right|exact T|]. rewrite Ef.
    destruct (jac_maps _ _ _ M (Sg f nd rs (y v) T E F (proj1 (TV v V)))) as (b & l & Nb & Jl & d & Db & Nd & El). exists d, l. split; [exact Jl|]. split; [apply (maps_both _ _ _ M)|]. split; [exact Nd|]. split; [exact El|].
    assert (H : locally (rho (base v)) (fun s => tmaps (f (map Fin rs)) (g s) (k s))).
    { revert Lk. apply filter_imp. intros s. apply (same_trans v v f nd rs s); auto. lia. }
    assert (K0 : k (rho (base v)) = z v).
    { pose proof (locally_singleton _ _ Lk) as [S0 _]. pose proof (locally_singleton _ _ H) as [_ M0]. rewrite upd_same in S0. cbv beta in S0. assert (g (rho (base v)) = y v) as Eg by exact (svalue_fun fs h Ac rho v _ _ S0 (proj1 (TV v V))).
      rewrite Eg in M0. rewrite <- M0. apply M. }
    assert (Nk : locally (rho (base v)) (fun s => backward (f (map Fin rs)) (Fin (k s)) = Val (Fin (b (k s))))).
    { pose proof (ex_derive_continuous k (rho (base v)) (ex_intro _ D Dk)) as C. apply (C (fun x => backward (f (map Fin rs)) (Fin x) = Val (Fin (b x)))). rewrite K0. exact Nb. }
    exists g. split; [revert Lk; apply filter_imp; intros s [A _]; exact A|].
    apply (is_derive_ext_loc (fun s => b (k s))).
    + generalize (filter_and _ _ H Nk). apply filter_imp. intros s [A B]. rewrite (proj2 (maps_both _ _ _ A)) in B. congruence.
    + replace (d * D)%R with (scal D d) by (unfold scal; cbn; unfold mult; cbn; ring). apply (is_derive_comp b k); [rewrite K0; exact Db|exact Dk].
  - exists k. split; [|exact Dk]. revert Lk. apply filter_imp. intros s [A B]. rewrite T in B. now rewrite B.
Qed.
Lemma cond_val v : In v req -> conditional ddt fs dlp h req val v = conditional ddt fs dlp h req (fun v => Fin (y v)) v.
Proof. intros I. apply cond_same; auto. intros q Q. now apply values_right. Qed.
Lemma tfactor_ok before v D p : In v req -> smooth fs h req rho v (base v) -> rv_dtype ddt h (base v) <> DInt \/ base v = v -> tsigned fs h tf rho v ->
  (tf v <> None -> output_transformed h before v = true) ->
  denotes (rv_logprob ddt fs dlp h req (fun v => Fin (y v)) (base v) (Fin (rho (base v)))) p ->
  tpartial fs h tf rho v (base v) D ->
  D <> 0%R /\ exists r, conditional_trans ddt fs dlp h req tf true (fun v => Fin (z v)) before v = Some r /\ denotes r (p / Rabs D).
Proof.
  intros V Sm Fb Sg Ou Lp Pa. pose proof (tpartial_partial v D V Sg Pa) as P. unfold conditional_trans. rewrite (cond_val v V).
  assert (Vy : forall q, In q req -> sval rho q (y q)) by (intros q Q; apply (TV q Q)).
  destruct (tf v) as [f|] eqn:T.
  - destruct P as (d & l & Jl & Bz & Nd & El & P). destruct (factor_ok fs h req y Ac base Lead Inj ddt dlp rho Vy v (d * D) p V Sm Fb Lp P) as (NZ & r & Er & Dr).
    assert (NZD : D <> 0%R) by (intros ->; apply NZ; ring). split; [exact NZD|]. rewrite Er. eexists. split; [reflexivity|].
    rewrite Bz, Ou by discriminate. cbn [bind andb]. rewrite Jl. destruct r as [x|]; [|destruct Dr]. cbn [bind].
    replace (p / Rabs D)%R with (p / Rabs (d * D) * exp l)%R.
    + apply (den_add x (Fin l)); [exact Dr|apply den_fin].
    + rewrite El, exp_ln by (now apply Rabs_pos_lt). rewrite Rabs_mult. pose proof (Rabs_no_R0 d Nd). pose proof (Rabs_no_R0 D NZD). now field.
  - destruct (factor_ok fs h req y Ac base Lead Inj ddt dlp rho Vy v D p V Sm Fb Lp P) as (NZ & r & Er & Dr). split; [exact NZ|]. rewrite Er. eauto.
Qed.
Lemma conds_trans_ok uj l : forall before ds, Forall2 (fun v d => forall b, (exists m, before ++ l = b ++ v :: m) -> exists r, conditional_trans ddt fs dlp h req tf uj (fun v => Fin (z v)) b v = Some r /\ denotes r d) l ds -> NoDup (before ++ l) ->
  exists rs, conditionals_trans ddt fs dlp h req tf uj (fun v => Fin (z v)) before l = Some rs /\ denotes (rmap xsum (rseq rs)) (rprod ds).
Proof.
  induction l as [|v l IH]; intros before ds F ND; inversion F as [|? d ? ds' H F']; subst; cbn [conditionals_trans].
  - exists []. split; [reflexivity|]. cbn. unfold rprod. cbn. rewrite <- exp_0. apply den_fin.
  - destruct (H before) as (r & E & D); [eauto|]. destruct (IH (before ++ [v]) ds') as (rs & Es & Ds).
    + rewrite <- app_assoc. exact F'.
    + rewrite <- app_assoc. exact ND.
    + rewrite E, Es. exists (r :: rs). split; [reflexivity|]. cbn [rseq]. destruct r as [a|]; [|destruct D]. cbn [bind]. destruct (rseq rs) as [m|]; [|destruct Ds].
      cbn [bind rmap xsum fold_right]. unfold rprod. cbn [fold_right]. exact (den_add a _ d _ D Ds).
Qed.
End Model.
