(** Whole models in the transformed space: the joint density. *)
From Coq Require Import Reals Lra Lia List Arith Bool FunctionalExtensionality Permutation.
From Coquelicot Require Import Coquelicot.
From Verif Require Import XR XTac SpecDist ModelDist LemDist ModelVec SpecVec LemDisc ModelTrans SpecTrans LemTrans LemTrans2 ModelJoint ModelNest SpecNest LemNest LemNest2 RMx LemMvn2 LemDet ModelSys SpecSys LemSys LemSys2 LemSys3 LemSound ModelSysT SpecSysT LemSysT.
Import ListNotations.
Open Scope R_scope.

Lemma jac_none t : forall x, tdom t x -> exists j, log_jac_det t (Fin (tfun t x)) = Val j /\ (tpos t x \/ bad j).
Proof.
  induction t as [c|c| | | |a b| | |l IH] using tr_ind'; intros x H; cbn [tpos]; try (eexists; split; [reflexivity|now left]).
  - cbn [log_jac_det]. eexists. split; [reflexivity|]. cbn [tdom] in H. destruct (Rlt_dec 0 x) as [P|N]; [now left|right]. cbn [tfun].
    assert (/ x < 0) by (apply Rinv_lt_0_compat; lra). right. unfold xlog. destruct (Rlt_dec 0 (/ x)); [lra|]. destruct (Req_EM_T (/ x) 0); [lra|reflexivity].
  - destruct a as [[a| | |]|], b as [[b| | |]|]; cbn [tdom] in H; try tauto; eexists; (split; [reflexivity|now left]).
  - change (exists j, log_jac_det (TChain l) (Fin (tfun (TChain l) x)) = Val j /\ (tpos (TChain l) x \/ bad j)). cbn [log_jac_det].
    match goal with |- exists j, rmap snd (?g l ?v) = _ /\ _ => assert (G : forall l, List.Forall (fun t => forall x, tdom t x -> exists j, log_jac_det t (Fin (tfun t x)) = Val j /\ (tpos t x \/ bad j)) l ->
      forall x, tdom (TChain l) x -> exists det, g l (Fin (tfun (TChain l) x)) = Val (Fin x, det) /\ (tpos (TChain l) x \/ bad det)) end.
    { clear. induction l as [|t l IHl]; intros F x H; [eexists; split; [reflexivity|now left]|]. inversion F as [|? ? Ft Fl]; subst. destruct H as [H1 H2].
      destruct (IHl Fl _ H2) as (det & E & P). change (tfun (TChain (t :: l)) x) with (tfun (TChain l) (tfun t x)). rewrite E. cbn [bind].
      destruct (Ft x H1) as (j & Ej & Pj). rewrite Ej. cbn [bind]. rewrite (backward_ok t x H1). cbn [bind]. eexists. split; [reflexivity|].
      destruct Pj as [Pj|Pj]; [destruct P as [P|P]; [left; split; auto|right; now apply bad_l]|right; now apply bad_r]. }
    destruct (G l IH x H) as (det & E & P). rewrite E. exists det. split; [reflexivity|exact P].
Qed.

Open Scope nat_scope.
Lemma trans_joint ddt fs dlp pdf h req tf y z base rho J ps : acyclic h -> NoDup req -> steady h tf -> in_order h tf req ->
  (forall v, In v req -> tvalue fs h tf rho v (y v) (z v) /\ tsigned fs h tf rho v) ->
  (forall v, In v req -> smooth fs h req rho v (base v) /\ (rv_dtype ddt h (base v) <> DInt \/ base v = v)) ->
  (forall v w, In v req -> In w req -> base v = base w -> v = w) ->
  (forall v d l, In v req -> nth_error h (base v) = Some (SRv d l) -> List.Forall (known h req) l) ->
  Forall2 (fun v p => draw_density fs h pdf rho (base v) p) req ps ->
  (forall v d l rs, In v req -> nth_error h (base v) = Some (SRv d l) -> Forall2 (svalue fs h rho) l rs ->
    denotes (dlp d (map Fin rs) (Fin (rho (base v)))) (pdf d rs (rho (base v)))) ->
  (forall i j, i < length req -> j < length req -> tpartial fs h tf rho (nth i req 0) (base (nth j req 0)) (J i j)) ->
  rdet (length req) J <> 0%R /\
  exists r, joint_trans ddt fs dlp h req tf true (fun v => Fin (z v)) = Some r /\ denotes r (rprod ps / Rabs (rdet (length req) J)).
Proof.
  intros Ac ND St Ord TS Sm Inj Kn Den Dlp Pa.
  assert (TV : forall v, In v req -> tvalue fs h tf rho v (y v) (z v)) by (intros v V; apply (TS v V)).
  assert (Vy : forall v, In v req -> svalue fs h rho v (y v)) by (intros v V; apply (TV v V)).
  assert (Lead : forall v, In v req -> leads h req v (base v)) by (intros v V; eapply smooth_leads, Sm, V).
  assert (Det : rdet (length req) J = prodn (length req) (fun i => J i i)).
  { apply (det_ranked (length req) J (fun i => nth i req 0)). intros i j Li Lj NE NL.
    apply (tpartial_zero fs h req y z Ac tf St rho TV base Lead Inj Kn (nth i req 0) (nth j req 0)); [now apply nth_In|now apply nth_In| |exact NL|now apply Pa].
    intros X. apply NE. eapply NoDup_nth; eauto. }
  destruct (pos_of req ND) as [pos Pos].
  assert (Dv : forall v, In v req -> tpartial fs h tf rho v (base v) (J (pos v) (pos v))).
  { intros v V. destruct (In_nth req v 0 V) as (i & Li & <-). rewrite Pos by exact Li. now apply Pa. }
  assert (DetE : Rabs (rdet (length req) J) = rprod (map (fun v => Rabs (J (pos v) (pos v))) req)).
  { rewrite Det, prodn_abs, rprod_nth. apply prodn_ext. intros i Li. now rewrite Pos. }
  pose (good := fun v d => forall b, (exists m, [] ++ req = b ++ v :: m) -> exists r, conditional_trans ddt fs dlp h req tf true (fun v => Fin (z v)) b v = Some r /\ denotes r d).
  assert (Fac : forall v p, In v req -> draw_density fs h pdf rho (base v) p -> J (pos v) (pos v) <> 0%R /\ good v (p / Rabs (J (pos v) (pos v)))%R).
  { intros v p V (d & l & rs & E & F & ->). destruct (Sm v V) as [S1 S2].
    assert (X : forall b, (exists m, [] ++ req = b ++ v :: m) -> J (pos v) (pos v) <> 0%R /\ exists r, conditional_trans ddt fs dlp h req tf true (fun v => Fin (z v)) b v = Some r /\ denotes r (pdf d rs (rho (base v)) / Rabs (J (pos v) (pos v)))).
    { intros b (m & Em). apply (tfactor_ok fs h req y z Ac tf St ddt dlp rho TV base Lead Inj Kn b v); auto; [apply (TS v V)| |].
      - intros T. exact (output_ok h req tf b v m Ord Em T).
      - rewrite (params_values fs h req y Ac ddt dlp rho Vy (base v) d l rs E (Kn v d l V E) F). now apply (Dlp v d l). }
    destruct (in_split v req V) as (b & m & Em). split; [apply (X b); exists m; exact Em|]. intros b' H. apply (X b' H). }
  assert (ND' : rdet (length req) J <> 0%R /\ exists ds, Forall2 good req ds /\ rprod ds = (rprod ps / Rabs (rdet (length req) J))%R).
  { assert (G : forall l qs, incl l req -> Forall2 (fun v p => draw_density fs h pdf rho (base v) p) l qs ->
      rprod (map (fun v => Rabs (J (pos v) (pos v))) l) <> 0%R /\
      exists ds, Forall2 good l ds /\ rprod ds = (rprod qs / rprod (map (fun v => Rabs (J (pos v) (pos v))) l))%R).
    { intros l qs I F. induction F as [|v p l qs D F IH].
      - split; [unfold rprod; cbn; apply R1_neq_R0|]. exists []. split; [constructor|]. unfold rprod. cbn. field.
      - destruct IH as (NZ & ds & Fd & Ed); [intros x X; apply I; now right|]. destruct (Fac v p) as (Nv & Gv); [apply I; now left|exact D|].
        apply Rabs_no_R0 in Nv. split; [unfold rprod in *; cbn; now apply Rmult_integral_contrapositive_currified|].
        exists ((p / Rabs (J (pos v) (pos v)))%R :: ds). split; [constructor; auto|]. unfold rprod in *. cbn [map fold_right]. rewrite Ed. field. auto. }
    destruct (G req ps (incl_refl _) Den) as (NZ & ds & Fd & Ed). rewrite <- DetE in NZ, Ed. split; [intros Z; apply NZ; rewrite Z; apply Rabs_R0|]. exists ds. auto. }
  destruct ND' as (NZ & ds & Fd & Ed). split; [exact NZ|]. destruct (conds_trans_ok fs h req z tf ddt dlp true req [] ds Fd ND) as (rs & Er & Dr).
  unfold joint_trans. rewrite Er. eexists. split; [reflexivity|]. now rewrite <- Ed.
Qed.

Lemma conds_trans_inv ddt fs dlp h req tf uj z l : forall before rs d, conditionals_trans ddt fs dlp h req tf uj z before l = Some rs -> denotes (rmap xsum (rseq rs)) d ->
  forall v, In v l -> exists b m r dv, before ++ l = b ++ v :: m /\ conditional_trans ddt fs dlp h req tf uj z b v = Some r /\ denotes r dv.
Proof.
  induction l as [|a l IH]; intros before rs d E Den v I; [destruct I|]. cbn [conditionals_trans] in E.
  destruct (conditional_trans _ _ _ _ _ _ _ _ _ a) as [r|] eqn:Ea; [|discriminate]. destruct (conditionals_trans _ _ _ _ _ _ _ _ _ l) as [rs'|] eqn:El; [|discriminate]. injection E as <-.
  cbn [rseq] in Den. destruct r as [x|]; [|destruct Den]. cbn [bind] in Den. destruct (rseq rs') as [xs|] eqn:Es; [|destruct Den]. cbn [bind rmap xsum fold_right] in Den.
  fold (xsum xs) in Den.
  assert (X : exists dx, denotes (Val x) dx). { destruct x as [a0| | |]; [exists (exp a0); reflexivity| |exists 0%R; reflexivity|]; exfalso; refine (bad_den _ d _ Den); apply bad_l; [now left|now right]. }
  assert (Y : exists dy, denotes (rmap xsum (rseq rs')) dy).
  { rewrite Es. cbn [rmap bind]. change (exists dy, denotes (Val (xsum xs)) dy). destruct (xsum xs) as [a0| | |]; [exists (exp a0); reflexivity| |exists 0%R; reflexivity|]; exfalso; refine (bad_den _ d _ Den); apply bad_r; [now left|now right]. }
  destruct I as [<-|I]; [destruct X as [dx X]; exists before, l; eauto|]. destruct Y as [dy Y]. destruct (IH _ rs' dy El Y v I) as (b & m & r & dv & Eb & Er & Dr). exists b, m, r, dv. split; [|auto].
  now rewrite <- app_assoc in Eb.
Qed.
Lemma Forall2_fun {A B} (P : A -> B -> Prop) : (forall a b c, P a b -> P a c -> b = c) -> forall l m n, Forall2 P l m -> Forall2 P l n -> m = n.
Proof. intros H l m n F. revert n. induction F as [|a b l m A1 F IH]; intros n G; inversion G; subst; [reflexivity|]. f_equal; eauto. Qed.

Lemma trans_sound ddt fs dlp pdf h req tf y z base rho J ps r d : acyclic h -> NoDup req -> steady h tf -> in_order h tf req ->
  (forall v, In v req -> tvalue fs h tf rho v (y v) (z v)) ->
  (forall v, In v req -> leads h req v (base v)) ->
  (forall v w, In v req -> In w req -> base v = base w -> v = w) ->
  (forall v d l, In v req -> nth_error h (base v) = Some (SRv d l) -> List.Forall (known h req) l) ->
  Forall2 (fun v p => draw_density fs h pdf rho (base v) p) req ps ->
  (forall v d l rs, In v req -> nth_error h (base v) = Some (SRv d l) -> Forall2 (svalue fs h rho) l rs ->
    denotes (dlp d (map Fin rs) (Fin (rho (base v)))) (pdf d rs (rho (base v)))) ->
  (forall i j, i < length req -> j < length req -> tpartial fs h tf rho (nth i req 0) (base (nth j req 0)) (J i j)) ->
  joint_trans ddt fs dlp h req tf true (fun v => Fin (z v)) = Some r -> denotes r d ->
  rdet (length req) J <> 0%R /\ d = (rprod ps / Rabs (rdet (length req) J))%R.
Proof.
  intros Ac ND St Ord TV Ld Inj Kn Den Dlp Pa Ej Dr.
  assert (Vy : forall v, In v req -> svalue fs h rho v (y v)) by (intros v V; apply (TV v V)).
  assert (Inner : forall v, In v req -> (exists r dv, conditional ddt fs dlp h req (fun v => Fin (y v)) v = Some r /\ denotes r dv) /\ tsigned fs h tf rho v).
  { intros v V. unfold joint_trans in Ej. destruct (conditionals_trans _ _ _ _ _ _ _ _ _ req) as [rs|] eqn:Ec; [|discriminate]. injection Ej as <-.
    destruct (conds_trans_inv _ _ _ _ _ _ _ _ _ _ _ _ Ec Dr v V) as (b & m & r & dv & Eb & Er & D). unfold conditional_trans in Er.
    rewrite (cond_val fs h req y z Ac tf St ddt dlp rho TV base Ld Kn v V) in Er. destruct (conditional _ _ _ _ _ _ v) as [q|] eqn:Eq; [|discriminate].
    destruct (tf v) as [f|] eqn:T.
    - injection Er as <-. destruct (trans_here fs h req y z Ac tf St ddt rho TV base Ld Kn v f V) as (nd & rs' & E & F & Ef & M); [intros; now apply (values_right fs h req y z Ac tf St ddt rho TV base Ld Kn)|exact T|].
      rewrite Ef in D. rewrite (proj2 (maps_both _ _ _ M)) in D. cbn [bind] in D. rewrite (output_ok h req tf b v m Ord Eb) in D by (rewrite T; discriminate). cbn [andb] in D.
      destruct q as [l|]; [|destruct D]. cbn [bind] in D. destruct M as [Md Mz]. destruct (jac_none (f (map Fin rs')) (y v) Md) as (j & Jj & Pj). rewrite Mz in Jj. rewrite Jj in D. cbn [bind] in D.
      assert (Nl : ~ bad l) by (intros B; exact (bad_den _ dv (bad_l _ _ B) D)). assert (Nj : ~ bad j) by (intros B; exact (bad_den _ dv (bad_r _ _ B) D)).
      split. + exists (Val l). destruct l as [a| | |]; [exists (exp a); split; reflexivity|destruct Nl; now left|exists 0%R; split; reflexivity|destruct Nl; now right].
      + intros f' nd' rs2 x T' E' F' Vx. rewrite T in T'. injection T' as <-. rewrite E in E'. injection E' as <-.
        rewrite (Forall2_fun _ (svalue_fun fs h Ac rho) _ _ _ F' F), (svalue_fun fs h Ac rho v _ _ Vx (Vy v V)). destruct Pj; [assumption|contradiction].
    - injection Er as <-. split; [eauto|]. intros f' nd' rs2 x T'. congruence. }
  assert (Sm : forall v, In v req -> smooth fs h req rho v (base v) /\ (rv_dtype ddt h (base v) <> DInt \/ base v = v)).
  { intros v I. destruct (Inner v I) as [(q & dv & E & D) _]. split; [exact (cond_smooth fs h req y Ac ddt dlp rho v (base v) q dv Vy I (Ld v I) E D)|].
    destruct (proj1 (sys_accepted ddt fs dlp h req y v Ac)) as (b & Lb & Db); [rewrite E; discriminate|].
    assert (base v = b) as ->; [|exact Db]. destruct (proj1 (leads_chain h req y Ac v b) Lb) as [C _]. destruct (proj1 (leads_chain h req y Ac v (base v)) (Ld v I)) as [C' _].
    apply chain_occs in C, C'. congruence. }
  destruct (trans_joint ddt fs dlp pdf h req tf y z base rho J ps Ac ND St Ord) as (NZ & r' & E' & D'); auto; [intros v V; split; [now apply TV|apply (Inner v V)]|].
  rewrite Ej in E'. injection E' as <-. split; [exact NZ|exact (den_fun _ _ _ Dr D')].
Qed.

(** without the Jacobian terms: the joint density of the requested variables themselves *)
Lemma conds_plain fs h req z tf y ddt dlp rho base : acyclic h -> steady h tf ->
  (forall v, In v req -> tvalue fs h tf rho v (y v) (z v)) -> (forall v, In v req -> leads h req v (base v)) ->
  (forall v d l, In v req -> nth_error h (base v) = Some (SRv d l) -> List.Forall (known h req) l) ->
  forall l before, incl l req -> conditionals_trans ddt fs dlp h req tf false (fun v => Fin (z v)) before l = conditionals ddt fs dlp h req (fun v => Fin (y v)) l.
Proof.
  intros Ac St TV Ld Kn l. induction l as [|v l IH]; intros before I; [reflexivity|]. assert (V : In v req) by (apply I; now left).
  cbn [conditionals_trans conditionals]. rewrite IH by (intros x X; apply I; now right). f_equal. unfold conditional_trans. rewrite (cond_val fs h req y z Ac tf St ddt dlp rho TV base Ld Kn v V).
  destruct (conditional _ _ _ _ _ _ v) as [q|]; [|reflexivity]. destruct (tf v) as [f|] eqn:T; [|reflexivity].
  destruct (trans_here fs h req y z Ac tf St ddt rho TV base Ld Kn v f V) as (nd & rs' & E & F & Ef & M); [intros; now apply (values_right fs h req y z Ac tf St ddt rho TV base Ld Kn)|exact T|].
  rewrite Ef, (proj2 (maps_both _ _ _ M)). cbn [bind andb]. now destruct q.
Qed.
Lemma trans_plain ddt fs dlp h req tf y z base rho : acyclic h -> steady h tf ->
  (forall v, In v req -> tvalue fs h tf rho v (y v) (z v)) -> (forall v, In v req -> leads h req v (base v)) ->
  (forall v d l, In v req -> nth_error h (base v) = Some (SRv d l) -> List.Forall (known h req) l) ->
  joint_trans ddt fs dlp h req tf false (fun v => Fin (z v)) = joint ddt fs dlp h req (fun v => Fin (y v)).
Proof. intros Ac St TV Ld Kn. unfold joint_trans, joint. now rewrite (conds_plain fs h req z tf y ddt dlp rho base Ac St TV Ld Kn req [] (incl_refl _)). Qed.

(** X ~ N(0, 1), Z = exp X on the log scale, Y ~ N(Z, 1) *)
Definition oy : list snode := [SCon (Fin 0); SCon (Fin 1); SRv 0 [0; 1]; SOne UExp 2; SRv 0 [3; 1]].
Definition oy_tf (v : nat) : option (list xr -> tr) := match v with 3 => Some (fun _ => TLog) | _ => None end.
Definition oy_z (_ : nat) : R := 1%R.
Lemma oy_acyclic : acyclic oy.
Proof. intros v nd a E I. do 5 (destruct v as [|v]; [injection E as <-; cbn in I; repeat (destruct I as [<-|I]; [lia|]); destruct I|]). now destruct v. Qed.
Lemma oy_Z req before : req = [3; 4] \/ req = [4; 3] ->
  conditional_trans (fun _ => DFloat) nfs nlp oy req oy_tf true (fun v => Fin (oy_z v)) before 3 =
  Some (bind (normal_logprob (Fin 0) (Fin 1) (Fin 1)) (fun l => let m := xadd l (Fin (-1)) in Val (if output_transformed oy before 3 then xadd m (Fin 1) else m))).
Proof.
  intros Q. unfold conditional_trans, conditional. assert (E : value_of (fun _ : nat => DFloat) nfs oy req oy_tf (fun v : nat => Fin (oy_z v)) 3 = Fin (exp 1)) by (destruct Q as [-> | ->]; reflexivity).
  assert (A : annotate (rv_dtype (fun _ => DFloat) oy) nfs (top oy req (value_of (fun _ : nat => DFloat) nfs oy req oy_tf (fun v : nat => Fin (oy_z v))) 3) =
    {| a_m := Some (MElem TExp (MBase 2)); a_rand := true; a_val := NaN |}) by (destruct Q as [-> | ->]; reflexivity).
  rewrite A, E. cbn [a_m nested_logprob oy_tf]. unfold elemwise_logprob. cbn [backward bind log_jac_det]. rewrite xlog_pos by apply exp_pos. rewrite ln_exp.
  assert (L : rv_logprob (fun _ => DFloat) nfs nlp oy req (value_of (fun _ : nat => DFloat) nfs oy req oy_tf (fun v : nat => Fin (oy_z v))) 2 (Fin 1) = normal_logprob (Fin 0) (Fin 1) (Fin 1)) by (destruct Q as [-> | ->]; reflexivity).
  rewrite L. unfold oy_z. destruct (normal_logprob (Fin 0) (Fin 1) (Fin 1)) as [l|]; [|reflexivity]. cbn [bind andb].
  replace (Fin (-1)) with (xneg (Fin 1)) by reflexivity. destruct (output_transformed oy before 3); reflexivity.
Qed.
Lemma oy_Y req before : req = [3; 4] \/ req = [4; 3] ->
  conditional_trans (fun _ => DFloat) nfs nlp oy req oy_tf true (fun v => Fin (oy_z v)) before 4 = Some (normal_logprob (Fin (exp 1)) (Fin 1) (Fin 1)).
Proof. intros [-> | ->]; reflexivity. Qed.
Lemma oy_order : in_order oy oy_tf [3; 4].
Proof.
  intros l v r w E T W C. destruct l as [|a [|b [|c l]]]; [destruct W| |discriminate|discriminate]. injection E as <- <- _. now apply T.
Qed.
Lemma order_matters : exists h tf z req req' r r' d d', acyclic h /\ steady h tf /\ in_order h tf req /\ Permutation req req' /\
  joint_trans (fun _ => DFloat) nfs nlp h req tf true (fun v => Fin (z v)) = Some r /\ denotes r d /\
  joint_trans (fun _ => DFloat) nfs nlp h req' tf true (fun v => Fin (z v)) = Some r' /\ denotes r' d' /\ d <> d'.
Proof.
  assert (D1 : denotes (normal_logprob (Fin 0) (Fin 1) (Fin 1)) (normal_pdf 0 1 1)) by (apply normal_ok; lra).
  assert (D2 : denotes (normal_logprob (Fin (exp 1)) (Fin 1) (Fin 1)) (normal_pdf (exp 1) 1 1)) by (apply normal_ok; lra).
  assert (P1 : (0 < normal_pdf 0 1 1)%R /\ (0 < normal_pdf (exp 1) 1 1)%R).
  { unfold normal_pdf. pose proof PI_RGT_0. split; (apply Rmult_lt_0_compat; [apply Rinv_0_lt_compat; apply Rmult_lt_0_compat; [lra|apply sqrt_lt_R0; lra]|apply exp_pos]). }
  destruct (normal_logprob (Fin 0) (Fin 1) (Fin 1)) as [[l1| | |]|] eqn:E1; try (now destruct D1); [|cbn in D1; lra].
  destruct (normal_logprob (Fin (exp 1)) (Fin 1) (Fin 1)) as [[l2| | |]|] eqn:E2; try (now destruct D2); [|cbn in D2; lra].
  exists oy, oy_tf, oy_z, [3; 4], [4; 3], (Val (Fin (l1 + -1 + 1 + (l2 + 0)))), (Val (Fin (l2 + (l1 + -1 + 0)))), (exp (l1 + -1 + 1 + (l2 + 0))), (exp (l2 + (l1 + -1 + 0))).
  split; [exact oy_acyclic|]. split; [intros v f T; destruct v as [|[|[|[|v]]]]; try discriminate T; right; injection T as <-; eauto|]. split; [exact oy_order|]. split; [apply perm_swap|].
  split; [unfold joint_trans; cbn [conditionals_trans app]; rewrite oy_Z, oy_Y by auto; rewrite E1, E2; reflexivity|]. split; [reflexivity|].
  split; [unfold joint_trans; cbn [conditionals_trans app]; rewrite oy_Z, oy_Y by auto; rewrite E1, E2; reflexivity|]. split; [reflexivity|].
  intros X. apply exp_inv in X. lra.
Qed.
Lemma trans_bare ddt fs dlp pdf h req tf y z base rho J ps : acyclic h -> NoDup req -> steady h tf ->
  (forall v, In v req -> tvalue fs h tf rho v (y v) (z v)) ->
  (forall v, In v req -> smooth fs h req rho v (base v) /\ (rv_dtype ddt h (base v) <> DInt \/ base v = v)) ->
  (forall v w, In v req -> In w req -> base v = base w -> v = w) ->
  (forall v d l, In v req -> nth_error h (base v) = Some (SRv d l) -> List.Forall (known h req) l) ->
  Forall2 (fun v p => draw_density fs h pdf rho (base v) p) req ps ->
  (forall v d l rs, In v req -> nth_error h (base v) = Some (SRv d l) -> Forall2 (svalue fs h rho) l rs ->
    denotes (dlp d (map Fin rs) (Fin (rho (base v)))) (pdf d rs (rho (base v)))) ->
  (forall i j, i < length req -> j < length req -> partial fs h rho (nth i req 0) (base (nth j req 0)) (J i j)) ->
  exists r, joint_trans ddt fs dlp h req tf false (fun v => Fin (z v)) = Some r /\ denotes r (rprod ps / Rabs (rdet (length req) J)).
Proof.
  intros Ac ND St TV Sm Inj Kn Den Dlp Pa. rewrite (trans_plain ddt fs dlp h req tf y z base rho Ac St TV (fun v V => smooth_leads fs h req rho v _ (proj1 (Sm v V))) Kn).
  refine (proj2 (sys_joint ddt fs dlp pdf h req y base rho J ps Ac ND _ Sm Inj Kn Den Dlp Pa)). intros v V. apply (TV v V).
Qed.
