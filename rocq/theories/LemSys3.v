(** Lemmas on whole models: the joint density. *)
From Coq Require Import Reals Lra Lia List Arith Bool.
From Coquelicot Require Import Coquelicot.
From Verif Require Import XR XTac SpecDist ModelDist LemDist ModelVec SpecVec LemDisc ModelJoint ModelNest SpecNest LemNest LemNest2 RMx LemMvn2 LemDet ModelSys SpecSys LemSys LemSys2.
Import ListNotations.
Open Scope nat_scope.

Lemma sys_accepted ddt fs dlp h req y v : acyclic h ->
  (conditional ddt fs dlp h req (fun v => Fin (y v)) v <> None <-> exists b, leads h req v b /\ (rv_dtype ddt h b <> DInt \/ b = v)).
Proof.
  intros Ac. unfold conditional. set (an := annotate _ _ _). split.
  - intros H. destruct (a_m an) as [m|] eqn:E; [|easy]. destruct (proj1 (accepted_iff (rv_dtype ddt h) fs (top h req (fun v => Fin (y v)) v) (mbase m))) as [C Dt].
    { exists m. auto. }
    exists (mbase m). assert (Lv : v < length h).
    { destruct (le_lt_dec (length h) v) as [L|L]; [|exact L]. apply nth_error_None in L. unfold top, expand in C. rewrite L in C. inversion C. }
    split; [apply (leads_chain h req y Ac); auto|]. destruct Dt as [Dt|Dt]; [auto|right].
    unfold top, expand in Dt. destruct (nth_error h v) as [[]|]; try discriminate Dt. now injection Dt.
  - intros (b & L & Dt). destruct (proj1 (leads_chain h req y Ac v b) L) as [C Lv].
    destruct (proj2 (accepted_iff (rv_dtype ddt h) fs (top h req (fun v => Fin (y v)) v) b)) as (m & E & _).
    + split; [exact C|]. destruct Dt as [Dt|Eb]; [left; exact Dt|right]. destruct (leads_rv h req _ _ L) as (d & ps & E). rewrite Eb in E |- *. unfold top, expand. now rewrite E.
    + unfold an. rewrite E. discriminate.
Qed.

Lemma rprod_nth l (f : nat -> R) : rprod (map f l) = prodn (length l) (fun i => f (nth i l 0)).
Proof.
  induction l as [|a l IH] using rev_ind; [reflexivity|]. rewrite app_length, Nat.add_1_r. cbn [prodn].
  assert (A : forall l' : list R, forall x, rprod (l' ++ [x]) = (rprod l' * x)%R). { induction l'; intros; unfold rprod in *; cbn; [ring|]. rewrite IHl'. ring. }
  rewrite map_app. cbn [map]. rewrite A, IH, app_nth2, Nat.sub_diag by lia. f_equal.
  clear. assert (H : forall n, n <= length l -> prodn n (fun i => f (nth i l 0)) = prodn n (fun i => f (nth i (l ++ [a]) 0))).
  { induction n as [|n IHn]; intros L; [reflexivity|]. cbn [prodn]. rewrite IHn by lia. now rewrite app_nth1 by lia. }
  now apply H.
Qed.
Lemma conds_ok ddt fs dlp h req y l (ds : list R) : Forall2 (fun v d => exists r, conditional ddt fs dlp h req y v = Some r /\ denotes r d) l ds ->
  exists rs, conditionals ddt fs dlp h req y l = Some rs /\ denotes (rmap xsum (rseq rs)) (rprod ds).
Proof.
  induction 1 as [|v d l ds (r & E & D) F (rs & Es & Ds)]; cbn [conditionals].
  - exists []. split; [reflexivity|]. cbn. unfold rprod. cbn. rewrite <- exp_0. apply den_fin.
  - rewrite E, Es. exists (r :: rs). split; [reflexivity|]. cbn [rseq]. destruct r as [a|]; [|destruct D]. cbn [bind]. destruct (rseq rs) as [m|]; [|destruct Ds].
    cbn [bind rmap xsum fold_right]. unfold rprod. cbn [fold_right]. exact (den_add a _ d _ D Ds).
Qed.
Lemma prodn_ext n f g : (forall i, i < n -> f i = g i) -> prodn n f = prodn n g.
Proof. induction n as [|n IH]; intros H; [reflexivity|]. cbn. rewrite IH by (intros; apply H; lia). now rewrite H by lia. Qed.
Lemma prodn_abs n f : Rabs (prodn n f) = prodn n (fun i => Rabs (f i)).
Proof. induction n as [|n IH]; cbn; [apply Rabs_R1|]. now rewrite Rabs_mult, IH. Qed.
Lemma rprod_div (l : list nat) (p D : nat -> R) : (forall v, In v l -> D v <> 0%R) -> rprod (map (fun v => (p v / D v)%R) l) = (rprod (map p l) / rprod (map D l))%R /\ rprod (map D l) <> 0%R.
Proof.
  induction l as [|a l IH]; intros H; unfold rprod in *; cbn [map fold_right]; [split; [field|apply R1_neq_R0]|].
  destruct IH as [E N]; [intros; apply H; now right|]. assert (D a <> 0%R) by (apply H; now left). split; [rewrite E; field; auto|now apply Rmult_integral_contrapositive_currified].
Qed.
Lemma pos_of (l : list nat) : NoDup l -> exists pos : nat -> nat, forall i, i < length l -> pos (nth i l 0) = i.
Proof.
  intros N. exists (fun v => (fix go (m : list nat) := match m with [] => 0 | a :: m => if a =? v then 0 else S (go m) end) l).
  induction N as [|a l I N IH]; cbn [length]; intros i L; [lia|]. destruct i as [|i]; cbn [nth]; [now rewrite Nat.eqb_refl|].
  destruct (Nat.eqb_spec a (nth i l 0)) as [->|_]; [destruct I; apply nth_In; lia|]. f_equal. apply IH. lia.
Qed.

Lemma sys_joint ddt fs dlp pdf h req y base rho J ps : acyclic h -> NoDup req ->
  (forall v, In v req -> svalue fs h rho v (y v)) ->
  (forall v, In v req -> smooth fs h req rho v (base v) /\ (rv_dtype ddt h (base v) <> DInt \/ base v = v)) ->
  (forall v w, In v req -> In w req -> base v = base w -> v = w) ->
  (forall v d l, In v req -> nth_error h (base v) = Some (SRv d l) -> List.Forall (known h req) l) ->
  Forall2 (fun v p => draw_density fs h pdf rho (base v) p) req ps ->
  (forall v d l rs, In v req -> nth_error h (base v) = Some (SRv d l) -> Forall2 (svalue fs h rho) l rs ->
    denotes (dlp d (map Fin rs) (Fin (rho (base v)))) (pdf d rs (rho (base v)))) ->
  (forall i j, i < length req -> j < length req -> partial fs h rho (nth i req 0) (base (nth j req 0)) (J i j)) ->
  rdet (length req) J <> 0%R /\
  exists r, joint ddt fs dlp h req (fun v => Fin (y v)) = Some r /\ denotes r (rprod ps / Rabs (rdet (length req) J)).
Proof.
  intros Ac ND Val Sm Inj Kn Den Dlp Pa.
  assert (Lead : forall v, In v req -> leads h req v (base v)) by (intros v V; eapply smooth_leads, Sm, V).
  assert (Det : rdet (length req) J = prodn (length req) (fun i => J i i)).
  { apply (det_ranked (length req) J (fun i => nth i req 0)). intros i j Li Lj NE NL.
    apply (partial_zero fs h req y Ac base Lead Inj rho Val (nth i req 0) (nth j req 0)); [now apply nth_In|now apply nth_In| |exact NL|now apply Pa].
    intros X. apply NE. eapply NoDup_nth; eauto. }
  destruct (pos_of req ND) as [pos Pos].
  assert (Dv : forall v, In v req -> partial fs h rho v (base v) (J (pos v) (pos v))).
  { intros v V. destruct (In_nth req v 0 V) as (i & Li & <-). rewrite Pos by exact Li. now apply Pa. }
  assert (DetE : Rabs (rdet (length req) J) = rprod (map (fun v => Rabs (J (pos v) (pos v))) req)).
  { rewrite Det, prodn_abs, rprod_nth. apply prodn_ext. intros i Li. now rewrite Pos. }
  assert (Fac : forall v p, In v req -> draw_density fs h pdf rho (base v) p ->
    J (pos v) (pos v) <> 0%R /\ exists r, conditional ddt fs dlp h req (fun v => Fin (y v)) v = Some r /\ denotes r (p / Rabs (J (pos v) (pos v)))).
  { intros v p V (d & l & rs & E & F & ->). destruct (Sm v V) as [S1 S2].
    apply (factor_ok fs h req y Ac base Lead Inj ddt dlp rho Val v); auto.
    rewrite (params_values fs h req y Ac ddt dlp rho Val (base v) d l rs E (Kn v d l V E) F). now apply (Dlp v d l). }
  assert (ND' : rdet (length req) J <> 0%R /\ exists ds, Forall2 (fun v d => exists r, conditional ddt fs dlp h req (fun v => Fin (y v)) v = Some r /\ denotes r d) req ds /\ rprod ds = (rprod ps / Rabs (rdet (length req) J))%R).
  { assert (G : forall l qs, incl l req -> Forall2 (fun v p => draw_density fs h pdf rho (base v) p) l qs ->
      rprod (map (fun v => Rabs (J (pos v) (pos v))) l) <> 0%R /\
      exists ds, Forall2 (fun v d => exists r, conditional ddt fs dlp h req (fun v => Fin (y v)) v = Some r /\ denotes r d) l ds /\ rprod ds = (rprod qs / rprod (map (fun v => Rabs (J (pos v) (pos v))) l))%R).
    { intros l qs I F. induction F as [|v p l qs D F IH].
      - split; [unfold rprod; cbn; apply R1_neq_R0|]. exists []. split; [constructor|]. unfold rprod. cbn. field.
      - destruct IH as (NZ & ds & Fd & Ed); [intros x X; apply I; now right|]. destruct (Fac v p) as (Nv & r & Er & Dr); [apply I; now left|exact D|].
        apply Rabs_no_R0 in Nv. split; [unfold rprod in *; cbn; now apply Rmult_integral_contrapositive_currified|].
        exists ((p / Rabs (J (pos v) (pos v)))%R :: ds). split; [constructor; eauto|]. unfold rprod in *. cbn [map fold_right]. rewrite Ed. field. auto. }
    destruct (G req ps (incl_refl _) Den) as (NZ & ds & Fd & Ed). rewrite <- DetE in NZ, Ed. split; [intros Z; apply NZ; rewrite Z; apply Rabs_R0|]. exists ds. auto. }
  destruct ND' as (NZ & ds & Fd & Ed). split; [exact NZ|]. destruct (conds_ok _ _ _ _ _ _ _ _ Fd) as (rs & Er & Dr).
  unfold joint. rewrite Er. eexists. split; [reflexivity|]. now rewrite <- Ed.
Qed.

(** every distribution is normal; no other operations *)
Definition nfs : nat -> list xr -> xr := fun _ _ => NaN.
Definition nlp (_ : nat) (ps : list xr) (x : xr) : res xr := match ps with [m; s] => normal_logprob m s x | _ => Raise end.

Definition sh_h : list snode := [SCon (Fin 0); SCon (Fin 1); SRv 0 [0; 1]; SMany NAdd [2; 1]; SOne UExp 2].
Definition sh_req : list nat := [3; 4].
Definition sh_y (v : nat) : R := if v =? 3 then 1%R else 3%R.
Lemma sh_acyclic : acyclic sh_h.
Proof. intros v nd a E I. do 5 (destruct v as [|v]; [injection E as <-; cbn in I; repeat (destruct I as [<-|I]; [lia|]); destruct I|]). now destruct v. Qed.
Lemma sh_factor v x : regular nfs (fun _ => x) 2 (top sh_h sh_req (fun v => Fin (sh_y v)) v) -> means nfs (fun _ => x) (top sh_h sh_req (fun v => Fin (sh_y v)) v) (sh_y v) ->
  exists r d, conditional (fun _ => DFloat) nfs nlp sh_h sh_req (fun v => Fin (sh_y v)) v = Some r /\ denotes r d /\ (0 < d)%R.
Proof.
  intros G M. destruct (nested_density (rv_dtype (fun _ => DFloat) sh_h) nfs (fun _ => x) 2 (rv_logprob (fun _ => DFloat) nfs nlp sh_h sh_req (fun v => Fin (sh_y v))) (normal_pdf 0 1) _ (sh_y v)
    ltac:(discriminate) (normal_ok 0 1 x ltac:(lra)) G M) as (m & d & E & (g & g' & _ & _ & _ & Ng & Ed) & Den).
  unfold conditional. rewrite E. eexists. exists d. split; [reflexivity|]. split; [exact Den|].
  rewrite Ed. apply Rdiv_lt_0_compat; [|now apply Rabs_pos_lt]. unfold normal_pdf. pose proof PI_RGT_0. pose proof (sqrt_lt_R0 (2 * PI) ltac:(lra)). apply Rmult_lt_0_compat; [apply Rinv_0_lt_compat; lra|apply exp_pos].
Qed.
Lemma sys_shared : exists h req y r d, acyclic h /\ NoDup req /\
  joint (fun _ => DFloat) nfs nlp h req (fun v => Fin (y v)) = Some r /\ denotes r d /\ (0 < d)%R /\
  forall rho, ~ (forall v, In v req -> svalue nfs h rho v (y v)).
Proof.
  destruct (sh_factor 3 0%R) as (r & d & Er & Dr & Pd).
  - apply (g_add nfs (fun _ => 0%R) 2 [] (NRv 2) [NCon (Fin 1)]); [apply g_rv|reflexivity|reflexivity|discriminate].
  - replace (sh_y 3) with (rtotal [0%R; 1%R]) by (unfold rtotal, sh_y; cbn; lra). apply m_add. constructor; [apply (m_rv nfs (fun _ => 0%R) 2)|]. constructor; [apply m_con|constructor].
  - destruct (sh_factor 4 (ln 3)) as (r' & d' & Er' & Dr' & Pd').
    + apply (g_one nfs (fun _ => ln 3) 2 UExp (NRv 2) (ln 3)); [apply g_rv|apply (m_rv nfs (fun _ => ln 3) 2)|discriminate].
    + replace (sh_y 4) with (exp (ln 3)) by (rewrite exp_ln; [reflexivity|lra]). apply m_exp, (m_rv nfs (fun _ => ln 3) 2).
    + destruct (conds_ok (fun _ => DFloat) nfs nlp sh_h sh_req (fun v => Fin (sh_y v)) sh_req [d; d']) as (rs & Es & Ds).
      { constructor; [eauto|]. constructor; [eauto|constructor]. }
      exists sh_h, sh_req, sh_y, (rmap xsum (rseq rs)), (rprod [d; d']). split; [exact sh_acyclic|]. split; [repeat constructor; cbn; intuition lia|].
      split; [unfold joint; now rewrite Es|]. split; [exact Ds|]. split; [unfold rprod; cbn; rewrite Rmult_1_r; now apply Rmult_lt_0_compat|].
      intros rho H. pose proof (v_rv nfs sh_h rho 2 0 [0; 1] eq_refl) as Vx.
      pose proof (svalue_fun nfs sh_h sh_acyclic rho 4 _ _ (H 4 ltac:(cbn; auto)) (v_exp nfs sh_h rho 4 2 _ eq_refl Vx)) as A.
      pose proof (svalue_fun nfs sh_h sh_acyclic rho 3 _ _ (H 3 ltac:(cbn; auto)) (v_add nfs sh_h rho 3 [2; 1] _ eq_refl (Forall2_cons _ _ Vx (Forall2_cons _ _ (v_con nfs sh_h rho 1 1%R eq_refl) (Forall2_nil _))))) as B.
      unfold rtotal, sh_y in *. cbn in A, B. assert (rho 2 = 0%R) as Z by lra. rewrite Z, exp_0 in A. lra.
Qed.
