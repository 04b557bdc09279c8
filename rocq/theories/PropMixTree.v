(** C97: mixtures of mixtures in whole models. *)
From Coq Require Import Reals Lra Lia List Arith Bool ZArith.
From Coquelicot Require Import Coquelicot.
From Verif Require Import XR XTac SpecDist ModelDist LemDist LemDisc ModelVec SpecVec ModelJoint ModelNest SpecNest RMx ModelSys SpecSys LemSys ModelStack SpecStack ModelMixSys SpecMixSys LemMixSys3 PropMixSys
  ModelMixTree SpecMixTree LemMixTree.
Import ListNotations.
Open Scope nat_scope.

(** As C88_joint_partial, where the components of a requested mixture may be
    mixtures themselves, to any depth: at draws [rho] at which the requested
    mixture [v] selects, through the indices of the mixtures inside it, the
    variable [pick v], the joint log-probability denotes the joint density.
    Missing: as in C88. *)
Theorem C97_joint_partial : forall kind ddt fs dlp pdf h qs M y base pick rho (rho0 : nat -> xr),
  acyclic h -> NoDup (q_vars qs) -> roles_ok kind fs -> given_nodes kind h qs M ->
  (forall l xs, In (QStack l xs) qs -> xs = map (fun v => Fin (y v)) l) ->
  (forall v, In v (q_elems qs) -> pick v = v) ->
  (forall v, In v (q_req qs) -> (forall idx comps, ~ mixture_node kind h v idx comps) -> pick v = v) ->
  (forall v idx comps, member kind h qs v -> mixture_node kind h v idx comps ->
    known h M idx /\ (exists i c, svalue fs h rho idx (INR i) /\ nth_error comps i = Some c /\ pick v = pick c) /\
    (forall w, In w (q_vars qs) -> exists D, partial fs h rho idx (base w) D) /\
    (forall c, In c comps -> ~ In c (q_req qs) /\
      ((exists idx' comps', mixture_node kind h c idx' comps') \/ pick c = c /\ exists b, leads h M c b /\ (rv_dtype ddt h b <> DInt \/ b = c)))) ->
  (forall v w, In v (q_vars qs) -> In w (q_vars qs) -> ~ In (pick w) (q_req qs) -> ~ needs h M (pick v) (pick w)) ->
  (forall v, In v (q_vars qs) -> svalue fs h rho v (y v)) ->
  (forall v, In v (q_vars qs) -> smooth fs h M rho (pick v) (base v) /\ (rv_dtype ddt h (base v) <> DInt \/ base v = pick v)) ->
  (forall v w, In v (q_vars qs) -> In w (q_vars qs) -> base v = base w -> v = w) ->
  (forall v w, In v (q_vars qs) -> In w (q_vars qs) -> needs h M (base v) (base w) -> In (base w) (q_req qs)) ->
  (forall i, ~ In i (map base (q_vars qs)) -> rho0 i = Fin (rho i)) ->
  (forall v d l rs, In v (q_vars qs) -> nth_error h (base v) = Some (SRv d l) -> Forall2 (svalue fs h rho) l rs ->
    denotes (dlp d (map Fin rs) (Fin (rho (base v)))) (pdf d rs (rho (base v)))) ->
  forall J ps, Forall2 (fun v p => draw_density fs h pdf rho (base v) p) (q_vars qs) ps ->
  (forall i j, i < length (q_vars qs) -> j < length (q_vars qs) -> partial fs h rho (nth i (q_vars qs) 0) (base (nth j (q_vars qs) 0)) (J i j)) ->
  rdet (length (q_vars qs)) J <> 0%R /\
  exists r, tree_joint kind ddt fs dlp h (fun v => Fin (y v)) rho0 qs = Some r /\ denotes r (rprod ps / Rabs (rdet (length (q_vars qs)) J)).
Proof. exact tree_density. Qed.
Print Assumptions C97_joint_partial.

(** A requested variable gets a log-probability exactly when it is computed by
    invertible operations from one draw, or is a mixture of such variables and
    of such mixtures, none of which has a value. *)
Theorem C97_accepted : forall kind ddt fs dlp h y rho qs M v, acyclic h -> given_nodes kind h qs M ->
  (forall l xs, In (QStack l xs) qs -> xs = map (fun v => Fin (y v)) l) ->
  (t_sum kind ddt fs dlp h (fun v => Fin (y v)) rho qs (QVar v) <> None <-> composed kind h ddt M v).
Proof. exact tree_accepted. Qed.
Print Assumptions C97_accepted.

(** I, K ~ Bernoulli(1/2), X, Y, Z ~ N(0, 1), A = stack([X, exp Y])[I], B = stack([A, Z])[K], W ~ N(B, 1), E = exp(B) *)
Definition tr_sys : list snode :=
  [SCon (Fin 0); SCon (Fin 1); SCon (Fin (/ 2)); SRv 1 [2]; SRv 1 [2]; SRv 0 [0; 1]; SRv 0 [0; 1]; SOne UExp 6; SOther 0 [3; 5; 7]; SRv 0 [0; 1]; SOther 0 [4; 8; 9]; SRv 0 [10; 1]; SOne UExp 10].
Definition tr_qs : list request := [QVar 3; QVar 4; QVar 10; QVar 11].
Definition tr_M : list nat := [3; 4; 10; 11].
Definition tr_rho (x t z w : R) (i : nat) : R := if i =? 3 then 1%R else if i =? 4 then 0%R else if i =? 5 then x else if i =? 6 then t else if i =? 9 then z else w.
Definition tr_y (t w : R) (v : nat) : R := if v =? 3 then 1%R else if v =? 4 then 0%R else if v =? 10 then exp t else w.
Definition tr_base (v : nat) : nat := if v =? 10 then 6 else v.
Definition tr_pick (v : nat) : nat := if (v =? 10) || (v =? 8) then 7 else v.
Definition tr_J (t : R) (i j : nat) : R := if i =? j then if i =? 2 then exp t else 1%R else 0%R.
Lemma tr_acyclic : acyclic tr_sys.
Proof. intros v nd a E I. do 13 (destruct v as [|v]; [injection E as <-; cbn in I; repeat (destruct I as [<-|I]; [lia|]); destruct I|]). now destruct v. Qed.
Lemma tr_rv rho v : v = 3 \/ v = 4 \/ v = 5 \/ v = 6 \/ v = 9 \/ v = 11 -> svalue mfs tr_sys rho v (rho v).
Proof.
  intros [->|[->|[->|[->|[->| ->]]]]]; [exact (v_rv mfs tr_sys rho 3 1 [2] eq_refl)|exact (v_rv mfs tr_sys rho 4 1 [2] eq_refl)|exact (v_rv mfs tr_sys rho 5 0 [0; 1] eq_refl)|
    exact (v_rv mfs tr_sys rho 6 0 [0; 1] eq_refl)|exact (v_rv mfs tr_sys rho 9 0 [0; 1] eq_refl)|exact (v_rv mfs tr_sys rho 11 0 [10; 1] eq_refl)].
Qed.
Lemma tr_e rho : svalue mfs tr_sys rho 7 (exp (rho 6)). Proof. exact (v_exp mfs tr_sys rho 7 6 _ eq_refl (tr_rv rho 6 ltac:(auto))). Qed.
Lemma tr_a rho : (Rabs (rho 3%nat - 1) < / 2)%R -> svalue mfs tr_sys rho 8 (exp (rho 6)).
Proof.
  intros H. refine (v_other mfs tr_sys rho 8 0 [3; 5; 7] [rho 3; rho 5; exp (rho 6)] _ eq_refl _ _).
  - exact (Forall2_cons _ _ (tr_rv rho 3 ltac:(auto)) (Forall2_cons _ _ (tr_rv rho 5 ltac:(auto)) (Forall2_cons _ _ (tr_e rho) (Forall2_nil _)))).
  - apply (proj1 m_roles 0 eq_refl (rho 3) 1 [rho 5; exp (rho 6)]); [exact H|reflexivity].
Qed.
Lemma tr_b rho : (Rabs (rho 3%nat - 1) < / 2)%R -> (Rabs (rho 4%nat) < / 2)%R -> svalue mfs tr_sys rho 10 (exp (rho 6)).
Proof.
  intros H G. refine (v_other mfs tr_sys rho 10 0 [4; 8; 9] [rho 4; exp (rho 6); rho 9] _ eq_refl _ _).
  - exact (Forall2_cons _ _ (tr_rv rho 4 ltac:(auto)) (Forall2_cons _ _ (tr_a rho H) (Forall2_cons _ _ (tr_rv rho 9 ltac:(tauto)) (Forall2_nil _)))).
  - apply (proj1 m_roles 0 eq_refl (rho 4) 0 [exp (rho 6); rho 9]); [cbn [INR]; now rewrite Rminus_0_r|reflexivity].
Qed.
Lemma tr_given qs : (forall l xs, ~ In (QStack l xs) qs) -> given_nodes mkind tr_sys qs (q_req qs).
Proof. intros N a. split; [auto|]. intros [H|(e & k & l & xs & i & _ & _ & H & _)]; [exact H|]. destruct (N l xs H). Qed.
Lemma tr_mix v idx comps : mixture_node mkind tr_sys v idx comps -> v = 8 /\ idx = 3 /\ comps = [5; 7] \/ v = 10 /\ idx = 4 /\ comps = [8; 9].
Proof. intros (k & E & K). destruct v as [|[|[|[|[|[|[|[|[|[|[|[|[|v]]]]]]]]]]]]]; try discriminate; [| |now destruct v]; injection E as <- <- <-; auto. Qed.
Lemma tr_needs v b : needs tr_sys tr_M v b -> b < v.
Proof. induction 1 as [v nd b E I|v nd a b E I R N IH]; [exact (tr_acyclic v nd b E I)|]. pose proof (tr_acyclic v nd a E I). lia. Qed.
Lemma tr_needs11 b : needs tr_sys tr_M 11 b -> b = 10 \/ b < 2.
Proof.
  intros N. inversion N as [v nd ? E I|v nd a ? E I R N']; subst; injection E as <-; cbn in I; [lia|]. destruct I as [<-|[<-|[]]]; [destruct R; cbn; auto|]. apply tr_needs in N'. lia.
Qed.
Lemma tr_needs6 b : needs tr_sys tr_M 6 b -> b < 2.
Proof. intros N. inversion N as [v nd ? E I|v nd a ? E I R N']; subst; injection E as <-; cbn in I; [lia|]. destruct I as [<-|[<-|[]]]; apply tr_needs in N'; lia. Qed.
Lemma tr_partial r v b g D : locally (r b) (fun t => svalue mfs tr_sys (upd r b t) v (g t)) -> is_derive g (r b) D -> partial mfs tr_sys r v b D.
Proof. intros V Dg. exists g. split; assumption. Qed.
Lemma near_zero (r : R) : r = 0%R -> locally r (fun t => Rabs t < / 2)%R.
Proof. intros ->. assert (P : (0 < / 2)%R) by lra. exists (mkposreal _ P). intros z Z. unfold ball in Z. cbn in Z. unfold AbsRing_ball, abs, minus, plus, opp in Z. cbn in Z. now rewrite Ropp_0, Rplus_0_r in Z. Qed.
(** at I = 1, K = 0 the mixture B is exp(Y) *)
Example C97_joint_ex : forall x t z w rho0, (forall i, i <> 3 -> i <> 4 -> i <> 6 -> i <> 11 -> rho0 i = Fin (tr_rho x t z w i)) ->
  exists r, tree_joint mkind mdt mfs mlp tr_sys (fun v => Fin (tr_y t w v)) rho0 tr_qs = Some r /\
  denotes r (rprod [bernoulli_pmf (/ 2) 1; bernoulli_pmf (/ 2) 0; normal_pdf 0 1 t; normal_pdf (exp t) 1 w] / Rabs (rdet 4 (tr_J t))).
Proof.
  intros x t z w rho0 Ag. set (r := tr_rho x t z w).
  assert (r3 : r 3 = 1%R) by reflexivity. assert (r4 : r 4 = 0%R) by reflexivity.
  assert (N3 : (Rabs (r 3%nat - 1) < / 2)%R) by (rewrite r3, Rminus_eq_0, Rabs_R0; lra).
  assert (N4 : (Rabs (r 4%nat) < / 2)%R) by (rewrite r4, Rabs_R0; lra).
  assert (Px : forall v, v = 3 \/ v = 4 \/ v = 11 -> forall b, b = 3 \/ b = 4 \/ b = 6 \/ b = 11 -> partial mfs tr_sys r v b (if v =? b then 1%R else 0%R)).
  { intros v V b B. destruct (Nat.eqb_spec v b) as [<-|Nb].
    - apply (tr_partial r v v (fun s => s)); [|auto_derive; [auto|ring]]. apply filter_forall. intros s. assert (Q : upd r v s v = s) by (unfold upd; now rewrite Nat.eqb_refl). rewrite <- Q at 2. apply tr_rv. tauto.
    - apply (tr_partial r v b (fun _ => r v)); [|auto_derive; [auto|ring]]. apply filter_forall. intros s. assert (Q : upd r b s v = r v) by (unfold upd; destruct (Nat.eqb_spec v b); [easy|reflexivity]). rewrite <- Q. apply tr_rv. tauto. }
  refine (proj2 (C97_joint_partial mkind mdt mfs mlp mpdf tr_sys tr_qs tr_M (tr_y t w) tr_base tr_pick r rho0 tr_acyclic _ m_roles (tr_given tr_qs _) _ _ _ _ _ _ _ _ _ _ _ (tr_J t) _ _ _));
    cbn [q_vars q_elems q_req tr_qs flat_map app length].
  - repeat constructor; cbn; intuition lia.
  - intros l xs. cbn. intuition discriminate.
  - intros l xs H. cbn in H. intuition discriminate.
  - intros v [].
  - intros v [<-|[<-|[<-|[<-|[]]]]] N; try reflexivity. destruct (N 4 [8; 9]). exists 0. auto.
  - assert (Pb : forall v, v = 3 \/ v = 4 -> forall u, In u [3; 4; 10; 11] -> exists D, partial mfs tr_sys r v (tr_base u) D).
    { intros v V u U. eexists. apply Px; [tauto|]. destruct U as [<-|[<-|[<-|[<-|[]]]]]; cbn; auto. }
    intros v idx comps _ Mx. apply tr_mix in Mx as [(-> & -> & ->)|(-> & -> & ->)]; (split; [apply k_req; cbn; auto|]); (split; [|split; [apply Pb; auto|]]).
    + exists 1, 7. split; [exact (tr_rv r 3 ltac:(auto))|]. auto.
    + intros c [<-|[<-|[]]]; (split; [cbn; lia|]); right; (split; [reflexivity|]).
      * exists 5. split; [exact (d_rv tr_sys _ 5 0 [0; 1] eq_refl)|auto].
      * exists 6. split; [|left; discriminate]. refine (d_one tr_sys _ 7 UExp 6 6 eq_refl _ (d_rv tr_sys _ 6 0 [0; 1] eq_refl)). cbn; lia.
    + exists 0, 8. split; [exact (tr_rv r 4 ltac:(auto))|]. auto.
    + intros c [<-|[<-|[]]]; (split; [cbn; lia|]); [left; exists 3, [5; 7], 0; auto|right]. split; [reflexivity|]. exists 9. split; [exact (d_rv tr_sys _ 9 0 [0; 1] eq_refl)|auto].
  - intros v u [<-|[<-|[<-|[<-|[]]]]] [<-|[<-|[<-|[<-|[]]]]] N H; cbn [tr_pick Nat.eqb orb] in *; try (apply N; cbn; lia); try (apply tr_needs in H; lia). apply tr_needs11 in H. lia.
  - intros v [<-|[<-|[<-|[<-|[]]]]]; [exact (tr_rv r 3 ltac:(auto))|exact (tr_rv r 4 ltac:(auto))|exact (tr_b r N3 N4)|exact (tr_rv r 11 ltac:(tauto))].
  - intros v [<-|[<-|[<-|[<-|[]]]]]; cbn [tr_pick tr_base Nat.eqb orb]; split; auto.
    + exact (s_rv mfs tr_sys _ r 3 1 [2] eq_refl).
    + exact (s_rv mfs tr_sys _ r 4 1 [2] eq_refl).
    + refine (s_one mfs tr_sys _ r 7 UExp 6 6 _ eq_refl _ (s_rv mfs tr_sys _ r 6 0 [0; 1] eq_refl) (tr_rv r 6 ltac:(auto)) _); [cbn; lia|discriminate].
    + left. discriminate.
    + exact (s_rv mfs tr_sys _ r 11 0 [10; 1] eq_refl).
  - intros v u [<-|[<-|[<-|[<-|[]]]]] [<-|[<-|[<-|[<-|[]]]]] E; (reflexivity || discriminate E).
  - intros v u [<-|[<-|[<-|[<-|[]]]]] [<-|[<-|[<-|[<-|[]]]]] N; cbn [tr_base Nat.eqb] in *; try (apply tr_needs in N; lia); try (cbn; tauto). apply tr_needs11 in N. lia.
  - intros i N. apply Ag; intros ->; apply N; cbn; auto.
  - intros v d l rs [<-|[<-|[<-|[<-|[]]]]] E F; injection E as <- <-; inversion F as [|? m ? q A F1]; subst.
    + inversion F1; subst. rewrite (svalue_fun mfs tr_sys tr_acyclic r 2 m (/ 2)%R A (v_con mfs tr_sys r 2 _ eq_refl)). change (r (tr_base 3)) with (INR 1). cbn [mpdf mlp map].
      rewrite Int_part_INR, Nat2Z.id. apply bernoulli_mass. lra.
    + inversion F1; subst. rewrite (svalue_fun mfs tr_sys tr_acyclic r 2 m (/ 2)%R A (v_con mfs tr_sys r 2 _ eq_refl)). change (r (tr_base 4)) with (INR 0). cbn [mpdf mlp map].
      rewrite Int_part_INR, Nat2Z.id. apply bernoulli_mass. lra.
    + inversion F1 as [|? s ? q' B F2]; subst; inversion F2; subst. rewrite (svalue_fun mfs tr_sys tr_acyclic r 1 s 1%R B (v_con mfs tr_sys r 1 _ eq_refl)). apply normal_ok; lra.
    + inversion F1 as [|? s ? q' B F2]; subst; inversion F2; subst. rewrite (svalue_fun mfs tr_sys tr_acyclic r 1 s 1%R B (v_con mfs tr_sys r 1 _ eq_refl)). apply normal_ok; lra.
  - constructor; [|constructor; [|constructor; [|constructor; [|constructor]]]].
    + exists 1, [2], [(/ 2)%R]. split; [reflexivity|]. split; [constructor; [now apply v_con|constructor]|]. change (r (tr_base 3)) with (INR 1). cbn [mpdf]. rewrite Int_part_INR, Nat2Z.id. reflexivity.
    + exists 1, [2], [(/ 2)%R]. split; [reflexivity|]. split; [constructor; [now apply v_con|constructor]|]. change (r (tr_base 4)) with (INR 0). cbn [mpdf]. rewrite Int_part_INR, Nat2Z.id. reflexivity.
    + exists 0, [0; 1], [0%R; 1%R]. split; [reflexivity|]. split; [|reflexivity]. constructor; [now apply v_con|]. constructor; [now apply v_con|constructor].
    + exists 0, [10; 1], [exp t; 1%R]. split; [reflexivity|]. split; [|reflexivity]. constructor; [exact (tr_b r N3 N4)|]. constructor; [now apply v_con|constructor].
  - intros i j Li Lj. destruct i as [|[|[|[|i]]]]; [| | | |lia]; (destruct j as [|[|[|[|j]]]]; [| | | |lia]); cbn [nth tr_base Nat.eqb tr_J].
    1-8, 13-16: match goal with |- partial _ _ _ ?v ?b _ => exact (Px v ltac:(auto) b ltac:(auto)) end.
    + apply (tr_partial r 10 3 (fun _ => exp t)); [|auto_derive; [auto|ring]]. generalize (near_one (r 3) r3). apply filter_imp. intros s Hs. exact (tr_b (upd r 3 s) Hs N4).
    + apply (tr_partial r 10 4 (fun _ => exp t)); [|auto_derive; [auto|ring]]. generalize (near_zero (r 4) r4). apply filter_imp. intros s Hs. exact (tr_b (upd r 4 s) N3 Hs).
    + apply (tr_partial r 10 6 (fun s => exp s)); [apply filter_forall; intros s; exact (tr_b (upd r 6 s) N3 N4)|cbn; auto_derive; [auto|ring]].
    + apply (tr_partial r 10 11 (fun _ => exp t)); [apply filter_forall; intros s; exact (tr_b (upd r 11 s) N3 N4)|auto_derive; [auto|ring]].
Qed.
Example C97_accepted_ex : composed mkind tr_sys mdt tr_M 10.
Proof.
  apply (cp_mix _ _ _ _ 10 4 [8; 9]); [exists 0; auto|]. intros c [<-|[<-|[]]]; (split; [cbn; lia|]).
  - apply (cp_mix _ _ _ _ 8 3 [5; 7]); [exists 0; auto|]. intros c [<-|[<-|[]]]; (split; [cbn; lia|]).
    + apply (cp_chain _ _ _ _ 5 5); [exact (d_rv tr_sys _ 5 0 [0; 1] eq_refl)|auto].
    + apply (cp_chain _ _ _ _ 7 6); [|left; discriminate]. refine (d_one tr_sys _ 7 UExp 6 6 eq_refl _ (d_rv tr_sys _ 6 0 [0; 1] eq_refl)). cbn; lia.
  - apply (cp_chain _ _ _ _ 9 9); [exact (d_rv tr_sys _ 9 0 [0; 1] eq_refl)|auto].
Qed.

(** C97_joint_partial without [smooth]: at any draws, a result that denotes a
    density denotes the right one. *)
Theorem C97_sound_partial : forall kind ddt fs dlp pdf h qs M y base pick rho (rho0 : nat -> xr),
  acyclic h -> NoDup (q_vars qs) -> roles_ok kind fs -> given_nodes kind h qs M ->
  (forall l xs, In (QStack l xs) qs -> xs = map (fun v => Fin (y v)) l) ->
  (forall v, In v (q_elems qs) -> pick v = v) ->
  (forall v, In v (q_req qs) -> (forall idx comps, ~ mixture_node kind h v idx comps) -> pick v = v) ->
  (forall v idx comps, member kind h qs v -> mixture_node kind h v idx comps ->
    known h M idx /\ (exists i c, svalue fs h rho idx (INR i) /\ nth_error comps i = Some c /\ pick v = pick c) /\
    (forall w, In w (q_vars qs) -> exists D, partial fs h rho idx (base w) D) /\
    (forall c, In c comps -> ~ In c (q_req qs) /\
      ((exists idx' comps', mixture_node kind h c idx' comps') \/ pick c = c /\ exists b, leads h M c b /\ (rv_dtype ddt h b <> DInt \/ b = c)))) ->
  (forall v w, In v (q_vars qs) -> In w (q_vars qs) -> ~ In (pick w) (q_req qs) -> ~ needs h M (pick v) (pick w)) ->
  (forall v, In v (q_vars qs) -> svalue fs h rho v (y v)) ->
  (forall v, In v (q_vars qs) -> leads h M (pick v) (base v)) ->
  (forall v w, In v (q_vars qs) -> In w (q_vars qs) -> base v = base w -> v = w) ->
  (forall v w, In v (q_vars qs) -> In w (q_vars qs) -> needs h M (base v) (base w) -> In (base w) (q_req qs)) ->
  (forall i, ~ In i (map base (q_vars qs)) -> rho0 i = Fin (rho i)) ->
  (forall v d l rs, In v (q_vars qs) -> nth_error h (base v) = Some (SRv d l) -> Forall2 (svalue fs h rho) l rs ->
    denotes (dlp d (map Fin rs) (Fin (rho (base v)))) (pdf d rs (rho (base v)))) ->
  forall J ps, Forall2 (fun v p => draw_density fs h pdf rho (base v) p) (q_vars qs) ps ->
  (forall i j, i < length (q_vars qs) -> j < length (q_vars qs) -> partial fs h rho (nth i (q_vars qs) 0) (base (nth j (q_vars qs) 0)) (J i j)) ->
  forall r d, tree_joint kind ddt fs dlp h (fun v => Fin (y v)) rho0 qs = Some r -> denotes r d ->
  rdet (length (q_vars qs)) J <> 0%R /\ d = (rprod ps / Rabs (rdet (length (q_vars qs)) J))%R.
Proof.
  intros kind ddt fs dlp pdf h qs M y base pick rho rho0 Ac ND Ro Gn Vs P1 P2 P3 Sep V Ld Inj Own Ag Dlp J ps Den Pa.
  exact (tree_sound kind ddt fs dlp pdf h qs M y base pick rho rho0 Ac Ro Gn Vs P2 P3 V ND P1 Sep Ld Inj Own Ag Dlp J ps Den Pa).
Qed.
Print Assumptions C97_sound_partial.
(** X, Y ~ N(0, 1), Z = stack([stack([Y, 1 / X])[1], Y])[0] *)
Definition nsel_h : list snode := [SCon (Fin 0); SCon (Fin 1); SRv 0 [0; 1]; SOne URecip 2; SRv 0 [0; 1]; SOther 0 [1; 4; 3]; SOther 0 [0; 5; 4]].
Lemma nsel_acyclic : acyclic nsel_h.
Proof. intros v nd a E I. do 7 (destruct v as [|v]; [injection E as <-; cbn in I; repeat (destruct I as [<-|I]; [lia|]); destruct I|]). now destruct v. Qed.
Lemma nsel_needs v b : needs nsel_h [6] v b -> b < v.
Proof. induction 1 as [v nd b E I|v nd a b E I R N IH]; [exact (nsel_acyclic v nd b E I)|]. pose proof (nsel_acyclic v nd a E I). lia. Qed.
Lemma nsel_mix v idx comps : mixture_node mkind nsel_h v idx comps -> v = 5 /\ idx = 1 /\ comps = [4; 3] \/ v = 6 /\ idx = 0 /\ comps = [5; 4].
Proof. intros (k & E & K). destruct v as [|[|[|[|[|[|[|v]]]]]]]; try discriminate; [| |now destruct v]; injection E as <- <- <-; auto. Qed.
Lemma nsel_val rho : rho 2 <> 0%R -> svalue mfs nsel_h rho 6 (/ rho 2%nat)%R.
Proof.
  intros N. assert (V4 : svalue mfs nsel_h rho 4 (rho 4)) by exact (v_rv mfs nsel_h rho 4 0 [0; 1] eq_refl).
  assert (V5 : svalue mfs nsel_h rho 5 (/ rho 2%nat)%R).
  { refine (v_other mfs nsel_h rho 5 0 [1; 4; 3] [1%R; rho 4; (/ rho 2%nat)%R] _ eq_refl _ _).
    - constructor; [now apply v_con|]. constructor; [exact V4|]. constructor; [|constructor].
      exact (v_recip mfs nsel_h rho 3 2 _ eq_refl (v_rv mfs nsel_h rho 2 0 [0; 1] eq_refl) N).
    - apply (proj1 m_roles 0 eq_refl 1%R 1 [rho 4; (/ rho 2%nat)%R]); [|reflexivity]. cbn. replace (1 - 1)%R with 0%R by ring. rewrite Rabs_R0. lra. }
  refine (v_other mfs nsel_h rho 6 0 [0; 5; 4] [0%R; (/ rho 2%nat)%R; rho 4] _ eq_refl _ _).
  - constructor; [now apply v_con|]. constructor; [exact V5|]. constructor; [exact V4|constructor].
  - apply (proj1 m_roles 0 eq_refl 0%R 0 [(/ rho 2%nat)%R; rho 4]); [|reflexivity]. cbn. replace (0 - 0)%R with 0%R by ring. rewrite Rabs_R0. lra.
Qed.
Example C97_sound_ex : forall x u r d, x <> 0%R ->
  tree_joint mkind mdt mfs mlp nsel_h (fun _ => Fin (/ x)) (fun i => Fin (if i =? 2 then x else u)) [QVar 6] = Some r -> denotes r d ->
  d = (rprod [normal_pdf 0 1 x] / Rabs (rdet 1 (fun _ _ => - (/ x * / x))))%R.
Proof.
  intros x u r d N. set (rho := fun i : nat => if i =? 2 then x else u). intros E D.
  refine (proj2 (C97_sound_partial mkind mdt mfs mlp mpdf nsel_h [QVar 6] [6] (fun _ => / x)%R (fun _ => 2) (fun v => if (v =? 5) || (v =? 6) then 3 else v) rho (fun i => Fin (rho i))
    nsel_acyclic _ m_roles _ _ _ _ _ _ _ _ _ _ _ _ (fun _ _ => (- (/ x * / x))%R) [normal_pdf 0 1 x] _ _ r d E D)); cbn [q_vars q_elems q_req flat_map app length].
  - repeat constructor; cbn; auto.
  - intros a. split; [cbn; tauto|]. intros [H|(e & k & l & xs & i & _ & _ & H & _)]; [exact H|]. cbn in H. destruct H as [H|[]]; discriminate.
  - intros l xs [H|[]]. discriminate.
  - intros v [].
  - intros v [<-|[]] H. destruct (H 0 [5; 4]). exists 0. auto.
  - intros v idx comps _ H. apply nsel_mix in H as [(-> & -> & ->)|(-> & -> & ->)]; (split; [|split; [|split]]).
    + exact (k_det nsel_h [6] 1 (SCon (Fin 1)) eq_refl ltac:(discriminate) ltac:(constructor)).
    + exists 1, 3. split; [now apply v_con|auto].
    + intros w _. exists 0%R, (fun _ => 1%R). split; [apply filter_forall; intros t; now apply v_con|auto_derive; auto].
    + intros c [<-|[<-|[]]]; (split; [cbn; lia|]); right; (split; [reflexivity|]).
      * exists 4. split; [exact (d_rv nsel_h [6] 4 0 [0; 1] eq_refl)|left; discriminate].
      * exists 2. split; [|left; discriminate]. refine (d_one nsel_h [6] 3 URecip 2 2 eq_refl _ (d_rv nsel_h [6] 2 0 [0; 1] eq_refl)). cbn. lia.
    + exact (k_det nsel_h [6] 0 (SCon (Fin 0)) eq_refl ltac:(discriminate) ltac:(constructor)).
    + exists 0, 5. split; [now apply v_con|auto].
    + intros w _. exists 0%R, (fun _ => 0%R). split; [apply filter_forall; intros t; now apply v_con|auto_derive; auto].
    + intros c [<-|[<-|[]]]; (split; [cbn; lia|]); [left; exists 1, [4; 3], 0; auto|right]. split; [reflexivity|].
      exists 4. split; [exact (d_rv nsel_h [6] 4 0 [0; 1] eq_refl)|left; discriminate].
  - intros v w [<-|[]] [<-|[]] _ Nd. apply nsel_needs in Nd. cbn in Nd. lia.
  - intros v [<-|[]]. now apply (nsel_val rho).
  - intros v [<-|[]]. refine (d_one nsel_h [6] 3 URecip 2 2 eq_refl _ (d_rv nsel_h [6] 2 0 [0; 1] eq_refl)). cbn. lia.
  - intros v w [<-|[]] [<-|[]] _. reflexivity.
  - intros v w _ _ Nd. apply nsel_needs in Nd. lia.
  - reflexivity.
  - intros v d0 l rs _ Ev F. injection Ev as <- <-. inversion F as [|? m ? q A F1]; subst; inversion F1 as [|? s ? q' B F2]; subst; inversion F2; subst.
    assert (s = 1%R) as -> by (apply (svalue_fun mfs nsel_h nsel_acyclic rho 1); [exact B|now apply v_con]). apply normal_ok. lra.
  - constructor; [|constructor]. exists 0, [0; 1], [0%R; 1%R]. split; [reflexivity|]. split; [|reflexivity]. repeat constructor; now apply v_con.
  - intros [|i] [|j] Li Lj; try lia. exists Rinv. cbn [nth]. split.
    + assert (P : (0 < Rabs x)%R) by (now apply Rabs_pos_lt). exists (mkposreal _ P). intros t T. apply (nsel_val (upd rho 2 t)). cbn. intros ->.
      unfold ball in T. cbn in T. unfold AbsRing_ball, abs, minus, plus, opp in T. cbn in T. rewrite Rplus_0_l, Rabs_Ropp in T. lra.
    + cbn. auto_derive; [exact N|]. field. exact N.
Qed.

(** The exponential of a mixture is refused although the mixture itself is
    accepted and the exponential of every accepted variable that is not a
    mixture is: mixtures become measurable when the rewrites for other
    operations are over (rewriting.py:162-184, mixture.py:411-419). *)
Theorem C97_expression_refuted : exists kind fs ddt dlp h y rho v a, acyclic h /\ roles_ok kind fs /\ nth_error h v = Some (SOne UExp a) /\
  t_sum kind ddt fs dlp h y rho [QVar a] (QVar a) <> None /\ t_sum kind ddt fs dlp h y rho [QVar v] (QVar v) = None.
Proof. exists mkind, mfs, mdt, mlp, tr_sys, (fun _ => Fin 1), (fun _ => Fin 1), 12, 10. split; [exact tr_acyclic|]. split; [exact m_roles|]. split; [reflexivity|]. split; [discriminate|reflexivity]. Qed.
Print Assumptions C97_expression_refuted.
