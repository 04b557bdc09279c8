(** C88: mixtures and entries of stacks in whole models. *)
From Coq Require Import Reals Lra Lia List Arith Bool.
From Coquelicot Require Import Coquelicot.
From Verif Require Import XR XTac SpecDist ModelDist LemDist LemDisc ModelVec SpecVec ModelJoint ModelNest SpecNest RMx ModelSys SpecSys LemSys ModelStack SpecStack ModelMixSys SpecMixSys LemMixSys2 LemMixSys3.
Import ListNotations.
Open Scope nat_scope.

(** The requested variables may contain mixtures [at.stack(comps)[idx]], whose
    index may be computed from other requested variables, and stacks; variables
    may be computed from the mixtures, from the stacks and from their entries.
    At draws [rho] at which each mixture selects the component [pick v], the
    joint log-probability denotes the joint density of the requested variables
    given the draws that belong to none of them: the change of variables formula
    for the map from the draws of the selected components.  The conditions: the
    components are not requested and computed from draws by invertible
    operations, what is computed from a selected component or a stacked
    variable uses it through the mixture or stack (refuted otherwise, below and
    C61_dependent_refuted), and different variables use different draws.
    Missing: indices out of range (refuted below), arrays, mixtures of mixtures
    (C97), and what is missing in C58. *)
Theorem C88_joint_partial : forall kind ddt fs dlp pdf h qs M y base pick rho (rho0 : nat -> xr),
  acyclic h -> NoDup (q_vars qs) -> roles_ok kind fs -> given_nodes kind h qs M ->
  (forall l xs, In (QStack l xs) qs -> xs = map (fun v => Fin (y v)) l) ->
  (forall v, In v (q_elems qs) -> pick v = v) ->
  (forall v, In v (q_req qs) -> (forall idx comps, ~ mixture_node kind h v idx comps) -> pick v = v) ->
  (forall v idx comps, In v (q_req qs) -> mixture_node kind h v idx comps ->
    known h M idx /\ (exists i, svalue fs h rho idx (INR i) /\ nth_error comps i = Some (pick v)) /\
    (forall w, In w (q_vars qs) -> exists D, partial fs h rho idx (base w) D) /\
    (forall c, In c comps -> ~ In c (q_req qs) /\ exists b, leads h M c b /\ (rv_dtype ddt h b <> DInt \/ b = c))) ->
  (forall v w, In v (q_vars qs) -> In w (q_vars qs) -> ~ In (pick w) (q_req qs) -> ~ needs h M (pick v) (pick w)) ->
  (forall v, In v (q_vars qs) -> svalue fs h rho v (y v)) ->
  (forall v, In v (q_vars qs) -> smooth fs h M rho (pick v) (base v) /\ (rv_dtype ddt h (base v) <> DInt \/ base v = pick v)) ->
  (forall v w, In v (q_vars qs) -> In w (q_vars qs) -> base v = base w -> v = w) ->
  (forall v w, In v (q_vars qs) -> In w (q_vars qs) -> needs h M (base v) (base w) -> In (base w) (q_req qs)) ->
  (forall i, ~ In i (map base (q_vars qs)) -> rho0 i = Fin (rho i)) ->
  (forall v d l rs, In v (q_vars qs) -> nth_error h (base v) = Some (SRv d l) -> Forall2 (svalue fs h rho) l rs ->
    denotes (dlp d (map Fin rs) (Fin (rho (base v)))) (pdf d rs (rho (base v)))) ->
  forall J ps, Forall2 (fun v p => draw_density fs h pdf rho (base v) p) (q_vars qs) ps ->
  (forall i j, i < length (q_vars qs) -> j < length (q_vars qs) -> partial fs h rho (nth i (q_vars qs) 0) (base (nth j (q_vars qs) 0)) (J i j)) ->
  rdet (length (q_vars qs)) J <> 0%R /\
  exists r, mixed_joint kind ddt fs dlp h (fun v => Fin (y v)) rho0 qs = Some r /\ denotes r (rprod ps / Rabs (rdet (length (q_vars qs)) J)).
Proof. exact mixed_density. Qed.
Print Assumptions C88_joint_partial.

(** A requested mixture gets a log-probability exactly when no component is
    requested or an entry of a requested stack, and each is computed by
    invertible operations from one draw that is not. *)
Theorem C88_accepted : forall kind ddt fs dlp h y rho qs M v idx comps, acyclic h -> given_nodes kind h qs M ->
  (forall l xs, In (QStack l xs) qs -> xs = map (fun v => Fin (y v)) l) -> mixture_node kind h v idx comps ->
  (m_sum kind ddt fs dlp h (fun v => Fin (y v)) rho qs (QVar v) <> None <->
   forall c, In c comps -> ~ In c M /\ exists b, leads h M c b /\ (rv_dtype ddt h b <> DInt \/ b = c)).
Proof. exact mixture_accepted. Qed.
Print Assumptions C88_accepted.

(** I ~ Bernoulli(1/2), X, Y ~ N(0, 1), Z = stack([X, exp Y])[I], W ~ N(Z, 1); I, Z, W are requested *)
Definition mx_sys : list snode :=
  [SCon (Fin 0); SCon (Fin 1); SCon (Fin (/ 2)); SRv 1 [2]; SRv 0 [0; 1]; SRv 0 [0; 1]; SOne UExp 5; SOther 0 [3; 4; 6]; SRv 0 [7; 1]].
Definition mx_qs : list request := [QVar 3; QVar 7; QVar 8].
Definition mx_rho (x t w : R) (i : nat) : R := if i =? 3 then 1%R else if i =? 4 then x else if i =? 5 then t else w.
Definition mx_y (t w : R) (v : nat) : R := if v =? 3 then 1%R else if v =? 7 then exp t else w.
Definition mx_base (v : nat) : nat := if v =? 7 then 5 else v.
Definition mx_pick (v : nat) : nat := if v =? 7 then 6 else v.
Definition mx_J (t : R) (i j : nat) : R := if i =? j then if i =? 1 then exp t else 1%R else 0%R.
Lemma mx_acyclic : acyclic mx_sys.
Proof. intros v nd a E I. do 9 (destruct v as [|v]; [injection E as <-; cbn in I; repeat (destruct I as [<-|I]; [lia|]); destruct I|]). now destruct v. Qed.
Lemma mx_i rho : svalue mfs mx_sys rho 3 (rho 3). Proof. exact (v_rv mfs mx_sys rho 3 1 [2] eq_refl). Qed.
Lemma mx_x rho : svalue mfs mx_sys rho 4 (rho 4). Proof. exact (v_rv mfs mx_sys rho 4 0 [0; 1] eq_refl). Qed.
Lemma mx_yv rho : svalue mfs mx_sys rho 5 (rho 5). Proof. exact (v_rv mfs mx_sys rho 5 0 [0; 1] eq_refl). Qed.
Lemma mx_e rho : svalue mfs mx_sys rho 6 (exp (rho 5)). Proof. exact (v_exp mfs mx_sys rho 6 5 _ eq_refl (mx_yv rho)). Qed.
Lemma mx_w rho : svalue mfs mx_sys rho 8 (rho 8). Proof. exact (v_rv mfs mx_sys rho 8 0 [7; 1] eq_refl). Qed.
Lemma mx_z rho : (Rabs (rho 3%nat - 1) < / 2)%R -> svalue mfs mx_sys rho 7 (exp (rho 5)).
Proof.
  intros H. refine (v_other mfs mx_sys rho 7 0 [3; 4; 6] [rho 3; rho 4; exp (rho 5)] _ eq_refl _ _).
  - exact (Forall2_cons _ _ (mx_i rho) (Forall2_cons _ _ (mx_x rho) (Forall2_cons _ _ (mx_e rho) (Forall2_nil _)))).
  - apply (proj1 m_roles 0 eq_refl (rho 3) 1 [rho 4; exp (rho 5)]); [exact H|reflexivity].
Qed.
Lemma mx_given : given_nodes mkind mx_sys mx_qs [3; 7; 8].
Proof. intros a. split; [cbn; tauto|]. intros [H|(e & k & l & xs & i & _ & _ & H & _)]; [exact H|]. cbn in H. destruct H as [H|[H|[H|[]]]]; discriminate. Qed.
Lemma mx_mix v idx comps : mixture_node mkind mx_sys v idx comps -> v = 7 /\ idx = 3 /\ comps = [4; 6].
Proof. intros (k & E & K). destruct v as [|[|[|[|[|[|[|[|[|v]]]]]]]]]; try discriminate; [|now destruct v]. injection E as <- <- <-. auto. Qed.
Lemma mx_needs v b : needs mx_sys [3; 7; 8] v b -> b < v.
Proof. induction 1 as [v nd b E I|v nd a b E I R N IH]; [exact (mx_acyclic v nd b E I)|]. pose proof (mx_acyclic v nd a E I). lia. Qed.
Lemma mx_needs8 b : needs mx_sys [3; 7; 8] 8 b -> b = 7 \/ b < 2.
Proof.
  intros N. inversion N as [v nd ? E I|v nd a ? E I R N']; subst; injection E as <-; cbn in I; [lia|]. destruct I as [<-|[<-|[]]]; [destruct R; cbn; auto|]. apply mx_needs in N'. lia.
Qed.
Lemma mx_partial r v b g D : locally (r b) (fun t => svalue mfs mx_sys (upd r b t) v (g t)) -> is_derive g (r b) D -> partial mfs mx_sys r v b D.
Proof. intros V Dg. exists g. split; assumption. Qed.
Lemma near_one (r : R) : r = 1%R -> locally r (fun t => Rabs (t - 1) < / 2)%R.
Proof. intros ->. assert (P : (0 < / 2)%R) by lra. exists (mkposreal _ P). intros z Z. exact Z. Qed.
Example C88_joint_ex : forall x t w rho0, (forall i, i <> 3 -> i <> 5 -> i <> 8 -> rho0 i = Fin (mx_rho x t w i)) ->
  exists r, mixed_joint mkind mdt mfs mlp mx_sys (fun v => Fin (mx_y t w v)) rho0 mx_qs = Some r /\
  denotes r (rprod [/ 2; normal_pdf 0 1 t; normal_pdf (exp t) 1 w] / Rabs (rdet 3 (mx_J t))).
Proof.
  intros x t w rho0 Ag. set (r := mx_rho x t w).
  assert (r3 : r 3 = 1%R) by reflexivity.
  assert (Nz : (Rabs (1 - 1) < / 2)%R) by (rewrite Rminus_eq_0, Rabs_R0; lra).
  refine (proj2 (C88_joint_partial mkind mdt mfs mlp mpdf mx_sys mx_qs [3; 7; 8] (mx_y t w) mx_base mx_pick r rho0 mx_acyclic _ m_roles mx_given _ _ _ _ _ _ _ _ _ _ _ (mx_J t) _ _ _));
    cbn [q_vars q_elems q_req mx_qs flat_map app length].
  - repeat constructor; cbn; intuition lia.
  - intros l xs [H|[H|[H|[]]]]; discriminate.
  - intros v [].
  - intros v [<-|[<-|[<-|[]]]] N; try reflexivity. destruct (N 3 [4; 6]). exists 0. auto.
  - intros v idx comps _ Mx. apply mx_mix in Mx as (-> & -> & ->). split; [apply k_req; cbn; auto|]. split; [exists 1; split; [exact (mx_i r)|reflexivity]|]. split.
    + intros u [<-|[<-|[<-|[]]]]; cbn [mx_base Nat.eqb].
      * exists 1%R. apply (mx_partial r 3 3 (fun s => s)); [apply filter_forall; intros s; exact (mx_i (upd r 3 s))|auto_derive; [auto|ring]].
      * exists 0%R. apply (mx_partial r 3 5 (fun _ => 1%R)); [apply filter_forall; intros s; exact (mx_i (upd r 5 s))|auto_derive; [auto|ring]].
      * exists 0%R. apply (mx_partial r 3 8 (fun _ => 1%R)); [apply filter_forall; intros s; exact (mx_i (upd r 8 s))|auto_derive; [auto|ring]].
    + intros c [<-|[<-|[]]]; (split; [cbn; lia|]).
      * exists 4. split; [exact (d_rv mx_sys _ 4 0 [0; 1] eq_refl)|auto].
      * exists 5. split; [|left; discriminate]. refine (d_one mx_sys _ 6 UExp 5 5 eq_refl _ (d_rv mx_sys _ 5 0 [0; 1] eq_refl)). cbn; lia.
  - intros v u [<-|[<-|[<-|[]]]] [<-|[<-|[<-|[]]]] N H; cbn [mx_pick Nat.eqb] in *; try (apply N; cbn; lia); try (apply mx_needs in H; lia). apply mx_needs8 in H. lia.
  - intros v [<-|[<-|[<-|[]]]]; [exact (mx_i r)|exact (mx_z r Nz)|exact (mx_w r)].
  - intros v [<-|[<-|[<-|[]]]]; cbn [mx_pick mx_base Nat.eqb]; split; auto.
    + exact (s_rv mfs mx_sys _ r 3 1 [2] eq_refl).
    + refine (s_one mfs mx_sys _ r 6 UExp 5 5 _ eq_refl _ (s_rv mfs mx_sys _ r 5 0 [0; 1] eq_refl) (mx_yv r) _); [cbn; lia|discriminate].
    + left. discriminate.
    + exact (s_rv mfs mx_sys _ r 8 0 [7; 1] eq_refl).
  - intros v u [<-|[<-|[<-|[]]]] [<-|[<-|[<-|[]]]] E; (reflexivity || discriminate E).
  - intros v u [<-|[<-|[<-|[]]]] [<-|[<-|[<-|[]]]] N; cbn [mx_base Nat.eqb] in *; try (apply mx_needs in N; lia); try (cbn; tauto). apply mx_needs8 in N. lia.
  - intros i N. apply Ag; intros ->; apply N; cbn; auto.
  - intros v d l rs [<-|[<-|[<-|[]]]] E F; injection E as <- <-; inversion F as [|? m ? q A F1]; subst.
    + inversion F1; subst. rewrite (svalue_fun mfs mx_sys mx_acyclic r 2 m (/ 2)%R A (v_con mfs mx_sys r 2 _ eq_refl)). change (r (mx_base 3)) with (INR 1). cbn [mpdf mlp map].
      rewrite Int_part_INR, Nat2Z.id. apply bernoulli_mass. lra.
    + inversion F1 as [|? s ? q' B F2]; subst; inversion F2; subst. rewrite (svalue_fun mfs mx_sys mx_acyclic r 1 s 1%R B (v_con mfs mx_sys r 1 _ eq_refl)). apply normal_ok; lra.
    + inversion F1 as [|? s ? q' B F2]; subst; inversion F2; subst. rewrite (svalue_fun mfs mx_sys mx_acyclic r 1 s 1%R B (v_con mfs mx_sys r 1 _ eq_refl)). apply normal_ok; lra.
  - constructor; [|constructor; [|constructor; [|constructor]]].
    + exists 1, [2], [(/ 2)%R]. split; [reflexivity|]. split; [constructor; [now apply v_con|constructor]|]. change (r (mx_base 3)) with (INR 1). cbn [mpdf]. rewrite Int_part_INR, Nat2Z.id. reflexivity.
    + exists 0, [0; 1], [0%R; 1%R]. split; [reflexivity|]. split; [|reflexivity]. constructor; [now apply v_con|]. constructor; [now apply v_con|constructor].
    + exists 0, [7; 1], [exp t; 1%R]. split; [reflexivity|]. split; [|reflexivity]. constructor; [exact (mx_z r Nz)|]. constructor; [now apply v_con|constructor].
  - intros i j Li Lj. destruct i as [|[|[|i]]]; [| | |lia]; (destruct j as [|[|[|j]]]; [| | |lia]); cbn [nth mx_base Nat.eqb mx_J].
    + apply (mx_partial r 3 3 (fun s => s)); [apply filter_forall; intros s; exact (mx_i (upd r 3 s))|auto_derive; [auto|ring]].
    + apply (mx_partial r 3 5 (fun _ => 1%R)); [apply filter_forall; intros s; exact (mx_i (upd r 5 s))|auto_derive; [auto|ring]].
    + apply (mx_partial r 3 8 (fun _ => 1%R)); [apply filter_forall; intros s; exact (mx_i (upd r 8 s))|auto_derive; [auto|ring]].
    + apply (mx_partial r 7 3 (fun _ => exp t)); [|auto_derive; [auto|ring]]. generalize (near_one (r 3) r3). apply filter_imp. intros s Hs. exact (mx_z (upd r 3 s) Hs).
    + apply (mx_partial r 7 5 (fun s => exp s)); [apply filter_forall; intros s; exact (mx_z (upd r 5 s) Nz)|cbn; auto_derive; [auto|ring]].
    + apply (mx_partial r 7 8 (fun _ => exp t)); [apply filter_forall; intros s; exact (mx_z (upd r 8 s) Nz)|auto_derive; [auto|ring]].
    + apply (mx_partial r 8 3 (fun _ => w)); [apply filter_forall; intros s; exact (mx_w (upd r 3 s))|auto_derive; [auto|ring]].
    + apply (mx_partial r 8 5 (fun _ => w)); [apply filter_forall; intros s; exact (mx_w (upd r 5 s))|auto_derive; [auto|ring]].
    + apply (mx_partial r 8 8 (fun s => s)); [apply filter_forall; intros s; exact (mx_w (upd r 8 s))|auto_derive; [auto|ring]].
Qed.
(** with Z and X requested the mixture is refused *)
Example C88_refused_ex : m_sum mkind mdt mfs mlp mx_sys (fun _ => Fin 1) (fun _ => NaN) [QVar 3; QVar 4; QVar 7] (QVar 7) = None.
Proof. reflexivity. Qed.

(** U, V ~ N(0, 1), S = stack([U, V]), T ~ N(S[1], 1); S and T are requested *)
Definition en_sys : list snode := [SCon (Fin 0); SCon (Fin 1); SRv 0 [0; 1]; SRv 0 [0; 1]; SOther 1 [2; 3]; SRv 0 [4; 1]].
Definition en_qs (u v : R) : list request := [QStack [2; 3] [Fin u; Fin v]; QVar 5].
Definition en_rho (u v t : R) (i : nat) : R := if i =? 2 then u else if i =? 3 then v else t.
Definition en_J (i j : nat) : R := if i =? j then 1%R else 0%R.
Lemma en_acyclic : acyclic en_sys.
Proof. intros v nd a E I. do 6 (destruct v as [|v]; [injection E as <-; cbn in I; repeat (destruct I as [<-|I]; [lia|]); destruct I|]). now destruct v. Qed.
Lemma en_rv rho v : v = 2 \/ v = 3 \/ v = 5 -> svalue mfs en_sys rho v (rho v).
Proof. intros [->|[->| ->]]; [exact (v_rv mfs en_sys rho 2 0 [0; 1] eq_refl)|exact (v_rv mfs en_sys rho 3 0 [0; 1] eq_refl)|exact (v_rv mfs en_sys rho 5 0 [4; 1] eq_refl)]. Qed.
Lemma en_e rho : svalue mfs en_sys rho 4 (rho 3).
Proof. refine (v_other mfs en_sys rho 4 1 [2; 3] [rho 2; rho 3] _ eq_refl _ eq_refl). repeat apply Forall2_cons; [apply en_rv; auto|apply en_rv; auto|constructor]. Qed.
Lemma en_given u v : given_nodes mkind en_sys (en_qs u v) [5; 4].
Proof.
  intros a. split.
  - intros [<-|[<-|[]]]; [left; cbn; auto|right]. exists 3, 1, [2; 3], [Fin u; Fin v], 1. cbn; auto.
  - intros [H|(e & k & l & xs & i & E & K & H & _)]; [cbn in H |- *; tauto|]. destruct H as [H|[H|[]]]; [|discriminate]. injection H as <- <-.
    destruct a as [|[|[|[|[|[|a]]]]]]; try discriminate; [cbn; auto|now destruct a].
Qed.
Lemma en_mix v idx comps : ~ mixture_node mkind en_sys v idx comps.
Proof. intros (k & E & K). destruct v as [|[|[|[|[|[|v]]]]]]; try discriminate; [|now destruct v]. injection E as <- <- <-. discriminate. Qed.
Lemma en_needs v b : needs en_sys [5; 4] v b -> b < v.
Proof. induction 1 as [v nd b E I|v nd a b E I R N IH]; [exact (en_acyclic v nd b E I)|]. pose proof (en_acyclic v nd a E I). lia. Qed.
Lemma en_needs5 v b : v = 2 \/ v = 3 \/ v = 5 -> needs en_sys [5; 4] v b -> b = 4 \/ b < 2.
Proof.
  intros V N. inversion N as [w nd ? E I|w nd a ? E I R N']; subst; destruct V as [->|[->| ->]]; injection E as <-; cbn in I; try lia;
    (destruct I as [<-|[<-|[]]]; [|apply en_needs in N'; lia]); try (apply en_needs in N'; lia). destruct R. cbn. auto.
Qed.
Example C88_stack_ex : forall u v t rho0,
  exists r, mixed_joint mkind mdt mfs mlp en_sys (fun w => Fin (en_rho u v t w)) rho0 (en_qs u v) = Some r /\
  denotes r (rprod [normal_pdf 0 1 u; normal_pdf 0 1 v; normal_pdf v 1 t] / Rabs (rdet 3 en_J)).
Proof.
  intros u v t rho0. set (rho := en_rho u v t).
  assert (Ag : exists r1 : nat -> xr, (forall i, r1 i = Fin (rho i)) /\ mixed_joint mkind mdt mfs mlp en_sys (fun w => Fin (rho w)) rho0 (en_qs u v) = mixed_joint mkind mdt mfs mlp en_sys (fun w => Fin (rho w)) r1 (en_qs u v)).
  { exists (fun i => Fin (rho i)). split; [reflexivity|]. reflexivity. }
  destruct Ag as (r1 & Ag & ->).
  assert (Mem : forall w, In w [2; 3; 5] -> w = 2 \/ w = 3 \/ w = 5) by (cbn; intuition).
  refine (proj2 (C88_joint_partial mkind mdt mfs mlp mpdf en_sys (en_qs u v) [5; 4] rho (fun w => w) (fun w => w) rho r1 en_acyclic _ m_roles (en_given u v) _ _ _ _ _ _ _ _ _ _ _ en_J _ _ _));
    cbn [q_vars q_elems q_req en_qs flat_map app length].
  - repeat constructor; cbn; intuition lia.
  - intros l xs [H|[H|[]]]; [injection H as <- <-; reflexivity|discriminate].
  - reflexivity.
  - reflexivity.
  - intros w idx comps _ Mx. destruct (en_mix w idx comps Mx).
  - intros a b A B N H. apply en_needs5 in H; [|auto]. apply Mem in B. lia.
  - intros w W. apply en_rv. auto.
  - intros w W. split; [|auto]. apply Mem in W. destruct W as [->|[->| ->]]; [exact (s_rv mfs en_sys _ rho 2 0 [0; 1] eq_refl)|exact (s_rv mfs en_sys _ rho 3 0 [0; 1] eq_refl)|exact (s_rv mfs en_sys _ rho 5 0 [4; 1] eq_refl)].
  - auto.
  - intros a b A B H. apply en_needs5 in H; [|auto]. apply Mem in B. lia.
  - intros i _. apply Ag.
  - intros w d l rs W E F. apply Mem in W. destruct W as [->|[->| ->]]; injection E as <- <-; inversion F as [|? m ? q A F1]; subst; inversion F1 as [|? s ? q' B F2]; subst; inversion F2; subst;
      rewrite (svalue_fun mfs en_sys en_acyclic rho 1 s 1%R B (v_con mfs en_sys rho 1 _ eq_refl)); apply normal_ok; lra.
  - constructor; [|constructor; [|constructor; [|constructor]]].
    + exists 0, [0; 1], [0%R; 1%R]. split; [reflexivity|]. split; [|reflexivity]. constructor; [now apply v_con|]. constructor; [now apply v_con|constructor].
    + exists 0, [0; 1], [0%R; 1%R]. split; [reflexivity|]. split; [|reflexivity]. constructor; [now apply v_con|]. constructor; [now apply v_con|constructor].
    + exists 0, [4; 1], [v; 1%R]. split; [reflexivity|]. split; [|reflexivity]. constructor; [exact (en_e rho)|]. constructor; [now apply v_con|constructor].
  - intros i j Li Lj.
    assert (Wi : nth i [2; 3; 5] 0 = 2 \/ nth i [2; 3; 5] 0 = 3 \/ nth i [2; 3; 5] 0 = 5) by (destruct i as [|[|[|i]]]; cbn; [auto|auto|auto|lia]).
    exists (fun s => upd rho (nth j [2; 3; 5] 0) s (nth i [2; 3; 5] 0)). split; [apply filter_forall; intros s; now apply en_rv|].
    destruct i as [|[|[|i]]]; [| | |lia]; (destruct j as [|[|[|j]]]; [| | |lia]); cbn; auto_derive; auto; ring.
Qed.

(** A component that is used outside the mixture as well: with Z = stack([X, Y])[I]
    and W ~ N(X, 1), the value of Z with index 0 is not put into the parameters
    of W, which are evaluated at another draw of X; the result is not the joint
    density (mixture.py:399-407, rewriting.py:266-271). *)
Theorem C88_shared_refuted : exists h vs xs base rho rho0, acyclic h /\ NoDup (map base vs) /\ Forall2 (svalue mfs h rho) vs xs /\
  (forall i, ~ In i (map base vs) -> rho0 i = Fin (rho i)) /\
  Forall2 (fun v b => v = b \/ exists idx comps i, mixture_node mkind h v idx comps /\ svalue mfs h rho idx (INR i) /\ nth_error comps i = Some b) vs (map base vs) /\
  exists y r d, mixed_joint mkind mdt mfs mlp h y rho0 (map QVar vs) = Some r /\ Forall2 (fun v x => y v = Fin x) vs xs /\ denotes r d /\
  forall ps, Forall2 (draw_density mfs h mpdf rho) (map base vs) ps -> d <> rprod ps.
Proof. exact mix_shared. Qed.
Print Assumptions C88_shared_refuted.
(** An index out of range: with K ~ Poisson(1) and Z = stack([X, Y])[K], K = 2
    gives every value of Z a positive density although Z has no value then
    (mixture.py:399-407). *)
Theorem C88_range_refuted : exists h k z, acyclic h /\ (exists idx comps, mixture_node mkind h z idx comps /\ idx = k) /\
  exists y, (forall x, exists r d, mixed_joint mkind mdt mfs mlp h (fun v => if v =? k then Fin y else Fin x) (fun _ => NaN) (map QVar [k; z]) = Some r /\ denotes r d /\ (0 < d)%R) /\
  forall rho, svalue mfs h rho k y -> forall x, ~ svalue mfs h rho z x.
Proof. exact mix_range. Qed.
Print Assumptions C88_range_refuted.
