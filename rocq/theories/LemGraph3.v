(** Statements of PropGraph in the form used there, and counterexamples. *)
From Coq Require Import List Arith Lia.
From Verif Require Import XR ModelVec ModelJoint SpecJoint ModelGraph SpecGraph LemGraph LemGraph2.
Import ListNotations.
Open Scope nat_scope.

Lemma joint_plain : forall trav uj g requested realized h fs vv V (S : sem V (list xr)) rho Y,
  request g requested realized [] ->
  conditional_logprob trav uj g requested realized [] = Ok (h, fs, vv) -> point S g requested vv realized [] rho ->
  (forall rv, In rv (requested ++ map fst realized) -> model_factor S g rho rv None (Y rv)) ->
  requested ++ map fst realized <> [] ->
  exists ys, Forall2 (fun p y => fvalue S h (snd p) y) fs ys /\ joint_reduce ys = Some (xsum (concat (map Y (requested ++ map fst realized)))).
Proof.
  intros trav uj g requested realized h fs vv V S rho Y R OK P H NE. eapply m_joint; eauto.
  - intros i rv v E Ev. apply H, in_or_app. left. eapply nth_error_In, E.
  - intros rv I. apply H, in_or_app. auto.
Qed.
Lemma joint_trans : forall uj g requested realized trs h fs vv V (S : sem V (list xr)) rho Y,
  request g requested realized trs -> transformed_first g requested trs ->
  conditional_logprob toposort uj g requested realized trs = Ok (h, fs, vv) -> point S g requested vv realized trs rho ->
  (forall i rv v, nth_error requested i = Some rv -> nth_error vv i = Some v -> model_factor S g rho rv (trans_of S uj trs rv v) (Y rv)) ->
  (forall rv, In rv (map fst realized) -> model_factor S g rho rv None (Y rv)) ->
  requested ++ map fst realized <> [] ->
  exists ys, Forall2 (fun p y => fvalue S h (snd p) y) fs ys /\ joint_reduce ys = Some (xsum (concat (map Y (requested ++ map fst realized)))).
Proof. intros uj g requested realized trs h fs vv V S rho Y R F OK P H1 H2 NE. eapply m_joint; eauto. Qed.
Lemma defined_gen : forall trav uj g requested realized trs, request g requested realized trs ->
  trs = [] \/ trav = toposort /\ transformed_first g requested trs ->
  (forall rv, In rv (requested ++ map fst realized) -> exists rng dist ps, nth_error g rv = Some (mk (ORv rng dist) ps)) ->
  exists h fs vv, conditional_logprob trav uj g requested realized trs = Ok (h, fs, vv) /\
    forall V L (S : sem V L), exists rho, point S g requested vv realized trs rho.
Proof.
  intros trav uj g requested realized trs R O A. destruct (cl_total trav uj _ _ _ _ R O A) as ([[h fs] vv] & E). exists h, fs, vv. split; [exact E|].
  intros V L S. apply point_exists; [apply R|exact R|]. apply (m_vv trav uj g requested realized trs h fs vv R O E).
Qed.
Lemma defined_plain : forall trav uj g requested realized, request g requested realized [] ->
  (forall rv, In rv (requested ++ map fst realized) -> exists rng dist ps, nth_error g rv = Some (mk (ORv rng dist) ps)) ->
  exists h fs vv, conditional_logprob trav uj g requested realized [] = Ok (h, fs, vv) /\
    forall V L (S : sem V L), exists rho, point S g requested vv realized [] rho.
Proof. intros. apply defined_gen; auto. Qed.
Lemma defined_trans : forall uj g requested realized trs, request g requested realized trs -> transformed_first g requested trs ->
  (forall rv, In rv (requested ++ map fst realized) -> exists rng dist ps, nth_error g rv = Some (mk (ORv rng dist) ps)) ->
  exists h fs vv, conditional_logprob toposort uj g requested realized trs = Ok (h, fs, vv) /\
    forall V L (S : sem V L), exists rho, point S g requested vv realized trs rho.
Proof. intros. apply defined_gen; auto. Qed.
Lemma draws_plain : forall trav uj g requested realized h fs vv, request g requested realized [] ->
  (forall rv val, In (rv, val) realized -> forall a, depends g val a -> ~ In a (requested ++ map fst realized)) ->
  conditional_logprob trav uj g requested realized [] = Ok (h, fs, vv) ->
  forall rv f w nd rng dist, In (rv, f) fs -> fdepends h f w -> nth_error h w = Some nd -> draws nd rng dist ->
  exists a ps, ~ In a requested /\ ~ In a (map fst realized) /\ nth_error g a = Some (mk (ORv rng dist) ps).
Proof. intros. eapply m_draws; eauto. Qed.
Lemma draws_trans : forall uj g requested realized trs h fs vv, request g requested realized trs ->
  transformed_first g requested trs ->
  (forall rv val, In (rv, val) realized -> forall a, depends g val a -> ~ In a (requested ++ map fst realized)) ->
  conditional_logprob toposort uj g requested realized trs = Ok (h, fs, vv) ->
  forall rv f w nd rng dist, In (rv, f) fs -> fdepends h f w -> nth_error h w = Some nd -> draws nd rng dist ->
  exists a ps, ~ In a requested /\ ~ In a (map fst realized) /\ nth_error g a = Some (mk (ORv rng dist) ps).
Proof. intros. eapply m_draws; eauto. Qed.

(** ** Counterexamples *)
(** w -> x -> y *)
Definition wxy : heap := [mk OIn []; mk (ORv 0 5) [0]; mk (ORv 1 6) [1]; mk (ORv 2 7) [2]].
Lemma wxy_model : model_graph wxy.
Proof. intros [|[|[|[|v]]]] nd H; cbn in H; try discriminate; [..|destruct v; discriminate]; injection H as <-; cbn; intuition (subst; auto; lia). Qed.
Lemma wxy_request : forall l, (forall x, In x l -> 1 <= x <= 3) -> NoDup l -> In 2 l -> request wxy l [] [(2, 9)].
Proof.
  intros l H N I. split; [exact wxy_model|]. split; [cbn; rewrite app_nil_r; exact N|]. split; [intros rv J; apply H in J; cbn; lia|].
  split; [easy|]. intros rv D. cbn in D. destruct (rv =? 2) eqn:E; [|easy]. apply Nat.eqb_eq in E as ->. split; [exact I|]. cbn. eauto.
Qed.
Definition res_heap (r : outcome (heap * list (nat * factor) * list nat)) : heap := match r with Ok (h, _, _) => h | _ => [] end.
Definition res_fs (r : outcome (heap * list (nat * factor) * list nat)) : list (nat * factor) := match r with Ok (_, fs, _) => fs | _ => [] end.
Definition yxw_res := Eval vm_compute in conditional_logprob toposort true wxy [3; 2; 1] [] [(2, 9)].
Lemma yxw_res_eq : conditional_logprob toposort true wxy [3; 2; 1] [] [(2, 9)] = yxw_res.
Proof. vm_compute. reflexivity. Qed.
Definition yxw_res_h := Eval vm_compute in res_heap yxw_res.
Definition yxw_res_fs := Eval vm_compute in res_fs yxw_res.
Definition unit_sem : sem unit nat := {| s_in := fun _ => tt; s_draw := fun _ _ _ => tt; s_det := fun _ _ => tt; s_back := fun _ _ _ => tt;
  s_ld := fun _ _ _ => 0; s_lj := fun _ _ _ => 1; s_add := Nat.add |}.
Lemma order_refuted : exists requested h fs vv f (S : sem unit nat) rho,
  request wxy requested [] [(2, 9)] /\ conditional_logprob toposort true wxy requested [] [(2, 9)] = Ok (h, fs, vv) /\
  point S wxy requested vv [] [(2, 9)] rho /\ In (2, f) fs /\ fvalue S h f 0 /\
  forall i v, nth_error requested i = Some 2 -> nth_error vv i = Some v ->
    model_factor S wxy rho 2 (trans_of S true [(2, 9)] 2 v) 1 /\ ~ model_factor S wxy rho 2 (trans_of S true [(2, 9)] 2 v) 0.
Proof.
  exists [3; 2; 1], yxw_res_h, yxw_res_fs, [4; 32; 6], {| f_dist := 6; f_params := [6]; f_value := 34; f_trans := None |}, unit_sem,
    (fun v => match v with 1 | 2 | 3 => Some tt | _ => None end).
  split; [apply wxy_request; [intros x [<-|[<-|[<-|[]]]]; lia|repeat constructor; cbn; intuition discriminate|cbn; auto]|].
  split; [exact yxw_res_eq|]. split.
  { split; [|split; [easy|]].
    - intros [|[|[|[|i]]]] rv v H1 H2; cbn in H1, H2; try discriminate; injection H1 as <-; injection H2 as <-; cbn; try easy.
      exists 1, 6, [1], [tt]. split; [easy|]. split; [|easy]. constructor; [apply me_val; easy|constructor].
    - intros [|[|[|[|v]]]] H; cbn; try easy; auto. }
  split; [cbn; auto|]. split.
  { exists [tt], tt. split; [constructor; [eapply (ev_in unit_sem); reflexivity|constructor]|]. split; [|easy].
    eapply ev_op with (xs := [tt; tt]); [reflexivity| |easy].
    constructor; [eapply (ev_in unit_sem); reflexivity|]. constructor; [|constructor].
    eapply ev_op with (xs := [tt]); [reflexivity| |easy]. constructor; [eapply (ev_in unit_sem); reflexivity|constructor]. }
  intros i v _ _. split.
  - exists 1, 6, [1], [tt], tt. split; [easy|]. split; [|easy]. constructor; [apply me_val; easy|constructor].
  - intros (rng & dist & ps & xs & x & _ & _ & _ & Y). cbn in Y. discriminate.
Qed.
Lemma order_draw : exists requested h fs vv rv f w nd,
  request wxy requested [] [(2, 9)] /\ conditional_logprob toposort true wxy requested [] [(2, 9)] = Ok (h, fs, vv) /\
  In (rv, f) fs /\ fdepends h f w /\ nth_error h w = Some nd /\ draws nd 0 5 /\
  forall a ps dist, nth_error wxy a = Some (mk (ORv 0 dist) ps) -> In a requested.
Proof.
  exists [3; 2; 1], yxw_res_h, yxw_res_fs, [4; 32; 6], 2, {| f_dist := 6; f_params := [6]; f_value := 34; f_trans := None |}, 1.
  eexists. split; [apply wxy_request; [intros x [<-|[<-|[<-|[]]]]; lia|repeat constructor; cbn; intuition discriminate|cbn; auto]|].
  split; [exact yxw_res_eq|]. split; [cbn; auto|]. split.
  { exists 34. split; [cbn; auto|]. eapply dep_step; [reflexivity|cbn; right; left; reflexivity|constructor]. }
  split; [reflexivity|]. split; [left; easy|].
  intros [|[|[|[|a]]]] ps dist H; cbn in H; try discriminate; [cbn; auto|destruct a; discriminate].
Qed.

Lemma dep_closed : forall (h : heap) l, (forall u nd a, In u l -> nth_error h u = Some nd -> In a (nargs nd) -> In a l) ->
  forall u v, depends h u v -> In u l -> In v l.
Proof. intros h l H u v D. induction D as [|u nd a v E I D IH]; intros J; [exact J|]. apply IH. eapply H; eauto. Qed.
Definition obs : heap := [mk OIn []; mk OIn []; mk (ORv 1 6) [1]].
Definition obs_res := Eval vm_compute in conditional_logprob toposort true obs [] [(2, 0)] [(2, 9)].
Lemma obs_res_eq : conditional_logprob toposort true obs [] [(2, 0)] [(2, 9)] = obs_res.
Proof. vm_compute. reflexivity. Qed.
Definition obs_res_h := Eval vm_compute in res_heap obs_res.
Definition obs_res_fs := Eval vm_compute in res_fs obs_res.
Lemma realized_refuted : exists g requested realized trs h fs vv f v,
  model_graph g /\ conditional_logprob toposort true g requested realized trs = Ok (h, fs, vv) /\
  In (2, f) fs /\ In (2, 0) realized /\ dget trs 2 <> None /\
  fdepends h f v /\ nth_error h v = Some (mk OIn []) /\ length g <= v /\ ~ In v vv /\ ~ fdepends h f 0.
Proof.
  exists obs, [], [(2, 0)], [(2, 9)], obs_res_h, obs_res_fs, [],
    {| f_dist := 6; f_params := [1]; f_value := 14; f_trans := Some (9, 12) |}, 12.
  split; [intros [|[|[|v]]] nd H; cbn in H; try discriminate; [..|destruct v; discriminate]; injection H as <-; cbn; intuition (subst; auto; lia)|].
  split; [exact obs_res_eq|]. split; [cbn; auto|]. split; [cbn; auto|]. split; [discriminate|].
  split; [exists 12; split; [right; right; exists 9; easy|constructor]|]. split; [reflexivity|]. split; [cbn; lia|]. split; [easy|].
  intros (u & Hu & D).
  assert (I : In u [1; 12; 14]). { cbn in Hu. destruct Hu as [[<-|[]]|[->|(tr & E)]]; cbn; auto. injection E as _ <-. auto. }
  apply (dep_closed _ [1; 12; 14]) in D; [cbn in D; intuition discriminate| |exact I].
  intros x nd a [<-|[<-|[<-|[]]]] E J; cbn in E; injection E as <-; cbn in J; cbn; tauto.
Qed.
(** y_obs = f(x) with x requested *)
Definition leak : heap := [mk OIn []; mk (ORv 0 5) [0]; mk (ODet 8) [1]; mk (ORv 1 6) [0]].
Lemma expression_refuted : exists g requested realized h fs vv rv f w nd,
  request g requested realized [] /\ conditional_logprob toposort true g requested realized [] = Ok (h, fs, vv) /\
  In (rv, f) fs /\ fdepends h f w /\ nth_error h w = Some nd /\ draws nd 0 5 /\
  forall a ps dist, nth_error g a = Some (mk (ORv 0 dist) ps) -> In a requested.
Proof.
  exists leak, [1], [(3, 2)]. eexists _, _, _, 3, _, 1, _. split.
  { split; [intros [|[|[|[|v]]]] nd H; cbn in H; try discriminate; [..|destruct v; discriminate]; injection H as <-; cbn; intuition (subst; auto; lia)|].
    split; [repeat constructor; cbn; intuition discriminate|]. split; [intros rv [<-|[]]; cbn; lia|].
    split; [intros rv val [E|[]]; injection E as <- <-; cbn; lia|]. intros rv D. cbn in D. easy. }
  split; [vm_compute; reflexivity|]. split; [cbn; right; left; reflexivity|]. split.
  { exists 2. split; [cbn; auto|]. eapply dep_step; [reflexivity|cbn; auto|constructor]. }
  split; [reflexivity|]. split; [left; easy|].
  intros [|[|[|[|a]]]] ps dist H; cbn in H; try discriminate; [cbn; auto|destruct a; discriminate].
Qed.
