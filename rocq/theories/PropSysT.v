(** C92: joint log-probabilities in the transformed space of models with
    measurable expressions. *)
From Coq Require Import Reals Lra Lia List Arith Bool Permutation FunctionalExtensionality.
From Coquelicot Require Import Coquelicot.
From Verif Require Import XR XTac SpecDist ModelDist LemDist ModelVec SpecVec ModelTrans SpecTrans LemTrans ModelJoint ModelNest SpecNest LemNest LemNest2 RMx ModelSys SpecSys LemSys LemSys2 LemSys3 ModelSysT SpecSysT LemSysT LemSysT2.
Import ListNotations.
Open Scope nat_scope.

(** The requested variables (random variables or measurable expressions) may be
    given transforms, which may depend on the parameters of a random variable.
    The joint log-probability at the transformed values denotes their density:
    the product of the densities of the draws over the absolute value of the
    determinant of the Jacobian of the transformed values with respect to the
    draws.  Missing: transforms requested after a variable computed from
    theirs (refuted below), arrays. *)
Theorem C92_joint_partial : forall ddt fs dlp pdf h req tf y z base rho J ps, acyclic h -> NoDup req -> steady h tf -> in_order h tf req ->
  (forall v, In v req -> tvalue fs h tf rho v (y v) (z v) /\ tsigned fs h tf rho v) ->
  (forall v, In v req -> smooth fs h req rho v (base v) /\ (rv_dtype ddt h (base v) <> DInt \/ base v = v)) ->
  (forall v w, In v req -> In w req -> base v = base w -> v = w) ->
  (forall v d l, In v req -> nth_error h (base v) = Some (SRv d l) -> List.Forall (known h req) l) ->
  Forall2 (fun v p => draw_density fs h pdf rho (base v) p) req ps ->
  (forall v d l rs, In v req -> nth_error h (base v) = Some (SRv d l) -> Forall2 (svalue fs h rho) l rs ->
    denotes (dlp d (map Fin rs) (Fin (rho (base v)))) (pdf d rs (rho (base v)))) ->
  (forall i j, i < length req -> j < length req -> tpartial fs h tf rho (nth i req 0) (base (nth j req 0)) (J i j)) ->
  rdet (length req) J <> 0%R /\
  exists r, joint_trans ddt fs dlp h req tf true (fun v => Fin (z v)) = Some r /\ denotes r (rprod ps / Rabs (rdet (length req) J)).
Proof. exact trans_joint. Qed.
Print Assumptions C92_joint_partial.

(** X ~ N(0, 1), Z = exp X, Y ~ U(0, Z); Z is given on the log scale and Y by
    the interval transform of its own bounds *)
Definition uz : list snode := [SCon (Fin 0); SCon (Fin 1); SRv 0 [0; 1]; SOne UExp 2; SRv 1 [0; 3]].
Definition uz_tf (v : nat) : option (list xr -> tr) :=
  match v with 3 => Some (fun _ => TLog) | 4 => Some (fun l => TInterval (Some (nth 0 l NaN)) (Some (nth 1 l NaN))) | _ => None end.
Definition uz_lp (d : nat) (ps : list xr) (x : xr) : res xr :=
  match d, ps with 0, [m; s] => normal_logprob m s x | _, [a; b] => uniform_logprob a b x | _, _ => Raise end.
Definition uz_pdf (d : nat) (ps : list R) (x : R) : R :=
  match d, ps with 0, [m; s] => normal_pdf m s x | _, [a; b] => uniform_pdf a b x | _, _ => 0%R end.
Definition uz_base (v : nat) : nat := if v =? 3 then 2 else 4.
(** the draws: [x] of X and [u], between 0 and exp x, of Y *)
Definition uz_rho (x u : R) (i : nat) : R := if i =? 2 then x else u.
Definition uz_y (x u : R) (v : nat) : R := if v =? 3 then exp x else u.
Definition uz_z (x u : R) (v : nat) : R := if v =? 3 then x else ln ((u - 0) / (exp x - u)).
Definition uz_J (x u : R) (i j : nat) : R :=
  match i, j with 0, 0 => 1 | 0, _ => 0 | _, 0 => - (exp x / (exp x - u)) | _, _ => exp x / (u * (exp x - u)) end%R.
Lemma uz_acyclic : acyclic uz.
Proof. intros v nd a E I. do 5 (destruct v as [|v]; [injection E as <-; cbn in I; repeat (destruct I as [<-|I]; [lia|]); destruct I|]). now destruct v. Qed.
Lemma uz_x rho : svalue nfs uz rho 2 (rho 2). Proof. exact (v_rv nfs uz rho 2 0 [0; 1] eq_refl). Qed.
Lemma uz_zv rho : svalue nfs uz rho 3 (exp (rho 2)). Proof. exact (v_exp nfs uz rho 3 2 _ eq_refl (uz_x rho)). Qed.
Lemma uz_yv rho : svalue nfs uz rho 4 (rho 4). Proof. exact (v_rv nfs uz rho 4 1 [0; 3] eq_refl). Qed.
Lemma uz_tz rho : tvalue nfs uz uz_tf rho 3 (exp (rho 2)) (rho 2).
Proof.
  split; [apply uz_zv|]. exists (SOne UExp 2), [rho 2]. split; [reflexivity|]. split; [constructor; [apply uz_x|constructor]|]. split; [apply exp_pos|apply ln_exp].
Qed.
Lemma uz_ty rho : (0 < rho 4%nat < exp (rho 2%nat))%R -> tvalue nfs uz uz_tf rho 4 (rho 4) (ln ((rho 4%nat - 0) / (exp (rho 2%nat) - rho 4%nat))).
Proof.
  intros H. split; [apply uz_yv|]. exists (SRv 1 [0; 3]), [0%R; exp (rho 2)]. split; [reflexivity|]. split; [constructor; [now apply v_con|constructor; [apply uz_zv|constructor]]|]. split; [exact H|reflexivity].
Qed.
Lemma uz_steady : steady uz uz_tf.
Proof. intros v f T. destruct v as [|[|[|[|[|v]]]]]; try discriminate T; [injection T as <-; right; eauto|left; exists 1, [0; 3]; reflexivity]. Qed.
Lemma uz_below w v : computed_from uz w v -> v < w.
Proof. induction 1 as [w v nd E I|w a v nd E I C IH]; pose proof (uz_acyclic w nd _ E I); lia. Qed.
Lemma uz_order : in_order uz uz_tf [3; 4].
Proof.
  intros l v r w E T W C. apply uz_below in C. destruct l as [|a [|b [|c l]]]; [destruct W| |discriminate|discriminate].
  injection E as <- <- _. destruct W as [<-|[]]. lia.
Qed.
Lemma uz_known c : c < 2 -> known uz [3; 4] c.
Proof. intros L. destruct c as [|[|c]]; [| |lia]; (eapply k_det; [reflexivity|discriminate|constructor]). Qed.
Lemma uz_near x u : (0 < u < exp x)%R -> locally u (fun t => (0 < t < exp x)%R).
Proof.
  intros H. assert (P : (0 < Rmin u (exp x - u))%R) by (apply Rmin_pos; lra). exists (mkposreal _ P). intros t B.
  unfold ball in B; cbn in B; unfold AbsRing_ball, abs, minus, plus, opp in B; cbn in B. apply Rabs_def2 in B. pose proof (Rmin_l u (exp x - u)). pose proof (Rmin_r u (exp x - u)). lra.
Qed.
Lemma uz_near2 x u : (0 < u < exp x)%R -> locally x (fun t => (0 < u < exp t)%R).
Proof.
  intros H. assert (C : continuous exp x) by (apply (ex_derive_continuous exp); auto_derive; auto).
  apply (C (fun e => (0 < u < e)%R)). assert (P : (0 < exp x - u)%R) by lra. exists (mkposreal _ P). intros t B.
  unfold ball in B; cbn in B; unfold AbsRing_ball, abs, minus, plus, opp in B; cbn in B. apply Rabs_def2 in B. lra.
Qed.
Example C92_joint_ex : forall x u, (0 < u < exp x)%R -> exists r,
  joint_trans (fun _ => DFloat) nfs uz_lp uz [3; 4] uz_tf true (fun v => Fin (uz_z x u v)) = Some r /\
  denotes r (rprod [normal_pdf 0 1 x; uniform_pdf 0 (exp x) u] / Rabs (rdet 2 (uz_J x u))).
Proof.
  intros x u H. pose proof (exp_pos x) as Px.
  refine (proj2 (C92_joint_partial (fun _ => DFloat) nfs uz_lp uz_pdf uz [3; 4] uz_tf (uz_y x u) (uz_z x u) uz_base (uz_rho x u) (uz_J x u) _ uz_acyclic _ uz_steady uz_order _ _ _ _ _ _ _)).
  - repeat constructor; cbn; intuition lia.
  - intros v [<-|[<-|[]]]; (split; [|intros f nd rs x' T _ _ _; injection T as <-; exact I]).
    + exact (uz_tz (uz_rho x u)).
    + exact (uz_ty (uz_rho x u) H).
  - intros v [<-|[<-|[]]]; (split; [|left; discriminate]).
    + refine (s_one nfs uz [3; 4] _ 3 UExp 2 2 _ eq_refl _ (s_rv nfs uz [3; 4] _ 2 0 [0; 1] eq_refl) (uz_x _) _); [cbn; intuition lia|discriminate].
    + exact (s_rv nfs uz [3; 4] _ 4 1 [0; 3] eq_refl).
  - intros v v' [<-|[<-|[]]] [<-|[<-|[]]]; intros E; try reflexivity; discriminate E.
  - intros v d l [<-|[<-|[]]] E; injection E as <- <-; (constructor; [|constructor; [|constructor]]); try (apply uz_known; lia). apply k_req. cbn. auto.
  - constructor; [|constructor; [|constructor]].
    + exists 0, [0; 1], [0%R; 1%R]. split; [reflexivity|]. split; [|reflexivity]. constructor; [now apply v_con|]. constructor; [now apply v_con|constructor].
    + exists 1, [0; 3], [0%R; exp x]. split; [reflexivity|]. split; [|reflexivity]. constructor; [now apply v_con|]. constructor; [exact (uz_zv (uz_rho x u))|constructor].
  - intros v d l rs [<-|[<-|[]]] E F; injection E as <- <-; inversion F as [|? m ? q A F1]; subst; inversion F1 as [|? s ? q' B F2]; subst; inversion F2; subst;
      assert (m = 0%R) as -> by (apply (svalue_fun nfs uz uz_acyclic (uz_rho x u) 0); [exact A|now apply v_con]).
    + assert (s = 1%R) as -> by (apply (svalue_fun nfs uz uz_acyclic (uz_rho x u) 1); [exact B|now apply v_con]). apply normal_ok; lra.
    + assert (s = exp x) as -> by (apply (svalue_fun nfs uz uz_acyclic (uz_rho x u) 3); [exact B|exact (uz_zv (uz_rho x u))]). apply uniform_ok; lra.
  - intros i j Li Lj. destruct i as [|[|i]]; [| |cbn in Li; lia]; (destruct j as [|[|j]]; [| |cbn in Lj; lia]); cbn [nth uz_base Nat.eqb].
    + exists exp, (fun t => t). split; [|apply (is_derive_id (K := R_AbsRing))]. apply filter_forall. intros t. exact (uz_tz (upd (uz_rho x u) 2 t)).
    + exists (fun _ => exp x), (fun _ => x). split; [|apply (is_derive_const (K := R_AbsRing) (V := R_NormedModule))]. apply filter_forall. intros t. exact (uz_tz (upd (uz_rho x u) 4 t)).
    + exists (fun _ => u), (fun t => ln ((u - 0) / (exp t - u)))%R. split.
      * generalize (uz_near2 x u H). apply filter_imp. intros t Ht. exact (uz_ty (upd (uz_rho x u) 2 t) Ht).
      * cbn [uz_rho Nat.eqb]. assert (0 < (u - 0) * / (exp x - u))%R by (apply Rmult_lt_0_compat; [lra|apply Rinv_0_lt_compat; lra]).
        cbn [uz_J]. auto_derive; [split; [lra|auto]|]. field. lra.
    + exists (fun t => t), (fun t => ln ((t - 0) / (exp x - t)))%R. split.
      * generalize (uz_near x u H). apply filter_imp. intros t Ht. exact (uz_ty (upd (uz_rho x u) 4 t) Ht).
      * cbn [uz_rho Nat.eqb]. assert (0 < (u - 0) * / (exp x - u))%R by (apply Rmult_lt_0_compat; [lra|apply Rinv_0_lt_compat; lra]).
        cbn [uz_J]. auto_derive; [split; [lra|auto]|]. field. lra.
Qed.

(** At any draws, whatever the result denotes is the density: at the points
    excluded by [smooth] and [tsigned] above nothing is denoted. *)
Theorem C92_sound_partial : forall ddt fs dlp pdf h req tf y z base rho J ps r d, acyclic h -> NoDup req -> steady h tf -> in_order h tf req ->
  (forall v, In v req -> tvalue fs h tf rho v (y v) (z v)) ->
  (forall v, In v req -> leads h req v (base v)) ->
  (forall v w, In v req -> In w req -> base v = base w -> v = w) ->
  (forall v d l, In v req -> nth_error h (base v) = Some (SRv d l) -> List.Forall (known h req) l) ->
  Forall2 (fun v p => draw_density fs h pdf rho (base v) p) req ps ->
  (forall v d l rs, In v req -> nth_error h (base v) = Some (SRv d l) -> Forall2 (svalue fs h rho) l rs ->
    denotes (dlp d (map Fin rs) (Fin (rho (base v)))) (pdf d rs (rho (base v)))) ->
  (forall i j, i < length req -> j < length req -> tpartial fs h tf rho (nth i req 0) (base (nth j req 0)) (J i j)) ->
  joint_trans ddt fs dlp h req tf true (fun v => Fin (z v)) = Some r -> denotes r d ->
  rdet (length req) J <> 0%R /\ d = (rprod ps / Rabs (rdet (length req) J))%R.
Proof. exact trans_sound. Qed.
Print Assumptions C92_sound_partial.
(** X ~ N(0, 1), given by its reciprocal; X may be negative *)
Definition rx : list snode := [SCon (Fin 0); SCon (Fin 1); SRv 0 [0; 1]].
Definition rx_tf (v : nat) : option (list xr -> tr) := match v with 2 => Some (fun _ => TRecip) | _ => None end.
Lemma rx_acyclic : acyclic rx.
Proof. intros v nd a E I. do 3 (destruct v as [|v]; [injection E as <-; cbn in I; repeat (destruct I as [<-|I]; [lia|]); destruct I|]). now destruct v. Qed.
Lemma rx_t rho : rho 2%nat <> 0%R -> tvalue nfs rx rx_tf rho 2 (rho 2) (/ rho 2%nat).
Proof.
  intros N. split; [exact (v_rv nfs rx rho 2 0 [0; 1] eq_refl)|]. exists (SRv 0 [0; 1]), [0%R; 1%R]. split; [reflexivity|].
  split; [constructor; [now apply v_con|constructor; [now apply v_con|constructor]]|]. split; [exact N|reflexivity].
Qed.
Lemma rx_known c : c < 2 -> known rx [2] c.
Proof. intros L. destruct c as [|[|c]]; [| |lia]; (eapply k_det; [reflexivity|discriminate|constructor]). Qed.
Example C92_sound_ex : forall x r d, x <> 0%R -> joint_trans (fun _ => DFloat) nfs nlp rx [2] rx_tf true (fun _ => Fin (/ x)) = Some r -> denotes r d ->
  d = (rprod [normal_pdf 0 1 x] / Rabs (rdet 1 (fun _ _ => - / (x * x))))%R.
Proof.
  intros x r d N E D.
  refine (proj2 (C92_sound_partial (fun _ => DFloat) nfs nlp (fun _ ps x => match ps with [m; s] => normal_pdf m s x | _ => 0%R end) rx [2] rx_tf (fun _ => x) (fun _ => / x)%R (fun _ => 2) (fun _ => x) (fun _ _ => - / (x * x))%R _ r d rx_acyclic _ _ _ _ _ _ _ _ _ _ E D)).
  - repeat constructor; cbn; intuition.
  - intros v f T. destruct v as [|[|[|v]]]; try discriminate T. left. exists 0, [0; 1]. reflexivity.
  - intros l v q w Eq T W C. destruct l as [|a [|b l]]; [destruct W|discriminate|discriminate].
  - intros v [<-|[]]. exact (rx_t (fun _ => x) N).
  - intros v [<-|[]]. exact (d_rv rx [2] 2 0 [0; 1] eq_refl).
  - intros v w [<-|[]] [<-|[]] _. reflexivity.
  - intros v d' l [<-|[]] Eq. injection Eq as <- <-. constructor; [apply rx_known; lia|constructor; [apply rx_known; lia|constructor]].
  - constructor; [|constructor]. exists 0, [0; 1], [0%R; 1%R]. split; [reflexivity|]. split; [|reflexivity]. constructor; [now apply v_con|]. constructor; [now apply v_con|constructor].
  - intros v d' l rs [<-|[]] Eq F; injection Eq as <- <-; inversion F as [|? m ? q A F1]; subst; inversion F1 as [|? s ? q' B F2]; subst; inversion F2; subst.
    assert (s = 1%R) as -> by (apply (svalue_fun nfs rx rx_acyclic (fun _ => x) 1); [exact B|now apply v_con]). apply normal_ok; lra.
  - intros i j Li Lj. destruct i as [|i]; [|cbn in Li; lia]; (destruct j as [|j]; [|cbn in Lj; lia]); cbn [nth].
    exists (fun t => t), Rinv. split.
    + assert (P : (0 < Rabs x)%R) by (now apply Rabs_pos_lt). exists (mkposreal _ P). intros t B. unfold ball in B; cbn in B; unfold AbsRing_ball, abs, minus, plus, opp in B; cbn in B.
      assert (Nt : t <> 0%R). { intros ->. replace (0 + - x)%R with (- x)%R in B by ring. rewrite Rabs_Ropp in B. lra. }
      exact (rx_t (upd (fun _ => x) 2 t) Nt).
    + auto_derive; [exact N|]. field. exact N.
Qed.

(** X ~ N(0, 1), given by the circular transform, at an angle between minus pi and pi *)
Definition cx_tf (v : nat) : option (list xr -> tr) := match v with 2 => Some (fun _ => TCircular) | _ => None end.
Lemma cx_t rho : (- PI < rho 2%nat < PI)%R -> tvalue nfs rx cx_tf rho 2 (rho 2) (rho 2).
Proof.
  intros N. split; [exact (v_rv nfs rx rho 2 0 [0; 1] eq_refl)|]. exists (SRv 0 [0; 1]), [0%R; 1%R]. split; [reflexivity|].
  split; [constructor; [now apply v_con|constructor; [now apply v_con|constructor]]|]. split; [exact N|reflexivity].
Qed.
Example C92_circular_ex : forall x, (- PI < x < PI)%R -> exists r, joint_trans (fun _ => DFloat) nfs nlp rx [2] cx_tf true (fun _ => Fin x) = Some r /\
  denotes r (rprod [normal_pdf 0 1 x] / Rabs (rdet 1 (fun _ _ => 1%R))).
Proof.
  intros x N.
  refine (proj2 (C92_joint_partial (fun _ => DFloat) nfs nlp (fun _ ps x => match ps with [m; s] => normal_pdf m s x | _ => 0%R end) rx [2] cx_tf (fun _ => x) (fun _ => x) (fun _ => 2) (fun _ => x) (fun _ _ => 1)%R _ rx_acyclic _ _ _ _ _ _ _ _ _ _)).
  - repeat constructor; cbn; intuition.
  - intros v f T. destruct v as [|[|[|v]]]; try discriminate T. left. exists 0, [0; 1]. reflexivity.
  - intros l v q w Eq T W C. destruct l as [|a [|b l]]; [destruct W|discriminate|discriminate].
  - intros v [<-|[]]. split; [exact (cx_t (fun _ => x) N)|intros f nd rs x' T _ _ _; injection T as <-; exact I].
  - intros v [<-|[]]. split; [exact (s_rv nfs rx [2] _ 2 0 [0; 1] eq_refl)|left; discriminate].
  - intros v w [<-|[]] [<-|[]] _. reflexivity.
  - intros v d' l [<-|[]] Eq. injection Eq as <- <-. constructor; [apply rx_known; lia|constructor; [apply rx_known; lia|constructor]].
  - constructor; [|constructor]. exists 0, [0; 1], [0%R; 1%R]. split; [reflexivity|]. split; [|reflexivity]. constructor; [now apply v_con|]. constructor; [now apply v_con|constructor].
  - intros v d' l rs [<-|[]] Eq F; injection Eq as <- <-; inversion F as [|? m ? q A F1]; subst; inversion F1 as [|? s ? q' B F2]; subst; inversion F2; subst.
    assert (s = 1%R) as -> by (apply (svalue_fun nfs rx rx_acyclic (fun _ => x) 1); [exact B|now apply v_con]). apply normal_ok; lra.
  - intros i j Li Lj. destruct i as [|i]; [|cbn in Li; lia]; (destruct j as [|j]; [|cbn in Lj; lia]); cbn [nth].
    exists (fun t => t), (fun t => t). split; [|apply (is_derive_id (K := R_AbsRing))].
    assert (P : (0 < Rmin (PI - x) (x + PI))%R) by (apply Rmin_pos; lra). exists (mkposreal _ P). intros t B. unfold ball in B; cbn in B; unfold AbsRing_ball, abs, minus, plus, opp in B; cbn in B.
    apply Rabs_def2 in B. pose proof (Rmin_l (PI - x) (x + PI)). pose proof (Rmin_r (PI - x) (x + PI)).
    assert (Nt : (- PI < upd (fun _ => x) 2 t 2%nat < PI)%R) by (cbn; lra). exact (cx_t (upd (fun _ => x) 2 t) Nt).
Qed.

(** With [use_jacobian=False] the terms of the value transforms are left out
    (those of measurable expressions are not): the result denotes the density
    of the requested variables themselves. *)
Theorem C92_no_jacobian_partial : forall ddt fs dlp pdf h req tf y z base rho J ps, acyclic h -> NoDup req -> steady h tf ->
  (forall v, In v req -> tvalue fs h tf rho v (y v) (z v)) ->
  (forall v, In v req -> smooth fs h req rho v (base v) /\ (rv_dtype ddt h (base v) <> DInt \/ base v = v)) ->
  (forall v w, In v req -> In w req -> base v = base w -> v = w) ->
  (forall v d l, In v req -> nth_error h (base v) = Some (SRv d l) -> List.Forall (known h req) l) ->
  Forall2 (fun v p => draw_density fs h pdf rho (base v) p) req ps ->
  (forall v d l rs, In v req -> nth_error h (base v) = Some (SRv d l) -> Forall2 (svalue fs h rho) l rs ->
    denotes (dlp d (map Fin rs) (Fin (rho (base v)))) (pdf d rs (rho (base v)))) ->
  (forall i j, i < length req -> j < length req -> partial fs h rho (nth i req 0) (base (nth j req 0)) (J i j)) ->
  exists r, joint_trans ddt fs dlp h req tf false (fun v => Fin (z v)) = Some r /\ denotes r (rprod ps / Rabs (rdet (length req) J)).
Proof. exact trans_bare. Qed.
Print Assumptions C92_no_jacobian_partial.
Example C92_no_jacobian_ex : forall x, x <> 0%R -> exists r, joint_trans (fun _ => DFloat) nfs nlp rx [2] rx_tf false (fun _ => Fin (/ x)) = Some r /\
  denotes r (rprod [normal_pdf 0 1 x] / Rabs (rdet 1 (fun _ _ => 1%R))).
Proof.
  intros x N.
  refine (C92_no_jacobian_partial (fun _ => DFloat) nfs nlp (fun _ ps x => match ps with [m; s] => normal_pdf m s x | _ => 0%R end) rx [2] rx_tf (fun _ => x) (fun _ => / x)%R (fun _ => 2) (fun _ => x) (fun _ _ => 1%R) _ rx_acyclic _ _ _ _ _ _ _ _ _).
  - repeat constructor; cbn; intuition.
  - intros v f T. destruct v as [|[|[|v]]]; try discriminate T. left. exists 0, [0; 1]. reflexivity.
  - intros v [<-|[]]. exact (rx_t (fun _ => x) N).
  - intros v [<-|[]]. split; [exact (s_rv nfs rx [2] _ 2 0 [0; 1] eq_refl)|now right].
  - intros v w [<-|[]] [<-|[]] _. reflexivity.
  - intros v d' l [<-|[]] Eq. injection Eq as <- <-. constructor; [apply rx_known; lia|constructor; [apply rx_known; lia|constructor]].
  - constructor; [|constructor]. exists 0, [0; 1], [0%R; 1%R]. split; [reflexivity|]. split; [|reflexivity]. constructor; [now apply v_con|]. constructor; [now apply v_con|constructor].
  - intros v d' l rs [<-|[]] Eq F; injection Eq as <- <-; inversion F as [|? m ? q A F1]; subst; inversion F1 as [|? s ? q' B F2]; subst; inversion F2; subst.
    assert (s = 1%R) as -> by (apply (svalue_fun nfs rx rx_acyclic (fun _ => x) 1); [exact B|now apply v_con]). apply normal_ok; lra.
  - intros i j Li Lj. destruct i as [|i]; [|cbn in Li; lia]; (destruct j as [|j]; [|cbn in Lj; lia]); cbn [nth].
    exists (fun t => t). split; [|apply (is_derive_id (K := R_AbsRing))]. apply filter_forall. intros t. exact (v_rv nfs rx (upd (fun _ => x) 2 t) 2 0 [0; 1] eq_refl).
Qed.

(** Z = exp X on the log scale and Y ~ N(Z, 1): requested as (Y, Z) instead of
    (Z, Y), the Jacobian term of Z is lost and another density is denoted. *)
Theorem C92_order_refuted : exists h tf z req req' r r' d d', acyclic h /\ steady h tf /\ in_order h tf req /\ Permutation req req' /\
  joint_trans (fun _ => DFloat) nfs nlp h req tf true (fun v => Fin (z v)) = Some r /\ denotes r d /\
  joint_trans (fun _ => DFloat) nfs nlp h req' tf true (fun v => Fin (z v)) = Some r' /\ denotes r' d' /\ d <> d'.
Proof. exact order_matters. Qed.
Print Assumptions C92_order_refuted.
