(** C93: value transforms of models of arrays. *)
From Coq Require Import Reals Lra Lia List Arith Bool.
From Coquelicot Require Import Coquelicot.
From Verif Require Import XR XTac SpecDist ModelDist LemDist ModelVec SpecVec ModelIdx SpecIdx LemIdx LemIdx2 ModelTen ModelSub LemSub ModelTrans SpecTrans ModelElem SpecElem ModelJoint ModelNest SpecNest RMx
  ModelSys SpecSys LemSys LemSys3 ModelSysT SpecSysT PropSysT ModelEls SpecEls PropEls ModelElsT SpecElsT LemElsT LemElsT2 LemElsT3.
Import ListNotations.
Open Scope nat_scope.

(** The joint log-probability of a model of arrays in the transformed space is
    that of the model of its elements: same refusals, same errors, same number;
    with and without Jacobian terms, for any values and any order of the
    request. *)
Theorem C93_elements : forall ddt afs fs dlp h sh g ix req, gacyclic h -> acyclic g -> well_shaped afs h sh -> nonempty h sh -> spelled_out afs fs h sh g ix ->
  forall tf tf' z z', transforms_spelled_out h sh ix tf tf' -> even_axes h sh tf ->
  (forall v, In v req -> v < length h /\ nshp (z v) = sh v /\ forall i, inside (sh v) i -> z' (ix v i) = nelt (z v) i) ->
  forall use_jacobian, g_joint_trans ddt afs dlp h req tf use_jacobian z = joint_trans ddt fs dlp g (flat_map (elements_of sh ix) req) tf' use_jacobian z'.
Proof. intros ddt afs fs dlp h sh g ix req GA AC WS NE SO tf tf' z z' TS EA RZ uj. exact (els_joint_trans ddt afs fs dlp h sh g ix req GA AC WS NE SO tf tf' z z' TS EA RZ uj). Qed.
Print Assumptions C93_elements.

(** When every element has a draw of its own, the joint log-probability with
    Jacobian terms denotes the density of all transformed elements.  Missing:
    what C91_density_partial and C92_joint_partial leave out, the simplex
    transform (C66), chains of uneven axes (refuted below). *)
Theorem C93_density_partial : forall ddt afs fs dlp pdf h sh g ix req tf tf' z y' z' base rho J ps,
  gacyclic h -> acyclic g -> well_shaped afs h sh -> nonempty h sh -> spelled_out afs fs h sh g ix -> transforms_spelled_out h sh ix tf tf' -> even_axes h sh tf ->
  (forall v, In v req -> v < length h /\ nshp (z v) = sh v /\ forall i, inside (sh v) i -> nelt (z v) i = Fin (z' (ix v i))) ->
  let els := flat_map (elements_of sh ix) req in
  NoDup req -> steady g tf' -> arrays_in_order h tf req ->
  (forall v, In v els -> tvalue fs g tf' rho v (y' v) (z' v) /\ tsigned fs g tf' rho v) ->
  (forall v, In v els -> smooth fs g els rho v (base v) /\ (rv_dtype ddt g (base v) <> DInt \/ base v = v)) ->
  (forall v w, In v els -> In w els -> base v = base w -> v = w) ->
  (forall v d l, In v els -> nth_error g (base v) = Some (SRv d l) -> List.Forall (known g els) l) ->
  Forall2 (fun v p => draw_density fs g pdf rho (base v) p) els ps ->
  (forall v d l rs, In v els -> nth_error g (base v) = Some (SRv d l) -> Forall2 (svalue fs g rho) l rs ->
    denotes (dlp d (map Fin rs) (Fin (rho (base v)))) (pdf d rs (rho (base v)))) ->
  (forall i j, i < length els -> j < length els -> tpartial fs g tf' rho (nth i els 0) (base (nth j els 0)) (J i j)) ->
  rdet (length els) J <> 0%R /\
  exists r, g_joint_trans ddt afs dlp h req tf true z = Some r /\ denotes r (rprod ps / Rabs (rdet (length els) J)).
Proof. exact els_trans_density. Qed.
Print Assumptions C93_density_partial.

(** X ~ U(0, [b0, b1]) of shape (2,), given by the interval transform of its own bounds *)
Definition ub_h (b0 b1 : R) : list gnode := [GCon (ex_num (Fin 0)); GCon (ex_vec (Fin b0) (Fin b1)); GRv 1 [2] [0; 1]].
Definition ub_sh (v : nat) : list nat := match v with 0 => [] | _ => [2] end.
Definition ub_g (b0 b1 : R) : list snode := [SCon (Fin 0); SCon (Fin b0); SCon (Fin b1); SRv 1 [0; 1]; SRv 1 [0; 2]].
Definition ub_ix (v : nat) (i : list nat) : nat := match v with 0 => 0 | 1 => 1 + hd 0 i | _ => 3 + hd 0 i end.
Definition ub_tf (v : nat) : option (list (nd xr) -> atr) :=
  match v with 2 => Some (fun l => XInterval (Some (nth 0 l (ex_num NaN))) (Some (nth 1 l (ex_num NaN)))) | _ => None end.
Definition ub_tf' (v : nat) : option (list xr -> tr) :=
  match v with 3 | 4 => Some (fun l => TInterval (Some (nth 0 l NaN)) (Some (nth 1 l NaN))) | _ => None end.
Definition ub_rho (u0 u1 : R) (n : nat) : R := if n =? 3 then u0 else u1.
Definition ub_b (b0 b1 : R) (n : nat) : R := if n =? 3 then b0 else b1.
Definition ub_z' (b0 b1 u0 u1 : R) (n : nat) : R := ln ((ub_rho u0 u1 n - 0) / (ub_b b0 b1 n - ub_rho u0 u1 n)).
Definition ub_z (b0 b1 u0 u1 : R) (_ : nat) : nd xr := ex_vec (Fin (ub_z' b0 b1 u0 u1 3)) (Fin (ub_z' b0 b1 u0 u1 4)).
Definition ub_J (b0 b1 u0 u1 : R) (i j : nat) : R := if i =? j then match i with 0 => b0 / (u0 * (b0 - u0)) | _ => b1 / (u1 * (b1 - u1)) end%R else 0%R.
Lemma ub_gacyclic b0 b1 : gacyclic (ub_h b0 b1).
Proof. intros v nd a E I. do 3 (destruct v as [|v]; [injection E as <-; cbn in I; repeat (destruct I as [<-|I]; [lia|]); destruct I|]). now destruct v. Qed.
Lemma ub_acyclic b0 b1 : acyclic (ub_g b0 b1).
Proof. intros v nd a E I. do 5 (destruct v as [|v]; [injection E as <-; cbn in I; repeat (destruct I as [<-|I]; [lia|]); destruct I|]). now destruct v. Qed.
Lemma ub_shaped b0 b1 : well_shaped ex_afs (ub_h b0 b1) ub_sh.
Proof.
  intros v nd E. destruct v as [|[|[|v]]]; [injection E as <- ..|now destruct v]; try reflexivity.
  split; [reflexivity|]. intros p [<-|[<-|[]]]; now apply bcast_all_spec.
Qed.
Lemma ub_nonempty b0 b1 : nonempty (ub_h b0 b1) ub_sh.
Proof. intros v L. do 3 (destruct v as [|v]; [cbn; intuition discriminate|]). cbn in L. lia. Qed.
Lemma ub_al2 k : k < 2 -> aligned [2] [k] [k].
Proof. intros K; apply aligned_iff; [cbn; lia|]; destruct k as [|[|k]]; [reflexivity|reflexivity|lia]. Qed.
Lemma ub_al0 i : aligned [] i []. Proof. apply aligned_iff; [cbn; lia|]; reflexivity. Qed.
Lemma ub_spelled b0 b1 : spelled_out ex_afs nfs (ub_h b0 b1) ub_sh (ub_g b0 b1) ub_ix.
Proof.
  split.
  - intros v nd i E I. destruct v as [|[|[|v]]]; [injection E as <- ..|now destruct v]; cbn [ub_sh] in I; some_pos I; (eexists; split; [reflexivity|]); cbn [element_node]; try reflexivity;
      (eexists; split; [reflexivity|]); repeat constructor;
      first [exists []; split; [apply ub_al0|reflexivity]|exists [0]; split; [apply ub_al2; lia|reflexivity]|exists [1]; split; [apply ub_al2; lia|reflexivity]].
  - intros v w i j Lv Lw Iv Iw E. cbn in Lv, Lw.
    destruct v as [|[|[|v]]]; try lia; destruct w as [|[|[|w]]]; try lia; cbn [ub_sh] in *; some_pos Iv; some_pos Iw; try (split; reflexivity); discriminate E.
Qed.
Lemma ub_trans b0 b1 : transforms_spelled_out (ub_h b0 b1) ub_sh ub_ix ub_tf ub_tf'.
Proof.
  intros v n i E I. destruct v as [|[|[|v]]]; [reflexivity|cbn [ub_sh] in I; some_pos I; reflexivity| |now destruct v]. injection E as <-. cbn [ub_tf].
  exists (fun l => TInterval (Some (nth 0 l NaN)) (Some (nth 1 l NaN))). split; [cbn [ub_sh] in I; some_pos I; reflexivity|]. intros args xs S O. cbn [operands_at] in O.
  destruct args as [|a [|b [|c args]]]; try discriminate S. injection S as Sa Sb. inversion O as [|? x0 ? xs1 (j0 & J0 & ->) O1]; subst. inversion O1 as [|? x1 ? xs2 (j & J & ->) O2]; subst. inversion O2; subst. cbn [nth].
  split; [constructor; [rewrite Sa|rewrite Sb]; now apply bcast_all_spec|now constructor].
Qed.
Lemma ub_axes b0 b1 : even_axes (ub_h b0 b1) ub_sh ub_tf.
Proof. intros v n F args E T _. right. destruct v as [|[|[|v]]]; try discriminate T. injection T as <-. eexists. now apply ax_other. Qed.
Lemma ub_order b0 b1 : arrays_in_order (ub_h b0 b1) ub_tf [2].
Proof. intros l v r w E T W. destruct l as [|a [|b l]]; [destruct W|discriminate|discriminate]. Qed.
Lemma ub_steady b0 b1 : steady (ub_g b0 b1) ub_tf'.
Proof. intros v f T. left. destruct v as [|[|[|[|[|v]]]]]; try discriminate T; eexists; eexists; reflexivity. Qed.
Lemma ub_near b u : (0 < u < b)%R -> locally u (fun t => (0 < t < b)%R).
Proof.
  intros H. assert (P : (0 < Rmin u (b - u))%R) by (apply Rmin_pos; lra). exists (mkposreal _ P). intros t B.
  unfold ball in B; cbn in B; unfold AbsRing_ball, abs, minus, plus, opp in B; cbn in B. apply Rabs_def2 in B. pose proof (Rmin_l u (b - u)). pose proof (Rmin_r u (b - u)). lra.
Qed.
Lemma ub_t b0 b1 v rho : v = 3 \/ v = 4 -> (0 < rho v < ub_b b0 b1 v)%R -> tvalue nfs (ub_g b0 b1) ub_tf' rho v (rho v) (ln ((rho v - 0) / (ub_b b0 b1 v - rho v))).
Proof.
  intros [-> | ->] H; (split; [eapply v_rv; reflexivity|]);
    [exists (SRv 1 [0; 1]), [0%R; b0]|exists (SRv 1 [0; 2]), [0%R; b1]]; (split; [reflexivity|]; split; [constructor; [now apply v_con|constructor; [now apply v_con|constructor]]|]); (split; [exact H|reflexivity]).
Qed.
Example C93_density_ex : forall b0 b1 u0 u1 : R, (0 < u0 < b0)%R -> (0 < u1 < b1)%R -> exists r,
  g_joint_trans (fun _ => DFloat) ex_afs uz_lp (ub_h b0 b1) [2] ub_tf true (ub_z b0 b1 u0 u1) = Some r /\
  denotes r (rprod [uniform_pdf 0 b0 u0; uniform_pdf 0 b1 u1] / Rabs (rdet 2 (ub_J b0 b1 u0 u1))).
Proof.
  intros b0 b1 u0 u1 H0 H1.
  refine (proj2 (C93_density_partial (fun _ => DFloat) ex_afs nfs uz_lp uz_pdf (ub_h b0 b1) ub_sh (ub_g b0 b1) ub_ix [2] ub_tf ub_tf' _ (ub_rho u0 u1) (ub_z' b0 b1 u0 u1) (fun n => n) (ub_rho u0 u1) (ub_J b0 b1 u0 u1) _
    (ub_gacyclic _ _) (ub_acyclic _ _) (ub_shaped _ _) (ub_nonempty _ _) (ub_spelled _ _) (ub_trans _ _) (ub_axes _ _) _ _ (ub_steady _ _) (ub_order _ _) _ _ _ _ _ _ _)).
  - intros v [<-|[]]. split; [cbn; lia|]. split; [reflexivity|]. intros i I. cbn [ub_sh] in I. some_pos I; reflexivity.
  - repeat constructor; cbn; intuition lia.
  - intros v [<-|[<-|[]]]; (split; [|intros f nd rs x' T _ _ _; injection T as <-; exact I]); (apply ub_t; [auto|assumption]).
  - intros v [<-|[<-|[]]]; (split; [|left; discriminate]); (eapply s_rv; reflexivity).
  - intros v v' _ _ E. exact E.
  - intros v d l [<-|[<-|[]]] E; injection E as <- <-; (constructor; [|constructor; [|constructor]]); (eapply k_det; [reflexivity|discriminate|constructor]).
  - constructor; [|constructor; [|constructor]]; [exists 1, [0; 1], [0%R; b0]|exists 1, [0; 2], [0%R; b1]]; (split; [reflexivity|]; split; [constructor; [now apply v_con|constructor; [now apply v_con|constructor]]|reflexivity]).
  - intros v d l rs [<-|[<-|[]]] E F; injection E as <- <-; inversion F as [|? m ? q A F1]; subst; inversion F1 as [|? s ? q' B F2]; subst; inversion F2; subst;
      assert (m = 0%R) as -> by (eapply (svalue_fun nfs _ (ub_acyclic _ _) _ 0); [exact A|now apply v_con]).
    + assert (s = b0) as -> by (eapply (svalue_fun nfs _ (ub_acyclic _ _) _ 1); [exact B|now apply v_con]). apply uniform_ok; lra.
    + assert (s = b1) as -> by (eapply (svalue_fun nfs _ (ub_acyclic _ _) _ 2); [exact B|now apply v_con]). apply uniform_ok; lra.
  - assert (P : forall b u, (0 < u < b)%R -> (0 < (u - 0) * / (b - u))%R) by (intros b u H; apply Rmult_lt_0_compat; [lra|apply Rinv_0_lt_compat; lra]).
    intros i j Li Lj. destruct i as [|[|i]]; [| |cbn in Li; lia]; (destruct j as [|[|j]]; [| |cbn in Lj; lia]); cbn.
    + exists (fun t => t), (fun t => ln ((t - 0) / (b0 - t)))%R. split.
      * generalize (ub_near b0 u0 H0). apply filter_imp. intros t Ht. exact (ub_t b0 b1 3 (upd (ub_rho u0 u1) 3 t) (or_introl eq_refl) Ht).
      * cbn [ub_rho Nat.eqb]. specialize (P b0 u0 H0). auto_derive; [split; [lra|auto]|]. field. lra.
    + exists (fun _ => u0), (fun _ => ub_z' b0 b1 u0 u1 3). split; [|apply (is_derive_const (K := R_AbsRing) (V := R_NormedModule))]. apply filter_forall. intros t.
      exact (ub_t b0 b1 3 (upd (ub_rho u0 u1) 4 t) (or_introl eq_refl) H0).
    + exists (fun _ => u1), (fun _ => ub_z' b0 b1 u0 u1 4). split; [|apply (is_derive_const (K := R_AbsRing) (V := R_NormedModule))]. apply filter_forall. intros t.
      exact (ub_t b0 b1 4 (upd (ub_rho u0 u1) 3 t) (or_intror eq_refl) H1).
    + exists (fun t => t), (fun t => ln ((t - 0) / (b1 - t)))%R. split.
      * generalize (ub_near b1 u1 H1). apply filter_imp. intros t Ht. exact (ub_t b0 b1 4 (upd (ub_rho u0 u1) 4 t) (or_intror eq_refl) Ht).
      * cbn [ub_rho Nat.eqb]. specialize (P b1 u1 H1). auto_derive; [split; [lra|auto]|]. field. lra.
Qed.
(** the elements of the same model *)
Example C93_elements_ex : forall b0 b1 u0 u1 use_jacobian,
  g_joint_trans (fun _ => DFloat) ex_afs uz_lp (ub_h b0 b1) [2] ub_tf use_jacobian (ub_z b0 b1 u0 u1) =
  joint_trans (fun _ => DFloat) nfs uz_lp (ub_g b0 b1) [3; 4] ub_tf' use_jacobian (fun n => Fin (ub_z' b0 b1 u0 u1 n)).
Proof.
  intros b0 b1 u0 u1 uj. refine (C93_elements (fun _ => DFloat) ex_afs nfs uz_lp (ub_h b0 b1) ub_sh (ub_g b0 b1) ub_ix [2] (ub_gacyclic _ _) (ub_acyclic _ _) (ub_shaped _ _) (ub_nonempty _ _) (ub_spelled _ _)
    ub_tf ub_tf' _ _ (ub_trans _ _) (ub_axes _ _) _ uj).
  intros v [<-|[]]. split; [cbn; lia|]. split; [reflexivity|]. intros i I. cbn [ub_sh] in I. some_pos I; reflexivity.
Qed.

(** At any draws, whatever the result denotes is the density of the
    transformed elements. *)
Theorem C93_sound_partial : forall ddt afs fs dlp pdf h sh g ix req tf tf' z y' z' base rho J ps r d,
  gacyclic h -> acyclic g -> well_shaped afs h sh -> nonempty h sh -> spelled_out afs fs h sh g ix -> transforms_spelled_out h sh ix tf tf' -> even_axes h sh tf ->
  (forall v, In v req -> v < length h /\ nshp (z v) = sh v /\ forall i, inside (sh v) i -> nelt (z v) i = Fin (z' (ix v i))) ->
  let els := flat_map (elements_of sh ix) req in
  NoDup req -> steady g tf' -> arrays_in_order h tf req ->
  (forall v, In v els -> tvalue fs g tf' rho v (y' v) (z' v)) ->
  (forall v, In v els -> leads g els v (base v)) ->
  (forall v w, In v els -> In w els -> base v = base w -> v = w) ->
  (forall v d l, In v els -> nth_error g (base v) = Some (SRv d l) -> List.Forall (known g els) l) ->
  Forall2 (fun v p => draw_density fs g pdf rho (base v) p) els ps ->
  (forall v d l rs, In v els -> nth_error g (base v) = Some (SRv d l) -> Forall2 (svalue fs g rho) l rs ->
    denotes (dlp d (map Fin rs) (Fin (rho (base v)))) (pdf d rs (rho (base v)))) ->
  (forall i j, i < length els -> j < length els -> tpartial fs g tf' rho (nth i els 0) (base (nth j els 0)) (J i j)) ->
  g_joint_trans ddt afs dlp h req tf true z = Some r -> denotes r d ->
  rdet (length els) J <> 0%R /\ d = (rprod ps / Rabs (rdet (length els) J))%R.
Proof. exact els_trans_sound. Qed.
Print Assumptions C93_sound_partial.
Example C93_sound_ex : forall (b0 b1 u0 u1 : R) r d, (0 < u0 < b0)%R -> (0 < u1 < b1)%R ->
  g_joint_trans (fun _ => DFloat) ex_afs uz_lp (ub_h b0 b1) [2] ub_tf true (ub_z b0 b1 u0 u1) = Some r -> denotes r d ->
  d = (rprod [uniform_pdf 0 b0 u0; uniform_pdf 0 b1 u1] / Rabs (rdet 2 (ub_J b0 b1 u0 u1)))%R.
Proof.
  intros b0 b1 u0 u1 r d H0 H1 Er Dr.
  refine (proj2 (C93_sound_partial (fun _ => DFloat) ex_afs nfs uz_lp uz_pdf (ub_h b0 b1) ub_sh (ub_g b0 b1) ub_ix [2] ub_tf ub_tf' _ (ub_rho u0 u1) (ub_z' b0 b1 u0 u1) (fun n => n) (ub_rho u0 u1) (ub_J b0 b1 u0 u1) _ r d
    (ub_gacyclic _ _) (ub_acyclic _ _) (ub_shaped _ _) (ub_nonempty _ _) (ub_spelled _ _) (ub_trans _ _) (ub_axes _ _) _ _ (ub_steady _ _) (ub_order _ _) _ _ _ _ _ _ _ Er Dr)).
  - intros v [<-|[]]. split; [cbn; lia|]. split; [reflexivity|]. intros i I. cbn [ub_sh] in I. some_pos I; reflexivity.
  - repeat constructor; cbn; intuition lia.
  - intros v [<-|[<-|[]]]; (apply ub_t; [auto|assumption]).
  - intros v [<-|[<-|[]]]; (eapply d_rv; reflexivity).
  - intros v v' _ _ E. exact E.
  - intros v dd l [<-|[<-|[]]] E; injection E as <- <-; (constructor; [|constructor; [|constructor]]); (eapply k_det; [reflexivity|discriminate|constructor]).
  - constructor; [|constructor; [|constructor]]; [exists 1, [0; 1], [0%R; b0]|exists 1, [0; 2], [0%R; b1]]; (split; [reflexivity|]; split; [constructor; [now apply v_con|constructor; [now apply v_con|constructor]]|reflexivity]).
  - intros v dd l rs [<-|[<-|[]]] E F; injection E as <- <-; inversion F as [|? m ? q A F1]; subst; inversion F1 as [|? s ? q' B F2]; subst; inversion F2; subst;
      assert (m = 0%R) as -> by (eapply (svalue_fun nfs _ (ub_acyclic _ _) _ 0); [exact A|now apply v_con]).
    + assert (s = b0) as -> by (eapply (svalue_fun nfs _ (ub_acyclic _ _) _ 1); [exact B|now apply v_con]). apply uniform_ok; lra.
    + assert (s = b1) as -> by (eapply (svalue_fun nfs _ (ub_acyclic _ _) _ 2); [exact B|now apply v_con]). apply uniform_ok; lra.
  - assert (P : forall b u, (0 < u < b)%R -> (0 < (u - 0) * / (b - u))%R) by (intros b u H; apply Rmult_lt_0_compat; [lra|apply Rinv_0_lt_compat; lra]).
    intros i j Li Lj. destruct i as [|[|i]]; [| |cbn in Li; lia]; (destruct j as [|[|j]]; [| |cbn in Lj; lia]); cbn.
    + exists (fun t => t), (fun t => ln ((t - 0) / (b0 - t)))%R. split.
      * generalize (ub_near b0 u0 H0). apply filter_imp. intros t Ht. exact (ub_t b0 b1 3 (upd (ub_rho u0 u1) 3 t) (or_introl eq_refl) Ht).
      * cbn [ub_rho Nat.eqb]. specialize (P b0 u0 H0). auto_derive; [split; [lra|auto]|]. field. lra.
    + exists (fun _ => u0), (fun _ => ub_z' b0 b1 u0 u1 3). split; [|apply (is_derive_const (K := R_AbsRing) (V := R_NormedModule))]. apply filter_forall. intros t.
      exact (ub_t b0 b1 3 (upd (ub_rho u0 u1) 4 t) (or_introl eq_refl) H0).
    + exists (fun _ => u1), (fun _ => ub_z' b0 b1 u0 u1 4). split; [|apply (is_derive_const (K := R_AbsRing) (V := R_NormedModule))]. apply filter_forall. intros t.
      exact (ub_t b0 b1 4 (upd (ub_rho u0 u1) 3 t) (or_intror eq_refl) H1).
    + exists (fun t => t), (fun t => ln ((t - 0) / (b1 - t)))%R. split.
      * generalize (ub_near b1 u1 H1). apply filter_imp. intros t Ht. exact (ub_t b0 b1 4 (upd (ub_rho u0 u1) 4 t) (or_intror eq_refl) Ht).
      * cbn [ub_rho Nat.eqb]. specialize (P b1 u1 H1). auto_derive; [split; [lra|auto]|]. field. lra.
Qed.

(** X ~ N(0, 1) of shape (2,) with the chain of a scalar scale and a logarithm:
    the determinant of the logarithm, summed over the elements because the one
    of the scale has no axis, is added to the log-probability of every element,
    and the density is not the one of the elements. *)
Theorem C93_chain_refuted : exists afs h sh g ix req tf tf' z z' r r' d d', gacyclic h /\ acyclic g /\ well_shaped afs h sh /\ nonempty h sh /\ spelled_out afs nfs h sh g ix /\
  transforms_spelled_out h sh ix tf tf' /\ NoDup req /\ steady g tf' /\ arrays_in_order h tf req /\
  (forall v, In v req -> v < length h /\ nshp (z v) = sh v /\ forall i, inside (sh v) i -> nelt (z v) i = Fin (z' (ix v i))) /\
  g_joint_trans (fun _ => DFloat) afs nlp h req tf true z = Some r /\ denotes r d /\
  joint_trans (fun _ => DFloat) nfs nlp g (flat_map (elements_of sh ix) req) tf' true (fun n => Fin (z' n)) = Some r' /\ denotes r' d' /\ d <> d'.
Proof. exact chain_sums. Qed.
Print Assumptions C93_chain_refuted.
