(** C58, C61, C88, C91: a joint log-probability that denotes a density denotes
    the right one, at any values. *)
From Coq Require Import Reals Lra Lia List Arith Bool.
From Coquelicot Require Import Coquelicot.
From Verif Require Import XR XTac SpecDist ModelDist LemDist ModelVec SpecVec ModelIdx SpecIdx LemIdx2 LemIdx ModelTen ModelSub LemSub ModelElem ModelJoint ModelNest SpecNest RMx ModelSys SpecSys LemSys LemSys2 LemSys3 PropSys
  ModelStack SpecStack ModelMixSys SpecMixSys LemMixSys LemMixSys2 LemMixSys3 ModelEls SpecEls SpecSound LemSound LemSound2 LemSound4 LemSound5.
Import ListNotations.
Open Scope nat_scope.

(** C58_joint_partial without [smooth]: at any draws, a result that denotes a
    density denotes the joint density.  Missing: draws shared by two requested
    variables (C58_shared_refuted), arrays (C91_sound_partial). *)
Theorem C58_sound_partial : forall ddt fs dlp pdf h req y base rho J ps r d, acyclic h -> NoDup req ->
  (forall v, In v req -> svalue fs h rho v (y v)) ->
  (forall v, In v req -> leads h req v (base v)) ->
  (forall v w, In v req -> In w req -> base v = base w -> v = w) ->
  (forall v d l, In v req -> nth_error h (base v) = Some (SRv d l) -> List.Forall (known h req) l) ->
  Forall2 (fun v p => draw_density fs h pdf rho (base v) p) req ps ->
  (forall v d l rs, In v req -> nth_error h (base v) = Some (SRv d l) -> Forall2 (svalue fs h rho) l rs ->
    denotes (dlp d (map Fin rs) (Fin (rho (base v)))) (pdf d rs (rho (base v)))) ->
  (forall i j, i < length req -> j < length req -> partial fs h rho (nth i req 0) (base (nth j req 0)) (J i j)) ->
  joint ddt fs dlp h req (fun v => Fin (y v)) = Some r -> denotes r d ->
  rdet (length req) J <> 0%R /\ d = (rprod ps / Rabs (rdet (length req) J))%R.
Proof. exact sys_sound. Qed.
Print Assumptions C58_sound_partial.
(** Values that no draws attain are given no density, and neither are values
    attained through products with zero or reciprocals of negative numbers: if
    the result denotes something there are draws giving all values, unique as
    far as the requested variables depend on them.  Missing: as above, where
    the claim is false; every requested variable has to make sense for some draw
    given the values of the others. *)
Theorem C58_attained_partial : forall ddt fs dlp h req y base r d, acyclic h ->
  (forall v, In v req -> leads h req v (base v)) ->
  (forall v w, In v req -> In w req -> base v = base w -> v = w) ->
  (forall v, In v req -> sensible fs h req y v) ->
  joint ddt fs dlp h req (fun v => Fin (y v)) = Some r -> denotes r d ->
  exists rho, (forall v, In v req -> svalue fs h rho v (y v)) /\ (forall v, In v req -> smooth fs h req rho v (base v)) /\
    forall rho', (forall w, In w req -> svalue fs h rho' w (y w)) -> forall v, In v req -> rho' (base v) = rho (base v).
Proof. exact sys_reached. Qed.
Print Assumptions C58_attained_partial.

(** X ~ N(0, 1), Z = 1 / X *)
Definition rec_h : list snode := [SCon (Fin 0); SCon (Fin 1); SRv 0 [0; 1]; SOne URecip 2].
Lemma rec_acyclic : acyclic rec_h.
Proof. intros v nd a E I. do 4 (destruct v as [|v]; [injection E as <-; cbn in I; repeat (destruct I as [<-|I]; [lia|]); destruct I|]). now destruct v. Qed.
Section Rec.
Variable fs : nat -> list xr -> xr.
Lemma rec_x rho : svalue fs rec_h rho 2 (rho 2). Proof. exact (v_rv fs rec_h rho 2 0 [0; 1] eq_refl). Qed.
Lemma rec_z rho : rho 2 <> 0%R -> svalue fs rec_h rho 3 (/ rho 2%nat)%R. Proof. intros N. exact (v_recip fs rec_h rho 3 2 _ eq_refl (rec_x rho) N). Qed.
Lemma rec_inv rho z : svalue fs rec_h rho 3 z -> z = (/ rho 2%nat)%R /\ rho 2 <> 0%R.
Proof. intros V. inversion V as [? c E|? d ps E|? a s E A|? a s E A P|? a s E A P|? l rs E F|? l rs E F|? a c s s' E A B|? a c s s' E A B P|? k l rs ? E F K]; subst; try discriminate E. injection E as <-. rewrite <- (svalue_fun fs rec_h rec_acyclic rho 2 s (rho 2) A (rec_x rho)). auto. Qed.
Lemma rec_leads : leads rec_h [3] 3 2.
Proof. refine (d_one rec_h [3] 3 URecip 2 2 eq_refl _ (d_rv rec_h [3] 2 0 [0; 1] eq_refl)). cbn. lia. Qed.
Lemma rec_sensible y : sensible fs rec_h [3] y 3.
Proof. exists rec_h, (fun _ => 1%R), (/ 1)%R. split; [split; [reflexivity|]; intros i _; split; [|reflexivity]; intros [[<-|[]] N]; now destruct N|]. apply (rec_z (fun _ => 1%R)). lra. Qed.
Lemma rec_known d l : nth_error rec_h 2 = Some (SRv d l) -> List.Forall (known rec_h [3]) l.
Proof. intros E. injection E as <- <-. constructor; [|constructor; [|constructor]].
  - exact (k_det rec_h [3] 0 (SCon (Fin 0)) eq_refl ltac:(discriminate) ltac:(constructor)).
  - exact (k_det rec_h [3] 1 (SCon (Fin 1)) eq_refl ltac:(discriminate) ltac:(constructor)). Qed.
Lemma rec_draw rho : Forall2 (fun v p => draw_density fs rec_h npdf rho 2 p) [3] [normal_pdf 0 1 (rho 2)].
Proof. constructor; [|constructor]. exists 0, [0; 1], [0%R; 1%R]. split; [reflexivity|]. split; [|reflexivity]. repeat constructor; now apply v_con. Qed.
Lemma rec_dlp rho d l rs : nth_error rec_h 2 = Some (SRv d l) -> Forall2 (svalue fs rec_h rho) l rs -> denotes (nlp d (map Fin rs) (Fin (rho 2))) (npdf d rs (rho 2)).
Proof.
  intros E F. injection E as <- <-. inversion F as [|? m ? q A F1]; subst; inversion F1 as [|? s ? q' B F2]; subst; inversion F2; subst.
  assert (s = 1%R) as -> by (apply (svalue_fun fs rec_h rec_acyclic rho 1); [exact B|now apply v_con]). apply normal_ok. lra.
Qed.
Lemma rec_partial rho z : z = (/ rho 2%nat)%R -> rho 2 <> 0%R -> partial fs rec_h rho 3 2 (- (z * z))%R.
Proof.
  intros -> N. exists Rinv. split.
  - assert (P : (0 < Rabs (rho 2%nat))%R) by (now apply Rabs_pos_lt). exists (mkposreal _ P). intros t T. apply rec_z. unfold upd. cbn. intros ->. unfold ball, AbsRing_ball, abs, minus, plus, opp in T. cbn in T.
    unfold AbsRing_ball, abs, minus, plus, opp in T. cbn in T. rewrite Rplus_0_l, Rabs_Ropp in T. lra.
  - auto_derive; [exact N|]. field. exact N.
Qed.
End Rec.
Example C58_sound_ex : forall z r d, joint (fun _ => DFloat) nfs nlp rec_h [3] (fun _ => Fin z) = Some r -> denotes r d ->
  (0 < z)%R /\ d = (rprod [normal_pdf 0 1 (/ z)] / Rabs (rdet 1 (fun _ _ => - (z * z))))%R.
Proof.
  intros z r d E D.
  destruct (C58_attained_partial (fun _ => DFloat) nfs nlp rec_h [3] (fun _ => z) (fun _ => 2) r d rec_acyclic) as (rho & Val & Sm & _); auto.
  - intros v [<-|[]]. exact rec_leads.
  - intros v w [<-|[]] [<-|[]] _. reflexivity.
  - intros v [<-|[]]. apply (rec_sensible nfs).
  - destruct (rec_inv nfs rho z (Val 3 ltac:(cbn; auto))) as [Z N]. specialize (Sm 3 ltac:(cbn; auto)). split.
    + inversion Sm as [? d0 ps E0|? u a b x E0 _ _ V P| | | | | |]; subst; try discriminate. injection E0 as <- <-. rewrite (svalue_fun nfs rec_h rec_acyclic rho 2 x (rho 2) V (rec_x nfs rho)) in P.
      apply Rinv_0_lt_compat, P. reflexivity.
    + replace (/ z)%R with (rho 2) by (rewrite Z; now rewrite Rinv_involutive).
      refine (proj2 (C58_sound_partial (fun _ => DFloat) nfs nlp npdf rec_h [3] (fun _ => z) (fun _ => 2) rho (fun _ _ => (- (z * z))%R) _ r d rec_acyclic _ Val _ _ _ (rec_draw nfs rho) _ _ E D)).
      * repeat constructor; cbn; auto.
      * intros v [<-|[]]. exact rec_leads.
      * intros v w [<-|[]] [<-|[]] _. reflexivity.
      * intros v d0 l _. apply rec_known.
      * intros v d0 l rs _. apply (rec_dlp nfs).
      * intros [|i] [|j] Li Lj; cbn in Li, Lj; try lia. apply (rec_partial nfs); auto.
Qed.
(** and such results exist *)
Example C58_sound_met : forall z, (0 < z)%R -> exists r d, joint (fun _ => DFloat) nfs nlp rec_h [3] (fun _ => Fin z) = Some r /\ denotes r d.
Proof.
  intros z P. set (rho := fun _ : nat => (/ z)%R). assert (Px : (0 < / z)%R) by (now apply Rinv_0_lt_compat). assert (Z : z = (/ rho 2%nat)%R) by (unfold rho; rewrite Rinv_involutive; lra).
  destruct (C58_joint_partial (fun _ => DFloat) nfs nlp npdf rec_h [3] (fun _ => z) (fun _ => 2) rho (fun _ _ => (- (z * z))%R) [normal_pdf 0 1 (rho 2)] rec_acyclic) with (6 := rec_draw nfs rho) as (_ & r & E & D).
  - repeat constructor; cbn; auto.
  - intros v [<-|[]]. rewrite Z. apply (rec_z nfs). unfold rho. lra.
  - intros v [<-|[]]. split; [|left; discriminate]. refine (s_one nfs rec_h [3] rho 3 URecip 2 2 _ eq_refl _ (s_rv nfs rec_h [3] rho 2 0 [0; 1] eq_refl) (rec_x nfs rho) _); [cbn; lia|now intros _].
  - intros v w [<-|[]] [<-|[]] _. reflexivity.
  - intros v d0 l _. apply rec_known.
  - intros v d0 l rs _. apply (rec_dlp nfs).
  - intros [|i] [|j] Li Lj; cbn in Li, Lj; try lia. apply (rec_partial nfs); auto. unfold rho. lra.
  - eauto.
Qed.

(** C58_given_partial without [smooth] *)
Theorem C58_given_sound_partial : forall ddt fs dlp pdf h req y base rho (rho0 : nat -> xr) J ps r d, acyclic h -> NoDup req ->
  (forall v, In v req -> svalue fs h rho v (y v)) ->
  (forall v, In v req -> leads h req v (base v)) ->
  (forall v w, In v req -> In w req -> base v = base w -> v = w) ->
  (forall v w, In v req -> In w req -> needs h req (base v) (base w) -> In (base w) req) ->
  (forall i, ~ In i (map base req) -> rho0 i = Fin (rho i)) ->
  Forall2 (fun v p => draw_density fs h pdf rho (base v) p) req ps ->
  (forall v d l rs, In v req -> nth_error h (base v) = Some (SRv d l) -> Forall2 (svalue fs h rho) l rs ->
    denotes (dlp d (map Fin rs) (Fin (rho (base v)))) (pdf d rs (rho (base v)))) ->
  (forall i j, i < length req -> j < length req -> partial fs h rho (nth i req 0) (base (nth j req 0)) (J i j)) ->
  stack_joint ddt fs dlp h (fun v => Fin (y v)) rho0 (map QVar req) = Some r -> denotes r d ->
  rdet (length req) J <> 0%R /\ d = (rprod ps / Rabs (rdet (length req) J))%R.
Proof. exact sound_vars. Qed.
Print Assumptions C58_given_sound_partial.
Lemma rec_needs b : ~ needs rec_h [3] 2 b \/ b < 2.
Proof. destruct (le_lt_dec 2 b) as [L|L]; [left|now right]. intros N. inversion N as [v nd ? E I|v nd a ? E I _ N']; subst; injection E as <-; [cbn in I; lia|]. cbn in I. inversion N' as [? nd ? E I'|? nd ? ? E I']; subst; (destruct I as [<-|[<-|[]]]; injection E as <-; destruct I'). Qed.
Example C58_given_sound_ex : forall x (rho0 : nat -> xr) r d, x <> 0%R -> (forall i, i <> 2 -> rho0 i = Fin x) ->
  stack_joint (fun _ => DFloat) nfs nlp rec_h (fun _ => Fin (/ x)) rho0 [QVar 3] = Some r -> denotes r d ->
  d = (rprod [normal_pdf 0 1 x] / Rabs (rdet 1 (fun _ _ => - (/ x * / x))))%R.
Proof.
  intros x rho0 r d N Ag E D. set (rho := fun _ : nat => x).
  refine (proj2 (C58_given_sound_partial (fun _ => DFloat) nfs nlp npdf rec_h [3] (fun _ => / x)%R (fun _ => 2) rho rho0 (fun _ _ => (- (/ x * / x))%R) [normal_pdf 0 1 x] r d rec_acyclic _ _ _ _ _ _ (rec_draw nfs rho) _ _ E D)).
  - repeat constructor; cbn; auto.
  - intros v [<-|[]]. now apply (rec_z nfs rho).
  - intros v [<-|[]]. exact rec_leads.
  - intros v w [<-|[]] [<-|[]] _. reflexivity.
  - intros v w _ _ Nd. destruct (rec_needs 2) as [Q|Q]; [now destruct Q|lia].
  - intros i I. apply Ag. intros ->. apply I. cbn. auto.
  - intros v d0 l rs _. apply (rec_dlp nfs).
  - intros [|i] [|j] Li Lj; cbn in Li, Lj; try lia. now apply (rec_partial nfs rho).
Qed.

(** C61_joint_partial and C61_given_partial without [smooth] *)
Theorem C61_sound_partial : forall ddt fs dlp pdf h qs y base rho (rho0 : nat -> xr) J ps r d, acyclic h -> NoDup (q_vars qs) ->
  (forall l xs, In (QStack l xs) qs -> xs = map (fun v => Fin (y v)) l) ->
  (forall v b, In v (q_vars qs) -> In b (q_elems qs) -> ~ needs h (q_req qs) v b) ->
  (forall v, In v (q_vars qs) -> svalue fs h rho v (y v)) ->
  (forall v, In v (q_vars qs) -> leads h (q_vars qs) v (base v)) ->
  (forall v w, In v (q_vars qs) -> In w (q_vars qs) -> base v = base w -> v = w) ->
  (forall v d l, In v (q_vars qs) -> nth_error h (base v) = Some (SRv d l) -> List.Forall (known h (q_vars qs)) l) ->
  Forall2 (fun v p => draw_density fs h pdf rho (base v) p) (q_vars qs) ps ->
  (forall v d l rs, In v (q_vars qs) -> nth_error h (base v) = Some (SRv d l) -> Forall2 (svalue fs h rho) l rs ->
    denotes (dlp d (map Fin rs) (Fin (rho (base v)))) (pdf d rs (rho (base v)))) ->
  (forall i j, i < length (q_vars qs) -> j < length (q_vars qs) -> partial fs h rho (nth i (q_vars qs) 0) (base (nth j (q_vars qs) 0)) (J i j)) ->
  stack_joint ddt fs dlp h (fun v => Fin (y v)) rho0 qs = Some r -> denotes r d ->
  rdet (length (q_vars qs)) J <> 0%R /\ d = (rprod ps / Rabs (rdet (length (q_vars qs)) J))%R.
Proof. exact stack_sound. Qed.
Print Assumptions C61_sound_partial.
Theorem C61_given_sound_partial : forall ddt fs dlp pdf h qs y base rho (rho0 : nat -> xr) J ps r d, acyclic h -> NoDup (q_vars qs) ->
  (forall l xs, In (QStack l xs) qs -> xs = map (fun v => Fin (y v)) l) ->
  (forall v b, In v (q_vars qs) -> In b (q_elems qs) -> ~ needs h (q_req qs) v b) ->
  (forall v, In v (q_vars qs) -> svalue fs h rho v (y v)) ->
  (forall v, In v (q_vars qs) -> leads h (q_vars qs) v (base v)) ->
  (forall v w, In v (q_vars qs) -> In w (q_vars qs) -> base v = base w -> v = w) ->
  (forall v w, In v (q_vars qs) -> In w (q_vars qs) -> needs h (q_vars qs) (base v) (base w) -> In (base w) (q_vars qs)) ->
  (forall i, ~ In i (map base (q_vars qs)) -> rho0 i = Fin (rho i)) ->
  Forall2 (fun v p => draw_density fs h pdf rho (base v) p) (q_vars qs) ps ->
  (forall v d l rs, In v (q_vars qs) -> nth_error h (base v) = Some (SRv d l) -> Forall2 (svalue fs h rho) l rs ->
    denotes (dlp d (map Fin rs) (Fin (rho (base v)))) (pdf d rs (rho (base v)))) ->
  (forall i j, i < length (q_vars qs) -> j < length (q_vars qs) -> partial fs h rho (nth i (q_vars qs) 0) (base (nth j (q_vars qs) 0)) (J i j)) ->
  stack_joint ddt fs dlp h (fun v => Fin (y v)) rho0 qs = Some r -> denotes r d ->
  rdet (length (q_vars qs)) J <> 0%R /\ d = (rprod ps / Rabs (rdet (length (q_vars qs)) J))%R.
Proof. exact given_sound. Qed.
Print Assumptions C61_given_sound_partial.
Example C61_sound_ex : forall x (rho0 : nat -> xr) r d, x <> 0%R ->
  stack_joint (fun _ => DFloat) nfs nlp rec_h (fun _ => Fin (/ x)) rho0 [QStack [3] [Fin (/ x)]] = Some r -> denotes r d ->
  d = (rprod [normal_pdf 0 1 x] / Rabs (rdet 1 (fun _ _ => - (/ x * / x))))%R.
Proof.
  intros x rho0 r d N E D. set (rho := fun _ : nat => x).
  refine (proj2 (C61_sound_partial (fun _ => DFloat) nfs nlp npdf rec_h [QStack [3] [Fin (/ x)]] (fun _ => / x)%R (fun _ => 2) rho rho0 (fun _ _ => (- (/ x * / x))%R) [normal_pdf 0 1 x] r d rec_acyclic _ _ _ _ _ _ _ (rec_draw nfs rho) _ _ E D));
    cbn [q_vars q_elems q_req flat_map app].
  - repeat constructor; cbn; auto.
  - intros l xs [Q|[]]. injection Q as <- <-. reflexivity.
  - intros v b [<-|[]] [<-|[]] Nd. inversion Nd as [v nd ? Q I|v nd a ? Q I _ N']; subst; injection Q as <-; destruct I as [I|[]]; [lia|subst a].
    inversion N' as [v nd ? Q I|v nd a ? Q I _ N'']; subst; injection Q as <-; [cbn in I; lia|]. cbn in I. inversion N'' as [? nd ? Q I'|? nd ? ? Q I']; subst; (destruct I as [<-|[<-|[]]]; injection Q as <-; destruct I').
  - intros v [<-|[]]. now apply (rec_z nfs rho).
  - intros v [<-|[]]. exact rec_leads.
  - intros v w [<-|[]] [<-|[]] _. reflexivity.
  - intros v d0 l _. apply rec_known.
  - intros v d0 l rs _. apply (rec_dlp nfs).
  - intros [|i] [|j] Li Lj; cbn in Li, Lj; try lia. now apply (rec_partial nfs rho).
Qed.
Example C61_given_sound_ex : forall x (rho0 : nat -> xr) r d, x <> 0%R -> (forall i, i <> 2 -> rho0 i = Fin x) ->
  stack_joint (fun _ => DFloat) nfs nlp rec_h (fun _ => Fin (/ x)) rho0 [QStack [3] [Fin (/ x)]] = Some r -> denotes r d ->
  d = (rprod [normal_pdf 0 1 x] / Rabs (rdet 1 (fun _ _ => - (/ x * / x))))%R.
Proof.
  intros x rho0 r d N Ag E D. set (rho := fun _ : nat => x).
  refine (proj2 (C61_given_sound_partial (fun _ => DFloat) nfs nlp npdf rec_h [QStack [3] [Fin (/ x)]] (fun _ => / x)%R (fun _ => 2) rho rho0 (fun _ _ => (- (/ x * / x))%R) [normal_pdf 0 1 x] r d rec_acyclic _ _ _ _ _ _ _ _ (rec_draw nfs rho) _ _ E D));
    cbn [q_vars q_elems q_req flat_map app].
  - repeat constructor; cbn; auto.
  - intros l xs [Q|[]]. injection Q as <- <-. reflexivity.
  - intros v b [<-|[]] [<-|[]] Nd. inversion Nd as [v nd ? Q I|v nd a ? Q I _ N']; subst; injection Q as <-; destruct I as [I|[]]; [lia|subst a].
    inversion N' as [v nd ? Q I|v nd a ? Q I _ N'']; subst; injection Q as <-; [cbn in I; lia|]. cbn in I. inversion N'' as [? nd ? Q I'|? nd ? ? Q I']; subst; (destruct I as [<-|[<-|[]]]; injection Q as <-; destruct I').
  - intros v [<-|[]]. now apply (rec_z nfs rho).
  - intros v [<-|[]]. exact rec_leads.
  - intros v w [<-|[]] [<-|[]] _. reflexivity.
  - intros v w _ _ Nd. destruct (rec_needs 2) as [Q|Q]; [now destruct Q|lia].
  - intros i I. apply Ag. intros ->. apply I. cbn. auto.
  - intros v d0 l rs _. apply (rec_dlp nfs).
  - intros [|i] [|j] Li Lj; cbn in Li, Lj; try lia. now apply (rec_partial nfs rho).
Qed.

(** C91_density_partial without [smooth], and values that are not attained *)
Theorem C91_sound_partial : forall ddt afs fs dlp pdf h sh g ix req y z base rho J ps r d,
  gacyclic h -> acyclic g -> well_shaped afs h sh -> nonempty h sh -> spelled_out afs fs h sh g ix ->
  (forall v, In v req -> v < length h /\ nshp (y v) = sh v /\ forall i, inside (sh v) i -> nelt (y v) i = Fin (z (ix v i))) ->
  let els := flat_map (elements_of sh ix) req in
  NoDup req ->
  (forall v, In v els -> svalue fs g rho v (z v)) ->
  (forall v, In v els -> leads g els v (base v)) ->
  (forall v w, In v els -> In w els -> base v = base w -> v = w) ->
  (forall v d l, In v els -> nth_error g (base v) = Some (SRv d l) -> List.Forall (known g els) l) ->
  Forall2 (fun v p => draw_density fs g pdf rho (base v) p) els ps ->
  (forall v d l rs, In v els -> nth_error g (base v) = Some (SRv d l) -> Forall2 (svalue fs g rho) l rs ->
    denotes (dlp d (map Fin rs) (Fin (rho (base v)))) (pdf d rs (rho (base v)))) ->
  (forall i j, i < length els -> j < length els -> partial fs g rho (nth i els 0) (base (nth j els 0)) (J i j)) ->
  g_joint ddt afs dlp h req y = Some r -> denotes r d ->
  rdet (length els) J <> 0%R /\ d = (rprod ps / Rabs (rdet (length els) J))%R.
Proof. exact (fun ddt afs fs dlp pdf h sh g ix req y z base rho J ps r d GA AC WS NE SO RQ ND Val Ld Inj Kn Den Dlp Pa Ej Dr =>
  els_sound ddt afs fs dlp h sh g ix req y z base r d GA AC WS NE SO RQ ND Ld Inj Ej Dr pdf rho J ps Val Kn Den Dlp Pa). Qed.
Print Assumptions C91_sound_partial.
Theorem C91_attained_partial : forall ddt afs fs dlp h sh g ix req y z base r d,
  gacyclic h -> acyclic g -> well_shaped afs h sh -> nonempty h sh -> spelled_out afs fs h sh g ix ->
  (forall v, In v req -> v < length h /\ nshp (y v) = sh v /\ forall i, inside (sh v) i -> nelt (y v) i = Fin (z (ix v i))) ->
  let els := flat_map (elements_of sh ix) req in
  (forall v, In v els -> leads g els v (base v)) ->
  (forall v w, In v els -> In w els -> base v = base w -> v = w) ->
  g_joint ddt afs dlp h req y = Some r -> denotes r d ->
  (forall v, In v els -> sensible fs g els z v) ->
  exists rho, (forall v, In v els -> svalue fs g rho v (z v)) /\ (forall v, In v els -> smooth fs g els rho v (base v)) /\
    forall rho', (forall w, In w els -> svalue fs g rho' w (z w)) -> forall v, In v els -> rho' (base v) = rho (base v).
Proof. exact els_attained. Qed.
Print Assumptions C91_attained_partial.

(** X ~ N(0, 1) of shape (2,), Z = 1 / X *)
Definition two (a b : xr) : nd xr := {| nshp := [2]; nelt := fun i => if hd 0 i =? 0 then a else b |}.
Definition one (a : xr) : nd xr := {| nshp := []; nelt := fun _ => a |}.
Definition two_afs (_ : nat) (_ : list (nd xr)) : nd xr := one NaN.
Definition two_h : list gnode := [GCon (one (Fin 0)); GCon (one (Fin 1)); GRv 0 [2] [0; 1]; GOne URecip 2].
Definition two_sh (v : nat) : list nat := match v with 0 | 1 => [] | _ => [2] end.
Definition two_g : list snode := [SCon (Fin 0); SCon (Fin 1); SRv 0 [0; 1]; SRv 0 [0; 1]; SOne URecip 2; SOne URecip 3].
Definition two_ix (v : nat) (i : list nat) : nat := match v with 0 => 0 | 1 => 1 | 2 => 2 + hd 0 i | _ => 4 + hd 0 i end.
Lemma two_inside2 i : inside [2] i -> i = [0] \/ i = [1].
Proof. intros I. inversion I as [|x ? l ? L T]; subst. inversion T; subst. destruct x as [|[|x]]; auto; lia. Qed.
Lemma two_inside0 i : inside [] i -> i = []. Proof. intros I. now inversion I. Qed.
Ltac two_pos I := first [apply two_inside2 in I; destruct I as [->| ->]|apply two_inside0 in I; subst].
Lemma two_gacyclic : gacyclic two_h.
Proof. intros v nd a E I. destruct v as [|[|[|[|v]]]]; [injection E as <- ..|now destruct v]; cbn in I; repeat (destruct I as [<-|I]; [lia|]); destruct I. Qed.
Lemma two_acyclic : acyclic two_g.
Proof. intros v nd a E I. do 6 (destruct v as [|v]; [injection E as <-; cbn in I; repeat (destruct I as [<-|I]; [lia|]); destruct I|]). now destruct v. Qed.
Lemma two_shaped : well_shaped two_afs two_h two_sh.
Proof.
  intros v nd E. destruct v as [|[|[|[|v]]]]; [injection E as <- ..|now destruct v]; try reflexivity.
  split; [reflexivity|]. intros p [<-|[<-|[]]]; now apply bcast_all_spec.
Qed.
Lemma two_nonempty : nonempty two_h two_sh.
Proof. intros v L. do 4 (destruct v as [|v]; [cbn; intuition discriminate|]). cbn in L. lia. Qed.
Lemma two_spelled : spelled_out two_afs nfs two_h two_sh two_g two_ix.
Proof.
  split.
  - assert (A0 : forall i, aligned [] i []) by (intros i; apply aligned_iff; [cbn; lia|]; reflexivity).
    intros v nd i E I. destruct v as [|[|[|[|v]]]]; [injection E as <- ..|now destruct v]; cbn [two_sh] in I; two_pos I; (eexists; split; [reflexivity|]); cbn [element_node]; try reflexivity;
      (eexists; split; [reflexivity|]); repeat constructor; (exists []; split; [apply A0|reflexivity]).
  - intros v w i j Lv Lw Iv Iw E. cbn in Lv, Lw.
    destruct v as [|[|[|[|v]]]]; try lia; destruct w as [|[|[|[|w]]]]; try lia; cbn [two_sh] in *; two_pos Iv; two_pos Iw; try (split; reflexivity); discriminate E.
Qed.
Definition two_z (z0 z1 : R) (n : nat) : R := if n =? 4 then z0 else z1.
Definition two_base (n : nat) : nat := if n =? 4 then 2 else 3.
Definition two_J (z0 z1 : R) (i j : nat) : R := if i =? j then if i =? 0 then (- (z0 * z0))%R else (- (z1 * z1))%R else 0%R.
Lemma two_x rho v : v = 2 \/ v = 3 -> svalue nfs two_g rho v (rho v). Proof. intros [->| ->]; eapply v_rv; reflexivity. Qed.
Lemma two_fun rho v s : v = 2 \/ v = 3 -> svalue nfs two_g rho v s -> s = rho v.
Proof. intros B V. exact (svalue_fun nfs two_g two_acyclic rho v s (rho v) V (two_x rho v B)). Qed.
Lemma two_inv rho v z : v = 2 \/ v = 3 -> svalue nfs two_g rho (S (S v)) z -> z = (/ rho v)%R /\ rho v <> 0%R.
Proof.
  intros B V. inversion V as [? c E|? d ps E|? a s E A|? a s E A P|? a s E A P|? l rs E F|? l rs E F|? a c s s' E A C|? a c s s' E A C P|? k l rs ? E F K]; subst; destruct B as [->| ->]; try discriminate E;
    injection E as <-; (apply two_fun in A; [|auto]); rewrite <- A; auto.
Qed.
Lemma two_z_val rho v : v = 2 \/ v = 3 -> rho v <> 0%R -> svalue nfs two_g rho (S (S v)) (/ rho v)%R.
Proof. intros B N. eapply v_recip; [destruct B as [->| ->]; reflexivity|now apply two_x|exact N]. Qed.
Lemma two_leads v : v = 4 \/ v = 5 -> leads two_g [4; 5] v (two_base v).
Proof.
  intros [->| ->].
  - refine (d_one two_g [4; 5] 4 URecip 2 2 eq_refl _ (d_rv two_g [4; 5] 2 0 [0; 1] eq_refl)). cbn. lia.
  - refine (d_one two_g [4; 5] 5 URecip 3 3 eq_refl _ (d_rv two_g [4; 5] 3 0 [0; 1] eq_refl)). cbn. lia.
Qed.
Lemma two_known c : c < 2 -> known two_g [4; 5] c.
Proof.
  intros L. destruct c as [|[|c]]; [| |lia].
  - exact (k_det two_g [4; 5] 0 (SCon (Fin 0)) eq_refl ltac:(discriminate) ltac:(constructor)).
  - exact (k_det two_g [4; 5] 1 (SCon (Fin 1)) eq_refl ltac:(discriminate) ltac:(constructor)).
Qed.
Lemma two_sensible y v : v = 4 \/ v = 5 -> sensible nfs two_g [4; 5] y v.
Proof.
  intros B. exists (if v =? 4 then firstn 5 two_g ++ [SCon (Fin (y 5))] else firstn 4 two_g ++ [SCon (Fin (y 4)); SOne URecip 3]), (fun _ => 1%R), (/ 1)%R.
  assert (N : (1 <> 0)%R) by lra. split.
  - split; [destruct B as [->| ->]; reflexivity|]. intros i L. do 6 (destruct i as [|i]; [destruct B as [->| ->]; (split; intros H; cbn in H; [try reflexivity; exfalso; intuition lia|try reflexivity; exfalso; intuition lia])|]).
    cbn in L. lia.
  - (destruct B as [->| ->]; (eapply v_recip; [reflexivity| |exact N])); [apply (v_rv nfs (firstn 5 two_g ++ [SCon (Fin (y 5))]) (fun _ => 1%R) 2 0 [0; 1])|apply (v_rv nfs (firstn 4 two_g ++ [SCon (Fin (y 4)); SOne URecip 3]) (fun _ => 1%R) 3 0 [0; 1])]; reflexivity.
Qed.
Lemma two_partial rho z0 z1 i j : z0 = (/ rho 2%nat)%R -> z1 = (/ rho 3%nat)%R -> rho 2 <> 0%R -> rho 3 <> 0%R -> i < 2 -> j < 2 ->
  partial nfs two_g rho (4 + i) (2 + j) (two_J z0 z1 i j).
Proof.
  intros Z0 Z1 N0 N1 Li Lj.
  assert (G : forall v, v = 2 \/ v = 3 -> rho v <> 0%R -> partial nfs two_g rho (S (S v)) v (- (/ rho v * / rho v))%R).
  { intros v B N. exists Rinv. split.
    - assert (P : (0 < Rabs (rho v))%R) by (now apply Rabs_pos_lt). exists (mkposreal _ P). intros t T.
      assert (U : upd rho v t v = t) by (unfold upd; now rewrite Nat.eqb_refl). rewrite <- U at 2. apply two_z_val; [exact B|]. rewrite U. intros ->.
      unfold ball in T. cbn in T. unfold AbsRing_ball, abs, minus, plus, opp in T. cbn in T. rewrite Rplus_0_l, Rabs_Ropp in T. lra.
    - auto_derive; [exact N|]. field. exact N. }
  assert (H : forall v w, v = 2 \/ v = 3 -> w = 2 \/ w = 3 -> v <> w -> rho v <> 0%R -> partial nfs two_g rho (S (S v)) w 0%R).
  { intros v w B C D N. exists (fun _ => (/ rho v)%R). split; [|auto_derive; auto]. apply filter_forall. intros t.
    assert (U : upd rho w t v = rho v) by (unfold upd; now rewrite (proj2 (Nat.eqb_neq v w) D)). rewrite <- U. apply two_z_val; [exact B|]. now rewrite U. }
  destruct i as [|[|i]]; [| |lia]; (destruct j as [|[|j]]; [| |lia]); cbn [two_J Nat.eqb Nat.add].
  - rewrite Z0. apply (G 2); auto.
  - apply (H 2 3); auto.
  - apply (H 3 2); auto.
  - rewrite Z1. apply (G 3); auto.
Qed.
Example C91_sound_ex : forall z0 z1 r d, g_joint (fun _ => DFloat) two_afs nlp two_h [3] (fun _ => two (Fin z0) (Fin z1)) = Some r -> denotes r d ->
  (0 < z0)%R /\ (0 < z1)%R /\ d = (rprod [normal_pdf 0 1 (/ z0); normal_pdf 0 1 (/ z1)] / Rabs (rdet 2 (two_J z0 z1)))%R.
Proof.
  intros z0 z1 r d E D. set (y := fun _ : nat => two (Fin z0) (Fin z1)).
  assert (RQ : forall v, In v [3] -> v < length two_h /\ nshp (y v) = two_sh v /\ forall i, inside (two_sh v) i -> nelt (y v) i = Fin (two_z z0 z1 (two_ix v i))).
  { intros v [<-|[]]. split; [cbn; lia|]. split; [reflexivity|]. intros i I. cbn [two_sh] in I. two_pos I; reflexivity. }
  change (flat_map (elements_of two_sh two_ix) [3]) with [4; 5] in *.
  assert (In45 : forall v, In v [4; 5] -> v = 4 \/ v = 5) by (cbn; intuition).
  assert (Inj : forall v w, In v [4; 5] -> In w [4; 5] -> two_base v = two_base w -> v = w).
  { intros v w [<-|[<-|[]]] [<-|[<-|[]]] H; auto; discriminate. }
  destruct (C91_attained_partial (fun _ => DFloat) two_afs nfs nlp two_h two_sh two_g two_ix [3] y (two_z z0 z1) two_base r d two_gacyclic two_acyclic two_shaped two_nonempty two_spelled RQ) as (rho & Val & Sm & _);
    [intros v I; apply (two_leads v), In45, I|exact Inj|exact E|exact D|intros v I; apply two_sensible, In45, I|].
  destruct (two_inv rho 2 z0 ltac:(auto) (Val 4 ltac:(cbn; auto))) as [Z0 N0]. destruct (two_inv rho 3 z1 ltac:(auto) (Val 5 ltac:(cbn; auto))) as [Z1 N1].
  assert (P : forall v, v = 2 \/ v = 3 -> smooth nfs two_g [4; 5] rho (S (S v)) v -> (0 < rho v)%R).
  { intros v B S. inversion S as [? d0 ps E0|? u a b x E0 _ _ V P| | | | | |]; subst; try (destruct B as [->| ->]; discriminate); try lia.
    destruct B as [->| ->]; injection E0 as <- <-; (apply two_fun in V; [|auto]); rewrite V in P; now apply P. }
  split; [|split].
  - rewrite Z0. apply Rinv_0_lt_compat, (P 2); [auto|apply (Sm 4); cbn; auto].
  - rewrite Z1. apply Rinv_0_lt_compat, (P 3); [auto|apply (Sm 5); cbn; auto].
  - replace (/ z0)%R with (rho 2) by (rewrite Z0; now rewrite Rinv_involutive). replace (/ z1)%R with (rho 3) by (rewrite Z1; now rewrite Rinv_involutive).
    refine (proj2 (C91_sound_partial (fun _ => DFloat) two_afs nfs nlp npdf two_h two_sh two_g two_ix [3] y (two_z z0 z1) two_base rho (two_J z0 z1) _ r d two_gacyclic two_acyclic two_shaped two_nonempty two_spelled RQ _ Val _ Inj _ _ _ _ E D)).
    + repeat constructor; cbn; auto.
    + intros v I. apply (two_leads v), In45, I.
    + intros v d0 l I Ev. assert (l = [0; 1]) as -> by (destruct (In45 v I) as [->| ->]; injection Ev as <- <-; reflexivity). constructor; [apply two_known; lia|constructor; [apply two_known; lia|constructor]].
    + constructor; [|constructor; [|constructor]]; exists 0, [0; 1], [0%R; 1%R]; (split; [reflexivity|]; split; [|reflexivity]); repeat constructor; now apply v_con.
    + intros v d0 l rs I Ev F. assert (d0 = 0 /\ l = [0; 1]) as [-> ->] by (destruct (In45 v I) as [->| ->]; injection Ev as <- <-; auto).
      inversion F as [|? m ? q A F1]; subst; inversion F1 as [|? s ? q' B F2]; subst; inversion F2; subst.
      assert (s = 1%R) as -> by (apply (svalue_fun nfs two_g two_acyclic rho 1); [exact B|now apply v_con]). apply normal_ok. lra.
    + intros i j Li Lj. change (length _) with 2 in Li, Lj.
      assert (Bi : nth i (flat_map (elements_of two_sh two_ix) [3]) 0 = 4 + i) by (destruct i as [|[|i]]; [reflexivity|reflexivity|lia]).
      assert (Bj : two_base (nth j (flat_map (elements_of two_sh two_ix) [3]) 0) = 2 + j) by (destruct j as [|[|j]]; [reflexivity|reflexivity|lia]).
      rewrite Bi, Bj. now apply two_partial.
Qed.

(** C88_joint_partial without [smooth] *)
Theorem C88_sound_partial : forall kind ddt fs dlp pdf h qs M y base pick rho (rho0 : nat -> xr),
  acyclic h -> NoDup (q_vars qs) -> roles_ok kind fs -> given_nodes kind h qs M ->
  (forall l xs, In (QStack l xs) qs -> xs = map (fun v => Fin (y v)) l) ->
  (forall v, In v (q_elems qs) -> pick v = v) ->
  (forall v, In v (q_req qs) -> (forall idx comps, ~ mixture_node kind h v idx comps) -> pick v = v) ->
  (forall v idx comps, In v (q_req qs) -> mixture_node kind h v idx comps ->
    known h M idx /\ (exists i, svalue fs h rho idx (INR i) /\ nth_error comps i = Some (pick v)) /\
    (forall w, In w (q_vars qs) -> exists D, partial fs h rho idx (base w) D) /\
    (forall c, In c comps -> ~ In c (q_req qs) /\ exists b, leads h M c b /\ (rv_dtype ddt h b <> DInt \/ b = c))) ->
  (forall v w, In v (q_vars qs) -> In w (q_vars qs) -> ~ In (pick w) (q_req qs) -> ~ needs h M (pick v) (pick w)) ->
  (forall v, In v (q_vars qs) -> svalue fs h rho v (y v)) ->
  (forall v, In v (q_vars qs) -> leads h M (pick v) (base v)) ->
  (forall v w, In v (q_vars qs) -> In w (q_vars qs) -> base v = base w -> v = w) ->
  (forall v w, In v (q_vars qs) -> In w (q_vars qs) -> needs h M (base v) (base w) -> In (base w) (q_req qs)) ->
  (forall i, ~ In i (map base (q_vars qs)) -> rho0 i = Fin (rho i)) ->
  (forall v d l rs, In v (q_vars qs) -> nth_error h (base v) = Some (SRv d l) -> Forall2 (svalue fs h rho) l rs ->
    denotes (dlp d (map Fin rs) (Fin (rho (base v)))) (pdf d rs (rho (base v)))) ->
  forall J ps, Forall2 (fun v p => draw_density fs h pdf rho (base v) p) (q_vars qs) ps ->
  (forall i j, i < length (q_vars qs) -> j < length (q_vars qs) -> partial fs h rho (nth i (q_vars qs) 0) (base (nth j (q_vars qs) 0)) (J i j)) ->
  forall r d, mixed_joint kind ddt fs dlp h (fun v => Fin (y v)) rho0 qs = Some r -> denotes r d ->
  rdet (length (q_vars qs)) J <> 0%R /\ d = (rprod ps / Rabs (rdet (length (q_vars qs)) J))%R.
Proof. exact mixed_sound. Qed.
Print Assumptions C88_sound_partial.
(** X, Y ~ N(0, 1), Z = stack([Y, 1 / X])[1] *)
Definition sel_h : list snode := [SCon (Fin 0); SCon (Fin 1); SRv 0 [0; 1]; SOne URecip 2; SRv 0 [0; 1]; SOther 0 [1; 4; 3]].
Lemma sel_acyclic : acyclic sel_h.
Proof. intros v nd a E I. do 6 (destruct v as [|v]; [injection E as <-; cbn in I; repeat (destruct I as [<-|I]; [lia|]); destruct I|]). now destruct v. Qed.
Lemma sel_needs v b : needs sel_h [5] v b -> b < v.
Proof. induction 1 as [v nd b E I|v nd a b E I R N IH]; [exact (sel_acyclic v nd b E I)|]. pose proof (sel_acyclic v nd a E I). lia. Qed.
Lemma sel_mix v idx comps : mixture_node mkind sel_h v idx comps -> v = 5 /\ idx = 1 /\ comps = [4; 3].
Proof. intros (k & E & K). destruct v as [|[|[|[|[|[|v]]]]]]; try discriminate; [|now destruct v]. injection E as <- <- <-. auto. Qed.
Lemma sel_val rho : rho 2 <> 0%R -> svalue mfs sel_h rho 5 (/ rho 2%nat)%R.
Proof.
  intros N. refine (v_other mfs sel_h rho 5 0 [1; 4; 3] [1%R; rho 4; (/ rho 2%nat)%R] _ eq_refl _ _).
  - constructor; [now apply v_con|]. constructor; [exact (v_rv mfs sel_h rho 4 0 [0; 1] eq_refl)|]. constructor; [|constructor].
    exact (v_recip mfs sel_h rho 3 2 _ eq_refl (v_rv mfs sel_h rho 2 0 [0; 1] eq_refl) N).
  - apply (proj1 m_roles 0 eq_refl 1%R 1 [rho 4; (/ rho 2%nat)%R]); [|reflexivity]. cbn. replace (1 - 1)%R with 0%R by ring. rewrite Rabs_R0. lra.
Qed.
Example C88_sound_ex : forall x u r d, x <> 0%R ->
  mixed_joint mkind mdt mfs mlp sel_h (fun _ => Fin (/ x)) (fun i => Fin (if i =? 2 then x else u)) [QVar 5] = Some r -> denotes r d ->
  d = (rprod [normal_pdf 0 1 x] / Rabs (rdet 1 (fun _ _ => - (/ x * / x))))%R.
Proof.
  intros x u r d N. set (rho := fun i : nat => if i =? 2 then x else u). intros E D.
  refine (proj2 (C88_sound_partial mkind mdt mfs mlp mpdf sel_h [QVar 5] [5] (fun _ => / x)%R (fun _ => 2) (fun v => if v =? 5 then 3 else v) rho (fun i => Fin (rho i))
    sel_acyclic _ m_roles _ _ _ _ _ _ _ _ _ _ _ _ (fun _ _ => (- (/ x * / x))%R) [normal_pdf 0 1 x] _ _ r d E D)); cbn [q_vars q_elems q_req flat_map app length].
  - repeat constructor; cbn; auto.
  - intros a. split; [cbn; tauto|]. intros [H|(e & k & l & xs & i & _ & _ & H & _)]; [exact H|]. cbn in H. destruct H as [H|[]]; discriminate.
  - intros l xs [H|[]]. discriminate.
  - intros v [].
  - intros v [<-|[]] H. destruct (H 1 [4; 3]). exists 0. auto.
  - intros v idx comps _ H. apply sel_mix in H as (-> & -> & ->). split; [|split; [|split]].
    + exact (k_det sel_h [5] 1 (SCon (Fin 1)) eq_refl ltac:(discriminate) ltac:(constructor)).
    + exists 1. split; [now apply v_con|reflexivity].
    + intros w _. exists 0%R, (fun _ => 1%R). split; [apply filter_forall; intros t; now apply v_con|auto_derive; auto].
    + intros c [<-|[<-|[]]]; (split; [cbn; lia|]).
      * exists 4. split; [exact (d_rv sel_h [5] 4 0 [0; 1] eq_refl)|left; discriminate].
      * exists 2. split; [|left; discriminate]. refine (d_one sel_h [5] 3 URecip 2 2 eq_refl _ (d_rv sel_h [5] 2 0 [0; 1] eq_refl)). cbn. lia.
  - intros v w [<-|[]] [<-|[]] _ Nd. apply sel_needs in Nd. cbn in Nd. lia.
  - intros v [<-|[]]. now apply (sel_val rho).
  - intros v [<-|[]]. refine (d_one sel_h [5] 3 URecip 2 2 eq_refl _ (d_rv sel_h [5] 2 0 [0; 1] eq_refl)). cbn. lia.
  - intros v w [<-|[]] [<-|[]] _. reflexivity.
  - intros v w _ _ Nd. apply sel_needs in Nd. lia.
  - reflexivity.
  - intros v d0 l rs _ Ev F. injection Ev as <- <-. inversion F as [|? m ? q A F1]; subst; inversion F1 as [|? s ? q' B F2]; subst; inversion F2; subst.
    assert (s = 1%R) as -> by (apply (svalue_fun mfs sel_h sel_acyclic rho 1); [exact B|now apply v_con]). apply normal_ok. lra.
  - constructor; [|constructor]. exists 0, [0; 1], [0%R; 1%R]. split; [reflexivity|]. split; [|reflexivity]. repeat constructor; now apply v_con.
  - intros [|i] [|j] Li Lj; try lia. exists Rinv. cbn [nth]. split.
    + assert (P : (0 < Rabs x)%R) by (now apply Rabs_pos_lt). exists (mkposreal _ P). intros t T. apply (sel_val (upd rho 2 t)). cbn. intros ->.
      unfold ball in T. cbn in T. unfold AbsRing_ball, abs, minus, plus, opp in T. cbn in T. rewrite Rplus_0_l, Rabs_Ropp in T. lra.
    + cbn. auto_derive; [exact N|]. field. exact N.
Qed.
