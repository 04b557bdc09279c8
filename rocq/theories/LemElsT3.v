(** Densities of models of arrays in the transformed space. *)
From Coq Require Import Reals Lra Lia List Arith Bool.
From Coquelicot Require Import Coquelicot.
From Verif Require Import XR XTac SpecDist ModelDist LemDist ModelVec SpecVec LemDisc ModelIdx SpecIdx LemIdx LemIdx2 ModelTen ModelConv ModelSub LemSub LemUtil ModelTrans SpecTrans ModelElem SpecElem LemElem ModelBatch LemBatch LemBatch2
  ModelJoint LemJoint ModelNest SpecNest RMx ModelSys SpecSys LemSys LemSys3 ModelSysT SpecSysT LemSysT LemSysT2 ModelEls SpecEls LemEls LemEls2 LemEls3 ModelElsT SpecElsT LemElsT LemElsT2.
Import ListNotations.
Open Scope nat_scope.

Lemma els_nodup afs fs h sh g ix req : spelled_out afs fs h sh g ix -> NoDup req -> (forall v, In v req -> v < length h) -> NoDup (flat_map (elements_of sh ix) req).
Proof.
  intros SO ND R. induction ND as [|v l NI ND IH]; [constructor|]. cbn [flat_map].
  assert (Rl : forall w, In w l -> w < length h) by (intros; apply R; now right). specialize (IH Rl). assert (Lv : v < length h) by (apply R; now left).
  assert (D : forall m, NoDup m -> (forall i, In i m -> inside (sh v) i) -> NoDup (map (ix v) m ++ flat_map (elements_of sh ix) l)).
  { induction 1 as [|i m X M IHm]; intros S; [exact IH|]. cbn. constructor; [|apply IHm; intros; apply S; now right]. assert (Si : inside (sh v) i) by (apply S; now left).
    intros Q. apply in_app_or in Q as [Q|Q].
    - apply in_map_iff in Q as (j & Ej & Q). destruct (so_inj _ _ _ _ _ _ SO v v j i Lv Lv (S j (or_intror Q)) Si Ej) as [_ ->]. easy.
    - apply in_flat_map in Q as (w & W & Q). apply in_map_iff in Q as (j & Ej & Q). apply positions_in in Q.
      destruct (so_inj _ _ _ _ _ _ SO w v j i (Rl w W) Lv Q Si Ej) as [-> _]. easy. }
  apply D; [apply positions_nodup|]. intros i. apply positions_in.
Qed.
Lemma flat_split {A B} (f : A -> list B) req : forall l x r, flat_map f req = l ++ x :: r -> exists l1 v l2 p q, req = l1 ++ v :: l2 /\ f v = p ++ x :: q /\ l = flat_map f l1 ++ p.
Proof.
  induction req as [|v req IH]; intros l x r E; [destruct l; discriminate|]. cbn [flat_map] in E.
  destruct (Nat.lt_ge_cases (length l) (length (f v))) as [L|L].
  - exists [], v, req, l, (skipn (S (length l)) (f v)). split; [reflexivity|]. split; [|reflexivity].
    assert (E2 : firstn (length (f v)) (f v ++ flat_map f req) = firstn (length (f v)) (l ++ x :: r)) by now rewrite E.
    rewrite firstn_app, Nat.sub_diag, firstn_all in E2. cbn [firstn] in E2. rewrite app_nil_r in E2. rewrite firstn_app in E2. rewrite firstn_all2 in E2 by lia.
    destruct (length (f v) - length l) as [|k] eqn:K; [lia|]. cbn [firstn] in E2. rewrite E2 at 1. f_equal. f_equal. rewrite E2. rewrite skipn_app. rewrite skipn_all2 by lia.
    replace (S (length l) - length l) with 1 by lia. reflexivity.
  - assert (E2 : skipn (length (f v)) (f v ++ flat_map f req) = skipn (length (f v)) (l ++ x :: r)) by now rewrite E.
    assert (E3 : firstn (length (f v)) (f v ++ flat_map f req) = firstn (length (f v)) (l ++ x :: r)) by now rewrite E.
    rewrite skipn_app, skipn_all, Nat.sub_diag in E2. cbn [skipn app] in E2. rewrite skipn_app in E2. replace (length (f v) - length l) with 0 in E2 by lia. cbn [skipn] in E2.
    rewrite firstn_app, firstn_all, Nat.sub_diag in E3. cbn [firstn] in E3. rewrite app_nil_r in E3. rewrite firstn_app in E3. replace (length (f v) - length l) with 0 in E3 by lia. cbn [firstn] in E3. rewrite app_nil_r in E3.
    destruct (IH _ x r E2) as (l1 & w & l2 & p & q & -> & Ew & El). exists (v :: l1), w, l2, p, q. split; [reflexivity|]. split; [exact Ew|].
    cbn [flat_map]. rewrite <- app_assoc, <- El. rewrite E3 at 1. symmetry. apply firstn_skipn.
Qed.
Lemma els_order afs fs h sh g ix req tf tf' : gacyclic h -> well_shaped afs h sh -> spelled_out afs fs h sh g ix -> transforms_spelled_out h sh ix tf tf' ->
  (forall v, In v req -> v < length h) -> arrays_in_order h tf req -> in_order g tf' (flat_map (elements_of sh ix) req).
Proof.
  intros GA WS SO TS R O l x r w' E T W C. destruct (flat_split _ _ _ _ _ E) as (l1 & v & l2 & p & q & Er & Ev & El).
  assert (Iv : In v req) by (rewrite Er; apply in_or_app; right; now left). pose proof (R v Iv) as Lv.
  assert (EL : forall y, In y (p ++ x :: q) -> exists j, inside (sh v) j /\ y = ix v j).
  { intros y Y. rewrite <- Ev in Y. apply in_map_iff in Y as (j & <- & J). apply positions_in in J. eauto. }
  destruct (EL x) as (i & I & Ei); [apply in_or_app; right; now left|].
  assert (TV : tf v <> None).
  { intros N. destruct (nth_error h v) as [nd|] eqn:En; [|apply nth_error_Some in Lv; congruence]. pose proof (TS v nd i En I) as H. rewrite N in H. rewrite Ei in T. now apply T. }
  rewrite El in W. apply in_app_or in W as [W|W].
  - apply in_flat_map in W as (w & Iw & W). apply in_map_iff in W as (j & <- & J). apply positions_in in J.
    assert (Lw : w < length h) by (apply R; rewrite Er; apply in_or_app; now left). apply (O l1 v l2 w Er TV Iw).
    exact (from_elements afs fs h sh g ix GA WS SO _ _ C w v j i eq_refl Ei Lw Lv J I).
  - destruct (EL w') as (j & J & Ej); [apply in_or_app; now left|]. pose proof (from_elements afs fs h sh g ix GA WS SO _ _ C v v j i Ej Ei Lv Lv J I) as G.
    apply (gfrom_lt h GA) in G. lia.
Qed.
Lemma els_trans_density ddt afs fs dlp pdf h sh g ix req tf tf' z y' z' base rho J ps :
  gacyclic h -> acyclic g -> well_shaped afs h sh -> nonempty h sh -> spelled_out afs fs h sh g ix -> transforms_spelled_out h sh ix tf tf' -> even_axes h sh tf ->
  (forall v, In v req -> v < length h /\ nshp (z v) = sh v /\ forall i, inside (sh v) i -> nelt (z v) i = Fin (z' (ix v i))) ->
  let els := flat_map (elements_of sh ix) req in
  NoDup req -> steady g tf' -> arrays_in_order h tf req ->
  (forall v, In v els -> tvalue fs g tf' rho v (y' v) (z' v) /\ tsigned fs g tf' rho v) ->
  (forall v, In v els -> smooth fs g els rho v (base v) /\ (rv_dtype ddt g (base v) <> DInt \/ base v = v)) ->
  (forall v w, In v els -> In w els -> base v = base w -> v = w) ->
  (forall v d l, In v els -> nth_error g (base v) = Some (SRv d l) -> List.Forall (known g els) l) ->
  Forall2 (fun v p => draw_density fs g pdf rho (base v) p) els ps ->
  (forall v d l rs, In v els -> nth_error g (base v) = Some (SRv d l) -> Forall2 (svalue fs g rho) l rs ->
    denotes (dlp d (map Fin rs) (Fin (rho (base v)))) (pdf d rs (rho (base v)))) ->
  (forall i j, i < length els -> j < length els -> tpartial fs g tf' rho (nth i els 0) (base (nth j els 0)) (J i j)) ->
  rdet (length els) J <> 0%R /\
  exists r, g_joint_trans ddt afs dlp h req tf true z = Some r /\ denotes r (rprod ps / Rabs (rdet (length els) J)).
Proof.
  intros GA AC WS NE SO TS EA RZ els ND St O H1 H2 H3 H4 H5 H6 H7.
  rewrite (els_joint_trans ddt afs fs dlp h sh g ix req GA AC WS NE SO tf tf' z (fun n => Fin (z' n)) TS EA).
  - apply (trans_joint ddt fs dlp pdf g els tf' y' z' base rho J ps AC); auto.
    + apply (els_nodup afs fs h sh g ix req SO ND). intros v I. apply (RZ v I).
    + apply (els_order afs fs h sh g ix req tf tf'); auto. intros v I. apply (RZ v I).
  - intros v I. destruct (RZ v I) as (L & S & E). split; [exact L|]. split; [exact S|]. intros i Ii. now rewrite E.
Qed.
Lemma els_trans_sound ddt afs fs dlp pdf h sh g ix req tf tf' z y' z' base rho J ps r d :
  gacyclic h -> acyclic g -> well_shaped afs h sh -> nonempty h sh -> spelled_out afs fs h sh g ix -> transforms_spelled_out h sh ix tf tf' -> even_axes h sh tf ->
  (forall v, In v req -> v < length h /\ nshp (z v) = sh v /\ forall i, inside (sh v) i -> nelt (z v) i = Fin (z' (ix v i))) ->
  let els := flat_map (elements_of sh ix) req in
  NoDup req -> steady g tf' -> arrays_in_order h tf req ->
  (forall v, In v els -> tvalue fs g tf' rho v (y' v) (z' v)) ->
  (forall v, In v els -> leads g els v (base v)) ->
  (forall v w, In v els -> In w els -> base v = base w -> v = w) ->
  (forall v d l, In v els -> nth_error g (base v) = Some (SRv d l) -> List.Forall (known g els) l) ->
  Forall2 (fun v p => draw_density fs g pdf rho (base v) p) els ps ->
  (forall v d l rs, In v els -> nth_error g (base v) = Some (SRv d l) -> Forall2 (svalue fs g rho) l rs ->
    denotes (dlp d (map Fin rs) (Fin (rho (base v)))) (pdf d rs (rho (base v)))) ->
  (forall i j, i < length els -> j < length els -> tpartial fs g tf' rho (nth i els 0) (base (nth j els 0)) (J i j)) ->
  g_joint_trans ddt afs dlp h req tf true z = Some r -> denotes r d ->
  rdet (length els) J <> 0%R /\ d = (rprod ps / Rabs (rdet (length els) J))%R.
Proof.
  intros GA AC WS NE SO TS EA RZ els ND St O H1 H2 H3 H4 H5 H6 H7 Er Dr.
  rewrite (els_joint_trans ddt afs fs dlp h sh g ix req GA AC WS NE SO tf tf' z (fun n => Fin (z' n)) TS EA) in Er.
  - apply (trans_sound ddt fs dlp pdf g els tf' y' z' base rho J ps r d AC); auto.
    + apply (els_nodup afs fs h sh g ix req SO ND). intros v I. apply (RZ v I).
    + apply (els_order afs fs h sh g ix req tf tf'); auto. intros v I. apply (RZ v I).
  - intros v I. destruct (RZ v I) as (L & S & E). split; [exact L|]. split; [exact S|]. intros i Ii. now rewrite E.
Qed.

(** ** A chain of a scalar scale and a logarithm: the determinants of the
    logarithm are summed, then added to every element *)
Definition ct_num (a : xr) : nd xr := {| nshp := []; nelt := fun _ => a |}.
Definition ct_afs (_ : nat) (_ : list (nd xr)) : nd xr := ct_num NaN.
Definition ct_h : list gnode := [GCon (ct_num (Fin 0)); GCon (ct_num (Fin 1)); GRv 0 [2] [0; 1]].
Definition ct_sh (v : nat) : list nat := match v with 0 | 1 => [] | _ => [2] end.
Definition ct_g : list snode := [SCon (Fin 0); SCon (Fin 1); SRv 0 [0; 1]; SRv 0 [0; 1]].
Definition ct_ix (v : nat) (i : list nat) : nat := match v with 0 => 0 | 1 => 1 | _ => 2 + hd 0 i end.
Definition ct_tf (v : nat) : option (list (nd xr) -> atr) := match v with 2 => Some (fun l => XChain [XScale (nth 1 l (ct_num NaN)); XLog]) | _ => None end.
Definition ct_tf' (v : nat) : option (list xr -> tr) := match v with 2 | 3 => Some (fun l => TChain [TScale (nth 1 l NaN); TLog]) | _ => None end.
Definition ct_z (_ : nat) : nd xr := {| nshp := [2]; nelt := fun _ => Fin 1 |}.

Lemma ct_inside2 i : inside [2] i -> i = [0] \/ i = [1].
Proof. intros I. inversion I as [|x ? l ? L T]; subst. inversion T; subst. destruct x as [|[|x]]; auto; lia. Qed.
Lemma ct_inside0 i : inside [] i -> i = []. Proof. intros I. now inversion I. Qed.
Ltac ct_pos I := first [apply ct_inside2 in I; destruct I as [->| ->]|apply ct_inside0 in I; subst].
Lemma ct_gacyclic : gacyclic ct_h.
Proof. intros v nd a E I. do 3 (destruct v as [|v]; [injection E as <-; cbn in I; repeat (destruct I as [<-|I]; [lia|]); destruct I|]). now destruct v. Qed.
Lemma ct_acyclic : acyclic ct_g.
Proof. intros v nd a E I. do 4 (destruct v as [|v]; [injection E as <-; cbn in I; repeat (destruct I as [<-|I]; [lia|]); destruct I|]). now destruct v. Qed.
Lemma ct_shaped : well_shaped ct_afs ct_h ct_sh.
Proof.
  intros v nd E. destruct v as [|[|[|v]]]; [injection E as <- ..|now destruct v]; try reflexivity.
  split; [reflexivity|]. intros p [<-|[<-|[]]]; now apply bcast_all_spec.
Qed.
Lemma ct_nonempty : nonempty ct_h ct_sh.
Proof. intros v L. do 3 (destruct v as [|v]; [cbn; intuition discriminate|]). cbn in L. lia. Qed.
Lemma ct_al0 i : aligned [] i []. Proof. apply aligned_iff; [cbn; lia|]; reflexivity. Qed.
Lemma ct_spelled : spelled_out ct_afs nfs ct_h ct_sh ct_g ct_ix.
Proof.
  split.
  - intros v nd i E I. destruct v as [|[|[|v]]]; [injection E as <- ..|now destruct v]; cbn [ct_sh] in I; ct_pos I; (eexists; split; [reflexivity|]); cbn [element_node]; try reflexivity;
      (eexists; split; [reflexivity|]); repeat constructor; (exists []; split; [apply ct_al0|reflexivity]).
  - intros v w i j Lv Lw Iv Iw E. cbn in Lv, Lw.
    destruct v as [|[|[|v]]]; try lia; destruct w as [|[|[|w]]]; try lia; cbn [ct_sh] in *; ct_pos Iv; ct_pos Iw; try (split; reflexivity); discriminate E.
Qed.
Lemma ct_trans : transforms_spelled_out ct_h ct_sh ct_ix ct_tf ct_tf'.
Proof.
  intros v n i E I. destruct v as [|[|[|v]]]; [reflexivity|reflexivity| |now destruct v]. injection E as <-. cbn [ct_tf].
  exists (fun l => TChain [TScale (nth 1 l NaN); TLog]). split; [cbn [ct_sh] in I; ct_pos I; reflexivity|]. intros args xs S O. cbn [operands_at] in O.
  destruct args as [|a [|b [|c args]]]; try discriminate S. injection S as Sa Sb. inversion O as [|? x0 ? xs1 _ O1]; subst. inversion O1 as [|? x1 ? xs2 (j & J & ->) O2]; subst. inversion O2; subst. cbn [nth].
  split; [constructor; [constructor; rewrite Sb; now apply bcast_all_spec|repeat constructor]|]. constructor; [now constructor|repeat constructor].
Qed.
Lemma ct_div a : xdiv (Fin a) (Fin 1) = Fin (a / 1). Proof. xrun. reflexivity. Qed.
Lemma chain_sums : exists afs h sh g ix req tf tf' z z' r r' d d', gacyclic h /\ acyclic g /\ well_shaped afs h sh /\ nonempty h sh /\ spelled_out afs nfs h sh g ix /\
  transforms_spelled_out h sh ix tf tf' /\ NoDup req /\ steady g tf' /\ arrays_in_order h tf req /\
  (forall v, In v req -> v < length h /\ nshp (z v) = sh v /\ forall i, inside (sh v) i -> nelt (z v) i = Fin (z' (ix v i))) /\
  g_joint_trans (fun _ => DFloat) afs nlp h req tf true z = Some r /\ denotes r d /\
  joint_trans (fun _ => DFloat) nfs nlp g (flat_map (elements_of sh ix) req) tf' true (fun n => Fin (z' n)) = Some r' /\ denotes r' d' /\ d <> d'.
Proof.
  assert (D1 : denotes (normal_logprob (Fin 0) (Fin 1) (Fin (exp 1 / 1))) (normal_pdf 0 1 (exp 1 / 1))) by (apply normal_ok; lra).
  assert (P1 : (0 < normal_pdf 0 1 (exp 1 / 1))%R).
  { unfold normal_pdf. pose proof PI_RGT_0. apply Rmult_lt_0_compat; [apply Rinv_0_lt_compat; apply Rmult_lt_0_compat; [lra|apply sqrt_lt_R0; lra]|apply exp_pos]. }
  destruct (normal_logprob (Fin 0) (Fin 1) (Fin (exp 1 / 1))) as [[l1| | |]|] eqn:E1; try (now destruct D1); [|cbn in D1; lra].
  assert (L1 : xneg (xlog (xabs (Fin 1))) = Fin (- 0)) by (unfold xabs; rewrite Rabs_right by lra; rewrite xlog_pos by lra; now rewrite ln_1).
  eexists ct_afs, ct_h, ct_sh, ct_g, ct_ix, [2], ct_tf, ct_tf', ct_z, (fun _ => 1%R), (Val (Fin _)), (Val (Fin _)), (exp _), (exp _).
  split; [exact ct_gacyclic|]. split; [exact ct_acyclic|]. split; [exact ct_shaped|]. split; [exact ct_nonempty|]. split; [exact ct_spelled|]. split; [exact ct_trans|].
  split; [repeat constructor; cbn; intuition|]. split; [intros v f T; left; destruct v as [|[|[|[|v]]]]; try discriminate T; exists 0, [0; 1]; reflexivity|].
  split; [intros l v r w E T W; destruct l as [|a [|b l]]; [destruct W|discriminate|discriminate]|].
  split; [intros v [<-|[]]; split; [cbn; lia|]; split; [reflexivity|]; intros i _; reflexivity|].
  split; [lazy -[xadd xmul xdiv xsub xlog xexp xneg xabs normal_logprob Rplus Rmult Rinv Rle_dec Req_EM_T IZR]; cbn [xexp]; rewrite ct_div, E1, L1; reflexivity|].
  split; [reflexivity|].
  split; [lazy -[xadd xmul xdiv xsub xlog xexp xneg xabs normal_logprob Rplus Rmult Rinv Rle_dec Req_EM_T IZR]; cbn [xexp]; rewrite ct_div, E1, L1; reflexivity|].
  split; [reflexivity|].
  intros X. apply exp_inv in X. lra.
Qed.
