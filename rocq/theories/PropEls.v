(** C91: joint log-probabilities of models of arrays. *)
From Coq Require Import Reals Lra Lia List Arith Bool.
From Coquelicot Require Import Coquelicot.
From Verif Require Import XR XTac SpecDist ModelDist LemDist ModelVec SpecVec ModelIdx SpecIdx LemIdx LemIdx2 ModelTen ModelSub LemSub ModelElem ModelJoint ModelNest SpecNest RMx
  ModelSys SpecSys LemSys LemSys3 PropSys ModelEls SpecEls LemEls LemEls2 LemEls3.
Import ListNotations.
Open Scope nat_scope.

(** The joint log-probability of a model of arrays is that of the model of its
    elements: same refusals, same errors, same number; for arrays of any rank
    and any values, infinite ones and NaN included. *)
Theorem C91_elements : forall ddt afs fs dlp h sh g ix req y y', gacyclic h -> acyclic g -> well_shaped afs h sh -> nonempty h sh -> spelled_out afs fs h sh g ix ->
  (forall v, In v req -> v < length h /\ nshp (y v) = sh v /\ forall i, inside (sh v) i -> y' (ix v i) = nelt (y v) i) ->
  g_joint ddt afs dlp h req y = joint ddt fs dlp g (flat_map (elements_of sh ix) req) y'.
Proof. exact els_joint. Qed.
Print Assumptions C91_elements.
(** Every model of arrays can be spelled out. *)
Theorem C91_spelled_out : forall afs h sh, gacyclic h -> well_shaped afs h sh -> reads_inside afs -> exists fs g ix, spelled_out afs fs h sh g ix /\ acyclic g.
Proof. exact spell_out. Qed.
Print Assumptions C91_spelled_out.

(** A requested array gets a log-probability exactly when each of its elements
    is a chain of invertible operations over one unrequested draw, all other
    operands being functions of requested variables. *)
Theorem C91_accepted : forall ddt afs fs dlp h sh g ix req y z, gacyclic h -> acyclic g -> well_shaped afs h sh -> nonempty h sh -> spelled_out afs fs h sh g ix ->
  (forall v, In v req -> v < length h /\ nshp (y v) = sh v /\ forall i, inside (sh v) i -> nelt (y v) i = Fin (z (ix v i))) ->
  forall v i, In v req -> inside (sh v) i ->
  (g_conditional ddt afs dlp h req y v <> None <->
   exists b, leads g (flat_map (elements_of sh ix) req) (ix v i) b /\ (rv_dtype ddt g b <> DInt \/ b = ix v i)).
Proof. exact els_accepted. Qed.
Print Assumptions C91_accepted.

(** When every element of the requested arrays has a draw of its own, the joint
    log-probability denotes the density of all these elements: the product of
    the densities of the draws over the absolute value of the determinant of
    the full Jacobian.  Missing: draws shared by several elements (refuted by
    C56_broadcast_refuted and C58_shared_refuted), the points excluded by
    [smooth] (C91_sound_partial), vector-valued distributions,
    indexing of random arrays, empty arrays (stacks, joins, ...: C95_density_partial). *)
Theorem C91_density_partial : forall ddt afs fs dlp pdf h sh g ix req y z base rho J ps,
  gacyclic h -> acyclic g -> well_shaped afs h sh -> nonempty h sh -> spelled_out afs fs h sh g ix ->
  (forall v, In v req -> v < length h /\ nshp (y v) = sh v /\ forall i, inside (sh v) i -> nelt (y v) i = Fin (z (ix v i))) ->
  let els := flat_map (elements_of sh ix) req in
  NoDup req ->
  (forall v, In v els -> svalue fs g rho v (z v)) ->
  (forall v, In v els -> smooth fs g els rho v (base v) /\ (rv_dtype ddt g (base v) <> DInt \/ base v = v)) ->
  (forall v w, In v els -> In w els -> base v = base w -> v = w) ->
  (forall v d l, In v els -> nth_error g (base v) = Some (SRv d l) -> List.Forall (known g els) l) ->
  Forall2 (fun v p => draw_density fs g pdf rho (base v) p) els ps ->
  (forall v d l rs, In v els -> nth_error g (base v) = Some (SRv d l) -> Forall2 (svalue fs g rho) l rs ->
    denotes (dlp d (map Fin rs) (Fin (rho (base v)))) (pdf d rs (rho (base v)))) ->
  (forall i j, i < length els -> j < length els -> partial fs g rho (nth i els 0) (base (nth j els 0)) (J i j)) ->
  rdet (length els) J <> 0%R /\
  exists r, g_joint ddt afs dlp h req y = Some r /\ denotes r (rprod ps / Rabs (rdet (length els) J)).
Proof. exact els_density. Qed.
Print Assumptions C91_density_partial.

(** X ~ N(0, 1) of shape (2,), Y = X * [c0, c1], Z ~ N(Y, 1) of shape (2,); Y and Z are requested *)
Definition ex_vec (a b : xr) : nd xr := {| nshp := [2]; nelt := fun i => if hd 0 i =? 0 then a else b |}.
Definition ex_num (a : xr) : nd xr := {| nshp := []; nelt := fun _ => a |}.
Definition ex_afs (_ : nat) (_ : list (nd xr)) : nd xr := ex_num NaN.
Definition ex_h (c0 c1 : R) : list gnode :=
  [GCon (ex_vec (Fin c0) (Fin c1)); GCon (ex_num (Fin 0)); GCon (ex_num (Fin 1)); GRv 0 [2] [1; 2]; GMany NMul [3; 0]; GRv 0 [2] [4; 2]].
Definition ex_sh (v : nat) : list nat := match v with 1 | 2 => [] | _ => [2] end.
Definition ex_g (c0 c1 : R) : list snode :=
  [SCon (Fin c0); SCon (Fin c1); SCon (Fin 0); SCon (Fin 1); SRv 0 [2; 3]; SRv 0 [2; 3]; SMany NMul [4; 0]; SMany NMul [5; 1]; SRv 0 [6; 3]; SRv 0 [7; 3]].
Definition ex_ix (v : nat) (i : list nat) : nat := match v with 0 => hd 0 i | 1 => 2 | 2 => 3 | 3 => 4 + hd 0 i | 4 => 6 + hd 0 i | _ => 8 + hd 0 i end.
Definition ex_rh (x0 x1 z0 z1 : R) (n : nat) : R := match n with 4 => x0 | 5 => x1 | 8 => z0 | _ => z1 end.
Definition ex_z (c0 c1 x0 x1 z0 z1 : R) (n : nat) : R := match n with 6 => (x0 * (c0 * 1))%R | 7 => (x1 * (c1 * 1))%R | 8 => z0 | _ => z1 end.
Definition ex_bs (n : nat) : nat := match n with 6 => 4 | 7 => 5 | _ => n end.
Definition ex_ys (c0 c1 x0 x1 z0 z1 : R) (v : nat) : nd xr :=
  let z := ex_z c0 c1 x0 x1 z0 z1 in if v =? 4 then ex_vec (Fin (z 6)) (Fin (z 7)) else ex_vec (Fin (z 8)) (Fin (z 9)).
Definition ex_Jm (c0 c1 : R) (i j : nat) : R := if i =? j then match i with 0 => c0 | 1 => c1 | _ => 1%R end else 0%R.
Lemma ex_inside2 i : inside [2] i -> i = [0] \/ i = [1].
Proof. intros I. inversion I as [|x ? l ? L T]; subst. inversion T; subst. destruct x as [|[|x]]; auto; lia. Qed.
Lemma ex_inside0 i : inside [] i -> i = []. Proof. intros I. now inversion I. Qed.
Ltac some_pos I := first [apply ex_inside2 in I; destruct I as [->| ->]|apply ex_inside0 in I; subst].
Lemma ex_gacyclic c0 c1 : gacyclic (ex_h c0 c1).
Proof. intros v nd a E I. destruct v as [|[|[|[|[|[|v]]]]]]; [injection E as <- ..|now destruct v]; cbn in I; repeat (destruct I as [<-|I]; [lia|]); destruct I. Qed.
Lemma ex_acyclic c0 c1 : acyclic (ex_g c0 c1).
Proof. intros v nd a E I. do 10 (destruct v as [|v]; [injection E as <-; cbn in I; repeat (destruct I as [<-|I]; [lia|]); destruct I|]). now destruct v. Qed.
Lemma ex_shaped c0 c1 : well_shaped ex_afs (ex_h c0 c1) ex_sh.
Proof.
  intros v nd E. destruct v as [|[|[|[|[|[|v]]]]]]; [injection E as <- ..|now destruct v]; try reflexivity.
  - split; [reflexivity|]. intros p [<-|[<-|[]]]; now apply bcast_all_spec.
  - now apply bcast_all_spec.
  - split; [reflexivity|]. intros p [<-|[<-|[]]]; now apply bcast_all_spec.
Qed.
Lemma ex_nonempty c0 c1 : nonempty (ex_h c0 c1) ex_sh.
Proof. intros v L. do 6 (destruct v as [|v]; [cbn; intuition discriminate|]). cbn in L. lia. Qed.
Lemma ex_spelled c0 c1 : spelled_out ex_afs nfs (ex_h c0 c1) ex_sh (ex_g c0 c1) ex_ix.
Proof.
  split.
  - assert (A2 : forall k, k < 2 -> aligned [2] [k] [k]) by (intros k K; apply aligned_iff; [cbn; lia|]; destruct k as [|[|k]]; [reflexivity|reflexivity|lia]).
    assert (A0 : forall i, aligned [] i []) by (intros i; apply aligned_iff; [cbn; lia|]; reflexivity).
    intros v nd i E I. destruct v as [|[|[|[|[|[|v]]]]]]; [injection E as <- ..|now destruct v]; cbn [ex_sh] in I; some_pos I; (eexists; split; [reflexivity|]); cbn [element_node]; try reflexivity;
      (eexists; split; [reflexivity|]); repeat constructor;
      first [exists []; split; [apply A0|reflexivity]|exists [0]; split; [apply A2; lia|reflexivity]|exists [1]; split; [apply A2; lia|reflexivity]].
  - intros v w i j Lv Lw Iv Iw E. cbn in Lv, Lw.
    destruct v as [|[|[|[|[|[|v]]]]]]; try lia; destruct w as [|[|[|[|[|[|w]]]]]]; try lia; cbn [ex_sh] in *; some_pos Iv; some_pos Iw; try (split; reflexivity); discriminate E.
Qed.
Example C91_density_ex : forall c0 c1 x0 x1 z0 z1 : R, c0 <> 0%R -> c1 <> 0%R -> exists r,
  g_joint (fun _ => DFloat) ex_afs nlp (ex_h c0 c1) [4; 5] (ex_ys c0 c1 x0 x1 z0 z1) = Some r /\
  denotes r (rprod [normal_pdf 0 1 x0; normal_pdf 0 1 x1; normal_pdf (x0 * (c0 * 1)) 1 z0; normal_pdf (x1 * (c1 * 1)) 1 z1] / Rabs (rdet 4 (ex_Jm c0 c1))).
Proof.
  intros c0 c1 x0 x1 z0 z1 N0 N1. set (rho := ex_rh x0 x1 z0 z1). set (g := ex_g c0 c1).
  assert (V2 : forall rho, svalue nfs g rho 2 0) by (intros; now apply v_con).
  assert (V3 : forall rho, svalue nfs g rho 3 1) by (intros; now apply v_con).
  assert (V4 : forall rho, svalue nfs g rho 4 (rho 4)) by (intros; exact (v_rv nfs g _ 4 0 [2; 3] eq_refl)).
  assert (V5 : forall rho, svalue nfs g rho 5 (rho 5)) by (intros; exact (v_rv nfs g _ 5 0 [2; 3] eq_refl)).
  assert (V6 : forall rho, svalue nfs g rho 6 (rho 4%nat * (c0 * 1))%R).
  { intros r. refine (v_mul nfs g r 6 [4; 0] [r 4; c0] eq_refl _). constructor; [apply V4|]. constructor; [now apply v_con|constructor]. }
  assert (V7 : forall rho, svalue nfs g rho 7 (rho 5%nat * (c1 * 1))%R).
  { intros r. refine (v_mul nfs g r 7 [5; 1] [r 5; c1] eq_refl _). constructor; [apply V5|]. constructor; [now apply v_con|constructor]. }
  assert (V8 : forall rho, svalue nfs g rho 8 (rho 8)) by (intros; exact (v_rv nfs g _ 8 0 [6; 3] eq_refl)).
  assert (V9 : forall rho, svalue nfs g rho 9 (rho 9)) by (intros; exact (v_rv nfs g _ 9 0 [7; 3] eq_refl)).
  refine (proj2 (C91_density_partial (fun _ => DFloat) ex_afs nfs nlp npdf (ex_h c0 c1) ex_sh g ex_ix [4; 5] _ (ex_z c0 c1 x0 x1 z0 z1) ex_bs rho (ex_Jm c0 c1) _
    (ex_gacyclic _ _) (ex_acyclic _ _) (ex_shaped _ _) (ex_nonempty _ _) (ex_spelled _ _) _ _ _ _ _ _ _ _ _)).
  - intros v [<-|[<-|[]]]; (split; [cbn; lia|]); (split; [reflexivity|]); intros i I; cbn [ex_sh] in I; some_pos I; reflexivity.
  - repeat constructor; cbn; intuition lia.
  - intros v [<-|[<-|[<-|[<-|[]]]]]; [exact (V6 rho)|exact (V7 rho)|exact (V8 rho)|exact (V9 rho)].
  - intros v [<-|[<-|[<-|[<-|[]]]]]; (split; [|left; discriminate]).
    + refine (s_mul nfs g _ _ 6 [] 4 [0] 4 [] [c0] eq_refl _ (s_rv nfs g _ _ 4 0 [2; 3] eq_refl) _ _ _ _ _ _); try discriminate; try constructor; try (cbn; intuition lia).
      * eapply k_det; [reflexivity|discriminate|constructor]. * constructor. * now apply v_con. * constructor. * unfold rprod. cbn. intros X. apply N0. lra.
    + refine (s_mul nfs g _ _ 7 [] 5 [1] 5 [] [c1] eq_refl _ (s_rv nfs g _ _ 5 0 [2; 3] eq_refl) _ _ _ _ _ _); try discriminate; try constructor; try (cbn; intuition lia).
      * eapply k_det; [reflexivity|discriminate|constructor]. * constructor. * now apply v_con. * constructor. * unfold rprod. cbn. intros X. apply N1. lra.
    + exact (s_rv nfs g _ _ 8 0 [6; 3] eq_refl).
    + exact (s_rv nfs g _ _ 9 0 [7; 3] eq_refl).
  - intros v w [<-|[<-|[<-|[<-|[]]]]] [<-|[<-|[<-|[<-|[]]]]] E; try reflexivity; discriminate E.
  - intros v d l [<-|[<-|[<-|[<-|[]]]]] E; injection E as <- <-; (constructor; [|constructor; [|constructor]]); try solve [eapply k_det; [reflexivity|discriminate|apply Forall_nil]];
      apply k_req; cbn; auto.
  - repeat (constructor; [eexists; eexists; eexists; split; [reflexivity|]; split; [constructor; [|constructor; [|constructor]]; [first [apply V2|apply V6|apply V7]|apply V3]|reflexivity]|]).
    constructor.
  - intros v d l rs [<-|[<-|[<-|[<-|[]]]]] E F; injection E as <- <-; inversion F as [|? m ? q A F1]; subst; inversion F1 as [|? s ? q' B F2]; subst; inversion F2; subst;
      rewrite (svalue_fun nfs g (ex_acyclic _ _) _ _ _ _ B (V3 _)); apply normal_ok; lra.
  - assert (V8' : forall rho, svalue nfs g rho 8 (rho 8%nat * 1)%R) by (intros r; rewrite Rmult_1_r; apply V8).
    assert (V9' : forall rho, svalue nfs g rho 9 (rho 9%nat * 1)%R) by (intros r; rewrite Rmult_1_r; apply V9).
    intros i j Li Lj. cbn in Li, Lj. destruct i as [|[|[|[|i]]]]; try lia; destruct j as [|[|[|[|j]]]]; try lia;
      cbn; eexists; (split; [apply filter_forall; intros t; first [apply V6|apply V7|apply V8'|apply V9']|]); unfold upd, rho; cbn; auto_derive; auto; ring.
Qed.
(** X ~ N(0, 1) of any shape, Y ~ N(sum(X), 1): the sum is an operation without measurable rewrite *)
Definition sum_afs (_ : nat) (l : list (nd xr)) : nd xr := ex_num (xsum (flat_map (fun a => map (nelt a) (positions (nshp a))) l)).
Definition sum_h (s : list nat) : list gnode := [GCon (ex_num (Fin 0)); GCon (ex_num (Fin 1)); GRv 0 s [0; 1]; GOther 0 [2]; GRv 0 [] [3; 1]].
Example C91_spelled_out_ex : forall s y, ~ In 0 s -> nshp (y 2) = s -> nshp (y 4) = [] -> exists fs g ix els y',
  g_joint (fun _ => DFloat) sum_afs nlp (sum_h s) [2; 4] y = joint (fun _ => DFloat) fs nlp g els y' /\ els = map (ix 2) (positions s) ++ [ix 4 []].
Proof.
  intros s y NZ Y2 Y4. set (sh := fun v => if v =? 2 then s else []).
  assert (GA : gacyclic (sum_h s)).
  { intros v nd a E I. do 5 (destruct v as [|v]; [injection E as <-; cbn in I; repeat (destruct I as [<-|I]; [lia|]); destruct I|]). now destruct v. }
  assert (WS : well_shaped sum_afs (sum_h s) sh).
  { intros v nd E. destruct v as [|[|[|[|[|v]]]]]; [injection E as <- ..|now destruct v]; try reflexivity; split; try reflexivity;
      intros p [<-|[<-|[]]]; cbn [sh Nat.eqb]; first [apply broadcasts_nil|now apply bcast_all_spec]. }
  assert (RI : reads_inside sum_afs).
  { intros k a b i S _. cbn. f_equal. induction S as [|x z a b [E H] S IH]; [reflexivity|]. cbn. f_equal; [|exact IH]. rewrite <- E. apply map_ext_in. intros j J. apply H. now apply positions_in. }
  destruct (C91_spelled_out sum_afs (sum_h s) sh GA WS RI) as (fs & g & ix & SO & AC).
  assert (NE : nonempty (sum_h s) sh) by (intros v L; unfold sh; destruct (v =? 2); [exact NZ|cbn; auto]).
  set (tb := flat_map (fun v => map (fun i => (ix v i, nelt (y v) i)) (positions (sh v))) [2; 4]).
  exists fs, g, ix, (map (ix 2) (positions s) ++ [ix 4 []]), (fun n => match find (fun p => fst p =? n) tb with Some p => snd p | None => NaN end). split; [|reflexivity].
  rewrite (C91_elements (fun _ => DFloat) sum_afs fs nlp (sum_h s) sh g ix [2; 4] y (fun n => match find (fun p => fst p =? n) tb with Some p => snd p | None => NaN end) GA AC WS NE SO); [reflexivity|].
  intros v I. assert (L : v < length (sum_h s)) by (cbn; destruct I as [<-|[<-|[]]]; lia). split; [exact L|]. split; [destruct I as [<-|[<-|[]]]; assumption|]. intros i Ii.
  assert (IT : In (ix v i, nelt (y v) i) tb) by (apply in_flat_map; exists v; split; [exact I|]; apply in_map_iff; exists i; split; [reflexivity|now apply positions_in]).
  destruct (find (fun p => fst p =? ix v i) tb) as [p|] eqn:F.
  - apply find_some in F as [F Ep]. apply Nat.eqb_eq in Ep. apply in_flat_map in F as (w & W & F). apply in_map_iff in F as (j & <- & J). apply positions_in in J. cbn [fst snd] in *.
    assert (Lw : w < length (sum_h s)) by (cbn; destruct W as [<-|[<-|[]]]; lia). destruct (so_inj _ _ _ _ _ _ SO w v j i Lw L J Ii Ep) as [-> ->]. reflexivity.
  - apply (find_none _ _ F) in IT. cbn in IT. now rewrite Nat.eqb_refl in IT.
Qed.
