(** C100, continued: missing data and densities. *)
From Coq Require Import Reals Lra Lia List Arith ZArith Bool.
From Coquelicot Require Import Coquelicot.
From Verif Require Import XR XTac SpecDist ModelDist LemDist ModelVec SpecVec ModelIdx SpecIdx LemIdx LemIdx2 ModelTen SpecTen LemTen LemTen2 ModelSub LemSub ModelElem ModelJoint ModelNest SpecNest RMx
  ModelSys SpecSys LemSys LemSys3 PropSys ModelEls SpecEls LemEls LemEls2 LemEls3 PropEls ModelElsV SpecElsV LemElsV LemElsV2 LemElsV3 ModelElsMiss SpecElsMiss LemElsMiss PropElsMiss.
Import ListNotations.
Open Scope nat_scope.

(** The joint log-probability of a model with partially observed arrays denotes
    the density of the completed model's elements at the given values with the
    data filled in: the product of the densities of all draws, observed and
    unobserved, over the absolute value of the Jacobian determinant.  Missing:
    as in C100_complete_partial and C95_density_partial. *)
Theorem C100_density_partial : forall ddt afs fs dlp puts pdf h sh g ix req y y' comp z base rho J ps r,
  vacyclic h -> NoDup req ->
  (forall v, In v req -> v < length h /\
    (direct puts h v /\ comp v = v /\ y' v = y v \/
     completes afs puts h req y (map comp req) y' v (comp v) /\ v_conditional ddt afs dlp h (map comp req) y' (comp v) <> None)) ->
  acyclic g -> v_well_shaped afs h sh -> v_spelled_out afs fs h sh g ix -> tidy ddt h sh (map comp req) ->
  (forall v, In v (map comp req) -> v < length h /\ nshp (y' v) = sh v /\ forall i, inside (sh v) i -> nelt (y' v) i = Fin (z (ix v i))) ->
  let els := flat_map (elements_of sh ix) (map comp req) in
  NoDup els ->
  (forall v, In v els -> svalue fs g rho v (z v)) ->
  (forall v, In v els -> smooth fs g els rho v (base v) /\ (rv_dtype ddt g (base v) <> DInt \/ base v = v)) ->
  (forall v w, In v els -> In w els -> base v = base w -> v = w) ->
  (forall v d l, In v els -> nth_error g (base v) = Some (SRv d l) -> List.Forall (known g els) l) ->
  Forall2 (fun v p => draw_density fs g pdf rho (base v) p) els ps ->
  (forall v d l rs, In v els -> nth_error g (base v) = Some (SRv d l) -> Forall2 (svalue fs g rho) l rs ->
    denotes (dlp d (map Fin rs) (Fin (rho (base v)))) (pdf d rs (rho (base v)))) ->
  (forall i j, i < length els -> j < length els -> partial fs g rho (nth i els 0) (base (nth j els 0)) (J i j)) ->
  m_joint ddt afs dlp puts h req y = Some r ->
  rdet (length els) J <> 0%R /\ denotes r (rprod ps / Rabs (rdet (length els) J)).
Proof.
  intros ddt afs fs dlp puts pdf h sh g ix req y y' comp z base rho J ps r A N H. rewrite (miss_joint ddt afs dlp puts h req y y' comp A N H).
  exact (v_density ddt afs fs dlp pdf h sh g ix (map comp req) y' z base rho J ps r A).
Qed.
Print Assumptions C100_density_partial.

(** the model of [PropElsMiss.ms_h]: X ~ N(0, 1) of shape (2,), Y = set_subtensor(X[0], 5), W ~ N(Y, 1) *)
Definition md_sh (v : nat) : list nat := match v with 2 | 4 | 5 => [2] | _ => [] end.
Definition md_g : list snode := [SCon (Fin 0); SCon (Fin 1); SRv 0 [0; 1]; SRv 0 [0; 1]; SCon (Fin 5); SOther 0 [2; 3; 4]; SOther 1 [2; 3; 4]; SRv 0 [5; 1]; SRv 0 [6; 1]].
Definition md_fs (k : nat) (l : list xr) : xr := match k with 0 => nth 2 l NaN | _ => nth 1 l NaN end.
Definition md_ix (v : nat) (i : list nat) : nat :=
  match v with 0 => 0 | 1 => 1 | 2 => 2 + hd 0 i | 3 => 4 | 4 => 5 + hd 0 i | _ => 7 + hd 0 i end.
Definition md_rho (x1 w0 w1 : R) (n : nat) : R := match n with 2 => 5 | 3 => x1 | 7 => w0 | _ => w1 end.
Definition md_y (a x1 w0 w1 : R) (v : nat) : nd xr := if v =? 4 then ex_vec (Fin a) (Fin x1) else ex_vec (Fin w0) (Fin w1).
Definition md_J (i j : nat) : R := if i =? j then 1%R else 0%R.
Tactic Notation "each6" ident(v) ident(E) := destruct v as [|[|[|[|[|[|v]]]]]]; [injection E as <- ..|now destruct v].
Lemma md_acyclic : acyclic md_g.
Proof. intros v nd a E I. do 9 (destruct v as [|v]; [injection E as <-; cbn in I; repeat (destruct I as [<-|I]; [lia|]); destruct I|]). now destruct v. Qed.
Lemma md_shaped : v_well_shaped ms_afs ms_h md_sh.
Proof.
  intros v nd E. each6 v E; try reflexivity; try (split; [reflexivity|]; intros p [<-|[<-|[]]]; now apply bcast_all_spec).
  intros [|a [|d [|x args]]] M; try discriminate M. injection M as Ma Md. exact Ma.
Qed.
Lemma md_spelled : v_spelled_out ms_afs md_fs ms_h md_sh md_g md_ix.
Proof.
  split.
  - assert (A2 : forall k, k < 2 -> aligned [2] [k] [k]) by (intros k K; apply aligned_iff; [cbn; lia|]; destruct k as [|[|k]]; [reflexivity|reflexivity|lia]).
    assert (A0 : forall i, aligned [] i []) by (intros i; apply aligned_iff; [cbn; lia|]; reflexivity).
    intros v nd i E (nd' & E' & I & _). clear nd' E'. each6 v E; cbn [md_sh] in I; some_pos I; (eexists; split; [reflexivity|]); cbn [v_element]; try reflexivity;
      try ((eexists; split; [reflexivity|]); repeat constructor;
        first [exists []; split; [apply A0|reflexivity]|exists [0]; split; [apply A2; lia|reflexivity]|exists [1]; split; [apply A2; lia|reflexivity]]).
    + exists 0. split; [reflexivity|]. intros [|a [|d [|x args]]] M; try discriminate M. injection M as Ma Md. cbn in Ma, Md. cbn. rewrite Ma, Md. reflexivity.
    + exists 1. split; [reflexivity|]. intros [|a [|d [|x args]]] M; try discriminate M. injection M as Ma Md. cbn in Ma, Md. cbn. rewrite Ma, Md. reflexivity.
  - intros v nd i a j E I S. each6 v E; contradiction.
  - intros v w i j (nv & Ev & Iv & _) (nw & Ew & Iw & _) E. each6 v Ev; cbn [md_sh] in Iv; some_pos Iv; each6 w Ew; cbn [md_sh] in Iw; some_pos Iw; cbn in E; try lia; auto.
Qed.
Lemma md_tidy : tidy ms_ddt ms_h md_sh [2; 5].
Proof.
  assert (W : forall v nd, nth_error ms_h v = Some nd -> ~ view nd) by (intros v nd E; each6 v E; intros []).
  assert (Hd : forall a, ~ hidden ms_h [2; 5] a) by (intros a [v nd b E V|v nd b E V]; exact (W v nd E V)).
  split.
  - intros a u nd Ha. destruct (Hd a Ha).
  - intros v nd a E V. each6 v E; destruct V.
  - discriminate.
  - intros v axis a E. destruct v as [|[|[|[|[|[|v]]]]]]; try discriminate E. now destruct v.
Qed.
(** Whatever is given for the observed entry, the density is that at the datum 5. *)
Example C100_density_case : forall a x1 w0 w1 : R, exists r,
  m_joint ms_ddt ms_afs nlp ms_puts ms_h [4; 5] (md_y a x1 w0 w1) = Some r /\
  denotes r (rprod [normal_pdf 0 1 5; normal_pdf 0 1 x1; normal_pdf 5 1 w0; normal_pdf x1 1 w1] / Rabs (rdet 4 md_J)).
Proof.
  intros a x1 w0 w1. set (rho := md_rho x1 w0 w1). set (g := md_g).
  assert (V0 : forall rho, svalue md_fs g rho 0 0) by (intros; now apply SpecSys.v_con).
  assert (V1 : forall rho, svalue md_fs g rho 1 1) by (intros; now apply SpecSys.v_con).
  assert (V2 : forall rho, svalue md_fs g rho 2 (rho 2)) by (intros; exact (v_rv md_fs g _ 2 0 [0; 1] eq_refl)).
  assert (V3 : forall rho, svalue md_fs g rho 3 (rho 3)) by (intros; exact (v_rv md_fs g _ 3 0 [0; 1] eq_refl)).
  assert (V4 : forall rho, svalue md_fs g rho 4 5) by (intros; now apply SpecSys.v_con).
  assert (F : forall rho, Forall2 (svalue md_fs g rho) [2; 3; 4] [rho 2; rho 3; 5%R]) by (intros r; constructor; [apply V2|constructor; [apply V3|constructor; [apply V4|constructor]]]).
  assert (V5 : forall rho, svalue md_fs g rho 5 5) by (intros r; exact (v_other md_fs g r 5 0 [2; 3; 4] _ _ eq_refl (F r) eq_refl)).
  assert (V6 : forall rho, svalue md_fs g rho 6 (rho 3)) by (intros r; exact (v_other md_fs g r 6 1 [2; 3; 4] _ _ eq_refl (F r) eq_refl)).
  assert (V7 : forall rho, svalue md_fs g rho 7 (rho 7)) by (intros; exact (v_rv md_fs g _ 7 0 [5; 1] eq_refl)).
  assert (V8 : forall rho, svalue md_fs g rho 8 (rho 8)) by (intros; exact (v_rv md_fs g _ 8 0 [6; 1] eq_refl)).
  eexists. split; [reflexivity|].
  refine (proj2 (C100_density_partial ms_ddt ms_afs md_fs nlp ms_puts npdf ms_h md_sh g md_ix [4; 5] (md_y a x1 w0 w1) (ms_y' (md_y a x1 w0 w1)) ms_comp rho (fun v => v) rho md_J _ _
    ms_acyclic _ (ms_hyps nlp _) md_acyclic md_shaped md_spelled md_tidy _ _ _ _ _ _ _ _ _ eq_refl)).
  - repeat constructor; cbn; intuition discriminate.
  - intros v [<-|[<-|[]]]; (split; [cbn; lia|]); (split; [reflexivity|]); intros i I; cbn [md_sh ms_comp] in I; some_pos I; reflexivity.
  - repeat constructor; cbn; intuition lia.
  - intros v [<-|[<-|[<-|[<-|[]]]]]; [exact (V2 rho)|exact (V3 rho)|exact (V7 rho)|exact (V8 rho)].
  - intros v [<-|[<-|[<-|[<-|[]]]]]; (split; [|left; discriminate]); (eapply s_rv; reflexivity).
  - intros v w _ _ E. exact E.
  - intros v d l [<-|[<-|[<-|[<-|[]]]]] E; injection E as <- <-; (constructor; [|constructor; [|constructor]]); try solve [eapply k_det; [reflexivity|discriminate|apply Forall_nil]];
      (eapply k_det; [reflexivity|discriminate|]); (constructor; [apply k_req; cbn; auto|constructor; [apply k_req; cbn; auto|constructor; [|constructor]]]);
      (eapply k_det; [reflexivity|discriminate|apply Forall_nil]).
  - repeat (constructor; [eexists; eexists; eexists; split; [reflexivity|]; split; [constructor; [|constructor; [|constructor]]; [first [apply V0|apply V5|apply V6]|apply V1]|reflexivity]|]).
    constructor.
  - intros v d l rs [<-|[<-|[<-|[<-|[]]]]] E F'; injection E as <- <-; inversion F' as [|? m ? q A F1]; subst; inversion F1 as [|? s ? q' B F2]; subst; inversion F2; subst;
      rewrite (svalue_fun md_fs g md_acyclic _ _ _ _ B (V1 _)); apply normal_ok; lra.
  - assert (W : forall n, In n [2; 3; 7; 8] -> forall rho, svalue md_fs g rho n (rho n * 1)%R) by (intros n [<-|[<-|[<-|[<-|[]]]]] r; rewrite Rmult_1_r; [apply V2|apply V3|apply V7|apply V8]).
    intros i j Li Lj. cbn in Li, Lj. destruct i as [|[|[|[|i]]]]; try lia; destruct j as [|[|[|[|j]]]]; try lia;
      cbn; eexists; (split; [apply filter_forall; intros t; apply W; cbn; auto|]); unfold upd, rho; cbn; auto_derive; auto; ring.
Qed.
