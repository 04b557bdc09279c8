(** C95: joint log-probabilities of models with stacks, joins, dimension
    shuffles and cumulative sums of random arrays. *)
From Coq Require Import Reals Lra Lia List Arith ZArith Bool.
From Coquelicot Require Import Coquelicot.
From Verif Require Import XR XTac SpecDist ModelDist LemDist ModelVec SpecVec ModelIdx SpecIdx LemIdx LemIdx2 ModelTen SpecTen LemTen LemTen2 ModelSub LemSub ModelElem ModelJoint ModelNest SpecNest RMx
  ModelSys SpecSys LemSys LemSys3 PropSys ModelEls SpecEls LemEls LemEls2 LemEls3 PropEls ModelElsV SpecElsV LemElsV LemElsV2 LemElsV3.
Import ListNotations.
Open Scope nat_scope.

(** When the code gives a joint log-probability to a model with stacks, joins,
    shuffles and cumulative sums, it is that of the model of the elements, in
    which an element of a stack, join or shuffle is an element of one of its
    parts, and an element of a cumulative sum the previous one plus one element
    of its variable.  Any rank, any values.  Missing: the hypotheses of [tidy]
    (parts used elsewhere: refuted by C61_dependent_refuted; discrete parts of
    unrequested joins: refuted below), indexing of anything
    but (indexed) random variables, vector-valued distributions. *)
Theorem C95_elements_partial : forall ddt afs fs dlp h sh g ix req y y',
  vacyclic h -> acyclic g -> v_well_shaped afs h sh -> v_spelled_out afs fs h sh g ix -> tidy ddt h sh req ->
  (forall v, In v req -> v < length h /\ nshp (y v) = sh v /\ forall i, inside (sh v) i -> y' (ix v i) = nelt (y v) i) ->
  forall r, v_joint ddt afs dlp h req y = Some r -> joint ddt fs dlp g (flat_map (elements_of sh ix) req) y' = Some r.
Proof. exact v_elements. Qed.
Print Assumptions C95_elements_partial.
(** Every such model can be spelled out. *)
Theorem C95_spelled_out : forall afs h sh, vacyclic h -> v_well_shaped afs h sh -> reads_inside afs -> exists fs g ix, v_spelled_out afs fs h sh g ix /\ acyclic g.
Proof. exact v_spell_out. Qed.
Print Assumptions C95_spelled_out.
(** When every element of the requested arrays has a draw of its own, the joint
    log-probability denotes the density of all these elements: the product of
    the densities of the draws over the absolute value of the determinant of
    the full Jacobian.  Missing: as in C91_density_partial and above. *)
Theorem C95_density_partial : forall ddt afs fs dlp pdf h sh g ix req y z base rho J ps r,
  vacyclic h -> acyclic g -> v_well_shaped afs h sh -> v_spelled_out afs fs h sh g ix -> tidy ddt h sh req ->
  (forall v, In v req -> v < length h /\ nshp (y v) = sh v /\ forall i, inside (sh v) i -> nelt (y v) i = Fin (z (ix v i))) ->
  let els := flat_map (elements_of sh ix) req in
  NoDup els ->
  (forall v, In v els -> svalue fs g rho v (z v)) ->
  (forall v, In v els -> smooth fs g els rho v (base v) /\ (rv_dtype ddt g (base v) <> DInt \/ base v = v)) ->
  (forall v w, In v els -> In w els -> base v = base w -> v = w) ->
  (forall v d l, In v els -> nth_error g (base v) = Some (SRv d l) -> List.Forall (known g els) l) ->
  Forall2 (fun v p => draw_density fs g pdf rho (base v) p) els ps ->
  (forall v d l rs, In v els -> nth_error g (base v) = Some (SRv d l) -> Forall2 (svalue fs g rho) l rs ->
    denotes (dlp d (map Fin rs) (Fin (rho (base v)))) (pdf d rs (rho (base v)))) ->
  (forall i j, i < length els -> j < length els -> partial fs g rho (nth i els 0) (base (nth j els 0)) (J i j)) ->
  v_joint ddt afs dlp h req y = Some r ->
  rdet (length els) J <> 0%R /\ denotes r (rprod ps / Rabs (rdet (length els) J)).
Proof. exact v_density. Qed.
Print Assumptions C95_density_partial.

(** X, Y ~ N(0, 1) of shape (1,), E = exp(concatenate([X, Y])), V ~ N(E, 1) of
    shape (2,), C = cumsum(V); E and C are requested *)
Definition vx_h : list vnode :=
  [VCon (ex_num (Fin 0)); VCon (ex_num (Fin 1)); VRv 0 [1] [0; 1]; VRv 0 [1] [0; 1]; VJoin 0 [2; 3]; VOne UExp 4; VRv 0 [2] [5; 1]; VCum 0 6].
Definition vx_sh (v : nat) : list nat := match v with 0 | 1 => [] | 2 | 3 => [1] | _ => [2] end.
Definition vx_g : list snode :=
  [SCon (Fin 0); SCon (Fin 1); SRv 0 [0; 1]; SRv 0 [0; 1]; SOne UExp 2; SOne UExp 3; SRv 0 [4; 1]; SRv 0 [5; 1]; SMany NAdd [6; 7]].
Definition vx_ix (v : nat) (i : list nat) : nat :=
  match v with 0 => 0 | 1 => 1 | 2 => 2 | 3 => 3 | 4 => 2 + hd 0 i | 5 => 4 + hd 0 i | 6 => 6 + hd 0 i | _ => 6 + 2 * hd 0 i end.
Definition vx_rho (x0 x1 v0 v1 : R) (n : nat) : R := match n with 2 => x0 | 3 => x1 | 6 => v0 | _ => v1 end.
Definition vx_z (x0 x1 v0 v1 : R) (n : nat) : R := match n with 4 => exp x0 | 5 => exp x1 | 6 => v0 | _ => (v0 + (v1 + 0))%R end.
Definition vx_bs (n : nat) : nat := match n with 4 => 2 | 5 => 3 | 6 => 6 | _ => 7 end.
Definition vx_y (x0 x1 v0 v1 : R) (v : nat) : nd xr :=
  let z := vx_z x0 x1 v0 v1 in if v =? 5 then ex_vec (Fin (z 4)) (Fin (z 5)) else ex_vec (Fin (z 6)) (Fin (z 8)).
Definition vx_J (x0 x1 : R) (i j : nat) : R := match i, j with 0, 0 => exp x0 | 1, 1 => exp x1 | 2, 2 | 3, 2 | 3, 3 => 1%R | _, _ => 0%R end.
Lemma vx_inside1 i : inside [1] i -> i = [0].
Proof. intros I. inversion I as [|x ? l ? L T]; subst. inversion T; subst. destruct x as [|x]; auto; lia. Qed.
Ltac a_pos I := first [apply vx_inside1 in I; subst|apply ex_inside2 in I; destruct I as [->| ->]|apply ex_inside0 in I; subst].
Tactic Notation "each" ident(v) ident(E) := destruct v as [|[|[|[|[|[|[|[|v]]]]]]]]; [injection E as <- ..|now destruct v].
Lemma vx_gacyclic : vacyclic vx_h.
Proof. intros v nd a E I. each v E; cbn in I; repeat (destruct I as [<-|I]; [lia|]); destruct I. Qed.
Lemma vx_acyclic : acyclic vx_g.
Proof. intros v nd a E I. do 9 (destruct v as [|v]; [injection E as <-; cbn in I; repeat (destruct I as [<-|I]; [lia|]); destruct I|]). now destruct v. Qed.
Lemma vx_joinable : joinable 0 (map vx_sh [2; 3]) [1; 1] [2].
Proof.
  split; [discriminate|]. split; [cbn; lia|]. split; [repeat constructor|]. split; [|reflexivity].
  repeat constructor; intros [|k] N; try easy; destruct k; reflexivity.
Qed.
Lemma vx_axis : axis_is 1 0 0. Proof. apply norm_axis_spec. reflexivity. Qed.
Lemma vx_shaped : v_well_shaped ex_afs vx_h vx_sh.
Proof.
  intros v nd E. each v E; try reflexivity; try (split; [reflexivity|]; intros p [<-|[<-|[]]]; now apply bcast_all_spec).
  - exists 0, [1; 1]. split; [exact vx_axis|exact vx_joinable].
  - split; [reflexivity|]. exists 0, 1. split; [exact vx_axis|reflexivity].
Qed.
Lemma vx_part k : k < 2 -> part_at 0 [1; 1] [k] k [0].
Proof.
  intros L. split; [split; [reflexivity|]; intros [|j] N; [easy|]; now destruct j|]. destruct k as [|[|k]]; [| |lia]; exists 1, 0; cbn; auto.
Qed.
Lemma vx_axis0 ax : axis_is 1 0 ax -> ax = 0.
Proof. intros A. exact (axis_unique _ _ _ _ A vx_axis). Qed.
Lemma vx_spelled : v_spelled_out ex_afs nfs vx_h vx_sh vx_g vx_ix.
Proof.
  assert (O : forall v i, own vx_h vx_sh v i -> inside (vx_sh v) i /\ v < 8 /\ v <> 4 /\ (v = 7 -> i = [1])).
  { intros v i (nd & E & I & N). split; [exact I|]. each v E; (split; [lia|]); (split; [|try lia; intros _]); try lia; cbn [vx_sh] in I; a_pos I; try reflexivity; try lia; exfalso.
    - apply (N 2 [0]). exists 0, [1; 1], 0. split; [exact vx_axis|]. split; [exact vx_joinable|]. split; [reflexivity|apply vx_part; lia].
    - apply (N 3 [0]). exists 0, [1; 1], 1. split; [exact vx_axis|]. split; [exact vx_joinable|]. split; [reflexivity|apply vx_part; lia].
    - apply (N 6 [0]). split; [reflexivity|]. split; [reflexivity|]. exists 0. split; [exact vx_axis|reflexivity]. }
  split.
  - assert (A2 : forall k, k < 2 -> aligned [2] [k] [k]) by (intros k K; apply aligned_iff; [cbn; lia|]; destruct k as [|[|k]]; [reflexivity|reflexivity|lia]).
    assert (A0 : forall i, aligned [] i []) by (intros i; apply aligned_iff; [cbn; lia|]; reflexivity).
    intros v nd i E OW. destruct (O v i OW) as (I & _ & N4 & N7). clear OW. each v E; try lia; cbn [vx_sh] in I; a_pos I; try (specialize (N7 eq_refl); discriminate N7);
      (eexists; split; [reflexivity|]); cbn [v_element]; try reflexivity;
      try ((eexists; split; [reflexivity|]); repeat constructor;
        first [exists []; split; [apply A0|reflexivity]|exists [0]; split; [apply A2; lia|reflexivity]|exists [1]; split; [apply A2; lia|reflexivity]]).
    exists 0, 0, [0]. split; [exact vx_axis|]. split; [reflexivity|]. split; [|split; reflexivity]. split; [reflexivity|]. intros [|j] N; [easy|]; now destruct j.
  - intros v nd i a j E I S. each v E; try contradiction; cbn [vx_sh] in I.
    + destruct S as (ax & sizes & k & A & J & Ek & P). pose proof (vx_axis0 ax A) as ->. pose proof J as (_ & _ & F & _). pose proof vx_joinable as (_ & _ & F' & _). pose proof (sizes_unique _ _ _ _ F F') as ->.
      a_pos I; [destruct (part_unique _ _ _ _ _ _ _ P (vx_part 0 ltac:(lia))) as [-> ->]|destruct (part_unique _ _ _ _ _ _ _ P (vx_part 1 ltac:(lia))) as [-> ->]]; injection Ek as <-; reflexivity.
    + destruct S as (-> & -> & ax & A & Z). pose proof (vx_axis0 ax A) as ->. a_pos I; [reflexivity|discriminate Z].
  - intros v w i j Ov Ow E. destruct (O v i Ov) as (Iv & Lv & Nv & Mv). destruct (O w j Ow) as (Iw & Lw & Nw & Mw). clear Ov Ow O.
    destruct v as [|[|[|[|[|[|[|[|v]]]]]]]]; try lia; cbn [vx_sh] in Iv; first [pose proof (Mv eq_refl); subst i|a_pos Iv];
      destruct w as [|[|[|[|[|[|[|[|w]]]]]]]]; try lia; cbn [vx_sh] in Iw; first [pose proof (Mw eq_refl); subst j|a_pos Iw]; cbn in E; try lia; auto.
Qed.
Lemma vx_tidy : tidy (fun _ => DFloat) vx_h vx_sh [5; 7].
Proof.
  assert (H : forall a, hidden vx_h [5; 7] a -> a = 6).
  { induction 1 as [v nd a E V R I N|v nd a E V H IH I N].
    - destruct R as [<-|[<-|[]]]; injection E as <-; [destruct V|]. destruct I as [<-|[]]. reflexivity.
    - subst v. injection E as <-. destruct V. }
  assert (A : forall a, above vx_h [5; 7] a -> a = 4).
  { induction 1 as [v nd E V N|v nd a E V N I _ IH].
    - each v E; try contradiction; [reflexivity|]. exfalso. apply N. cbn. auto.
    - subst a. each v E; try contradiction; cbn in I; try lia. exfalso. apply N. cbn. auto. }
  split.
  - intros a u nd Ha E I. rewrite (H a Ha) in I. each u E; cbn in I; try lia. split; [exact Logic.I|]. left. cbn. auto.
  - intros v nd a E V I Aa. rewrite (A a Aa) in *. each v E; try contradiction; cbn in I; try lia. reflexivity.
  - discriminate.
  - intros v axis a E. destruct v as [|[|[|[|[|[|[|[|v]]]]]]]]; try discriminate E; [|now destruct v]. injection E as <- <-. split; [cbn; auto|]. split; [intros nd X; injection X as <-; cbn; auto|]. split; [discriminate|].
    intros u nd E I. each u E; cbn in I; lia.
Qed.
Example C95_density_ex : forall x0 x1 v0 v1 : R, exists r,
  v_joint (fun _ => DFloat) ex_afs nlp vx_h [5; 7] (vx_y x0 x1 v0 v1) = Some r /\
  denotes r (rprod [normal_pdf 0 1 x0; normal_pdf 0 1 x1; normal_pdf (exp x0) 1 v0; normal_pdf (exp x1) 1 v1] / Rabs (rdet 4 (vx_J x0 x1))).
Proof.
  intros x0 x1 v0 v1. set (rho := vx_rho x0 x1 v0 v1). set (g := vx_g).
  assert (V0 : forall rho, svalue nfs g rho 0 0) by (intros; now apply SpecSys.v_con).
  assert (V1 : forall rho, svalue nfs g rho 1 1) by (intros; now apply SpecSys.v_con).
  assert (V2 : forall rho, svalue nfs g rho 2 (rho 2)) by (intros; exact (v_rv nfs g _ 2 0 [0; 1] eq_refl)).
  assert (V3 : forall rho, svalue nfs g rho 3 (rho 3)) by (intros; exact (v_rv nfs g _ 3 0 [0; 1] eq_refl)).
  assert (V4 : forall rho, svalue nfs g rho 4 (exp (rho 2))) by (intros r; exact (v_exp nfs g r 4 2 _ eq_refl (V2 r))).
  assert (V5 : forall rho, svalue nfs g rho 5 (exp (rho 3))) by (intros r; exact (v_exp nfs g r 5 3 _ eq_refl (V3 r))).
  assert (V6 : forall rho, svalue nfs g rho 6 (rho 6)) by (intros; exact (v_rv nfs g _ 6 0 [4; 1] eq_refl)).
  assert (V7 : forall rho, svalue nfs g rho 7 (rho 7)) by (intros; exact (v_rv nfs g _ 7 0 [5; 1] eq_refl)).
  assert (V8 : forall rho, svalue nfs g rho 8 (rho 6%nat + (rho 7%nat + 0))%R).
  { intros r. refine (v_add nfs g r 8 [6; 7] [r 6; r 7] eq_refl _). constructor; [apply V6|]. constructor; [apply V7|constructor]. }
  eexists. split; [reflexivity|].
  refine (proj2 (C95_density_partial (fun _ => DFloat) ex_afs nfs nlp npdf vx_h vx_sh g vx_ix [5; 7] (vx_y x0 x1 v0 v1) (vx_z x0 x1 v0 v1) vx_bs rho (vx_J x0 x1) _ _
    vx_gacyclic vx_acyclic vx_shaped vx_spelled vx_tidy _ _ _ _ _ _ _ _ _ eq_refl)).
  - intros v [<-|[<-|[]]]; (split; [cbn; lia|]); (split; [reflexivity|]); intros i I; cbn [vx_sh] in I; a_pos I; reflexivity.
  - repeat constructor; cbn; intuition lia.
  - intros v [<-|[<-|[<-|[<-|[]]]]]; [exact (V4 rho)|exact (V5 rho)|exact (V6 rho)|exact (V8 rho)].
  - intros v [<-|[<-|[<-|[<-|[]]]]]; (split; [|left; discriminate]).
    + refine (s_one nfs g _ _ 4 UExp 2 2 _ eq_refl _ (s_rv nfs g _ _ 2 0 [0; 1] eq_refl) (V2 _) _); [cbn; intuition lia|discriminate].
    + refine (s_one nfs g _ _ 5 UExp 3 3 _ eq_refl _ (s_rv nfs g _ _ 3 0 [0; 1] eq_refl) (V3 _) _); [cbn; intuition lia|discriminate].
    + exact (s_rv nfs g _ _ 6 0 [4; 1] eq_refl).
    + refine (s_add nfs g _ _ 8 [6] 7 [] 7 eq_refl _ (s_rv nfs g _ _ 7 0 [5; 1] eq_refl) _ _ _); [cbn; intuition lia| |constructor|discriminate].
      constructor; [apply k_req; cbn; auto|constructor].
  - intros v w [<-|[<-|[<-|[<-|[]]]]] [<-|[<-|[<-|[<-|[]]]]] E; try reflexivity; discriminate E.
  - intros v d l [<-|[<-|[<-|[<-|[]]]]] E; injection E as <- <-; (constructor; [|constructor; [|constructor]]); try solve [eapply k_det; [reflexivity|discriminate|apply Forall_nil]];
      apply k_req; cbn; auto.
  - repeat (constructor; [eexists; eexists; eexists; split; [reflexivity|]; split; [constructor; [|constructor; [|constructor]]; [first [apply V0|apply V4|apply V5]|apply V1]|reflexivity]|]).
    constructor.
  - intros v d l rs [<-|[<-|[<-|[<-|[]]]]] E F; injection E as <- <-; inversion F as [|? m ? q A F1]; subst; inversion F1 as [|? s ? q' B F2]; subst; inversion F2; subst;
      rewrite (svalue_fun nfs g vx_acyclic _ _ _ _ B (V1 _)); apply normal_ok; lra.
  - assert (V6' : forall rho, svalue nfs g rho 6 (rho 6%nat * 1)%R) by (intros r; rewrite Rmult_1_r; apply V6).
    intros i j Li Lj. cbn in Li, Lj. destruct i as [|[|[|[|i]]]]; try lia; destruct j as [|[|[|[|j]]]]; try lia;
      cbn; eexists; (split; [apply filter_forall; intros t; first [apply V4|apply V5|apply V6'|apply V8]|]); unfold upd, rho; cbn; auto_derive; auto; ring.
Qed.
(** X ~ N(0, 1) of shape (2, 3); its transpose, and functions of it, can be requested *)
Definition tr_h : list vnode := [VCon (ex_num (Fin 0)); VCon (ex_num (Fin 1)); VRv 0 [2; 3] [0; 1]; VShuf [Some 1; Some 0] 2; VOne UExp 3].
Definition tr_sh (v : nat) : list nat := match v with 0 | 1 => [] | 2 => [2; 3] | _ => [3; 2] end.
Lemma tr_gacyclic : vacyclic tr_h.
Proof. intros v nd a E I. do 5 (destruct v as [|v]; [injection E as <-; cbn in I; repeat (destruct I as [<-|I]; [lia|]); destruct I|]). now destruct v. Qed.
Lemma tr_shaped : v_well_shaped ex_afs tr_h tr_sh.
Proof.
  intros v nd E. destruct v as [|[|[|[|[|v]]]]]; [injection E as <- ..|now destruct v]; try reflexivity.
  - split; [reflexivity|]. intros p [<-|[<-|[]]]; now apply bcast_all_spec.
  - assert (V : valid_order 2 [Some 1; Some 0]).
    { split; [intros [|[|j]] [|[|j']] d A B; cbn in *; try congruence; try (now destruct j); now destruct j'|intros [|[|j]] d A; cbn in A; [injection A as <-; lia|injection A as <-; lia|now destruct j]]. }
    split; [exact V|]. split; [reflexivity|]. split; [intros [|[|j]] d A; cbn in A; [injection A as <-; reflexivity|injection A as <-; reflexivity|now destruct j]|].
    split; [intros [|[|j]] A; cbn in A; try discriminate; now destruct j|]. intros d L D. cbn in L. destruct d as [|[|d]]; [destruct (D 1 eq_refl)|destruct (D 0 eq_refl)|lia].
Qed.
Example C95_spelled_out_ex : exists fs g ix, v_spelled_out ex_afs fs tr_h tr_sh g ix /\ acyclic g.
Proof. apply C95_spelled_out; [exact tr_gacyclic|exact tr_shaped|]. intros k a b i _ _. reflexivity. Qed.
Lemma tr_tidy : tidy (fun _ => DFloat) tr_h tr_sh [4].
Proof.
  assert (H : forall a, ~ hidden tr_h [4] a).
  { intros a. induction 1 as [v nd a E V R I N|v nd a E V H IH I N]; [|exact IH]. destruct R as [<-|[]]. injection E as <-. destruct V. }
  split; try discriminate.
  - intros a u nd X. destruct (H a X).
  - intros v nd a E V I _. destruct v as [|[|[|[|[|v]]]]]; [injection E as <- ..|now destruct v]; try contradiction. destruct I as [<-|[]]. reflexivity.
  - intros v axis a E. do 5 (destruct v as [|v]; [discriminate|]). now destruct v.
Qed.
Example C95_elements_ex : forall fs g ix y y', v_spelled_out ex_afs fs tr_h tr_sh g ix -> acyclic g -> nshp (y 4) = [3; 2] ->
  (forall i, inside [3; 2] i -> y' (ix 4 i) = nelt (y 4) i) ->
  exists r, v_joint (fun _ => DFloat) ex_afs nlp tr_h [4] y = Some r /\ joint (fun _ => DFloat) fs nlp g (map (ix 4) (positions [3; 2]) ++ []) y' = Some r.
Proof.
  intros fs g ix y y' SO AC Sy Y. eexists. split; [reflexivity|].
  apply (C95_elements_partial (fun _ => DFloat) ex_afs fs nlp tr_h tr_sh g ix [4] y y' tr_gacyclic AC tr_shaped SO tr_tidy); [|reflexivity].
  intros v [<-|[]]. split; [cbn; lia|]. split; [exact Sy|exact Y].
Qed.

(** exp(concatenate([K, X])) with K ~ Poisson(1), X ~ N(0, 1): the join has a
    float dtype, so the discrete part is transformed with a Jacobian term; at
    K = 1, X = 0 the result is the mass of K times the density of exp(X),
    divided by exp(1) (tensor.py:77-116, transforms.py:548). *)
Theorem C95_mixed_join_refuted : exists r,
  v_joint mj_dt mj_afs mj_lp mj_h [5] (mj_y (INR 1) 0) = Some r /\
  denotes r (poisson_pmf 1 1 * (normal_pdf 0 1 0 / exp 0) / exp (INR 1)) /\
  ~ denotes r (poisson_pmf 1 1 * (normal_pdf 0 1 0 / exp 0)).
Proof. exact mixed_join. Qed.
Print Assumptions C95_mixed_join_refuted.
