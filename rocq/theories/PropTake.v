(** C98: indexed random arrays. *)
From Coq Require Import Reals Lra Lia List Arith ZArith Bool.
From Coquelicot Require Import Coquelicot.
From Verif Require Import XR XTac SpecDist ModelDist LemDist ModelVec SpecVec ModelIdx SpecIdx LemIdx LemIdx2 ModelTen ModelSub LemSub ModelElem ModelJoint ModelNest SpecNest ModelSys SpecSys LemSys LemSys3 PropSys
  ModelEls SpecEls LemEls2 PropEls ModelElsV SpecElsV LemElsV LemElsV2 LemElsV3 PropElsV SpecTake LemTake.
Import ListNotations.
Open Scope nat_scope.

(** When every requested array is a random variable X, X[ix], X[ix][ix'] and so
    on, or such an array transposed, and no element is read twice, the model is accepted and its
    joint log-probability denotes the product of the densities of the elements
    read, each at its value and with its own parameters.  The elements read are
    those of NumPy's indexing rules, any rank, any index tuple.  Indexed arrays
    inside other expressions are in C95.  Missing: indices that depend on
    unrequested draws, vector-valued distributions, elements used elsewhere in
    the model (wrong by C61_dependent_refuted); elements read twice are
    excluded because the claim is false there (C98_repeated_refuted). *)
Theorem C98_density_partial : forall ddt afs fs dlp pdf h sh g ix req y rho ps,
  vacyclic h -> acyclic g -> v_well_shaped afs h sh -> v_spelled_out afs fs h sh g ix -> tidy ddt h sh req ->
  NoDup req -> read_apart h sh req ->
  (forall v, In v req -> v < length h /\ ~ In 0 (sh v) /\ nshp (y v) = sh v /\ forall i, inside (sh v) i -> nelt (y v) i = Fin (rho (ix v i))) ->
  let els := flat_map (elements_of sh ix) req in
  (forall v d l, In v els -> nth_error g v = Some (SRv d l) -> List.Forall (known g els) l) ->
  Forall2 (draw_density fs g pdf rho) els ps ->
  (forall v d l rs, In v els -> nth_error g v = Some (SRv d l) -> Forall2 (svalue fs g rho) l rs -> denotes (dlp d (map Fin rs) (Fin (rho v))) (pdf d rs (rho v))) ->
  exists r, v_joint ddt afs dlp h req y = Some r /\ denotes r (rprod ps).
Proof. exact take_density. Qed.
Print Assumptions C98_density_partial.
(** Integers, slices (of any step) and newaxes never read an element twice. *)
Theorem C98_basic : forall ix sh, no_arrays ix -> reads_once ix sh.
Proof. exact (fun ix sh F o i j src S _ _ => basic_distinct ix sh o i j src F S). Qed.
Print Assumptions C98_basic.
(** Requested arrays that each index a random variable of their own, with an
    index reading no element twice, are as C98_density_partial requires. *)
Theorem C98_apart : forall h sh req (src : nat -> nat),
  (forall v, In v req -> (exists d s ps, nth_error h (src v) = Some (VRv d s ps)) /\
     match nth_error h v with
     | Some (VRv _ _ _) => src v = v
     | Some (VTake ix _ b) => src v = b /\ ~ In b req /\ np_shape ix (sh b) (sh v) /\ reads_once ix (sh b) /\ forall i, inside (sh v) i -> exists p, np_element ix (sh b) i p
     | _ => False
     end) ->
  (forall v w, In v req -> In w req -> src v = src w -> v = w) -> read_apart h sh req.
Proof. exact once_apart. Qed.
Print Assumptions C98_apart.
(** X[1:3, None, -1] of a 3 x 2 array *)
Example C98_basic_ex : reads_once [ISlice (Some 1%Z) (Some 3%Z) None; INew; IInt (-1)] [3; 2].
Proof. apply C98_basic. repeat constructor. Qed.

(** X ~ N([5, 6, 7], 1); Y = X[[2, 0]] is requested *)
Definition tk_vec (l : list R) : nd xr := {| nshp := [length l]; nelt := fun i => Fin (nth (hd 0 i) l 0%R) |}.
Definition tk_ix : list index := [IArr {| shp := [2]; get := fun i => (2 - 2 * Z.of_nat (hd 0%nat i))%Z |}].
Definition tk_pos : nd (list nat) := {| nshp := [2]; nelt := fun i => [2 - 2 * hd 0 i] |}.
Definition tk_h : list vnode := [VCon (tk_vec [5; 6; 7]%R); VCon (ex_num (Fin 1)); VRv 0 [3] [0; 1]; VTake tk_ix tk_pos 2].
Definition tk_sh (v : nat) : list nat := match v with 1 => [] | 3 => [2] | _ => [3] end.
Definition tk_g : list snode := [SCon (Fin 5); SCon (Fin 6); SCon (Fin 7); SCon (Fin 1); SRv 0 [0; 3]; SRv 0 [1; 3]; SRv 0 [2; 3]].
Definition tk_num (v : nat) (i : list nat) : nat := match v with 0 => hd 0 i | 1 => 3 | 2 => 4 + hd 0 i | _ => 4 + (2 - 2 * hd 0 i) end.
Lemma tk_inside i : inside [3] i -> i = [0] \/ i = [1] \/ i = [2].
Proof. intros I. inversion I as [|x ? l ? L T]; subst. inversion T; subst. destruct x as [|[|[|x]]]; auto; lia. Qed.
Ltac t_pos I := first [apply ex_inside2 in I; destruct I as [->| ->]|apply ex_inside0 in I; subst|apply tk_inside in I; destruct I as [->|[->| ->]]].
Lemma tk_shape : np_shape tk_ix [3] [2].
Proof. apply np_shape_iff; [easy|repeat constructor|]. eexists; split; [reflexivity|]. split; [reflexivity|]. repeat constructor. Qed.
Lemma tk_element i p : inside [2] i -> (np_element tk_ix [3] i p <-> p = [2 - 2 * hd 0 i]).
Proof.
  intros I. destruct (proj1 (expand_indices_spec tk_ix [3] ltac:(easy) ltac:(repeat constructor)) [2] tk_shape) as (advs & E & _ & _ & H). rewrite (H i p I).
  assert (Ha : exists a, expand_indices tk_ix [3] = Val [a] /\ get a [0] = 2%Z /\ get a [1] = 0%Z) by (eexists; repeat split; reflexivity).
  destruct Ha as (a & Ea & A0 & A1). rewrite Ea in E. injection E as <-. cbn [combine]. split.
  - intros F. inversion F as [|? x ? q W F']; subst. inversion F'; subst. cbn [fst snd] in W. destruct W as [L W]. t_pos I; cbn [hd]; rewrite ?A0, ?A1 in W; f_equal; lia.
  - intros ->. constructor; [|constructor]. cbn [fst snd]. t_pos I; cbn [hd]; rewrite ?A0, ?A1; split; lia.
Qed.
Lemma tk_acyclic : vacyclic tk_h.
Proof. intros v nd a E I. do 4 (destruct v as [|v]; [injection E as <-; cbn in I; repeat (destruct I as [<-|I]; [lia|]); destruct I|]). now destruct v. Qed.
Lemma tk_gacyclic : acyclic tk_g.
Proof. intros v nd a E I. do 7 (destruct v as [|v]; [injection E as <-; cbn in I; repeat (destruct I as [<-|I]; [lia|]); destruct I|]). now destruct v. Qed.
Lemma tk_shaped : v_well_shaped ex_afs tk_h tk_sh.
Proof.
  intros v nd E. destruct v as [|[|[|[|v]]]]; [injection E as <- ..|now destruct v]; try reflexivity.
  - split; [reflexivity|]. intros p [<-|[<-|[]]]; now apply bcast_all_spec.
  - split; [exact tk_shape|]. split; [reflexivity|]. intros i I. split; [now apply tk_element|]. cbn [tk_pos nelt tk_sh]. constructor; [lia|constructor].
Qed.
Lemma tk_spelled : v_spelled_out ex_afs nfs tk_h tk_sh tk_g tk_num.
Proof.
  assert (O : forall v i, own tk_h tk_sh v i -> inside (tk_sh v) i /\ v < 3).
  { intros v i (nd & E & I & N). split; [exact I|]. destruct v as [|[|[|[|v]]]]; [lia|lia|lia| |now destruct v]. injection E as <-. exfalso. apply (N 2 (nelt tk_pos i)). split; reflexivity. }
  split.
  - assert (A3 : forall k, k < 3 -> aligned [3] [k] [k]) by (intros k K; apply aligned_iff; [cbn; lia|]; destruct k as [|[|[|k]]]; [reflexivity|reflexivity|reflexivity|lia]).
    assert (A0 : forall i, aligned [] i []) by (intros i; apply aligned_iff; [cbn; lia|]; reflexivity).
    intros v nd i E OW. destruct (O v i OW) as (I & L). clear OW. destruct v as [|[|[|v]]]; [injection E as <- ..|lia]; cbn [tk_sh] in I; t_pos I; (eexists; split; [reflexivity|]); cbn [v_element]; try reflexivity;
      (eexists; split; [reflexivity|]); (constructor; [|constructor; [exists []; split; [apply A0|reflexivity]|constructor]]);
      first [exists [0]; split; [apply A3; lia|reflexivity]|exists [1]; split; [apply A3; lia|reflexivity]|exists [2]; split; [apply A3; lia|reflexivity]].
  - intros v nd i a j E I S. destruct v as [|[|[|[|v]]]]; [injection E as <- ..|now destruct v]; try contradiction. destruct S as [-> ->]. reflexivity.
  - intros v w i j Ov Ow E. destruct (O v i Ov) as (Iv & Lv). destruct (O w j Ow) as (Iw & Lw). clear Ov Ow O.
    destruct v as [|[|[|v]]]; try lia; cbn [tk_sh] in Iv; t_pos Iv; destruct w as [|[|[|w]]]; try lia; cbn [tk_sh] in Iw; t_pos Iw; cbn in E; try lia; auto.
Qed.
Lemma tk_tidy : tidy (fun _ => DFloat) tk_h tk_sh [3].
Proof.
  assert (H : forall a, hidden tk_h [3] a -> a = 2).
  { intros a. induction 1 as [v nd a E V R I N|v nd a E V H IH I N].
    - destruct R as [<-|[]]. injection E as <-. destruct I as [<-|[]]. reflexivity.
    - subst v. injection E as <-. destruct V. }
  split.
  - intros a u nd X E I. rewrite (H a X) in I. destruct u as [|[|[|[|u]]]]; [injection E as <- ..|now destruct u]; cbn in I; try (repeat destruct I as [I|I]; discriminate || contradiction).
    split; [exact Logic.I|]. left. now left.
  - intros v nd a E V. destruct v as [|[|[|[|v]]]]; [injection E as <- ..|now destruct v]; destruct V.
  - discriminate.
  - intros v axis a E. do 4 (destruct v as [|v]; [discriminate|]). now destruct v.
Qed.
Lemma tk_apart : read_apart tk_h tk_sh [3].
Proof.
  apply (C98_apart _ _ _ (fun _ => 2)).
  - intros v [<-|[]]. split; [cbn; eauto|]. cbn [nth_error tk_h]. split; [reflexivity|]. split; [intros [X|[]]; discriminate|]. split; [exact tk_shape|]. split.
    + intros o i j src S I J A B. assert (o = [2]) as ->.
      { apply np_shape_iff in S; [|easy|repeat constructor]. destruct S as (advs & E & _ & F). injection E as <-. exact (eq_sym (Forall_inv F)). }
      apply tk_element in A; [|exact I]. apply tk_element in B; [|exact J]. t_pos I; t_pos J; subst; try reflexivity; discriminate.
    + intros i I. exists [2 - 2 * hd 0 i]. now apply tk_element.
  - intros v w [<-|[]] [<-|[]] _. reflexivity.
Qed.
Definition tk_y (y0 y1 : R) (_ : nat) : nd xr := tk_vec [y0; y1].
Example C98_density_ex : forall y0 y1 : R, exists r,
  v_joint (fun _ => DFloat) ex_afs nlp tk_h [3] (tk_y y0 y1) = Some r /\ denotes r (rprod [normal_pdf 7 1 y0; normal_pdf 5 1 y1]).
Proof.
  intros y0 y1. set (rho := fun k => match k with 6 => y0 | _ => y1 end). set (g := tk_g).
  assert (V0 : svalue nfs g rho 0 5) by now apply SpecSys.v_con.
  assert (V2 : svalue nfs g rho 2 7) by now apply SpecSys.v_con.
  assert (V1 : svalue nfs g rho 3 1) by now apply SpecSys.v_con.
  refine (C98_density_partial (fun _ => DFloat) ex_afs nfs nlp npdf tk_h tk_sh g tk_num [3] (tk_y y0 y1) rho _
    tk_acyclic tk_gacyclic tk_shaped tk_spelled tk_tidy _ tk_apart _ _ _ _).
  - repeat constructor; cbn; intuition lia.
  - intros v [<-|[]]; (split; [cbn; lia|]); (split; [cbn; intuition lia|]); (split; [reflexivity|]); intros i I; cbn [tk_sh] in I; t_pos I; reflexivity.
  - intros v d l [<-|[<-|[]]] E; injection E as <- <-; (constructor; [|constructor; [|constructor]]); eapply k_det; try reflexivity; try discriminate; apply Forall_nil.
  - repeat (constructor; [eexists; eexists; eexists; split; [reflexivity|]; split; [constructor; [|constructor; [|constructor]]; [first [exact V2|exact V0]|exact V1]|reflexivity]|]).
    constructor.
  - intros v d l rs [<-|[<-|[]]] E F; injection E as <- <-; inversion F as [|? m ? q A F1]; subst; inversion F1 as [|? s ? q' B F2]; subst; inversion F2; subst;
      rewrite (svalue_fun nfs g tk_gacyclic _ _ _ _ B V1); apply normal_ok; lra.
Qed.

(** X ~ N(0, 1) of shape (2,); Y = X[[0, 0]] is requested *)
Definition rp_ix : list index := [IArr {| shp := [2]; get := fun _ => 0%Z |}].
Definition rp_pos : nd (list nat) := {| nshp := [2]; nelt := fun _ => [0] |}.
Definition rp_h : list vnode := [VCon (ex_num (Fin 0)); VCon (ex_num (Fin 1)); VRv 0 [2] [0; 1]; VTake rp_ix rp_pos 2].
Definition rp_sh (v : nat) : list nat := match v with 0 | 1 => [] | _ => [2] end.
Lemma rp_acyclic : vacyclic rp_h.
Proof. intros v nd a E I. do 4 (destruct v as [|v]; [injection E as <-; cbn in I; repeat (destruct I as [<-|I]; [lia|]); destruct I|]). now destruct v. Qed.
Lemma rp_shape : np_shape rp_ix [2] [2].
Proof. apply np_shape_iff; [easy|repeat constructor|]. eexists; split; [reflexivity|]. split; [reflexivity|]. repeat constructor. Qed.
Lemma rp_element i : inside [2] i -> np_element rp_ix [2] i [0].
Proof.
  intros I. destruct (proj1 (expand_indices_spec rp_ix [2] ltac:(easy) ltac:(repeat constructor)) [2] rp_shape) as (advs & E & _ & _ & H). rewrite (H i [0] I).
  assert (Ha : exists a, expand_indices rp_ix [2] = Val [a] /\ get a [0] = 0%Z /\ get a [1] = 0%Z) by (eexists; repeat split; reflexivity).
  destruct Ha as (a & Ea & A0 & A1). rewrite Ea in E. injection E as <-. cbn [combine]. constructor; [|constructor]. cbn [fst snd]. t_pos I; rewrite ?A0, ?A1; split; lia.
Qed.
Lemma rp_shaped : v_well_shaped ex_afs rp_h rp_sh.
Proof.
  intros v nd E. destruct v as [|[|[|[|v]]]]; [injection E as <- ..|now destruct v]; try reflexivity.
  - split; [reflexivity|]. intros p [<-|[<-|[]]]; now apply bcast_all_spec.
  - split; [exact rp_shape|]. split; [reflexivity|]. intros i I. split; [now apply rp_element|]. cbn [rp_pos nelt rp_sh]. constructor; [lia|constructor].
Qed.
Lemma rp_value dlp y0 y1 l0 l1 : dlp 0 [Fin 0; Fin 1] (Fin y0) = Val (Fin l0) -> dlp 0 [Fin 0; Fin 1] (Fin y1) = Val (Fin l1) ->
  v_joint (fun _ => DFloat) ex_afs dlp rp_h [3] (tk_y y0 y1) = Some (Val (Fin (l0 + l1))).
Proof.
  intros A B. cbv -[Rplus xadd IZR]. rewrite A, B. cbn [xadd]. do 3 f_equal. ring.
Qed.
(** In every outcome the two elements of Y = X[[0, 0]] are equal, so Y has no
    density and no value with y0 <> y1 is possible; the code gives every such
    value the density of two independent draws (rewriting.py:179, Aesara's
    local_subtensor_rv_lift, logprob.py:58-90). *)
Theorem C98_repeated_refuted :
  (forall fs g ix rho y0 y1, v_spelled_out ex_afs fs rp_h rp_sh g ix -> acyclic g ->
     svalue fs g rho (ix 3 [0]) y0 -> svalue fs g rho (ix 3 [1]) y1 -> y0 = y1) /\
  exists y0 y1 : R, y0 <> y1 /\ exists r, v_joint (fun _ => DFloat) ex_afs nlp rp_h [3] (tk_y y0 y1) = Some r /\ denotes r (normal_pdf 0 1 y0 * normal_pdf 0 1 y1) /\ (0 < normal_pdf 0 1 y0 * normal_pdf 0 1 y1)%R.
Proof.
  split.
  - intros fs g ix rho y0 y1 SO AC A B.
    assert (I : forall k, k < 2 -> inside [2] [k]) by (intros; constructor; [assumption|constructor]).
    rewrite (vs_same _ _ _ _ _ _ SO 3 _ [0] 2 [0] eq_refl (I 0 ltac:(lia)) (conj eq_refl eq_refl)) in A.
    rewrite (vs_same _ _ _ _ _ _ SO 3 _ [1] 2 [0] eq_refl (I 1 ltac:(lia)) (conj eq_refl eq_refl)) in B.
    exact (svalue_fun fs g AC rho _ _ _ A B).
  - exists 0%R, 1%R. split; [lra|].
    assert (P : forall y, (0 < normal_pdf 0 1 y)%R).
    { intros y. unfold normal_pdf. pose proof PI_RGT_0. apply Rmult_lt_0_compat; [|apply exp_pos]. apply Rinv_0_lt_compat. apply Rmult_lt_0_compat; [lra|]. apply sqrt_lt_R0. lra. }
    assert (L : forall y, exists l, nlp 0 [Fin 0; Fin 1] (Fin y) = Val (Fin l) /\ exp l = normal_pdf 0 1 y).
    { intros y. pose proof (normal_ok 0 1 y ltac:(lra)) as D. pose proof (P y). change (nlp 0 [Fin 0; Fin 1] (Fin y)) with (normal_logprob (Fin 0) (Fin 1) (Fin y)).
      destruct (normal_logprob (Fin 0) (Fin 1) (Fin y)) as [[l| | |]|]; cbn [denotes] in D; try contradiction; [eauto|lra]. }
    destruct (L 0%R) as (l0 & A & A'). destruct (L 1%R) as (l1 & B & B'). eexists. split; [exact (rp_value nlp 0 1 l0 l1 A B)|]. cbn [denotes]. rewrite exp_plus, A', B'. split; [reflexivity|].
    apply Rmult_lt_0_compat; apply P.
Qed.
Print Assumptions C98_repeated_refuted.
(** the first part is not vacuous *)
Example C98_repeated_ex : exists fs g ix, v_spelled_out ex_afs fs rp_h rp_sh g ix /\ acyclic g.
Proof. apply C95_spelled_out; [exact rp_acyclic|exact rp_shaped|]. intros k a b i _ _. reflexivity. Qed.
(** X[[2, 0]][0] and X[[2, 0]].dimshuffle('x', 0) are accepted: the element
    X[2], and a row of X[2] and X[0] *)
Example C98_chain_ex : forall dlp y0 y1 l0 l1, dlp 0 [Fin 7; Fin 1] (Fin y0) = Val (Fin l0) -> dlp 0 [Fin 5; Fin 1] (Fin y1) = Val (Fin l1) ->
  v_joint (fun _ => DFloat) ex_afs dlp (tk_h ++ [VTake [IInt 0] {| nshp := []; nelt := fun _ => [0] |} 3]) [4] (fun _ => ex_num (Fin y0)) = Some (Val (Fin l0)) /\
  v_joint (fun _ => DFloat) ex_afs dlp (tk_h ++ [VShuf [None; Some 0] 3]) [4] (fun _ => {| nshp := [1; 2]; nelt := fun i => Fin (nth (nth 1 i 0) [y0; y1] 0%R) |}) = Some (Val (Fin (l0 + l1))).
Proof.
  intros dlp y0 y1 l0 l1 A B. split; cbv -[Rplus xadd IZR]; rewrite A, ?B; cbn [xadd]; do 3 f_equal; ring.
Qed.
