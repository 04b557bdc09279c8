(** Lemmas on transforms of arrays. *)
From Coq Require Import Reals Lra Lia List Arith Bool.
From Coquelicot Require Import Coquelicot.
From Verif Require Import XR ModelDist ModelVec ModelIdx SpecIdx LemIdx LemIdx2 ModelTen ModelConv ModelSub LemSub ModelTrans ModelElem SpecElem LemElem ModelBatch LemBatch LemBatch2
  ModelJoint LemJoint ModelNest ModelSys SpecSys LemSys ModelEls SpecEls LemEls LemEls2 ModelElsT SpecElsT.
Import ListNotations.
Open Scope nat_scope.

Definition atr_ind' (P : atr -> Prop) (H1 : forall c, P (XLoc c)) (H2 : forall c, P (XScale c)) (H3 : P XLog) (H4 : P XExp) (H5 : P XRecip)
  (H6 : forall a b, P (XInterval a b)) (H7 : P XLogOdds) (H8 : P XCircular) (H9 : forall l, List.Forall P l -> P (XChain l)) : forall x, P x :=
  fix F x := match x with
             | XLoc c => H1 c | XScale c => H2 c | XLog => H3 | XExp => H4 | XRecip => H5 | XInterval a b => H6 a b | XLogOdds => H7 | XCircular => H8
             | XChain l => H9 l ((fix G (l : list atr) : List.Forall P l := match l with [] => List.Forall_nil P | x :: l => List.Forall_cons x (F x) (G l) end) l)
             end.

(** the transform of an element, computed *)
Definition get_at (i : list nat) (c : nd xr) : xr := nelt c (align (nshp c) i).
Fixpoint tr_at (i : list nat) (x : atr) : tr :=
  match x with
  | XLoc c => TLoc (get_at i c) | XScale c => TScale (get_at i c) | XLog => TLog | XExp => TExp | XRecip => TRecip
  | XInterval a b => TInterval (option_map (get_at i) a) (option_map (get_at i) b)
  | XLogOdds => TLogOdds | XCircular => TCircular | XChain l => TChain (map (tr_at i) l)
  end.
Lemma al s i c j : broadcasts (nshp c) s -> inside s i -> aligned (nshp c) i j -> nelt c j = get_at i c.
Proof. intros B I A. unfold get_at. f_equal. apply aligned_iff; [|exact A]. rewrite (inside_length s i I). exact (bc_len _ s B). Qed.
Lemma element_at s i x t : inside s i -> element_transform i x t -> params_fit s x -> t = tr_at i x.
Proof.
  intros I E. induction E as [c j A|c j A| | | |a b j k A B|a j A|b k A| | | |x t l m E1 IH1 E2 IH2]; intros P; inversion P; subst; cbn [tr_at option_map map]; try reflexivity.
  - now rewrite (al s i c j).
  - now rewrite (al s i c j).
  - rewrite (al s i a j), (al s i b k) by assumption. reflexivity.
  - now rewrite (al s i a j).
  - now rewrite (al s i b k).
  - rewrite <- IH1 by assumption. specialize (IH2 ltac:(assumption)). cbn [tr_at] in IH2. injection IH2 as <-. reflexivity.
Qed.

Lemma bc3 a b s : broadcasts a s -> broadcasts b s -> bcast_all [s; a; b] = Val s.
Proof.
  intros A B. apply bcast_all_spec. split; [|split].
  - intros x [<-|[<-|[<-|[]]]]; [lia|exact (bc_len _ _ A)|exact (bc_len _ _ B)].
  - right. exists s. cbn. auto.
  - intros r R. split; [|right; exists s; cbn; auto]. intros x [<-|[<-|[<-|[]]]]; [now right|exact (bc_col _ _ a r A (or_introl eq_refl))|exact (bc_col _ _ b r B (or_introl eq_refl))].
Qed.
Lemma back_rel x : forall s value, params_fit s x -> nshp value = s ->
  exists bv, x_backward x value = Val bv /\ nshp bv = s /\ forall i, inside s i -> backward (tr_at i x) (nelt value i) = Val (nelt bv i).
Proof.
  induction x as [c|c| | | |a b| | |l IH] using atr_ind'; intros s value P Es.
  - inversion P as [? B| | | | | | | | | | |]; subst. cbn [x_backward]. rewrite (elemwise_at x_sub [value; c] (nshp value)) by (cbn [map]; now apply bcasts).
    eexists. split; [reflexivity|]. split; [reflexivity|]. intros i I. cbn. now rewrite (align_self _ _ I).
  - inversion P as [|? B| | | | | | | | | |]; subst. cbn [x_backward]. rewrite (elemwise_at x_div [value; c] (nshp value)) by (cbn [map]; now apply bcasts).
    eexists. split; [reflexivity|]. split; [reflexivity|]. intros i I. cbn. now rewrite (align_self _ _ I).
  - eexists. split; [reflexivity|]. split; [exact Es|]. reflexivity.
  - eexists. split; [reflexivity|]. split; [exact Es|]. reflexivity.
  - eexists. split; [reflexivity|]. split; [exact Es|]. reflexivity.
  - inversion P as [| | | | |a' b' B1 B2|a' B1|b' B2| | | |]; subst; cbn [x_backward].
    + rewrite (elemwise_at x_between [value; a'; b'] (nshp value)) by (cbn [map]; now apply bc3).
      eexists. split; [reflexivity|]. split; [reflexivity|]. intros i I. cbn. now rewrite (align_self _ _ I).
    + rewrite (elemwise_at x_above [value; a'] (nshp value)) by (cbn [map]; now apply bcasts).
      eexists. split; [reflexivity|]. split; [reflexivity|]. intros i I. cbn. now rewrite (align_self _ _ I).
    + rewrite (elemwise_at x_under [value; b'] (nshp value)) by (cbn [map]; now apply bcasts).
      eexists. split; [reflexivity|]. split; [reflexivity|]. intros i I. cbn. now rewrite (align_self _ _ I).
  - eexists. split; [reflexivity|]. split; [exact Es|]. reflexivity.
  - eexists. split; [reflexivity|]. split; [exact Es|]. reflexivity.
  - induction l as [|x l IHl].
    + exists value. split; [reflexivity|]. split; [exact Es|]. reflexivity.
    + inversion P as [| | | | | | | | | | |? ? P1 P2]; subst. inversion IH as [|? ? H1 H2]; subst. destruct (IHl H2 P2) as (w & E1 & E2 & E3).
      destruct (H1 (nshp value) w P1 E2) as (bv & F1 & F2 & F3). exists bv. split; [|split; [exact F2|]].
      * cbn [x_backward] in E1 |- *. rewrite E1. exact F1.
      * intros i I. specialize (E3 i I). cbn [tr_at backward map] in E3 |- *. rewrite E3. now apply F3.
Qed.

(** ** determinants *)
Fixpoint dets_go (l : list atr) (v : nd xr) : res (nd xr * list (nd xr) * nat) :=
  match l with
  | [] => Val (v, [], length (nshp v))
  | t :: l => bind (dets_go l v) (fun '(w, dets, n0) =>
              match t with
              | XChain [] => Raise
              | _ => bind (x_log_jac_det t w) (fun d => bind (x_backward t w) (fun w' => Val (w', dets ++ [d], Nat.min n0 (length (nshp d)))))
              end)
  end.
Lemma chain_eq l v : x_log_jac_det (XChain l) v = bind (dets_go l v) (fun '(_, dets, n0) => add_dets n0 dets).
Proof. reflexivity. Qed.
Fixpoint sgo (l : list tr) (v : xr) : res (xr * xr) :=
  match l with
  | [] => Val (v, Fin 0)
  | t :: l => bind (sgo l v) (fun '(w, det) => bind (log_jac_det t w) (fun d => bind (backward t w) (fun w' => Val (w', xadd det d))))
  end.
Lemma schain_eq l v : log_jac_det (TChain l) v = rmap snd (sgo l v).
Proof. reflexivity. Qed.

Lemma add_rel s n0 dets : forall det0, broadcasts (nshp det0) s -> (forall d, In d dets -> broadcasts (nshp d) s /\ length (nshp d) <= n0) ->
  exists j, fold_left (fun det d => bind det (fun det => elemwise x_add [det; if n0 <? length (nshp d) then sum_last d else d])) dets (Val det0) = Val j /\
    broadcasts (nshp j) s /\ length (nshp j) = fold_left Nat.max (map (fun d => length (nshp d)) dets) (length (nshp det0)) /\
    forall i, inside s i -> get_at i j = fold_left (fun a d => xadd a (get_at i d)) dets (get_at i det0).
Proof.
  induction dets as [|d dets IH]; intros det0 B0 H; [exists det0; split; [reflexivity|]; split; [exact B0|]; split; reflexivity|]. destruct (H d (or_introl eq_refl)) as [Bd Ld].
  cbn [fold_left map bind]. replace (n0 <? length (nshp d)) with false by (symmetry; apply Nat.ltb_ge; exact Ld).
  destruct (bc_compat [nshp det0; nshp d] s) as (t & Et & Bt & It). { intros a [<-|[<-|[]]]; assumption. }
  rewrite (elemwise_at x_add [det0; d] t) by exact Et. set (det1 := {| nshp := t; nelt := _ |}).
  destruct (IH det1 Bt (fun d D => H d (or_intror D))) as (j & Ej & Bj & Lj & Gj). exists j. split; [exact Ej|]. split; [exact Bj|]. split.
  - rewrite Lj. cbn [det1 nshp]. f_equal. exact (bc_length2 _ _ _ It).
  - intros i I. rewrite Gj by exact I. f_equal. unfold get_at at 1. cbn [det1 nelt nshp map x_add].
    pose proof (bc_sub _ _ (nshp det0) It (or_introl eq_refl)) as S0. pose proof (bc_sub _ _ (nshp d) It (or_intror (or_introl eq_refl))) as S1.
    unfold get_at. now rewrite (align_align _ _ _ _ S0 Bt (inside_length _ _ I)), (align_align _ _ _ _ S1 Bt (inside_length _ _ I)).
Qed.
Lemma axes_cons n x l r : axes n (XChain (x :: l)) r -> axes n x r /\ (l = [] \/ axes n (XChain l) r).
Proof. intros H. inversion H; subst; [now split; [|left]|now split; [|right]|destruct H0]. Qed.
Lemma fold_max r l : (forall x, In x l -> x = r) -> forall a, a <= r -> fold_left Nat.max l a = match l with [] => a | _ => r end.
Proof.
  induction l as [|x l IH]; intros H a A; [reflexivity|]. cbn [fold_left]. rewrite (H x (or_introl eq_refl)). rewrite IH; [|intros; apply H; now right|lia].
  destruct l; lia.
Qed.
Lemma det_rel x : forall s value r, params_fit s x -> axes (length s) x r -> nshp value = s ->
  exists j, x_log_jac_det x value = Val j /\ broadcasts (nshp j) s /\ length (nshp j) = r /\
    forall i, inside s i -> log_jac_det (tr_at i x) (nelt value i) = Val (get_at i j).
Proof.
  assert (SELF : forall (j value : nd xr) i, nshp j = nshp value -> inside (nshp value) i -> get_at i j = nelt j i) by (intros j value i E I; unfold get_at; rewrite E; now rewrite (align_self _ _ I)).
  induction x as [c|c| | | |a b| | |l IH] using atr_ind'; intros s value r P A Es; subst s.
  - inversion A; subst. eexists. split; [reflexivity|]. split; [apply broadcasts_refl|]. split; [reflexivity|]. intros i I. now rewrite (SELF _ value).
  - inversion P as [|? B| | | | | | | | | |]; subst. inversion A; subst; [|contradiction]. eexists. split; [reflexivity|]. split; [exact B|]. split; [reflexivity|]. reflexivity.
  - inversion A; subst. exists value. split; [reflexivity|]. split; [apply broadcasts_refl|]. split; [reflexivity|]. intros i I. now rewrite (SELF _ value).
  - inversion A; subst. eexists. split; [reflexivity|]. split; [apply broadcasts_refl|]. split; [reflexivity|]. intros i I. now rewrite (SELF _ value).
  - inversion A; subst. eexists. split; [reflexivity|]. split; [apply broadcasts_refl|]. split; [reflexivity|]. intros i I. now rewrite (SELF _ value).
  - inversion A; subst. inversion P as [| | | | |a' b' B1 B2|a' B1|b' B2| | | |]; subst; cbn [x_log_jac_det].
    + rewrite (elemwise_at x_between_jac [value; a'; b'] (nshp value)) by (cbn [map]; now apply bc3).
      eexists. split; [reflexivity|]. split; [apply broadcasts_refl|]. split; [reflexivity|]. intros i I. rewrite (SELF _ value) by auto. cbn. now rewrite (align_self _ _ I).
    + exists value. split; [reflexivity|]. split; [apply broadcasts_refl|]. split; [reflexivity|]. intros i I. now rewrite (SELF _ value).
    + exists value. split; [reflexivity|]. split; [apply broadcasts_refl|]. split; [reflexivity|]. intros i I. now rewrite (SELF _ value).
  - inversion A; subst. eexists. split; [reflexivity|]. split; [apply broadcasts_refl|]. split; [reflexivity|]. intros i I. now rewrite (SELF _ value).
  - inversion A; subst. eexists. split; [reflexivity|]. split; [apply broadcasts_refl|]. split; [reflexivity|]. intros i I. now rewrite (SELF _ value).
  - assert (G : forall l, List.Forall (fun x => forall s value r, params_fit s x -> axes (length s) x r -> nshp value = s ->
        exists j, x_log_jac_det x value = Val j /\ broadcasts (nshp j) s /\ length (nshp j) = r /\ forall i, inside s i -> log_jac_det (tr_at i x) (nelt value i) = Val (get_at i j)) l ->
      params_fit (nshp value) (XChain l) -> l = [] \/ axes (length (nshp value)) (XChain l) r ->
      exists w dets, dets_go l value = Val (w, dets, match l with [] => length (nshp value) | _ => r end) /\ nshp w = nshp value /\
        length dets = length l /\ (forall d, In d dets -> broadcasts (nshp d) (nshp value) /\ length (nshp d) = r) /\
        forall i, inside (nshp value) i -> sgo (map (tr_at i) l) (nelt value i) = Val (nelt w i, fold_left (fun a d => xadd a (get_at i d)) dets (Fin 0))).
    { clear l IH P A. induction l as [|x l IHl]; intros IH P A.
      - exists value, []. split; [reflexivity|]. split; [reflexivity|]. split; [reflexivity|]. split; [intros d []|reflexivity].
      - inversion P as [| | | | | | | | | | |? ? P1 P2]; subst. inversion IH as [|? ? H1 H2]; subst. destruct A as [A|A]; [discriminate|]. destruct (axes_cons _ _ _ _ A) as [A1 A2].
        destruct (IHl H2 P2 A2) as (w & dets & E1 & E2 & E3 & E4 & E5). destruct (H1 (nshp value) w r P1 A1 E2) as (j & J1 & J2 & J3 & J4).
        destruct (back_rel x (nshp value) w P1 E2) as (w' & B1 & B2 & B3). exists w', (dets ++ [j]). split; [|split; [exact B2|split; [rewrite app_length, E3; cbn; lia|split]]].
        + cbn [dets_go]. rewrite E1. cbn [bind]. assert (NX : x <> XChain []) by (intros ->; inversion A1; subst; contradiction).
          rewrite J1, B1. cbn [bind]. rewrite J3. pose proof (bc_len _ _ J2) as LJ. rewrite J3 in LJ.
          assert (Nat.min (match l with [] => length (nshp value) | _ => r end) r = r) as -> by (destruct l; lia).
          destruct x as [| | | | | | | |[|]]; try reflexivity. now elim NX.
        + intros d D. apply in_app_or in D as [D|[<-|[]]]; [now apply E4|]. now split.
        + intros i I. cbn [map sgo]. rewrite (E5 i I). cbn [bind]. rewrite (J4 i I). cbn [bind]. rewrite (B3 i I). cbn [bind]. rewrite fold_left_app. reflexivity. }
    destruct (G l IH P (or_intror A)) as (w & dets & E1 & E2 & E3 & E4 & E5). destruct l as [|x l]; [inversion A; subst; contradiction|].
    rewrite chain_eq, E1. cbn [bind]. unfold add_dets. destruct (add_rel (nshp value) r dets {| nshp := []; nelt := fun _ => Fin 0 |}) as (j & J1 & J2 & J3 & J4).
    + apply broadcasts_nil.
    + intros d D. destruct (E4 d D). split; [assumption|lia].
    + exists j. split; [exact J1|]. split; [exact J2|]. split.
      * rewrite J3. rewrite (fold_max r); [|intros n N; apply in_map_iff in N as (d & <- & D); now apply E4|cbn; lia]. destruct dets; [discriminate|reflexivity].
      * intros i I. rewrite (J4 i I). cbn [tr_at]. rewrite schain_eq, (E5 i I). reflexivity.
Qed.
Definition fits (s : list nat) (x : atr) : Prop := params_fit s x /\ (x = XChain [] \/ exists r, axes (length s) x r).
Lemma fits_rel x s value : fits s x -> nshp value = s ->
  exists j, x_log_jac_det x value = Val j /\ broadcasts (nshp j) s /\ forall i, inside s i -> log_jac_det (tr_at i x) (nelt value i) = Val (get_at i j).
Proof.
  intros [P [->|[r A]]] Es.
  - exists {| nshp := []; nelt := fun _ => Fin 0 |}. split; [reflexivity|]. split; [apply broadcasts_nil|]. reflexivity.
  - destruct (det_rel x s value r P A Es) as (j & J1 & J2 & _ & J4). eauto.
Qed.
