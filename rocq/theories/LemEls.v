(** Lemmas on models of arrays: the rewrites element by element. *)
From Coq Require Import Reals Lra Lia List Arith Bool.
From Coquelicot Require Import Coquelicot.
From Verif Require Import XR ModelDist ModelVec ModelIdx SpecIdx LemIdx LemIdx2 ModelTen ModelConv ModelSub LemSub ModelTrans ModelElem SpecElem LemElem LemBatch
  ModelJoint ModelNest ModelSys SpecSys LemSys ModelEls SpecEls.
Import ListNotations.
Open Scope nat_scope.

Lemma bc_sub l s a : is_broadcast l s -> In a l -> broadcasts a s.
Proof.
  intros (A & E & F) I. split; [intros x [<-|[<-|[]]]; auto|]. split; [right; exists s; cbn; auto|].
  intros r R. destruct (F r R) as [P Q]. split; [intros x [<-|[<-|[]]]; auto|]. right. exists s. cbn. auto.
Qed.
Lemma bc_compat l s : (forall a, In a l -> broadcasts a s) -> exists t, bcast_all l = Val t /\ broadcasts t s /\ is_broadcast l t.
Proof.
  intros H. destruct (rfold_ok l (rev s)) as (t & E & R & C).
  { intros sh I r. apply in_map_iff in I as (a & <- & I). destruct (proj1 (is_broadcast_RB _ _) (H a I)) as (_ & _ & P & _). exact (P (rev a) (or_introl eq_refl) r). }
  exists (rev t). assert (B : bcast_all l = Val (rev t)) by (unfold bcast_all; change (fold_right _ _ l) with (rfold l); now rewrite E).
  split; [exact B|]. assert (Bs : is_broadcast l (rev t)) by now apply bcast_all_spec. split; [|exact Bs].
  apply is_broadcast_RB. cbn [map]. rewrite rev_involutive. split; [|split; [|split]].
  - intros sh [<-|[<-|[]]]; [|lia]. destruct R as (_ & [->|(sh & I & L)] & _); [cbn; lia|]. rewrite <- L. apply in_map_iff in I as (a & <- & I).
    rewrite !rev_length. exact (bc_len a s (H a I)).
  - right. exists (rev s). cbn. auto.
  - intros sh [<-|[<-|[]]] r; auto. exact (C t (or_introl eq_refl) r).
  - intros r. right. exists (rev s). cbn. auto.
Qed.

Lemma rseq_val {A} (l : list A) : rseq (map Val l) = Val l.
Proof. induction l as [|a l IH]; cbn; [reflexivity|]. now rewrite IH. Qed.
Definition none_b (a : gann) : bool := match g_m a with Some _ => false | None => true end.

Section Rel.
Variables (ddt : nat -> dtype) (afs : nat -> list (nd xr) -> nd xr) (fs : nat -> list xr -> xr) (dlp : nat -> list xr -> xr -> res xr).
Variables (h : list gnode) (sh : nat -> list nat) (g : list snode) (ix : nat -> list nat -> nat).
Notation adt := (g_dtype ddt h).
Notation sdt := (rv_dtype ddt g).
Hypothesis Dt : forall b d s ps i, nth_error h b = Some (GRv d s ps) -> inside (sh b) i -> sdt (ix b i) = ddt d.

(** a transform of arrays of shape [s], element by element *)
Definition trel (t : gtr) (s : list nat) (f : list nat -> tr) : Prop :=
  match t with
  | GLoc c => exists a, c = Val a /\ broadcasts (nshp a) s /\ forall i, inside s i -> f i = TLoc (nelt a (align (nshp a) i))
  | GScale c => exists a, c = Val a /\ broadcasts (nshp a) s /\ forall i, inside s i -> f i = TScale (nelt a (align (nshp a) i))
  | GFun u => forall i, inside s i -> f i = tr_unary u
  end.
Inductive mrel : gexpr -> list nat -> (list nat -> mexpr) -> Prop :=
| mr_base b d s ps m : nth_error h b = Some (GRv d s ps) -> (forall i, inside (sh b) i -> m i = MBase (ix b i)) -> mrel (GBase b) (sh b) m
| mr_elem t M s' s m' m f : mrel M s' m' -> broadcasts s' s -> trel t s f -> (forall i, inside s i -> m i = MElem (f i) (m' (align s' i))) ->
    mrel (GElem t M) s m.
Definition orel (M : option gexpr) (s : list nat) (a : list nat -> option mexpr) : Prop :=
  match M with
  | None => forall i, inside s i -> a i = None
  | Some M => exists m, mrel M s m /\ forall i, inside s i -> a i = Some (m i)
  end.
Definition vrel (v : res (nd xr)) (s : list nat) (a : list nat -> xr) : Prop :=
  exists arr, v = Val arr /\ nshp arr = s /\ forall i, inside s i -> nelt arr i = a i.
Definition arel (A : gann) (s : list nat) (a : list nat -> ann) : Prop :=
  (forall i, inside s i -> a_rand (a i) = g_rand A) /\ vrel (g_val A) s (fun i => a_val (a i)) /\ orel (g_m A) s (fun i => a_m (a i)).

(** lists of annotated arrays with their elements *)
Definition trip : Type := gann * (list nat * (list nat -> ann)).
Definition tA (t : trip) := fst t.
Definition ts (t : trip) := fst (snd t).
Definition ta (t : trip) := snd (snd t).
Definition sub (i : list nat) (T : list trip) : list ann := map (fun t => ta t (align (ts t) i)) T.
Definition good (s : list nat) (t : trip) : Prop := arel (tA t) (ts t) (ta t) /\ broadcasts (ts t) s.

Lemma start_rel M s m i : mrel M s m -> inside s i -> starts_int sdt (m i) = g_starts_int ddt h M.
Proof.
  intros H I. destruct H as [b d s0 ps m E Em|t M s' s m' m f H B Tr Em].
  - rewrite Em by exact I. unfold starts_int, g_starts_int. rewrite (Dt b d s0 ps i E I). unfold g_dtype. now rewrite E.
  - rewrite Em by exact I. reflexivity.
Qed.
Lemma others_rel s T i : List.Forall (good s) T -> inside s i ->
  others_of (sub i T) = sub i (filter (fun t => none_b (tA t)) T) /\ g_others (map tA T) = map tA (filter (fun t => none_b (tA t)) T).
Proof.
  intros F I. induction F as [|t T ((_ & _ & O) & B) F IH]; [split; reflexivity|]. destruct IH as [IH1 IH2].
  unfold sub, others_of, g_others in *. cbn [map filter]. pose proof (align_inside (ts t) s i B I) as I'.
  unfold orel in O. destruct (g_m (tA t)) as [M|] eqn:EM.
  - assert (NB : none_b (tA t) = false) by (unfold none_b; now rewrite EM). rewrite NB. destruct O as (m & _ & O). rewrite (O _ I'). split; assumption.
  - assert (NB : none_b (tA t) = true) by (unfold none_b; now rewrite EM). rewrite NB, (O _ I'). cbn [map]. split; f_equal; assumption.
Qed.
Definition mtrip : Type := gexpr * (list nat * (list nat -> mexpr)).
Definition mgood (s : list nat) (t : mtrip) : Prop := mrel (fst t) (fst (snd t)) (snd (snd t)) /\ broadcasts (fst (snd t)) s.
Lemma measurable_rel s T : List.Forall (good s) T -> exists L : list mtrip, List.Forall (mgood s) L /\ g_measurable (map tA T) = map fst L /\
  forall i, inside s i -> measurable_of (sub i T) = map (fun t : mtrip => snd (snd t) (align (fst (snd t)) i)) L.
Proof.
  induction 1 as [|t T ((_ & _ & O) & B) F (L & G & E1 & E2)]; [exists []; repeat split; constructor|].
  unfold orel in O. destruct (g_m (tA t)) as [M|] eqn:EM.
  - destruct O as (m & R & O). exists ((M, (ts t, m)) :: L). split; [constructor; [split; assumption|exact G]|]. split.
    + unfold g_measurable in *. cbn [map flat_map]. now rewrite EM, E1.
    + intros i I. unfold measurable_of, sub in *. cbn [map flat_map]. rewrite (O _ (align_inside _ _ _ B I)). cbn. f_equal. now apply E2.
  - exists L. split; [exact G|]. split.
    + unfold g_measurable in *. cbn [map flat_map]. now rewrite EM, E1.
    + intros i I. unfold measurable_of, sub in *. cbn [map flat_map]. rewrite (O _ (align_inside _ _ _ B I)). cbn. now apply E2.
Qed.
Lemma rand_rel s T i : List.Forall (good s) T -> inside s i -> existsb a_rand (sub i T) = existsb g_rand (map tA T).
Proof.
  intros F I. induction F as [|t T ((R & _) & B) F IH]; [reflexivity|]. unfold sub in *. cbn. rewrite IH. f_equal. apply R. exact (align_inside _ _ _ B I).
Qed.
Lemma vals_rel s T : List.Forall (good s) T -> exists V : list (nd xr), map g_val (map tA T) = map Val V /\ map nshp V = map ts T /\
  forall i, inside s i -> map (fun a => nelt a (align (nshp a) i)) V = map a_val (sub i T).
Proof.
  induction 1 as [|t T ((_ & (a & Ea & Es & El) & _) & B) F (V & E1 & E2 & E3)]; [exists []; repeat split; reflexivity|].
  exists (a :: V). cbn [map]. split; [now rewrite Ea, E1|]. split; [now rewrite Es, E2|]. intros i I. unfold sub in *. cbn [map]. rewrite E3 by exact I. f_equal.
  rewrite Es. apply El. exact (align_inside _ _ _ B I).
Qed.
Lemma good_filter s T p : List.Forall (good s) T -> List.Forall (good s) (filter p T).
Proof. rewrite !List.Forall_forall. intros H x I. apply filter_In in I as [I _]. auto. Qed.

(** what [transform_fn] makes of the other operands *)
Definition mk_rel (s : list nat) (mkA : list (res (nd xr)) -> option gtr) (mkS : list xr -> option tr) : Prop :=
  forall V, (forall v, In v V -> broadcasts (nshp v) s) ->
  match mkA (map Val V) with
  | None => forall i, inside s i -> mkS (map (fun a => nelt a (align (nshp a) i)) V) = None
  | Some t => exists f, trel t s f /\ forall i, inside s i -> mkS (map (fun a => nelt a (align (nshp a) i)) V) = Some (f i)
  end.
Lemma construct_rel s T mkA mkS : List.Forall (good s) T -> mk_rel s mkA mkS ->
  orel (g_construct ddt h (map tA T) mkA) s (fun i => construct sdt (sub i T) mkS).
Proof.
  intros F K. destruct (measurable_rel s T F) as (L & G & E1 & E2). set (T' := filter (fun t => none_b (tA t)) T).
  assert (F' : List.Forall (good s) T') by now apply good_filter.
  destruct (vals_rel s T' F') as (V & V1 & V2 & V3).
  assert (BV : forall v, In v V -> broadcasts (nshp v) s).
  { intros v I. assert (J : In (nshp v) (map ts T')) by (rewrite <- V2; now apply in_map). apply in_map_iff in J as (t & <- & J).
    rewrite List.Forall_forall in F'. exact (proj2 (F' t J)). }
  specialize (K V BV). unfold g_construct. rewrite E1.
  assert (GO : g_others (map tA T) = map tA T').
  { clear - T'. unfold T'. induction T as [|t T0 IH]; [reflexivity|]. unfold g_others in *. cbn [map filter]. unfold none_b at 1. destruct (g_m (tA t)); cbn [map]; [exact IH|]. now f_equal. }
  rewrite GO. unfold construct.
  destruct L as [|(M, (s', m')) [|x L]]; cbn [map fst].
  - intros i I. now rewrite E2.
  - inversion G as [|? ? (R & B) _]; subst. cbn [fst snd] in *. destruct (g_starts_int ddt h M) eqn:SI.
    + intros i I. rewrite E2 by exact I. cbn [map snd fst]. rewrite (start_rel M s' m' _ R (align_inside _ _ _ B I)), SI. reflexivity.
    + destruct (existsb g_rand (map tA T')) eqn:ER.
      * intros i I. rewrite E2 by exact I. cbn [map snd fst]. rewrite (start_rel M s' m' _ R (align_inside _ _ _ B I)), SI.
        destruct (others_rel s T i F I) as [-> _]. fold T'. rewrite (rand_rel s T' i F' I), ER. reflexivity.
      * assert (Q : forall i, inside s i -> construct sdt (sub i T) mkS =
          match mkS (map (fun a => nelt a (align (nshp a) i)) V) with Some t => Some (MElem t (m' (align s' i))) | None => None end).
        { intros i I. unfold construct. rewrite E2 by exact I. cbn [map snd fst]. rewrite (start_rel M s' m' _ R (align_inside _ _ _ B I)), SI.
          destruct (others_rel s T i F I) as [-> _]. fold T'. rewrite (rand_rel s T' i F' I), ER, V3 by exact I. reflexivity. }
        unfold construct in Q. rewrite V1. destruct (mkA (map Val V)) as [t|].
        -- destruct K as (f & Tr & K). exists (fun i => MElem (f i) (m' (align s' i))). split; [exact (mr_elem t M s' s m' _ f R B Tr (fun i _ => eq_refl))|].
           intros i I. rewrite Q, K by exact I. reflexivity.
        -- intros i I. rewrite Q, K by exact I. reflexivity.
  - intros i I. now rewrite E2.
Qed.

Lemma elemwise_at f V t : bcast_all (map nshp V) = Val t -> elemwise f V = Val {| nshp := t; nelt := fun i => f (map (fun a => nelt a (align (nshp a) i)) V) |}.
Proof. intros E. unfold elemwise. now rewrite E. Qed.
Lemma mk_nary n s : mk_rel s (g_tr_nary n) (tr_nary n).
Proof.
  intros V B. unfold g_tr_nary, tr_nary. destruct V as [|v [|w V]].
  - intros i I. reflexivity.
  - cbn [map g_fold_others fold_others]. exists (fun i => match n with NAdd => TLoc (nelt v (align (nshp v) i)) | NMul => TScale (nelt v (align (nshp v) i)) end).
    split; [|reflexivity]. destruct n; exists v; (split; [reflexivity|]); (split; [apply B; now left|]); reflexivity.
  - set (W := v :: w :: V) in *. destruct (bc_compat (map nshp W) s) as (t & E & Bt & Il).
    { intros a I. apply in_map_iff in I as (x & <- & I). now apply B. }
    assert (FO : g_fold_others n (map Val W) = Some (Val {| nshp := t; nelt := fun i => nary_val n (map (fun a => nelt a (align (nshp a) i)) W) |})).
    { unfold W at 1. cbn [map g_fold_others]. f_equal. change (Val v :: Val w :: map Val V) with (map Val W). unfold g_nary. rewrite rseq_val. cbn [bind]. now apply elemwise_at. }
    rewrite FO. set (c := {| nshp := t; nelt := _ |}).
    assert (EC : forall i, inside s i -> nelt c (align (nshp c) i) = nary_val n (map (fun a => nelt a (align (nshp a) i)) W)).
    { intros i I. cbn [c nelt nshp]. f_equal. apply map_ext_in. intros a Ia. f_equal. apply (align_align (nshp a) t s i); [|exact Bt|now apply inside_length].
      apply (bc_sub (map nshp W)); [exact Il|]. now apply in_map. }
    exists (fun i => match n with NAdd => TLoc (nelt c (align (nshp c) i)) | NMul => TScale (nelt c (align (nshp c) i)) end). split.
    + destruct n; exists c; (split; [reflexivity|]); (split; [exact Bt|]); reflexivity.
    + intros i I. unfold W at 1. cbn [map fold_others]. change (nelt v _ :: nelt w _ :: map _ V) with (map (fun a => nelt a (align (nshp a) i)) W).
      rewrite <- EC by exact I. reflexivity.
Qed.
Lemma mk_unary u s : mk_rel s (fun _ => Some (GFun u)) (fun _ => Some (tr_unary u)).
Proof. intros V _. exists (fun _ => tr_unary u). split; [intros i _; reflexivity|reflexivity]. Qed.

Lemma nary_rel n s T : List.Forall (fun t => arel (tA t) (ts t) (ta t)) T -> is_broadcast (map ts T) s ->
  arel (g_rw_nary ddt h n (map tA T)) s (fun i => rw_nary sdt n (sub i T)).
Proof.
  intros F B. assert (G : List.Forall (good s) T).
  { rewrite List.Forall_forall in *. intros t I. split; [exact (F t I)|]. apply (bc_sub (map ts T)); [exact B|]. now apply in_map. }
  split; [|split].
  - intros i I. cbn [rw_nary g_rw_nary a_rand g_rand]. exact (rand_rel s T i G I).
  - cbn [g_rw_nary g_val rw_nary a_val]. destruct (vals_rel s T G) as (V & V1 & V2 & V3). rewrite V1. unfold g_nary. rewrite rseq_val. cbn [bind].
    rewrite (elemwise_at _ V s) by (rewrite V2; now apply bcast_all_spec). eexists. split; [reflexivity|]. split; [reflexivity|]. intros i I. cbn [nelt]. now rewrite V3.
  - cbn [g_rw_nary g_m rw_nary a_m]. apply construct_rel; [exact G|apply mk_nary].
Qed.
Lemma unary_rel u A s a : arel A s a -> arel (g_rw_unary ddt h u A) s (fun i => rw_unary sdt u (a i)).
Proof.
  intros R. destruct R as (R1 & (v & Ev & Es & El) & R3) eqn:ER. split; [|split].
  - intros i I. cbn. now apply R1.
  - cbn [g_rw_unary g_val rw_unary a_val]. rewrite Ev. eexists. split; [reflexivity|]. split; [exact Es|]. intros i I. cbn [nelt nd_map]. now rewrite El.
  - cbn [g_rw_unary g_m rw_unary a_m].
    pose proof (construct_rel s [(A, (s, a))] (fun _ => Some (GFun u)) (fun _ => Some (tr_unary u))) as C.
    specialize (C ltac:(constructor; [split; [exact R|apply broadcasts_refl]|constructor]) (mk_unary u s)). clear ER.
    cbn [map tA fst] in C. unfold orel in *. destruct (g_construct ddt h [A] _).
    + destruct C as (m & M & C). exists m. split; [exact M|]. intros i I. rewrite <- (C i I). unfold sub. cbn [map ta ts snd fst]. now rewrite align_self.
    + intros i I. rewrite <- (C i I). unfold sub. cbn [map ta ts snd fst]. now rewrite align_self.
Qed.
Lemma con_rel c : arel (g_con c) (nshp c) (fun i => con (nelt c i)).
Proof. split; [reflexivity|]. split; [exists c; repeat split|]. intros i _. reflexivity. Qed.
Lemma arel_ext A s a b : (forall i, inside s i -> a i = b i) -> arel A s a -> arel A s b.
Proof.
  intros E (R1 & (v & Ev & Es & El) & R3). split; [intros i I; rewrite <- E by exact I; auto|]. split.
  - exists v. split; [exact Ev|]. split; [exact Es|]. intros i I. rewrite <- E by exact I. auto.
  - unfold orel in *. destruct (g_m A); [destruct R3 as (m & M & R3); exists m; split; [exact M|]|]; intros i I; rewrite <- E by exact I; auto.
Qed.
Lemma broadcasts_nil s : broadcasts [] s.
Proof.
  split; [intros x [<-|[<-|[]]]; cbn; lia|]. split; [right; exists s; cbn; auto|]. intros r R. split; [|right; exists s; cbn; auto].
  intros x [<-|[<-|[]]]; [|now right]. left. unfold rnth. cbn. now destruct r.
Qed.
Lemma sub_rel A B sa sb s a b : arel A sa a -> arel B sb b -> is_broadcast [sa; sb] s ->
  arel (g_rw_sub ddt h A B) s (fun i => rw_sub sdt (a (align sa i)) (b (align sb i))).
Proof.
  intros RA RB H. unfold g_rw_sub. set (c := {| nshp := []; nelt := fun _ => Fin (-1) |}).
  assert (N : arel (g_rw_nary ddt h NMul [g_con c; B]) sb (fun i => rw_nary sdt NMul [con (Fin (-1)); b i])).
  { pose proof (nary_rel NMul sb [(g_con c, (nshp c, fun i => con (nelt c i))); (B, (sb, b))]) as P.
    specialize (P ltac:(constructor; [apply con_rel|constructor; [exact RB|constructor]]) (broadcasts_nil sb)).
    revert P. apply arel_ext. intros i I. unfold sub. cbn [map ta ts snd fst]. rewrite (align_self sb i) by exact I. reflexivity. }
  pose proof (nary_rel NAdd s [(A, (sa, a)); (g_rw_nary ddt h NMul [g_con c; B], (sb, fun i => rw_nary sdt NMul [con (Fin (-1)); b i]))]) as P.
  exact (P ltac:(constructor; [exact RA|constructor; [exact N|constructor]]) H).
Qed.
Lemma div_rel A B sa sb s a b : arel A sa a -> arel B sb b -> is_broadcast [sa; sb] s ->
  arel (g_rw_div ddt h A B) s (fun i => rw_div sdt (a (align sa i)) (b (align sb i))).
Proof.
  intros RA RB H. unfold g_rw_div.
  pose proof (nary_rel NMul s [(A, (sa, a)); (g_rw_unary ddt h URecip B, (sb, fun i => rw_unary sdt URecip (b i)))]) as P.
  exact (P ltac:(constructor; [exact RA|constructor; [exact (unary_rel URecip B sb b RB)|constructor]]) H).
Qed.
End Rel.
