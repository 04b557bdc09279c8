(** Lemmas on models of arrays with stacks, joins and shuffles: the rewrites
    element by element. *)
From Coq Require Import Reals Lra Lia List Arith ZArith Bool.
From Coquelicot Require Import Coquelicot.
From Verif Require Import XR ModelDist ModelVec ModelIdx SpecIdx LemIdx LemIdx2 ModelTen SpecTen LemMix LemTen LemTen2 ModelConv ModelSub LemSub ModelTrans ModelElem SpecElem LemElem LemBatch
  ModelJoint ModelNest ModelSys SpecSys LemSys ModelEls SpecEls LemEls ModelElsV SpecElsV.
Import ListNotations.
Open Scope nat_scope.

(** ** positions of joins and shuffles *)
Lemma sizes_nth ax shs sizes k sk : Forall2 (size_along ax) shs sizes -> nth_error shs k = Some sk -> exists n, nth_error sizes k = Some n /\ nth_error sk ax = Some n.
Proof. intros F. revert k. induction F as [|s n shs sizes H F IH]; intros [|k] E; try discriminate; cbn in *; [injection E as <-; eauto|eauto]. Qed.
Lemma nth_sizes ax shs sizes k n : Forall2 (size_along ax) shs sizes -> nth_error sizes k = Some n -> exists sk, nth_error shs k = Some sk /\ nth_error sk ax = Some n.
Proof. intros F. revert k. induction F as [|s m shs sizes H F IH]; intros [|k] E; try discriminate; cbn in *; [injection E as <-; eauto|eauto]. Qed.
Lemma which_part sizes : forall x, x < list_sum sizes -> exists k n z, nth_error sizes k = Some n /\ z < n /\ x = list_sum (firstn k sizes) + z.
Proof.
  induction sizes as [|n sizes IH]; intros x L; [cbn in L; lia|]. change (list_sum (n :: sizes)) with (n + list_sum sizes) in L. destruct (lt_dec x n) as [H|H].
  - exists 0, n, x. cbn. auto.
  - destruct (IH (x - n)) as (k & m & z & E & Lz & Ex); [lia|]. exists (S k), m, z. split; [exact E|]. split; [exact Lz|].
    change (list_sum (firstn (S k) (n :: sizes))) with (n + list_sum (firstn k sizes)). lia.
Qed.
Lemma inside_iff s i : inside s i <-> length i = length s /\ forall k x d, nth_error i k = Some x -> nth_error s k = Some d -> x < d.
Proof.
  split.
  - intros I. split; [exact (inside_len _ _ I)|]. intros k x d. exact (inside_nth s i k x d I).
  - intros [L H]. revert s L H. induction i as [|x i IH]; intros [|d s] L H; try discriminate; constructor; [exact (H 0 x d eq_refl eq_refl)|]. apply IH; [cbn in L; lia|]. intros k. exact (H (S k)).
Qed.
Lemma part_inside ax shs sizes s i k p sk : joinable ax shs sizes s -> inside s i -> part_at ax sizes i k p -> nth_error shs k = Some sk -> inside sk p.
Proof.
  intros (_ & Lax & F & SB & Es) I ((Lp & Sp) & n & x & En & Ex & Lx & Ei) Ek. rewrite List.Forall_forall in SB. destruct (SB sk (nth_error_In _ _ Ek)) as [Ls Ss].
  apply inside_iff. apply inside_iff in I as [Li I]. split; [lia|]. intros j z d Ez Ed. destruct (Nat.eq_dec j ax) as [->|N].
  - destruct (sizes_nth ax shs sizes k sk F Ek) as (n' & En' & Es'). congruence.
  - apply (I j); [now rewrite Sp|now rewrite Ss].
Qed.
Lemma part_exists ax shs sizes s i : joinable ax shs sizes s -> inside s i -> exists k p sk, nth_error shs k = Some sk /\ part_at ax sizes i k p /\ inside sk p.
Proof.
  intros J I. pose proof J as (_ & Lax & F & SB & Es). pose proof (inside_len _ _ I) as Li.
  destruct (nth_error i ax) as [x|] eqn:Ex; [|apply nth_error_None in Ex; lia]. pose proof (inside_nth _ _ _ _ _ I Ex Es) as Lx.
  destruct (which_part sizes x Lx) as (k & n & z & En & Lz & ->). destruct (nth_sizes ax shs sizes k n F En) as (sk & Ek & Esk).
  assert (P : part_at ax sizes i k (set_nth ax z i)).
  { split; [apply same_but_set; lia|]. exists n, z. split; [exact En|]. split; [apply set_nth_at; lia|]. auto. }
  exists k, (set_nth ax z i), sk. split; [exact Ek|]. split; [exact P|]. exact (part_inside ax shs sizes s i k _ sk J I P Ek).
Qed.
Lemma part_unique ax sizes i k p k' p' : part_at ax sizes i k p -> part_at ax sizes i k' p' -> k = k' /\ p = p'.
Proof.
  intros ((L & S) & n & x & En & Ex & Lx & Ei) ((L' & S') & n' & x' & En' & Ex' & Lx' & Ei').
  assert (G : forall (l : list nat) a b m z m' z', nth_error l a = Some m -> z < m -> nth_error l b = Some m' -> z' < m' -> list_sum (firstn a l) + z = list_sum (firstn b l) + z' -> a = b /\ z = z').
  { clear. induction l as [|w l IH]; intros [|a] [|b] m z m' z' E1 L1 E2 L2 E; try discriminate; cbn [nth_error] in *.
    - change (list_sum (firstn 0 (w :: l))) with 0 in E. split; [reflexivity|lia].
    - injection E1 as ->. change (list_sum (firstn (S b) (m :: l))) with (m + list_sum (firstn b l)) in E. change (list_sum (firstn 0 (m :: l))) with 0 in E. lia.
    - injection E2 as ->. change (list_sum (firstn (S a) (m' :: l))) with (m' + list_sum (firstn a l)) in E. change (list_sum (firstn 0 (m' :: l))) with 0 in E. lia.
    - change (list_sum (firstn (S a) (w :: l))) with (w + list_sum (firstn a l)) in E. change (list_sum (firstn (S b) (w :: l))) with (w + list_sum (firstn b l)) in E.
      destruct (IH a b m z m' z' E1 L1 E2 L2) as [-> ->]; [lia|auto]. }
  destruct (G sizes k k' n x n' x' En Lx En' Lx') as [-> ->]; [congruence|]. split; [reflexivity|]. apply nth_error_ext. intros j.
  destruct (Nat.eq_dec j ax) as [->|N]; [congruence|]. now rewrite <- S, <- S'.
Qed.
Lemma source_inside o s0 s i p : valid_order (length s0) o -> shuffled_shape o s0 s -> inside s i -> source o (length s0) i p -> inside s0 p.
Proof.
  intros V (L & S1 & S2 & S3) I (Lp & P1 & P2). apply inside_iff. apply inside_iff in I as [Li I]. split; [exact Lp|]. intros d x n Ex En.
  assert (Ld : d < length s0) by (apply nth_error_Some; congruence). destruct (axis_at d o) as [j|] eqn:E.
  - apply axis_at_nth in E. rewrite (P1 j d E) in Ex. rewrite <- (S1 j d E) in En. exact (I j x n Ex En).
  - assert (D : dropped o d) by (intros j Hj; apply axis_at_None in E; apply E; eapply nth_error_In; eauto). rewrite (P2 d Ld D) in Ex. rewrite (S3 d Ld D) in En. injection Ex as <-. injection En as <-. lia.
Qed.
Lemma source_exists o s0 s i : valid_order (length s0) o -> shuffled_shape o s0 s -> inside s i -> exists p, source o (length s0) i p /\ inside s0 p.
Proof.
  intros V Sh I. assert (L : length i = length o) by (rewrite (inside_len _ _ I); apply Sh). eexists. pose proof (shuffle_source (length s0) o i L V) as S. split; [exact S|]. exact (source_inside o s0 s i _ V Sh I S).
Qed.

(** the annotation of an expression: what is measurable is random *)
Lemma construct_some dt l mk m : construct dt l mk = Some m -> exists a, In a l /\ a_m a <> None.
Proof.
  unfold construct. destruct (measurable_of l) as [|x [|z q]] eqn:E; try discriminate. intros _.
  assert (I : In x (measurable_of l)) by (rewrite E; now left). unfold measurable_of in I. apply in_flat_map in I as (a & Ia & I). exists a. split; [exact Ia|]. intros N. now rewrite N in I.
Qed.
Definition tame (a : ann) : Prop := a_rand a = false -> a_m a = None.
Lemma tame_nary dt n l : List.Forall tame l -> tame (rw_nary dt n l).
Proof.
  intros F R. cbn in *. destruct (construct dt l (tr_nary n)) eqn:E; [|reflexivity]. destruct (construct_some _ _ _ _ E) as (a & Ia & Na). rewrite List.Forall_forall in F.
  exfalso. apply Na, (F a Ia). apply not_true_is_false. intros X. apply not_true_iff_false in R. apply R. apply existsb_exists. eauto.
Qed.
Lemma tame_unary dt u a : tame a -> tame (rw_unary dt u a).
Proof.
  intros F R. cbn in *. destruct (construct dt [a] _) eqn:E; [|reflexivity]. destruct (construct_some _ _ _ _ E) as (b & [<-|[]] & Nb). exfalso. auto.
Qed.
Lemma tame_con c : tame (con c). Proof. intros _. reflexivity. Qed.
Lemma tame_sub dt a b : tame a -> tame b -> tame (rw_sub dt a b).
Proof. intros A B. apply tame_nary. constructor; [exact A|]. constructor; [|constructor]. apply tame_nary. constructor; [apply tame_con|]. constructor; [exact B|constructor]. Qed.
Lemma tame_div dt a b : tame a -> tame b -> tame (rw_div dt a b).
Proof. intros A B. apply tame_nary. constructor; [exact A|]. constructor; [|constructor]. now apply tame_unary. Qed.
Lemma annotate_tame dt fs : forall e, tame (annotate dt fs e).
Proof.
  fix IH 1. intros [i|c|u e|n es|a b|a b|k es]; cbn [annotate].
  - intros R. discriminate. - apply tame_con. - apply tame_unary, IH.
  - apply tame_nary. induction es as [|e es IHe]; [constructor|]. cbn. constructor; [apply IH|exact IHe].
  - apply tame_sub; apply IH. - apply tame_div; apply IH. - intros _. reflexivity.
Qed.

(** does a measurable expression contain a stack, join, ...; a discrete draw? *)
Fixpoint has_view (m : vexpr) : bool := match m with WBase _ => false | WElem _ m => has_view m | _ => true end.

Section Rel.
Variables (ddt : nat -> dtype) (afs : nat -> list (nd xr) -> nd xr) (fs : nat -> list xr -> xr) (dlp : nat -> list xr -> xr -> res xr).
Variables (h : list vnode) (sh : nat -> list nat) (g : list snode) (ix : nat -> list nat -> nat).
Notation adt := (v_dtype ddt h).
Notation sdt := (rv_dtype ddt g).
Hypothesis Dt : forall b d s ps i, nth_error h b = Some (VRv d s ps) -> inside (sh b) i -> sdt (ix b i) = ddt d.
Fixpoint ints (m : vexpr) : bool :=
  match m with
  | WBase i | WTake _ i => match adt i with DInt => true | _ => false end
  | WElem _ _ => false
  | WVec ms | WJoin _ ms _ => existsb ints ms
  | WShuf _ _ m | WCum _ m => ints m
  end.

Inductive mrel : vexpr -> list nat -> (list nat -> mexpr) -> Prop :=
| mr_base b d s ps m : nth_error h b = Some (VRv d s ps) -> (forall i, inside (sh b) i -> m i = MBase (ix b i)) -> mrel (WBase b) (sh b) m
| mr_elem t M s' s m' m f : mrel M s' m' -> broadcasts s' s -> (has_view M = true -> s' = s) -> trel t s f ->
    (forall i, inside s i -> m i = MElem (f i) (m' (align s' i))) -> mrel (WElem t M) s m
| mr_vec ms mk m : ms <> [] -> (forall k M, nth_error ms k = Some M -> mrel M [] (mk k)) ->
    (forall k, k < length ms -> m [k] = mk k []) -> mrel (WVec ms) [length ms] m
| mr_join axis ax ms shs sizes s mk m : joinable ax shs sizes s -> axis_is (length s) axis ax -> length ms = length shs ->
    (forall k M sk, nth_error ms k = Some M -> nth_error shs k = Some sk -> mrel M sk (mk k)) ->
    (forall i k p, inside s i -> k < length ms -> part_at ax sizes i k p -> m i = mk k p) -> mrel (WJoin axis ms shs) s m
| mr_shuf o M s' m' s m : is_rv M = true -> mrel M s' m' -> valid_order (length s') o -> shuffled_shape o s' s ->
    (forall i p, inside s i -> source o (length s') i p -> m i = m' p) -> mrel (WShuf (length s') o M) s m
| mr_take t b d s0 ps m : nth_error h b = Some (VRv d s0 ps) ->
    (forall i, inside (nshp t) i -> inside (sh b) (nelt t i) /\ m i = MBase (ix b (nelt t i))) -> mrel (WTake t b) (nshp t) m.
Definition mpart (M : option vexpr) (s : list nat) (a : list nat -> option mexpr) : Prop :=
  forall W, M = Some W -> exists m, mrel W s m /\ forall i, inside s i -> a i = Some (m i).
Definition vrel (v : res (nd xr)) (s : list nat) (a : list nat -> xr) : Prop :=
  exists arr, v = Val arr /\ nshp arr = s /\ forall i, inside s i -> nelt arr i = a i.
Definition arel (A : vann) (s : list nat) (a : list nat -> ann) : Prop :=
  (v_rand A = false -> forall i, inside s i -> a_rand (a i) = false) /\ vrel (v_val A) s (fun i => a_val (a i)) /\
  (forall i, inside s i -> tame (a i)) /\ mpart (v_m A) s (fun i => a_m (a i)).

Definition trip : Type := vann * (list nat * (list nat -> ann)).
Definition tA (t : trip) := fst t.
Definition ts (t : trip) := fst (snd t).
Definition ta (t : trip) := snd (snd t).
Definition sub (i : list nat) (T : list trip) : list ann := map (fun t => ta t (align (ts t) i)) T.
(** what element-wise operations of shape [s] need of a measurable operand *)
Definition fits (M : option vexpr) (s' s : list nat) : Prop := forall W, M = Some W -> has_view W = true -> s' = s /\ ints W = false.
Definition good (s : list nat) (t : trip) : Prop := arel (tA t) (ts t) (ta t) /\ broadcasts (ts t) s /\ fits (v_m (tA t)) (ts t) s.

Lemma ints_base M : has_view M = false -> v_starts_int ddt h M = false -> ints M = false.
Proof. destruct M; cbn; auto; discriminate. Qed.
Lemma ints_rel M s m : mrel M s m -> forall i, inside s i -> ints M = false -> starts_int sdt (m i) = false.
Proof.
  induction 1 as [b d s0 ps m E Em|t M s' s m' m f H IH B V Tr Em|ms mk m NE H IH Em|axis ax ms shs sizes s mk m J A L H IH Em|o M s' m' s m RV H IH V Sh Em|t b d s0 ps m E Em]; intros i I S.
  - rewrite Em by exact I. unfold starts_int. rewrite (Dt b d s0 ps i E I). cbn in S. unfold v_dtype in S. now rewrite E in S.
  - rewrite Em by exact I. reflexivity.
  - inversion I as [|k n i0 s0 Lk I0]; subst. inversion I0; subst. rewrite Em by exact Lk.
    destruct (nth_error ms k) as [M|] eqn:EM; [|apply nth_error_None in EM; lia]. apply (IH k M EM []); [constructor|].
    apply not_true_is_false; intros X; apply not_true_iff_false in S; apply S; apply existsb_exists; exists M; split; [eapply nth_error_In; eauto|exact X].
  - destruct (part_exists ax shs sizes s i J I) as (k & p & sk & Ek & P & Ip). assert (Lk : k < length ms) by (rewrite L; apply nth_error_Some; congruence).
    rewrite (Em i k p I Lk P). destruct (nth_error ms k) as [M|] eqn:EM; [|apply nth_error_None in EM; lia]. apply (IH k M sk EM Ek p Ip).
    apply not_true_is_false; intros X; apply not_true_iff_false in S; apply S; apply existsb_exists; exists M; split; [eapply nth_error_In; eauto|exact X].
  - destruct (source_exists o s' s i V Sh I) as (p & P & Ip). rewrite (Em i p I P). exact (IH p Ip S).
  - destruct (Em i I) as [Ip ->]. unfold starts_int. rewrite (Dt b d s0 ps _ E Ip). cbn in S. unfold v_dtype in S. now rewrite E in S.
Qed.

Lemma split_measurable (T : list trip) M : v_measurable (map tA T) = [M] -> exists T1 t T2, T = T1 ++ t :: T2 /\ v_m (tA t) = Some M /\ v_others (map tA T) = map tA (T1 ++ T2).
Proof.
  assert (O : forall T : list trip, v_measurable (map tA T) = [] -> v_others (map tA T) = map tA T).
  { induction T0 as [|t T0 IH]; [reflexivity|]. unfold v_measurable, v_others in *. cbn. destruct (v_m (tA t)); [discriminate|]. cbn. intros H. f_equal. now apply IH. }
  induction T as [|t T IH]; [discriminate|]. unfold v_measurable, v_others in *. cbn [map flat_map filter]. destruct (v_m (tA t)) as [W|] eqn:E; intros H.
  - injection H as -> H. exists [], t, T. split; [reflexivity|]. split; [exact E|]. now apply O.
  - destruct (IH H) as (T1 & t0 & T2 & -> & E0 & H0). exists (t :: T1), t0, T2. split; [reflexivity|]. split; [exact E0|]. cbn [map app]. f_equal. exact H0.
Qed.
Lemma vals_rel s T : List.Forall (good s) T -> exists V : list (nd xr), map v_val (map tA T) = map Val V /\ map nshp V = map ts T /\
  forall i, inside s i -> map (fun a => nelt a (align (nshp a) i)) V = map a_val (sub i T).
Proof.
  induction 1 as [|t T ((_ & (a & Ea & Es & El) & _) & B & _) F (V & E1 & E2 & E3)]; [exists []; repeat split; reflexivity|].
  exists (a :: V). cbn [map]. split; [now rewrite Ea, E1|]. split; [now rewrite Es, E2|]. intros i I. unfold sub in *. cbn [map]. rewrite E3 by exact I. f_equal.
  rewrite Es. apply El. exact (align_inside _ _ _ B I).
Qed.
Lemma rand_rel s T i : List.Forall (good s) T -> inside s i -> existsb v_rand (map tA T) = false -> existsb a_rand (sub i T) = false.
Proof.
  intros F I. induction F as [|t T ((R & _) & B & _) F IH]; [reflexivity|]. unfold sub in *. cbn. intros E. apply orb_false_iff in E as [E1 E2]. rewrite IH by exact E2.
  rewrite R; [reflexivity|exact E1|exact (align_inside _ _ _ B I)].
Qed.
Lemma tame_rel s T i : List.Forall (good s) T -> inside s i -> List.Forall tame (sub i T).
Proof. intros F I. induction F as [|t T ((_ & _ & Ta & _) & B & _) F IH]; [constructor|]. constructor; [apply Ta; exact (align_inside _ _ _ B I)|exact IH]. Qed.
Lemma quiet l : List.Forall tame l -> existsb a_rand l = false -> measurable_of l = [] /\ others_of l = l.
Proof.
  induction 1 as [|a l Ta F IH]; [split; reflexivity|]. cbn. intros E. apply orb_false_iff in E as [E1 E2]. destruct (IH E2) as [I1 I2]. unfold measurable_of, others_of in *. cbn.
  rewrite (Ta E1). cbn. split; [exact I1|]. now f_equal.
Qed.
Lemma measurable_app l l' : measurable_of (l ++ l') = measurable_of l ++ measurable_of l'. Proof. unfold measurable_of. now rewrite flat_map_app. Qed.
Lemma others_app l l' : others_of (l ++ l') = others_of l ++ others_of l'. Proof. unfold others_of. now rewrite filter_app. Qed.
Lemma construct_rel s T mkA mkS : List.Forall (good s) T -> mk_rel s mkA mkS -> mpart (v_construct ddt h (map tA T) mkA) s (fun i => construct sdt (sub i T) mkS).
Proof.
  intros F K W EW. unfold v_construct in EW. destruct (v_measurable (map tA T)) as [|M [|? ?]] eqn:EM; try discriminate.
  destruct (v_starts_int ddt h M) eqn:SI; [discriminate|]. destruct (existsb v_rand (v_others (map tA T))) eqn:ER; [discriminate|].
  destruct (split_measurable T M EM) as (T1 & t0 & T2 & ET & Et & EO). rewrite EO in *. 
  assert (F0 : List.Forall (good s) (T1 ++ T2) /\ good s t0).
  { rewrite ET in F. rewrite List.Forall_forall in *. split; [intros x X; apply F; apply in_app_iff; apply in_app_iff in X; cbn; tauto|apply F; apply in_app_iff; cbn; tauto]. }
  destruct F0 as [F0 ((_ & _ & _ & MP) & B & FI)]. destruct (MP M Et) as (m' & R & Em').
  destruct (vals_rel s (T1 ++ T2) F0) as (V & V1 & V2 & V3).
  assert (BV : forall v, In v V -> broadcasts (nshp v) s).
  { intros v I. assert (J : In (nshp v) (map ts (T1 ++ T2))) by (rewrite <- V2; now apply in_map). apply in_map_iff in J as (t & <- & J).
    rewrite List.Forall_forall in F0. exact (proj1 (proj2 (F0 t J))). }
  specialize (K V BV). rewrite V1 in EW. destruct (mkA (map Val V)) as [t|]; [|discriminate]. injection EW as <-. destruct K as (f & Tr & K).
  exists (fun i => MElem (f i) (m' (align (ts t0) i))). split.
  - exact (mr_elem t M (ts t0) s m' _ f R B (fun H => proj1 (FI M Et H)) Tr (fun i _ => eq_refl)).
  - intros i I. pose proof (align_inside _ _ _ B I) as I'. assert (Q : existsb a_rand (sub i (T1 ++ T2)) = false) by now apply (rand_rel s).
    pose proof (tame_rel s (T1 ++ T2) i F0 I) as TT. unfold sub in Q, TT. rewrite map_app in Q, TT. rewrite existsb_app in Q. apply orb_false_iff in Q as [Q1 Q2]. apply Forall_app in TT as [TT1 TT2].
    destruct (quiet _ TT1 Q1) as [M1 O1]. destruct (quiet _ TT2 Q2) as [M2 O2].
    unfold construct. rewrite ET. unfold sub. rewrite map_app. cbn [map]. rewrite measurable_app, others_app, M1, O1.
    unfold measurable_of at 1. cbn [flat_map]. fold (measurable_of (map (fun t1 => ta t1 (align (ts t1) i)) T2)). rewrite M2.
    rewrite (Em' _ I'). cbn [app]. unfold others_of at 1. cbn [filter]. rewrite (Em' _ I'). fold (others_of (map (fun t1 => ta t1 (align (ts t1) i)) T2)). rewrite O2.
    assert (ST : starts_int sdt (m' (align (ts t0) i)) = false).
    { apply (ints_rel M (ts t0) m' R _ I'). destruct (has_view M) eqn:HV; [exact (proj2 (FI M Et HV))|now apply ints_base]. }
    unfold others_of. cbn [filter]. rewrite ?(Em' _ I'). fold (others_of (map (fun t1 => ta t1 (align (ts t1) i)) T2)). rewrite ?O2.
    rewrite ST. rewrite existsb_app, Q1, Q2. cbn [orb]. rewrite <- map_app. fold (sub i (T1 ++ T2)). rewrite <- (V3 i I), K by exact I. reflexivity.
Qed.

Lemma nary_rel n s T : List.Forall (fun t => arel (tA t) (ts t) (ta t) /\ fits (v_m (tA t)) (ts t) s) T -> is_broadcast (map ts T) s ->
  arel (v_rw_nary ddt h n (map tA T)) s (fun i => rw_nary sdt n (sub i T)).
Proof.
  intros F B. assert (G : List.Forall (good s) T).
  { rewrite List.Forall_forall in *. intros t I. split; [exact (proj1 (F t I))|]. split; [|exact (proj2 (F t I))]. apply (bc_sub (map ts T)); [exact B|]. now apply in_map. }
  split; [|split; [|split]].
  - cbn [rw_nary v_rw_nary a_rand v_rand]. intros R i I. exact (rand_rel s T i G I R).
  - cbn [v_rw_nary v_val rw_nary a_val]. destruct (vals_rel s T G) as (V & V1 & V2 & V3). rewrite V1. unfold g_nary. rewrite rseq_val. cbn [bind].
    rewrite (elemwise_at _ V s) by (rewrite V2; now apply bcast_all_spec). eexists. split; [reflexivity|]. split; [reflexivity|]. intros i I. cbn [nelt]. now rewrite V3.
  - intros i I. apply tame_nary. now apply (tame_rel s).
  - cbn [v_rw_nary v_m rw_nary a_m]. apply construct_rel; [exact G|apply mk_nary].
Qed.
Lemma fits_self M s : (forall W, M = Some W -> has_view W = true -> ints W = false) -> fits M s s.
Proof. intros H W E V. split; [reflexivity|eauto]. Qed.
Lemma mpart_ext M s a b : (forall i, inside s i -> a i = b i) -> mpart M s a -> mpart M s b.
Proof. intros E P W EW. destruct (P W EW) as (m & R & H). exists m. split; [exact R|]. intros i I. rewrite <- E by exact I. auto. Qed.
Lemma arel_ext A s a b : (forall i, inside s i -> a i = b i) -> arel A s a -> arel A s b.
Proof.
  intros E (R1 & (v & Ev & Es & El) & R2 & R3). split; [intros R i I; rewrite <- E by exact I; auto|]. split; [|split].
  - exists v. split; [exact Ev|]. split; [exact Es|]. intros i I. rewrite <- E by exact I. auto.
  - intros i I. rewrite <- E by exact I. auto.
  - revert R3. apply mpart_ext. intros i I. now rewrite E.
Qed.
Lemma unary_rel u A s a : arel A s a -> fits (v_m A) s s -> arel (v_rw_unary ddt h u A) s (fun i => rw_unary sdt u (a i)).
Proof.
  intros R FI. destruct R as (R1 & (v & Ev & Es & El) & R2 & R3) eqn:ER. split; [|split; [|split]].
  - cbn. exact R1.
  - cbn [v_rw_unary v_val rw_unary a_val]. rewrite Ev. eexists. split; [reflexivity|]. split; [exact Es|]. intros i I. cbn [nelt nd_map]. now rewrite El.
  - intros i I. apply tame_unary. auto.
  - cbn [v_rw_unary v_m rw_unary a_m].
    pose proof (construct_rel s [(A, (s, a))] (fun _ => Some (GFun u)) (fun _ => Some (tr_unary u))) as C.
    specialize (C ltac:(constructor; [split; [exact R|split; [apply broadcasts_refl|exact FI]]|constructor]) (mk_unary u s)). clear ER.
    cbn [map tA fst] in C. revert C. apply mpart_ext. intros i I. unfold sub. cbn [map ta ts snd fst]. now rewrite align_self.
Qed.
Lemma con_rel c : arel (v_con c) (nshp c) (fun i => con (nelt c i)).
Proof. split; [reflexivity|]. split; [exists c; repeat split|]. split; [intros i _; apply tame_con|]. intros W E. discriminate. Qed.
Lemma construct_view l mk W : v_construct ddt h l mk = Some W -> ints W = false /\ exists a M, In a l /\ v_m a = Some M /\ has_view W = has_view M.
Proof.
  unfold v_construct. destruct (v_measurable l) as [|M [|? ?]] eqn:EM; try discriminate. destruct (v_starts_int ddt h M); [discriminate|]. destruct (existsb v_rand _); [discriminate|].
  destruct (mk _) as [t|]; [|discriminate]. intros E. injection E as <-. split; [reflexivity|].
  assert (I : In M (v_measurable l)) by (rewrite EM; now left). unfold v_measurable in I. apply in_flat_map in I as (a & Ia & I). exists a, M. split; [exact Ia|].
  destruct (v_m a) as [X|]; [|destruct I]. destruct I as [->|[]]. split; reflexivity.
Qed.
Lemma sub_rel A B sa sb s a b : arel A sa a -> arel B sb b -> is_broadcast [sa; sb] s -> fits (v_m A) sa s -> fits (v_m B) sb s ->
  arel (v_rw_sub ddt h A B) s (fun i => rw_sub sdt (a (align sa i)) (b (align sb i))).
Proof.
  intros RA RB H FA FB. unfold v_rw_sub. set (c := {| nshp := []; nelt := fun _ => Fin (-1) |}).
  assert (N : arel (v_rw_nary ddt h NMul [v_con c; B]) sb (fun i => rw_nary sdt NMul [con (Fin (-1)); b i])).
  { pose proof (nary_rel NMul sb [(v_con c, (nshp c, fun i => con (nelt c i))); (B, (sb, b))]) as P.
    specialize (P ltac:(constructor; [split; [apply con_rel|intros W E; discriminate]|constructor; [split; [exact RB|apply fits_self; intros W E V; exact (proj2 (FB W E V))]|constructor]]) (broadcasts_nil sb)).
    revert P. apply arel_ext. intros i I. unfold sub. cbn [map ta ts snd fst]. rewrite (align_self sb i) by exact I. reflexivity. }
  pose proof (nary_rel NAdd s [(A, (sa, a)); (v_rw_nary ddt h NMul [v_con c; B], (sb, fun i => rw_nary sdt NMul [con (Fin (-1)); b i]))]) as P.
  apply P; [|exact H]. constructor; [split; [exact RA|exact FA]|]. constructor; [|constructor]. split; [exact N|]. intros W E V.
  destruct (construct_view _ _ _ E) as (IW & x & M & [<-|[<-|[]]] & EM & HV); [discriminate|]. split; [|exact IW]. apply (FB M EM). congruence.
Qed.
Lemma div_rel A B sa sb s a b : arel A sa a -> arel B sb b -> is_broadcast [sa; sb] s -> fits (v_m A) sa s -> fits (v_m B) sb s ->
  arel (v_rw_div ddt h A B) s (fun i => rw_div sdt (a (align sa i)) (b (align sb i))).
Proof.
  intros RA RB H FA FB. unfold v_rw_div.
  pose proof (nary_rel NMul s [(A, (sa, a)); (v_rw_unary ddt h URecip B, (sb, fun i => rw_unary sdt URecip (b i)))]) as P.
  apply P; [|exact H]. constructor; [split; [exact RA|exact FA]|]. constructor; [|constructor]. split.
  - apply (unary_rel URecip B sb b RB). apply fits_self. intros W E V. exact (proj2 (FB W E V)).
  - intros W E V. destruct (construct_view _ _ _ E) as (IW & x & M & [<-|[]] & EM & HV). split; [|exact IW]. apply (FB M EM). congruence.
Qed.
End Rel.
