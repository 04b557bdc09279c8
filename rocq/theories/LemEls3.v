(** Lemmas on models of arrays: every model can be spelled out. *)
From Coq Require Import Reals Lra Lia List Arith Bool.
From Coquelicot Require Import Coquelicot.
From Verif Require Import XR SpecDist ModelDist ModelVec SpecVec RMx ModelIdx SpecIdx LemIdx LemIdx2 ModelTen ModelConv ModelSub LemSub LemUtil ModelTrans ModelElem SpecElem LemElem LemBatch
  ModelJoint ModelNest ModelSys SpecSys LemSys LemSys3 ModelEls SpecEls LemEls LemEls2.
Import ListNotations.
Open Scope nat_scope.

Fixpoint find_pos (i : list nat) (l : list (list nat)) : nat :=
  match l with [] => 0 | j :: l => if list_eq_dec Nat.eq_dec j i then 0 else S (find_pos i l) end.
Lemma find_pos_nth i l : In i l -> nth_error l (find_pos i l) = Some i.
Proof.
  induction l as [|j l IH]; intros I; [destruct I|]. cbn. destruct (list_eq_dec Nat.eq_dec j i) as [->|N]; [reflexivity|]. cbn. apply IH. destruct I; [easy|auto].
Qed.
Lemma find_pos_lt i l : In i l -> find_pos i l < length l.
Proof. intros I. apply nth_error_Some. rewrite find_pos_nth by exact I. discriminate. Qed.
Section Blocks.
Variables (A : Type) (f : nat -> list A).
Definition offset (v : nat) : nat := length (flat_map f (seq 0 v)).
Lemma offset_S v : offset (S v) = offset v + length (f v).
Proof. unfold offset. rewrite seq_S, flat_map_app, app_length. cbn. now rewrite app_nil_r. Qed.
Lemma offset_mono v w : v <= w -> offset v <= offset w.
Proof. induction 1; [lia|]. rewrite offset_S. lia. Qed.
Lemma block_nth n v j : v < n -> j < length (f v) -> nth_error (flat_map f (seq 0 n)) (offset v + j) = nth_error (f v) j.
Proof.
  intros L J. replace n with (v + S (n - v - 1)) by lia. rewrite seq_app, flat_map_app. cbn [seq flat_map Nat.add].
  rewrite nth_error_app2 by (unfold offset; lia). replace (offset v + j - length (flat_map f (seq 0 v))) with j by (unfold offset; lia).
  now apply nth_error_app1.
Qed.
End Blocks.
Lemma offset_map {A B} (f : nat -> list A) (F : nat -> A -> B) v : offset B (fun w => map (F w) (f w)) v = offset A f v.
Proof. induction v as [|v IH]; [reflexivity|]. now rewrite !offset_S, IH, map_length. Qed.

Section Spell.
Variables (afs : nat -> list (nd xr) -> nd xr) (h : list gnode) (sh : nat -> list nat).
Definition ps (v : nat) : list (list nat) := positions (sh v).
Definition eix (v : nat) (i : list nat) : nat := offset _ ps v + find_pos i (ps v).
Definition enode (v : nat) (i : list nat) : snode :=
  match nth_error h v with
  | None => SCon NaN
  | Some (GCon c) => SCon (nelt c i)
  | Some (GRv d _ l) => SRv d (map (fun p => eix p (align (sh p) i)) l)
  | Some (GOne u a) => SOne u (eix a i)
  | Some (GMany n l) => SMany n (map (fun p => eix p (align (sh p) i)) l)
  | Some (GSub a b) => SSub (eix a (align (sh a) i)) (eix b (align (sh b) i))
  | Some (GDiv a b) => SDiv (eix a (align (sh a) i)) (eix b (align (sh b) i))
  | Some (GOther _ l) => SOther (eix v i) (flat_map (elements_of sh eix) l)
  end.
Definition egraph : list snode := flat_map (fun v => map (enode v) (ps v)) (seq 0 (length h)).
Definition etable : list (nat * list nat) := flat_map (fun v => map (pair v) (ps v)) (seq 0 (length h)).
Fixpoint regroup (l : list (list nat)) (xs : list xr) : list (nd xr) :=
  match l with
  | [] => []
  | s :: l => let n := length (positions s) in
      {| nshp := s; nelt := fun i => nth (find_pos i (positions s)) (firstn n xs) NaN |} :: regroup l (skipn n xs)
  end.
Definition efs (n : nat) (xs : list xr) : xr :=
  match nth_error etable n with
  | Some (v, i) => match nth_error h v with Some (GOther k l) => nelt (afs k (regroup (map sh l) xs)) i | _ => NaN end
  | None => NaN
  end.
Lemma eix_nth {B} (F : nat -> list nat -> B) v i : v < length h -> inside (sh v) i ->
  nth_error (flat_map (fun v => map (F v) (ps v)) (seq 0 (length h))) (eix v i) = Some (F v i).
Proof.
  intros L I. apply positions_in in I. unfold eix. rewrite <- (offset_map ps F). rewrite block_nth; [|exact L|rewrite map_length; now apply find_pos_lt].
  rewrite nth_error_map. unfold ps. rewrite find_pos_nth by exact I. reflexivity.
Qed.
Lemma regroup_same args l : map nshp args = l -> same_arrays args (regroup l (flat_map (fun a => map (nelt a) (positions (nshp a))) args)).
Proof.
  intros <-. induction args as [|a args IH]; [constructor|]. cbn [map flat_map regroup].
  set (n := length (positions (nshp a))). assert (LN : length (map (nelt a) (positions (nshp a))) = n) by apply map_length.
  rewrite firstn_app, skipn_app, LN, Nat.sub_diag. cbn [firstn skipn]. rewrite app_nil_r, firstn_all2, skipn_all2 by (rewrite LN; lia). cbn [app].
  constructor; [|exact IH]. split; [reflexivity|]. intros i I. cbn [nelt]. apply positions_in in I. symmetry. apply nth_error_nth.
  rewrite nth_error_map, find_pos_nth by exact I. reflexivity.
Qed.
Hypothesis GA : gacyclic h.
Hypothesis WS : well_shaped afs h sh.
Hypothesis RI : reads_inside afs.
Lemma align_ok a s i : broadcasts a s -> inside s i -> aligned a i (align a i).
Proof. intros B I. apply aligned_iff; [rewrite (inside_length s i I); exact (bc_len a s B)|reflexivity]. Qed.
Lemma F2_map {A B} (R : A -> B -> Prop) (F : A -> B) l : (forall a, In a l -> R a (F a)) -> Forall2 R l (map F l).
Proof. induction l; intros H; cbn; constructor; [apply H; now left|]. apply IHl. intros; apply H; now right. Qed.
Lemma spelled : spelled_out afs efs h sh egraph eix.
Proof.
  split.
  - intros v nd i E I. assert (L : v < length h) by (apply nth_error_Some; congruence). exists (enode v i). split; [exact (eix_nth enode v i L I)|].
    pose proof (WS v nd E) as W. unfold enode. rewrite E. destruct nd as [c|d s l|u a|n l|a b|a b|k l]; cbn [element_node].
    + reflexivity.
    + eexists. split; [reflexivity|]. apply F2_map. intros p P. exists (align (sh p) i). split; [|reflexivity]. exact (align_ok (sh p) (sh v) i (proj2 W p P) I).
    + reflexivity.
    + eexists. split; [reflexivity|]. apply F2_map. intros p P. exists (align (sh p) i). split; [|reflexivity].
      apply (align_ok (sh p) (sh v) i); [|exact I]. apply (bc_sub (map sh l)); [exact W|now apply in_map].
    + exists (align (sh a) i), (align (sh b) i). repeat split; try (apply align_ok with (sh v); [apply (bc_sub [sh a; sh b]); cbn; auto|exact I]).
    + exists (align (sh a) i), (align (sh b) i). repeat split; try (apply align_ok with (sh v); [apply (bc_sub [sh a; sh b]); cbn; auto|exact I]).
    + exists (eix v i). split; [reflexivity|]. intros args S. unfold efs. change etable with (flat_map (fun v => map (pair v) (ps v)) (seq 0 (length h))).
      rewrite (eix_nth (@pair nat (list nat)) v i L I). rewrite E. symmetry. apply RI; [now apply regroup_same|]. rewrite W by exact S. exact I.
  - intros v w i j Lv Lw Iv Iw E. pose proof (eix_nth (@pair nat (list nat)) v i Lv Iv) as A. pose proof (eix_nth (@pair nat (list nat)) w j Lw Iw) as B.
    rewrite E in A. rewrite A in B. injection B as -> ->. split; reflexivity.
Qed.
Lemma eix_lt a v j i : a < v -> inside (sh a) j -> eix a j < eix v i.
Proof.
  intros L I. apply positions_in in I. pose proof (find_pos_lt j _ I) as F. pose proof (offset_mono _ ps (S a) v L) as O. rewrite offset_S in O. unfold eix, ps in *. lia.
Qed.
Lemma egraph_inv n e : nth_error egraph n = Some e -> exists v i, v < length h /\ inside (sh v) i /\ n = eix v i /\ e = enode v i.
Proof.
  intros E. assert (T : nth_error etable n <> None).
  { assert (LE : length egraph = length etable).
    { unfold egraph, etable. generalize (seq 0 (length h)). induction l as [|v l IH]; [reflexivity|]. cbn. rewrite !app_length, !map_length, IH. reflexivity. }
    apply nth_error_Some. rewrite <- LE. apply nth_error_Some. congruence. }
  destruct (nth_error etable n) as [(v, i)|] eqn:ET; [|easy]. pose proof (nth_error_In _ _ ET) as I. apply in_flat_map in I as (w & W & I).
  apply in_map_iff in I as (j & EJ & J). injection EJ as -> ->. apply in_seq in W. apply positions_in in J.
  assert (L : v < length h) by lia. exists v, i. split; [exact L|]. split; [exact J|].
  assert (EN : n = eix v i).
  { pose proof (eix_nth (@pair nat (list nat)) v i L J) as A. fold etable in A. rewrite <- ET in A.
    assert (ND : NoDup etable).
    { clear. unfold etable. generalize (seq_NoDup (length h) 0). generalize (seq 0 (length h)). induction 1 as [|v l NI N IH]; [constructor|]. cbn.
      assert (NP : NoDup (map (pair v) (ps v))). { unfold ps. pose proof (positions_nodup (sh v)) as P. induction P as [|x m X P IHP]; cbn; constructor; [|exact IHP]. intros Q. apply in_map_iff in Q as (z & Ez & Z). congruence. }
      revert NP. generalize (ps v) at 1 2. intros m NP. induction m as [|x m IHm]; [exact IH|]. cbn. inversion NP as [|? ? X1 X2]; subst. constructor; [|now apply IHm].
      intros Q. apply in_app_or in Q as [Q|Q]; [easy|]. apply in_flat_map in Q as (w & W & Q). apply in_map_iff in Q as (z & Ez & _). injection Ez as -> _. easy. }
    symmetry. apply (proj1 (NoDup_nth_error etable) ND); [|exact A]. apply nth_error_Some. rewrite A, ET. exact T. }
  split; [exact EN|]. rewrite EN in E. unfold egraph in E. rewrite (eix_nth enode v i L J) in E. now injection E.
Qed.
Lemma spelled_acyclic : acyclic egraph.
Proof.
  intros n e a E I. destruct (egraph_inv n e E) as (v & i & L & J & -> & ->). unfold enode in I.
  destruct (nth_error h v) as [nd|] eqn:EH; [|destruct I]. pose proof (WS v nd EH) as W.
  assert (LT : forall w j, In w (ginputs nd) -> inside (sh w) j -> eix w j < eix v i) by (intros w j Iw Ij; exact (eix_lt w v j i (GA v nd w EH Iw) Ij)).
  assert (AL : forall w, In w (ginputs nd) -> broadcasts (sh w) (sh v) -> eix w (align (sh w) i) < eix v i).
  { intros w Iw B. apply LT; [exact Iw|]. exact (align_inside _ _ _ B J). }
  destruct nd as [c|d s l|u b|m l|b c|b c|k l]; cbn [node_inputs ginputs] in *.
  - destruct I.
  - apply in_map_iff in I as (p & <- & P). apply AL; [exact P|]. exact (proj2 W p P).
  - destruct I as [<-|[]]. apply LT; [now left|]. now rewrite <- W.
  - apply in_map_iff in I as (p & <- & P). apply AL; [exact P|]. apply (bc_sub (map sh l)); [exact W|now apply in_map].
  - destruct I as [<-|[<-|[]]]; apply AL; cbn; auto; apply (bc_sub [sh b; sh c]); cbn; auto.
  - destruct I as [<-|[<-|[]]]; apply AL; cbn; auto; apply (bc_sub [sh b; sh c]); cbn; auto.
  - apply in_flat_map in I as (w & Iw & I). apply in_map_iff in I as (j & <- & Ij). apply LT; [exact Iw|]. now apply positions_in.
Qed.
End Spell.

Lemma spell_out afs h sh : gacyclic h -> well_shaped afs h sh -> reads_inside afs -> exists fs g ix, spelled_out afs fs h sh g ix /\ acyclic g.
Proof.
  intros GA WS RI. exists (efs afs h sh), (egraph h sh), (eix sh). split; [now apply spelled|]. exact (spelled_acyclic afs h sh GA WS).
Qed.

Lemma els_accepted ddt afs fs dlp h sh g ix req y z : gacyclic h -> acyclic g -> well_shaped afs h sh -> nonempty h sh -> spelled_out afs fs h sh g ix ->
  (forall v, In v req -> v < length h /\ nshp (y v) = sh v /\ forall i, inside (sh v) i -> nelt (y v) i = Fin (z (ix v i))) ->
  forall v i, In v req -> inside (sh v) i ->
  (g_conditional ddt afs dlp h req y v <> None <->
   exists b, leads g (flat_map (elements_of sh ix) req) (ix v i) b /\ (rv_dtype ddt g b <> DInt \/ b = ix v i)).
Proof.
  intros GA AC WS NE SO RQ v i I J. rewrite <- (sys_accepted ddt fs dlp g _ z (ix v i) AC).
  assert (RQ' : forall v, In v req -> v < length h /\ nshp (y v) = sh v /\ forall i, inside (sh v) i -> Fin (z (ix v i)) = nelt (y v) i).
  { intros w W. destruct (RQ w W) as (L & S & E). split; [exact L|]. split; [exact S|]. intros j Ij. now rewrite E. }
  pose proof (conditional_rel ddt afs fs dlp h sh g ix req y (fun n => Fin (z n)) GA AC WS NE SO RQ' v I) as C.
  destruct (g_conditional ddt afs dlp h req y v) as [r|].
  - destruct C as (a & _ & _ & C). rewrite (C i J). split; intros _; discriminate.
  - rewrite (C i J). split; intros X; now contradiction X.
Qed.
Lemma els_density ddt afs fs dlp pdf h sh g ix req y z base rho J ps : gacyclic h -> acyclic g -> well_shaped afs h sh -> nonempty h sh -> spelled_out afs fs h sh g ix ->
  (forall v, In v req -> v < length h /\ nshp (y v) = sh v /\ forall i, inside (sh v) i -> nelt (y v) i = Fin (z (ix v i))) ->
  let els := flat_map (elements_of sh ix) req in
  NoDup req ->
  (forall v, In v els -> svalue fs g rho v (z v)) ->
  (forall v, In v els -> smooth fs g els rho v (base v) /\ (rv_dtype ddt g (base v) <> DInt \/ base v = v)) ->
  (forall v w, In v els -> In w els -> base v = base w -> v = w) ->
  (forall v d l, In v els -> nth_error g (base v) = Some (SRv d l) -> List.Forall (known g els) l) ->
  Forall2 (fun v p => draw_density fs g pdf rho (base v) p) els ps ->
  (forall v d l rs, In v els -> nth_error g (base v) = Some (SRv d l) -> Forall2 (svalue fs g rho) l rs ->
    denotes (dlp d (map Fin rs) (Fin (rho (base v)))) (pdf d rs (rho (base v)))) ->
  (forall i j, i < length els -> j < length els -> partial fs g rho (nth i els 0) (base (nth j els 0)) (J i j)) ->
  RMx.rdet (length els) J <> 0%R /\
  exists r, g_joint ddt afs dlp h req y = Some r /\ denotes r (SpecVec.rprod ps / Rabs (RMx.rdet (length els) J))%R.
Proof.
  intros GA AC WS NE SO RQ els ND H1 H2 H3 H4 H5 H6 H7.
  rewrite (els_joint ddt afs fs dlp h sh g ix req y (fun n => Fin (z n)) GA AC WS NE SO).
  - apply (sys_joint ddt fs dlp pdf g els z base rho J ps AC); auto.
    unfold els. assert (R : forall v, In v req -> v < length h) by (intros v I; exact (proj1 (RQ v I))). clear - SO ND R.
    induction ND as [|v l NI ND IH]; [constructor|]. cbn [flat_map].
    assert (Rl : forall w, In w l -> w < length h) by (intros; apply R; now right). specialize (IH Rl). assert (Lv : v < length h) by (apply R; now left).
    assert (D : forall m, NoDup m -> (forall i, In i m -> inside (sh v) i) -> NoDup (map (ix v) m ++ flat_map (elements_of sh ix) l)).
    { induction 1 as [|i m X M IHm]; intros S; [exact IH|]. cbn. constructor; [|apply IHm; intros; apply S; now right]. assert (Si : inside (sh v) i) by (apply S; now left).
      intros Q. apply in_app_or in Q as [Q|Q].
      - apply in_map_iff in Q as (j & Ej & Q). destruct (so_inj _ _ _ _ _ _ SO v v j i Lv Lv (S j (or_intror Q)) Si Ej) as [_ ->]. easy.
      - apply in_flat_map in Q as (w & W & Q). apply in_map_iff in Q as (j & Ej & Q). apply positions_in in Q.
        destruct (so_inj _ _ _ _ _ _ SO w v j i (Rl w W) Lv Q Si Ej) as [-> _]. easy. }
    apply D; [apply positions_nodup|]. intros i. apply positions_in.
  - intros v I. destruct (RQ v I) as (L & S & E). split; [exact L|]. split; [exact S|]. intros i Ii. now rewrite E.
Qed.
