(** Lemmas for C64. *)
From Coq Require Import Reals Lra Lia List Arith ZArith Bool.
From Verif Require Import XR ModelVec ModelIdx SpecIdx LemIdx LemIdx2 ModelMix SpecMix LemMix SpecDist LemJoint LemScan SpecScan ModelChain SpecChain LemChain ModelSwitch.
Import ListNotations.
Open Scope nat_scope.

Lemma aligned1 N t : t < N -> aligned [N] [t] [t].
Proof.
  intros H. split; [easy|]. intros [|r] Hr; cbn in *; [|lia]. destruct (Nat.eqb_spec N 1); [lia|easy].
Qed.
Lemma bcast1 N l : l <> [] -> (forall sh, In sh l -> sh = [N]) -> is_broadcast l [N].
Proof.
  intros NE H. split; [intros sh I; now rewrite (H sh I)|]. split; [right; destruct l as [|a l]; [easy|exists a; split; [left; easy|now rewrite (H a (or_introl eq_refl))]]|].
  intros [|r] Hr; cbn in Hr; [|lia]. split; [intros sh I; rewrite (H sh I); auto|]. right. destruct l as [|a l]; [easy|]. exists a. split; [left; easy|now rewrite (H a (or_introl eq_refl))].
Qed.
Lemma sep_none (ix : list index) : (forall i, In i ix -> advanced i) -> ~ separated ix.
Proof.
  intros H (l1 & a & l2 & b & l3 & c & l4 & E & _ & B & _). assert (In b ix) by (rewrite E; rewrite in_app_iff; right; right; rewrite in_app_iff; right; left; easy).
  apply H in H0. destruct b; easy.
Qed.
Lemma placed_adv {A} (ix : list index) (o : list A) : ix <> [] -> (forall i, In i ix -> advanced i) -> placed ix o [] o.
Proof.
  intros NE H. split; [intros S; destruct (sep_none ix H S)|]. intros _. exists 0. split.
  - exists [], ix. split; [easy|]. split; [constructor|]. split; [easy|]. destruct ix as [|a ix]; [easy|]. apply H. left. easy.
  - cbn. now rewrite app_nil_r.
Qed.
Lemma switching_vector lp K N w value : 1 <= K -> length w = N -> (forall s, In s w -> s < K) ->
  exists f, switching_logprob lp K [N] (state_array w) value = Val ([N], f) /\ forall t, t < N -> f [t] = Some (lp (nth t w 0) [t] (value [t])).
Proof.
  intros HK HN HW. unfold switching_logprob. set (ix := switching_indices (state_array w) [N]).
  assert (ADV : forall i, In i ix -> advanced i) by (intros i [<-|[<-|[]]]; exact I).
  assert (CP : completes ix [K; N] ix) by (apply cp_use; [easy|]; apply cp_use; [easy|]; exact (cp_done [])).
  assert (SH : np_shape ix [K; N] [N]).
  { exists ix, [N], []. split; [exact CP|]. split; [|split].
    - apply bcast1; [easy|]. intros sh [<-|[<-|[]]]; cbn; [now rewrite HN|easy].
    - repeat constructor.
    - apply placed_adv; [easy|exact ADV]. }
  assert (PS : positive_steps (LemMix.entries (map EInput ix))) by (repeat constructor).
  assert (FN : first_axis_nonneg (LemMix.entries (map EInput ix))) by (intros c _; cbn; lia).
  assert (M : forall t, t < N -> mixture_spec lp K 0 [N] (LemMix.entries (map EInput ix)) [t] (value [t]) (lp (nth t w 0) [t] (value [t]))).
  { intros t Ht. exists [K; N], [nth t w 0; t], (nth t w 0), [t]. split; [|split; [|split; [|reflexivity]]].
    - split; [easy|]. split; [easy|]. intros [|[|k]]; cbn; now rewrite ?nth_error_nil.
    - exists ix, [N], [t], []. split; [exact CP|]. split; [|split; [easy|split]].
      + apply bcast1; [easy|]. intros sh [<-|[<-|[]]]; cbn; [now rewrite HN|easy].
      + apply placed_adv; [easy|exact ADV].
      + apply pk_arr with (c := [t]); [cbn; rewrite HN; apply aligned1, Ht| |].
        * cbn. split; [|left; easy]. apply HW, nth_In. lia.
        * apply pk_arr with (c := [t]); [apply aligned1, Ht|cbn; split; [exact Ht|left; easy]|constructor].
    - split; [easy|]. split; [easy|]. intros [|[|k]]; cbn; now rewrite ?nth_error_nil. }
  destruct N as [|N'].
  - assert (IN : exists f, mixture_array (JJoin 0) (mixing_indices false (map EInput ix)) (map (fun m => expand_dims 0 {| cshp := [0]; clp := lp m |}) (seq 0 K)) value = Val ([0], f)).
    { destruct w; [|easy]. destruct K as [|K]; [lia|]. eexists. reflexivity. }
    destruct IN as (f & E). exists f. split; [exact E|lia].
  - set (N := S N') in *. pose proof (fun t (Ht : t < N) => node_join_ok lp K [N] false (map EInput ix) [N] value [t] (lp (nth t w 0) [t] (value [t])) HK ltac:(easy) PS I FN SH (Forall2_cons _ _ Ht (Forall2_nil _)) (M t Ht)) as Q.
    destruct (Q 0 ltac:(unfold N; lia)) as (f & E & _). exists f. split; [exact E|]. intros t Ht. destruct (Q t Ht) as (f' & E' & R). congruence.
Qed.
Lemma switching_scalars lp K w value : 1 <= K -> (forall s, In s w -> s < K) ->
  exists f, switching_logprob lp K [] (state_array w) value = Val ([length w], f) /\ forall t, t < length w -> f [t] = Some (lp (nth t w 0) [] (value [t])).
Proof.
  intros HK HW. unfold switching_logprob. set (ix := switching_indices (state_array w) []). set (N := length w).
  assert (ADV : forall i, In i ix -> advanced i) by (intros i [<-|[]]; exact I).
  assert (CP : completes ix [K] ix) by (apply cp_use; [easy|]; exact (cp_done [])).
  assert (SH : np_shape ix [K] [N]).
  { exists ix, [N], []. split; [exact CP|]. split; [|split].
    - apply bcast1; [easy|]. intros sh [<-|[]]; reflexivity.
    - repeat constructor.
    - apply placed_adv; [easy|exact ADV]. }
  assert (PS : positive_steps (LemMix.entries (map EInput ix))) by (repeat constructor).
  assert (FN : first_axis_nonneg (LemMix.entries (map EInput ix))) by (intros c _; cbn; lia).
  assert (M : forall t, t < N -> mixture_spec lp K 0 [] (LemMix.entries (map EInput ix)) [t] (value [t]) (lp (nth t w 0) [] (value [t]))).
  { intros t Ht. exists [K], [nth t w 0], (nth t w 0), []. split; [|split; [|split; [|reflexivity]]].
    - split; [easy|]. split; [easy|]. intros [|k]; cbn; now rewrite ?nth_error_nil.
    - exists ix, [N], [t], []. split; [exact CP|]. split; [|split; [easy|split]].
      + apply bcast1; [easy|]. intros sh [<-|[]]; reflexivity.
      + apply placed_adv; [easy|exact ADV].
      + apply pk_arr with (c := [t]); [apply aligned1, Ht| |constructor].
        cbn. split; [|left; easy]. apply HW, nth_In. exact Ht.
    - split; [easy|]. split; [easy|]. intros [|k]; cbn; now rewrite ?nth_error_nil. }
  destruct w as [|s0 w'].
  - destruct K as [|K]; [lia|]. eexists. split; [reflexivity|]. cbn. lia.
  - set (w := s0 :: w') in *. pose proof (fun t (Ht : t < N) => node_vector_ok lp K false (map EInput ix) [N] value [t] (lp (nth t w 0) [] (value [t])) HK ltac:(easy) PS FN SH (Forall2_cons _ _ Ht (Forall2_nil _)) (M t Ht)) as Q.
    destruct (Q 0 ltac:(unfold N, w; cbn; lia)) as (f & E & _). exists f. split; [exact E|]. intros t Ht. destruct (Q t Ht) as (f' & E' & R). congruence.
Qed.
Lemma hmm_factor M Gs g0 lp (pdf : nat -> nat -> R -> R) w (y : nat -> R) junk csh out c :
  discrete_mc_logp Gs g0 w = Val out -> denotes (Val (xsum out)) c -> w <> [] -> (forall s, In s w -> s < M) ->
  csh = [] \/ csh = [length w] ->
  (forall t, t < length w -> denotes (lp (nth t w 0) (match csh with [] => [] | _ => [t] end) (Fin (y t))) (pdf (nth t w 0) t (y t))) ->
  denotes (hmm_joint Gs g0 lp M csh w (fun t => Fin (y t)) junk)
    (c * SpecScan.prod (map (fun t => pdf (nth t w 0) t (y t)) (seq 0 (length w)))).
Proof.
  intros EO D NE HW HC HD. unfold hmm_joint. rewrite EO. cbn [bind].
  assert (HM : 1 <= M). { destruct w as [|s w]; [easy|]. specialize (HW s (or_introl eq_refl)). lia. }
  assert (Q : exists f, switching_logprob lp M csh (state_array w) (fun i => Fin (y (hd 0 i))) = Val ([length w], f) /\
    forall t, t < length w -> f [t] = Some (lp (nth t w 0) (match csh with [] => [] | _ => [t] end) (Fin (y t)))).
  { destruct HC as [-> | ->]; [apply switching_scalars|apply switching_vector]; auto. }
  destruct Q as (f & -> & F). cbn [bind snd].
  set (g := fun t => match lp (nth t w 0) (match csh with [] => [] | _ => [t] end) (Fin (y t)) with Val x => x | Raise => NaN end).
  assert (G1 : forall t, t < length w -> lp (nth t w 0) (match csh with [] => [] | _ => [t] end) (Fin (y t)) = Val (g t)).
  { intros t Ht. specialize (HD t Ht). unfold g. destruct (lp _ _ _); [easy|destruct HD]. }
  rewrite (rseq_map _ g). 2:{ intros t I. apply in_seq in I. rewrite F by lia. apply G1. lia. }
  cbn [bind].
  assert (D2 : denotes (Val (xsum (map g (seq 0 (length w))))) (SpecScan.prod (map (fun t => pdf (nth t w 0) t (y t)) (seq 0 (length w))))).
  { apply xsum_denotes, Forall2_map. intros t I. apply in_seq in I. rewrite <- G1 by lia. apply HD. lia. }
  revert D D2. generalize (xsum out), (xsum (map g (seq 0 (length w)))). generalize c, (SpecScan.prod (map (fun t => pdf (nth t w 0) t (y t)) (seq 0 (length w)))).
  intros p q [a| | |] [b| | |]; cbn; try easy; intros E1 E2; rewrite <- ?E1, <- ?E2, ?exp_plus; rewrite ?E1, ?E2; try easy; ring.
Qed.
Lemma hmm_ok M G g0 lp (pdf : nat -> nat -> R -> R) w (y : nat -> R) junk csh :
  square M G -> (forall row, In row G -> nonneg row) -> length g0 = M -> nonneg g0 -> w <> [] -> (forall s, In s w -> s < M) ->
  csh = [] \/ csh = [length w] ->
  (forall t, t < length w -> denotes (lp (nth t w 0) (match csh with [] => [] | _ => [t] end) (Fin (y t))) (pdf (nth t w 0) t (y t))) ->
  denotes (hmm_joint [G] g0 lp M csh w (fun t => Fin (y t)) junk)
    (mass (discrete_markov_chain (repeat G (length w)) g0) w * SpecScan.prod (map (fun t => pdf (nth t w 0) t (y t)) (seq 0 (length w)))).
Proof.
  intros SQ NN LG NG NE HW HC HD. destruct (mc_homogeneous M G g0 w SQ NN LG NG NE HW) as (out & E & _ & D). now apply (hmm_factor M [G] g0 lp pdf w y junk csh out).
Qed.
Lemma hmm_late M Gs g0 lp (pdf : nat -> nat -> R -> R) w (y : nat -> R) junk csh :
  Gs <> [] -> (forall G, In G Gs -> square M G /\ forall row, In row G -> nonneg row) -> length g0 = M -> nonneg g0 -> sequence M (length Gs) w ->
  csh = [] \/ csh = [length w] ->
  (forall t, t < length w -> denotes (lp (nth t w 0) (match csh with [] => [] | _ => [t] end) (Fin (y t))) (pdf (nth t w 0) t (y t))) ->
  denotes (hmm_joint Gs g0 lp M csh w (fun t => Fin (y t)) junk)
    (chain_prob M (fun h => nth h g0 0%R) (fun t a b => ents Gs (Nat.pred t) a b) w * SpecScan.prod (map (fun t => pdf (nth t w 0) t (y t)) (seq 0 (length w)))).
Proof.
  intros NE SQ LG NG SW HC HD. destruct (mc_computes M Gs g0 w NE SQ LG NG SW) as (out & E & _ & D). destruct SW as [SL SM].
  apply (hmm_factor M Gs g0 lp pdf w y junk csh out); auto. intros ->. destruct Gs; [now apply NE|discriminate SL].
Qed.
