(** C64: switching processes and hidden Markov models. *)
From Coq Require Import Reals Lra Lia List Arith ZArith Bool.
From Verif Require Import XR SpecDist ModelDist LemDist LemSupp ModelVec ModelIdx SpecIdx ModelMix ModelChain SpecChain LemChain ModelSwitch LemSwitch.
Import ListNotations.
Open Scope nat_scope.

(** Components that are vectors of the length of the state sequence: element
    [t] has the log-probability of element [t] of component [w_t].  Missing:
    components with more axes (refuted below). *)
Theorem C64_vector_partial lp K N w value : 1 <= K -> length w = N -> (forall s, In s w -> s < K) ->
  exists f, switching_logprob lp K [N] (state_array w) value = Val ([N], f) /\ forall t, t < N -> f [t] = Some (lp (nth t w 0) [t] (value [t])).
Proof. exact (switching_vector lp K N w value). Qed.
Print Assumptions C64_vector_partial.
(** Scalar components. *)
Theorem C64_scalars lp K w value : 1 <= K -> (forall s, In s w -> s < K) ->
  exists f, switching_logprob lp K [] (state_array w) value = Val ([length w], f) /\ forall t, t < length w -> f [t] = Some (lp (nth t w 0) [] (value [t])).
Proof. exact (switching_scalars lp K w value). Qed.
Print Assumptions C64_scalars.
(** A hidden Markov model with one transition matrix: the joint log-probability
    denotes the probability of the state sequence under the sampler times the
    product of the emission densities.  Matrices varying over time: below
    (see C46). *)
Theorem C64_hmm_partial M G g0 lp (pdf : nat -> nat -> R -> R) w (y : nat -> R) junk csh :
  square M G -> (forall row, In row G -> nonneg row) -> length g0 = M -> nonneg g0 -> w <> [] -> (forall s, In s w -> s < M) ->
  csh = [] \/ csh = [length w] ->
  (forall t, t < length w -> denotes (lp (nth t w 0) (match csh with [] => [] | _ => [t] end) (Fin (y t))) (pdf (nth t w 0) t (y t))) ->
  denotes (hmm_joint [G] g0 lp M csh w (fun t => Fin (y t)) junk)
    (mass (discrete_markov_chain (repeat G (length w)) g0) w * SpecScan.prod (map (fun t => pdf (nth t w 0) t (y t)) (seq 0 (length w)))).
Proof. exact (hmm_ok M G g0 lp pdf w y junk csh). Qed.
Print Assumptions C64_hmm_partial.

(** Matrices varying over time: the chain is scored as in C46_late_partial,
    every matrix after the first transition one step late. *)
Theorem C64_hmm_late_partial M Gs g0 lp (pdf : nat -> nat -> R -> R) w (y : nat -> R) junk csh :
  Gs <> [] -> (forall G, In G Gs -> square M G /\ forall row, In row G -> nonneg row) -> length g0 = M -> nonneg g0 -> sequence M (length Gs) w ->
  csh = [] \/ csh = [length w] ->
  (forall t, t < length w -> denotes (lp (nth t w 0) (match csh with [] => [] | _ => [t] end) (Fin (y t))) (pdf (nth t w 0) t (y t))) ->
  denotes (hmm_joint Gs g0 lp M csh w (fun t => Fin (y t)) junk)
    (chain_prob M (fun h => nth h g0 0%R) (fun t a b => ents Gs (Nat.pred t) a b) w * SpecScan.prod (map (fun t => pdf (nth t w 0) t (y t)) (seq 0 (length w)))).
Proof. exact (hmm_late M Gs g0 lp pdf w y junk csh). Qed.
Print Assumptions C64_hmm_late_partial.

(** two states, normal emissions with means 0 and 5 *)
Definition sticky : list (list R) := [[3 / 4; 1 / 4]; [1 / 2; 1 / 2]]%R.
Definition emission (k : nat) (_ : list nat) (v : xr) : res xr := normal_logprob (Fin (INR (5 * k))) (Fin 1) v.
Example C64_hmm_ex : forall (y : nat -> R) junk,
  denotes (hmm_joint [sticky] [1 / 2; 1 / 2]%R emission 2 [3] [1; 0; 0] (fun t => Fin (y t)) junk)
    (mass (discrete_markov_chain (repeat sticky 3) [1 / 2; 1 / 2]%R) [1; 0; 0] * SpecScan.prod (map (fun t => normal_pdf (INR (5 * nth t [1; 0; 0] 0)) 1 (y t)) (seq 0 3))).
Proof.
  intros y junk. apply (C64_hmm_partial 2 sticky [1 / 2; 1 / 2]%R emission (fun k _ x => normal_pdf (INR (5 * k)) 1 x) [1; 0; 0] y junk [3]).
  - split; [easy|]. intros row [<-|[<-|[]]]; easy.
  - intros row [<-|[<-|[]]] x [<-|[<-|[]]]; lra.
  - reflexivity.
  - intros x [<-|[<-|[]]]; lra.
  - discriminate.
  - intros s [<-|[<-|[<-|[]]]]; lia.
  - right. reflexivity.
  - intros t Ht. apply normal_ok. lra.
Qed.
Example C64_scalars_ex : exists f, switching_logprob emission 2 [] (state_array [1; 0; 1]) (fun i => Fin (INR (hd 0 i))) = Val ([3], f) /\
  f [2] = Some (normal_logprob (Fin (INR 5)) (Fin 1) (Fin (INR 2))).
Proof.
  destruct (C64_scalars emission 2 [1; 0; 1] (fun i => Fin (INR (hd 0 i))) ltac:(lia)) as (f & E & F); [intros s [<-|[<-|[<-|[]]]]; lia|].
  exists f. split; [exact E|]. rewrite (F 2) by (cbn; lia). reflexivity.
Qed.

(** The documentation promises the selection "along all the other axes".  For
    2x2 components and 2x2 states the index ranges are paired: element (0, 1)
    is scored as element (1, 1) of the component (dists.py:97). *)
Theorem C64_axes_refuted : exists lp K csh states value o f, shp states = csh /\ inside csh o /\ (forall i, inside csh i -> 0 <= get states i < Z.of_nat K)%Z /\
  switching_logprob lp K csh states value = Val (csh, f) /\ f o <> Some (lp (Z.to_nat (get states o)) o (value o)).
Proof.
  exists (fun k c v => match c with [1; 1] => Val (Fin 1) | _ => Val (Fin 0) end), 1, [2; 2], {| shp := [2; 2]; get := fun _ => 0%Z |}, (fun _ => Fin 0), [0; 1].
  eexists. split; [reflexivity|]. split; [repeat constructor|]. split; [intros; cbn; lia|]. split; [reflexivity|]. cbn. intros [= H]. lra.
Qed.
Print Assumptions C64_axes_refuted.
(** With 2x3 components and 2x3 states an exception is raised. *)
Theorem C64_rectangular_refuted : exists csh states, shp states = csh /\ forall lp value, switching_logprob lp 1 csh states value = Raise.
Proof. exists [2; 3], {| shp := [2; 3]; get := fun _ => 0%Z |}. split; [reflexivity|]. intros. reflexivity. Qed.
Print Assumptions C64_rectangular_refuted.

(** Identity first, then swap: states 0, 0 cannot be drawn, but the joint
    log-probability of them and any series denotes a positive density. *)
Definition hmm_keep : list (list R) := [[1; 0]; [0; 1]]%R.
Definition hmm_swap : list (list R) := [[0; 1]; [1; 0]]%R.
Lemma hmm_keep_swap : (forall G, In G [hmm_keep; hmm_swap] -> square 2 G /\ forall row, In row G -> nonneg row) /\ nonneg [1; 0]%R.
Proof.
  assert (P : nonneg [1; 0]%R /\ nonneg [0; 1]%R) by (split; intros x [<-|[<-|[]]]; lra). split; [|apply P].
  intros G [<-|[<-|[]]]; (split; [split; [easy|]; intros row [<-|[<-|[]]]; easy|]); intros row [<-|[<-|[]]]; apply P.
Qed.
(** a series of states that cannot be drawn gets the density of its emissions *)
Theorem C64_hmm_varying_refuted : exists Gs g0 w, sequence 2 (length Gs) w /\ mass (discrete_markov_chain Gs g0) w = 0%R /\
  forall (y : nat -> R) junk, exists p, (0 < p)%R /\ denotes (hmm_joint Gs g0 emission 2 [] w (fun t => Fin (y t)) junk) p.
Proof.
  destruct hmm_keep_swap as [S P]. exists [hmm_keep; hmm_swap], [1; 0]%R, [0; 0].
  assert (W : sequence 2 (length [hmm_keep; hmm_swap]) [0; 0]) by (split; [easy|]; intros s [<-|[<-|[]]]; lia).
  split; [exact W|]. split.
  - rewrite (mass_chain 2); [unfold chain_prob, rsum; cbn; ring|intros G I; apply S, I|reflexivity|exact W].
  - intros y junk. eexists. split; [|refine (C64_hmm_late_partial 2 [hmm_keep; hmm_swap] [1; 0]%R emission (fun k _ x => normal_pdf (INR (5 * k)) 1 x) [0; 0] y junk [] _ S eq_refl P W (or_introl eq_refl) _); [discriminate|intros t Ht; apply normal_ok; lra]].
    replace (chain_prob _ _ _ _) with 1%R by (unfold chain_prob, rsum; cbn; ring). cbn [length seq map SpecScan.prod].
    assert (N : forall m x, (0 < normal_pdf m 1 x)%R).
    { intros m x. unfold normal_pdf. apply Rmult_lt_0_compat; [apply Rinv_0_lt_compat, Rmult_lt_0_compat; [lra|apply sqrt_lt_R0; pose proof PI_RGT_0; lra]|apply exp_pos]. }
    unfold SpecScan.prod. cbn [fold_right]. cbv beta. apply Rmult_lt_0_compat; [lra|]. apply Rmult_lt_0_compat; [apply N|]. apply Rmult_lt_0_compat; [apply N|lra].
Qed.
Print Assumptions C64_hmm_varying_refuted.
