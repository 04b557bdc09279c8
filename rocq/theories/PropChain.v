(** C46: discrete Markov chains. *)
From Coq Require Import Reals Lra Lia List Arith.
From Verif Require Import XR SpecDist ModelVec SpecScan LemScan ModelChain SpecChain LemChain.
Import ListNotations.
Open Scope R_scope.

(** The full claim, for matrices varying over time, is false (refuted below).
    For one matrix used at all times, the log-likelihood is that of the
    sampler. *)
Theorem C46_homogeneous_partial (M : nat) (G : list (list R)) (g0 : list R) (w : list nat) :
  square M G -> (forall row, In row G -> nonneg row) -> length g0 = M -> nonneg g0 -> w <> [] -> (forall s, In s w -> (s < M)%nat) ->
  exists out, discrete_mc_logp [G] g0 w = Val out /\ length out = length w /\
    denotes (Val (xsum out)) (mass (discrete_markov_chain (repeat G (length w)) g0) w).
Proof. exact (mc_homogeneous M G g0 w). Qed.
Print Assumptions C46_homogeneous_partial.
(** the sampler's probabilities, for matrices varying over time *)
Theorem C46_sampler (M : nat) (Gs : list (list (list R))) (g0 : list R) (w : list nat) :
  (forall G, In G Gs -> square M G) -> length g0 = M -> sequence M (length Gs) w ->
  mass (discrete_markov_chain Gs g0) w = chain_prob M (fun h => nth h g0 0) (ents Gs) w.
Proof. exact (mass_chain M Gs g0 w). Qed.
Print Assumptions C46_sampler.
(** what the log-likelihood is for matrices varying over time: after the first
    transition every matrix is used one step late, and the last one never *)
Theorem C46_late_partial (M : nat) (Gs : list (list (list R))) (g0 : list R) (w : list nat) :
  Gs <> [] -> (forall G, In G Gs -> square M G /\ forall row, In row G -> nonneg row) -> length g0 = M -> nonneg g0 -> sequence M (length Gs) w ->
  exists out, discrete_mc_logp Gs g0 w = Val out /\ length out = length w /\
    denotes (Val (xsum out)) (chain_prob M (fun h => nth h g0 0) (fun t a b => ents Gs (Nat.pred t) a b) w).
Proof. exact (mc_computes M Gs g0 w). Qed.
Print Assumptions C46_late_partial.
(** total probability one, of the log-likelihood and of the sampler *)
Theorem C46_total (M : nat) (Gs : list (list (list R))) (g0 : list R) (l : list (list nat)) (p : list nat -> R) :
  Gs <> [] -> (forall G, In G Gs -> stochastic M G) -> probs M g0 -> NoDup l -> (forall w, In w l <-> sequence M (length Gs) w) ->
  (forall w, In w l -> exists out, discrete_mc_logp Gs g0 w = Val out /\ denotes (Val (xsum out)) (p w)) ->
  rsum (map p l) = 1.
Proof. exact (mc_total M Gs g0 l p). Qed.
Print Assumptions C46_total.
Theorem C46_sampler_total (M : nat) (Gs : list (list (list R))) (g0 : list R) (l : list (list nat)) :
  (forall G, In G Gs -> stochastic M G) -> probs M g0 -> NoDup l -> (forall w, In w l <-> sequence M (length Gs) w) ->
  rsum (map (mass (discrete_markov_chain Gs g0)) l) = 1.
Proof. exact (sampler_total M Gs g0 l). Qed.
Print Assumptions C46_sampler_total.

(** identity first, then swap: the sequence 0, 0 cannot be drawn but has
    log-likelihood 0 *)
Definition keep : list (list R) := [[1; 0]; [0; 1]].
Definition swap : list (list R) := [[0; 1]; [1; 0]].
Lemma keep_swap : (forall G, In G [keep; swap] -> stochastic 2 G) /\ probs 2 [1; 0].
Proof.
  assert (P : probs 2 [1; 0] /\ probs 2 [0; 1]).
  { split; (split; [easy|]); (split; [|unfold rsum; cbn; ring]); intros x [<-|[<-|[]]]; lra. }
  split; [|apply P]. intros G [<-|[<-|[]]]; (split; [easy|]); intros row [<-|[<-|[]]]; apply P.
Qed.
(** a sequence that the time-varying chain cannot produce gets mass one *)
Theorem C46_time_varying_refuted : exists M Gs g0 w out, (forall G, In G Gs -> stochastic M G) /\ probs M g0 /\ sequence M (length Gs) w /\
  discrete_mc_logp Gs g0 w = Val out /\ denotes (Val (xsum out)) 1 /\ mass (discrete_markov_chain Gs g0) w = 0.
Proof.
  destruct keep_swap as [S P]. assert (W : sequence 2 (length [keep; swap]) [0; 0]%nat) by (split; [easy|]; intros s [<-|[<-|[]]]; lia).
  destruct (mc_computes 2 [keep; swap] [1; 0] [0; 0]%nat) as (out & E & _ & D); [easy|intros G I; apply stoch_square, S, I|apply P|apply P|exact W|].
  exists 2%nat, [keep; swap], [1; 0], [0; 0]%nat, out. repeat (split; [assumption|]). split.
  - assert (Q : chain_prob 2 (fun h => nth h [1; 0] 0) (shifted [keep; swap]) [0; 0]%nat = 1) by (unfold chain_prob, rsum; cbn; ring). rewrite Q in D. exact D.
  - rewrite (mass_chain 2); [unfold chain_prob, rsum; cbn; ring|intros G I; apply stoch_square, S, I|apply P|exact W].
Qed.
Print Assumptions C46_time_varying_refuted.

(** cases *)
Definition sticky : list (list R) := [[3 / 4; 1 / 4]; [1 / 2; 1 / 2]].
Example C46_case : square 2 sticky /\ (forall row, In row sticky -> nonneg row) /\ nonneg [1 / 2; 1 / 2] /\
  mass (discrete_markov_chain (repeat sticky 3) [1 / 2; 1 / 2]) [1; 0; 0]%nat = 9 / 64.
Proof.
  split; [split; [easy|]; intros row [<-|[<-|[]]]; easy|]. split; [intros row [<-|[<-|[]]] x [<-|[<-|[]]]; lra|]. split; [intros x [<-|[<-|[]]]; lra|].
  rewrite (mass_chain 2); [unfold chain_prob, rsum; cbn; field| |easy|].
  - intros G I. apply repeat_spec in I. subst. split; [easy|]; intros row [<-|[<-|[]]]; easy.
  - split; [easy|]. intros s [<-|[<-|[<-|[]]]]; lia.
Qed.
(** both of the totals' hypotheses: [keep_swap] gives the matrices, [words] the
    enumeration of the sequences *)
Example C46_total_case : rsum (map (mass (discrete_markov_chain [keep; swap] [1; 0])) (words 2 2)) = 1.
Proof. apply (C46_sampler_total 2); [apply keep_swap|apply keep_swap|apply words_nodup|apply words_in]. Qed.
