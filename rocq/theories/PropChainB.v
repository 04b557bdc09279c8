(** C77: batches of discrete Markov chains. *)
From Coq Require Import Reals Lra Lia List Arith Bool.
From Verif Require Import XR ModelVec ModelTen ModelSub ModelChainB SpecIdx SpecVec SpecChain SpecChainB LemIdx LemSub LemUtil LemBatch LemChainB.
Import ListNotations.
Open Scope R_scope.

(** the sampler draws independent chains, one for every position of the batch
    and of [size], each with its own matrices and initial probabilities *)
Theorem C77_law (M N : nat) (gb hb b size : list nat) (Gammas gamma_0 : nd R) (G : list nat -> nat -> nat -> nat -> R) (g : list nat -> nat -> R)
    (w : list nat -> nat) (l lp : list (list nat)) :
  nshp Gammas = (gb ++ [N; M; M])%list -> nshp gamma_0 = (hb ++ [M])%list -> is_broadcast [gb; hb] b ->
  (forall p c t a k, inside (size ++ b) p -> aligned gb p c -> (t < N)%nat -> (a < M)%nat -> (k < M)%nat -> G p t a k = nelt Gammas (c ++ [t; a; k])) ->
  (forall p c h, inside (size ++ b) p -> aligned hb p c -> (h < M)%nat -> g p h = nelt gamma_0 (c ++ [h])) ->
  enumerates l ((size ++ b) ++ [N]) -> enumerates lp (size ++ b) -> (forall i, inside ((size ++ b) ++ [N]) i -> (w i < M)%nat) ->
  exists d, discrete_markov_chain_nd size Gammas gamma_0 = Val d /\ (forall pa, In pa d -> nshp (snd pa) = ((size ++ b) ++ [N])%list) /\
    array_prob l d w = rprod (map (fun p => chain_prob M (g p) (G p) (series w N p)) lp).
Proof. exact (batch_chain M N gb hb b size Gammas gamma_0 G g w l lp). Qed.
Print Assumptions C77_law.
(** arguments that are refused *)
Theorem C77_raises (size : list nat) (Gammas gamma_0 : nd R) :
  (length (nshp Gammas) < 3)%nat \/ nshp gamma_0 = [] \/
  (exists gb hb t h, nshp Gammas = (gb ++ t)%list /\ length t = 3%nat /\ nshp gamma_0 = (hb ++ [h])%list /\ forall b, ~ is_broadcast [gb; hb] b) ->
  discrete_markov_chain_nd size Gammas gamma_0 = Raise.
Proof. exact (batch_raises size Gammas gamma_0). Qed.
Print Assumptions C77_raises.

(** Two chains of two steps, the first staying, the second swapping, started in
    state 0, drawn three times each: all six series are certain. *)
Definition two_Gammas : nd R :=
  {| nshp := [2; 2; 2; 2]%nat;
     nelt := fun i => if ((nth 2 i 0 + nth 0 i 0) mod 2 =? nth 3 i 0)%nat then 1 else 0 |}.
Definition one_start : nd R := {| nshp := [2%nat]; nelt := fun i => if (nth 0 i 0 =? 0)%nat then 1 else 0 |}.
Definition certain (i : list nat) : nat := if ((nth 1 i 0 =? 1) && (nth 2 i 0 =? 0))%nat then 1%nat else 0%nat.
Example C77_law_ex : exists d, discrete_markov_chain_nd [3%nat] two_Gammas one_start = Val d /\
  array_prob (positions [3; 2; 2]%nat) d certain = 1.
Proof.
  assert (B : is_broadcast [[2%nat]; []] [2%nat]) by (apply bcast_all_spec; reflexivity).
  destruct (C77_law 2 2 [2%nat] [] [2%nat] [3%nat] two_Gammas one_start
    (fun p t a k => if ((a + nth 1 p 0) mod 2 =? k)%nat then 1 else 0) (fun _ h => if (h =? 0)%nat then 1 else 0) certain (positions [3; 2; 2]%nat) (positions [3; 2]%nat)) as (d & E & _ & Q);
    try reflexivity.
  - exact B.
  - intros p c t a k I A T Ha Hk. cbn [app] in I. inversion I as [|x ? p' ? X I']; subst. inversion I' as [|y ? p'' ? Y I'']; subst. inversion I''; subst.
    destruct A as [A1 A2]. destruct c as [|c0 [|]]; try discriminate A1. specialize (A2 0%nat (le_n 1)). cbn in A2. subst c0. reflexivity.
  - intros p c h I [A _] H. destruct c; [reflexivity|discriminate A].
  - split; [apply positions_nodup|apply positions_in].
  - split; [apply positions_nodup|apply positions_in].
  - intros i _. unfold certain. destruct (_ && _); lia.
  - exists d. split; [exact E|]. rewrite Q. unfold chain_prob, rsum, rprod. cbn. ring.
Qed.
