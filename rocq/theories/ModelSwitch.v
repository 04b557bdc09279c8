(** Switching processes: /repo/aeppl/dists.py 71-99 (switching_process), scored
    by /repo/aeppl/mixture.py 350-409 (logprob_MixtureRV), with the states of a
    discrete Markov chain (/repo/aeppl/logprob.py, discrete_mc_logp). *)
From Coq Require Import Reals List Arith ZArith Bool.
From Verif Require Import XR ModelVec ModelIdx ModelMix.
Import ListNotations.
Open Scope nat_scope.

(** [at.arange(d)], dists.py:97 *)
Definition arange_to (d : nat) : arr := {| shp := [d]; get := fun i => Z.of_nat (hd 0 i) |}.
(** dists.py:97: the index tuple for components of shape [csh] *)
Definition switching_indices (states : arr) (csh : list nat) : list index :=
  IArr states :: map (fun d => IArr (arange_to d)) csh.
(** dists.py:94-98.  [at.stack] of scalars is a MakeVector, of arrays a Join of
    the components with a new first axis.  Simplification: the components have
    one shape, so that [at.broadcast_arrays] (95) leaves them as they are (a
    component that has to be broadcast is no measurable variable any more). *)
Definition switching_logprob (lp : nat -> list nat -> xr -> res xr) (K : nat) (csh : list nat) (states : arr) (value : list nat -> xr) :
    res (list nat * (list nat -> option (res xr))) :=
  let ix := mixing_indices false (map EInput (switching_indices states csh)) in
  match csh with
  | [] => mixture_array JVector ix (map (fun m => {| cshp := []; clp := lp m |}) (seq 0 K)) value
  | _ => mixture_array (JJoin 0) ix (map (fun m => expand_dims 0 {| cshp := csh; clp := lp m |}) (seq 0 K)) value
  end.
(** a state sequence as an array *)
Definition state_array (w : list nat) : arr := {| shp := [length w]; get := fun i => Z.of_nat (nth (hd 0 i) w 0) |}.
(** The joint log-probability of a state sequence from a Markov chain and of
    the series it switches (joint_logprob.py:315-327: every factor is summed).
    [junk]: the uninitialised memory of mixture.py:379. *)
Definition hmm_joint (Gammas : list (list (list R))) (gamma_0 : list R) (lp : nat -> list nat -> xr -> res xr) (K : nat) (csh : list nat)
    (w : list nat) (y : nat -> xr) (junk : nat -> xr) : res xr :=
  bind (discrete_mc_logp Gammas gamma_0 w) (fun ls =>
  bind (switching_logprob lp K csh (state_array w) (fun i => y (hd 0 i))) (fun sf =>
  bind (rseq (map (fun t => match snd sf [t] with Some r => r | None => Val (junk t) end) (seq 0 (length w)))) (fun ms =>
  Val (xadd (xsum ls) (xsum ms))))).
