(** The sampler of discrete Markov chains: /repo/aeppl/dists.py 128-209
    (create_discrete_mc_op).  Random draws are finite distributions, lists of
    probability and outcome. *)
From Coq Require Import Reals List Arith.
Import ListNotations.
Open Scope R_scope.

Definition dist A := list (R * A).
Definition dret {A} (a : A) : dist A := [(1, a)].
Definition dbind {A B} (d : dist A) (f : A -> dist B) : dist B :=
  flat_map (fun pa => map (fun qb => (fst pa * fst qb, snd qb)) (f (snd pa))) d.
(** [srng.categorical(p)] (dists.py:166-170 and 185): index [i] with probability [p[i]] *)
Definition categorical (p : list R) : dist nat := combine p (seq 0 (length p)).
(** The scan (dists.py:179-195): step [n] indexes [Gammas] with the previous
    state and draws the next one.  Simplification: one chain (size () and
    [gamma_0] one-dimensional), so the [ogrid] indexing is the row
    [Gammas[n, state]]. *)
Fixpoint loop (Gammas : list (list (list R))) (state : nat) : dist (list nat) :=
  match Gammas with
  | [] => dret []
  | G :: Gammas =>
      dbind (categorical (nth state G [])) (fun s =>
      dbind (loop Gammas s) (fun rest => dret (s :: rest)))
  end.
(** dists.py:166-170 draw the initial state from [gamma_0]; it is not part of
    the result (188-195, 203: the outputs of the scan are the states after it). *)
Definition discrete_markov_chain (Gammas : list (list (list R))) (gamma_0 : list R) : dist (list nat) :=
  dbind (categorical gamma_0) (fun s => loop Gammas s).
