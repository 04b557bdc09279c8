(** Specification for C05, C06 (categorical) and C52 (multinomial, Dirichlet):
    the textbook mass and density functions, for any number of categories. *)
From Coq Require Import Reals List ZArith.
From Verif Require Import Special.
Import ListNotations.
Open Scope R_scope.

Definition rprod (l : list R) : R := fold_right Rmult 1 l.
Definition rtotal (l : list R) : R := fold_right Rplus 0 l.

(** probability vectors: non-negative, total one *)
Definition prob_vector (p : list R) : Prop := List.Forall (fun q => 0 <= q) p /\ rtotal p = 1.
(** unnormalised weights, as the categorical family takes them *)
Definition weights (w : list R) : Prop := List.Forall (fun q => 0 <= q) w /\ 0 < rtotal w.

(** n! / (k_1! ... k_m!) p_1^k_1 ... p_m^k_m when the counts total n, otherwise 0 *)
Definition multinomial_pmf (n : nat) (p : list R) (k : list nat) : R :=
  if (list_sum k =? n)%nat
  then INR (fact n) / rprod (map (fun j => INR (fact j)) k)
       * rprod (map (fun pk => fst pk ^ snd pk) (combine p k))
  else 0.
(** [l] lists every vector of [m] counts totalling [n], once *)
Definition count_vectors (m n : nat) (l : list (list nat)) : Prop :=
  NoDup l /\ forall k, In k l <-> length k = m /\ list_sum k = n.

(** Gamma(sum alpha) / prod Gamma(alpha_i) * prod x_i^(alpha_i - 1) *)
Definition dirichlet_pdf (alpha x : list R) : R :=
  Gam (rtotal alpha) / rprod (map Gam alpha)
  * rprod (map (fun ax => Rpower (snd ax) (fst ax - 1)) (combine alpha x)).
