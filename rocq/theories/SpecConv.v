(** Specification for C42: laws of sums and differences of independent variables. *)
From Coq Require Import Reals List.
From Coquelicot Require Import Coquelicot.
From Verif Require Import XR ModelTen ModelConv.
Import ListNotations.
Open Scope R_scope.

(** integral over the real line *)
Definition integral (f : R -> R) (l : R) : Prop := is_RInt_gen f (Rbar_locally m_infty) (Rbar_locally p_infty) l.
(** [h] is the density of the sum of independent variables with the given densities *)
Inductive sum_law : list (R -> R) -> (R -> R) -> Prop :=
| sl_one : forall f, sum_law [f] f
| sl_cons : forall f fs g h, sum_law fs g -> (forall x, integral (fun t => f t * g (x - t)) (h x)) -> sum_law (f :: fs) h.
(** [h] is the density of the difference *)
Definition difference_law (f g h : R -> R) : Prop := forall x, integral (fun t => f (x + t) * g t) (h x).
(** density at (a, b) of (X0 + Y, X1 + Y) for independent X0, X1, Y *)
Definition shared_term_density (f0 f1 g : R -> R) (a b d : R) : Prop := integral (fun y => f0 (a - y) * f1 (b - y) * g y) d.
Definition rsum (l : list R) : R := fold_right Rplus 0 l.
(** the element at [i] of a variable has finite parameters, with positive
    standard deviation *)
Definition has_params (v : nrv) (i : list nat) (p : R * R) : Prop := mu_at v i = Fin (fst p) /\ sigma_at v i = Fin (snd p) /\ 0 < snd p.
(** [i] has at least as many coordinates as the parameters *)
Definition in_range (w : nrv) (i : list nat) : Prop := (length (nshp (n_mu w)) <= length i)%nat /\ (length (nshp (n_sigma w)) <= length i)%nat.
