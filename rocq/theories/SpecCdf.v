(** Distribution functions and quantiles, from the textbook densities and masses. *)
From Coq Require Import Reals Lra Lia ZArith List Bool.
From Coquelicot Require Import Coquelicot.
From Verif Require Import XR Special LemInt SpecDist.
Open Scope R_scope.

(** [v] is the integral of the density [f] from [lo] up to [x]. *)
Definition is_cdf_at (f : R -> R) (lo : Rbar) (x v : R) : Prop :=
  is_RInt_gen f (Fr lo) (Fl x) v.
(** Partial sums of masses: sum of [f j] over naturals [j <= x] (0 if x < 0). *)
Definition mass_upto (f : nat -> R) (x : R) : R :=
  if Rle_dec 0 x then sum_f_R0 f (Z.to_nat (Int_part x)) else 0.
(** [k] is the least integer point whose distribution function reaches [q]. *)
Definition least_quantile (f : nat -> R) (q : R) (k : nat) : Prop :=
  q <= mass_upto f (INR k) /\ forall j : nat, q <= mass_upto f (INR j) -> (k <= j)%nat.
