(** Expressions over a censored variable, and what a derived log-probability
    may depend on. *)
From Coq Require Import Reals List.
From Coquelicot Require Import Coquelicot.
From Verif Require Import XR SpecCens ModelNest ModelGuard SpecOrder.
Import ListNotations.

(** [e] with [s i] in the place of variable [i] *)
Fixpoint plug (s : nat -> gexpr) (e : nexpr) : gexpr :=
  match e with
  | NRv i => s i
  | NCon c => GCon c
  | NOne u e => GOne u (plug s e)
  | NMany n es => GMany n (map (plug s) es)
  | NSub a b => GSub (plug s a) (plug s b)
  | NDiv a b => GDiv (plug s a) (plug s b)
  | NOther k es => GOther k (map (plug s) es)
  end.

(** the un-valued random variables occurring in an expression *)
Fixpoint goccs (e : gexpr) : list nat :=
  match e with
  | GRv i => [i] | GCon _ | GIn _ | GSelf => []
  | GOne _ e | GRound _ e => goccs e
  | GMany _ es | GOther _ es => flat_map goccs es
  | GSub a b | GDiv a b => goccs a ++ goccs b
  | GClip _ e lo hi => goccs e ++ goccs lo ++ goccs hi
  end.
(** those occurring in the bounds of a [clip] *)
Fixpoint boccs (e : gexpr) : list nat :=
  match e with
  | GRv _ | GCon _ | GIn _ | GSelf => []
  | GOne _ e | GRound _ e => boccs e
  | GMany _ es | GOther _ es => flat_map boccs es
  | GSub a b | GDiv a b => boccs a ++ boccs b
  | GClip _ e lo hi => boccs e ++ goccs lo ++ goccs hi
  end.

(** the bound of a clip given by the expression [e]: none ([inf]) when it is the
    clipped variable itself *)
Definition bound_is (fs : nat -> list xr -> xr) (rho : nat -> xr) (inf : Rbar) (e : gexpr) (a : Rbar) : Prop :=
  match e with GSelf => a = inf | _ => rbar (value fs rho e) = Some a end.
