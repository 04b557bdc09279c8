(** Textbook maps behind the transforms: a bijection between a constrained
    and an unconstrained set of reals.  The methods of [ModelTrans.v] are not
    used here, only its syntax [tr] (which transform is meant). *)
From Coq Require Import Reals List.
From Coquelicot Require Import Coquelicot.
From Verif Require Import XR ModelTrans SpecDist.
Import ListNotations.
Open Scope R_scope.

(** the real map [x |-> y] *)
Fixpoint tfun (t : tr) (x : R) : R :=
  match t with
  | TLoc (Fin c) => x + c
  | TScale (Fin c) => x * c
  | TLog => ln x
  | TExp => exp x
  | TRecip => / x
  | TInterval (Some (Fin a)) (Some (Fin b)) => ln ((x - a) / (b - x))
  | TInterval (Some (Fin a)) None => ln (x - a)
  | TInterval None (Some (Fin b)) => ln (b - x)
  | TLogOdds => ln (x / (1 - x))
  | TChain l => (fix go l x := match l with [] => x | t :: l => go l (tfun t x) end) l x
  | _ => x
  end.
(** where it is defined (the constrained space), and that the transform's
    arguments are admissible *)
Fixpoint tdom (t : tr) (x : R) : Prop :=
  match t with
  | TLoc (Fin _) => True
  | TScale (Fin c) => c <> 0
  | TLog => 0 < x
  | TExp => True
  | TRecip => x <> 0
  | TInterval (Some (Fin a)) (Some (Fin b)) => a < x < b
  | TInterval (Some (Fin a)) None => a < x
  | TInterval None (Some (Fin b)) => x < b
  | TLogOdds => 0 < x < 1
  | TCircular => - PI < x < PI
  | TChain l => (fix go l x := match l with [] => True | t :: l => tdom t x /\ go l (tfun t x) end) l x
  | _ => False
  end.
(** [tmaps t x y]: [x] is in the domain and [y] is its image.  The
    unconstrained space of [t] is the set of such [y]. *)
Definition tmaps (t : tr) (x y : R) : Prop := tdom t x /\ tfun t x = y.
Definition tran (t : tr) (y : R) : Prop := exists x, tmaps t x y.
(** a reciprocal is only met at positive points; chains: at every stage *)
Fixpoint tpos (t : tr) (x : R) : Prop :=
  match t with
  | TRecip => 0 < x
  | TChain l => (fix go l x := match l with [] => True | t :: l => tpos t x /\ go l (tfun t x) end) l x
  | _ => True
  end.
(** The closed-form image, for the non-chained transforms. *)
Definition timage (t : tr) (y : R) : Prop :=
  match t with
  | TLoc (Fin _) => True
  | TScale (Fin c) => c <> 0
  | TLog => True
  | TExp => 0 < y
  | TRecip => y <> 0
  | TInterval (Some (Fin a)) (Some (Fin b)) => a < b
  | TInterval (Some (Fin _)) None => True
  | TInterval None (Some (Fin _)) => True
  | TLogOdds => True
  | TCircular => - PI < y < PI
  | _ => False
  end.
(** [l] is the logarithm of the absolute derivative at [y] of the map [b] *)
Definition log_abs_derivative (b : R -> R) (y l : R) : Prop :=
  exists d, is_derive b y d /\ d <> 0 /\ l = ln (Rabs d).
(** The function computed by [f : xr -> res xr] near [y] is the real function [b]. *)
Definition computes_near (f : xr -> res xr) (y : R) (b : R -> R) : Prop :=
  locally y (fun z => f (Fin z) = Val (Fin (b z))).

(** Interior of the support of the families with a default transform *)
Definition family_valid (f : family) : Prop :=
  match f with
  | FUniform a b => a < b | FPareto a m => 0 < a /\ 0 < m | FTriangular a c b => a <= c <= b /\ a < b
  | FHalfNormal _ s => 0 < s | FWald m l => 0 < m /\ 0 < l | FExponential m => 0 < m
  | FLognormal _ s => 0 < s | FHalfCauchy _ s => 0 < s | FGamma a s => 0 < a /\ 0 < s
  | FInvGamma a b => 0 < a /\ 0 < b | FChiSquare k => 0 < k | FWeibull c => 0 < c
  | FBeta a b => 0 < a /\ 0 < b | FVonMises _ k => 0 < k
  end.
Definition family_interior (f : family) (x : R) : Prop :=
  match f with
  | FUniform a b => a < x < b | FPareto _ m => m < x | FTriangular a _ b => a < x < b
  | FHalfNormal l _ => l < x | FHalfCauchy l _ => l < x
  | FBeta _ _ => 0 < x < 1 | FVonMises _ _ => - PI < x < PI
  | _ => 0 < x
  end.
(** closed support (a density value exists there) *)
Definition family_support (f : family) (x : R) : Prop :=
  match f with
  | FVonMises _ _ => - PI <= x <= PI | _ => family_interior f x end.
Definition finite_val (r : res xr) : Prop := exists l, r = Val (Fin l).

(** ** Push-forward densities *)
(** the real map of an element-wise expression, its inverse, derivative of the
    inverse and image *)
Definition efun (e : elem) (x : R) : R :=
  match e with
  | EAdd (Fin c) => x + c | EMul (Fin c) => c * x | EExp => exp x | ELog => ln x | ERecip => / x
  | EDivBy (Fin c) => x / c | EDivInto (Fin c) => c / x | ESubC (Fin c) => x - c | ESubFrom (Fin c) => c - x
  | _ => x
  end.
Definition eadm (e : elem) : Prop :=
  match e with
  | EAdd (Fin _) | ESubC (Fin _) | ESubFrom (Fin _) | EExp | ELog | ERecip => True
  | EMul (Fin c) | EDivBy (Fin c) | EDivInto (Fin c) => c <> 0
  | _ => False
  end.
(** points of the base variable where the expression is defined *)
Definition edom (e : elem) (x : R) : Prop :=
  match e with ELog => 0 < x | ERecip | EDivInto _ => x <> 0 | _ => True end.
(** [d] is the value at [y] of the push-forward under [g] (injective,
    differentiable at x) of the density [f]: [f(x) / |g'(x)|] for [y = g(x)]. *)
Definition pushforward_at (g : R -> R) (f : R -> R) (x y d : R) : Prop :=
  g x = y /\ exists g', is_derive g x g' /\ g' <> 0 /\ d = f x / Rabs g'.
(** the two families whose default transform does not fit their support *)
Definition misplaced (f : family) : Prop := match f with FPareto _ _ | FHalfCauchy _ _ => True | _ => False end.
(** base points where the reciprocal's Jacobian term is defined *)
Definition epos (e : elem) (x : R) : Prop := match e with ERecip | EDivInto _ => 0 < x | _ => True end.
