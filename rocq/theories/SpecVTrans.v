(** Log-determinants of maps of vectors. *)
From Coq Require Import Reals List.
From Coquelicot Require Import Coquelicot.
From Verif Require Import XR RMx SpecSimplex ModelTrans SpecTrans.
Import ListNotations.
Open Scope R_scope.

(** near [v], along every coordinate, [g] computes the real map [f] *)
Definition computes_around (g : list xr -> res (list xr)) (v : list R) (f : list R -> list R) : Prop :=
  forall j, (j < length v)%nat -> locally (nth j v 0) (fun t => g (map Fin (upd v j t)) = Val (map Fin (f (upd v j t)))).
(** [l] is the logarithm of the absolute Jacobian determinant at [v] of the
    map computed by [g] (of its first [length v] coordinates) *)
Definition log_abs_det (g : list xr -> res (list xr)) (v : list R) (l : R) : Prop :=
  exists f J, computes_around g v f /\ is_jacobian (length v) f v J /\ rdet (length v) J <> 0 /\ l = ln (Rabs (rdet (length v) J)).
(** the map acts on every coordinate separately; [ls] are the logarithms of the absolute derivatives *)
Definition log_abs_derivs (g : list xr -> res (list xr)) (v ls : list R) : Prop :=
  exists f J, computes_around g v f /\ is_jacobian (length v) f v J /\ length ls = length v /\
    (forall i j, (i < length v)%nat -> (j < length v)%nat -> i <> j -> J i j = 0) /\
    forall k, (k < length v)%nat -> J k k <> 0 /\ nth k ls 0 = ln (Rabs (J k k)).
(** no ScaleTransform, no chain within the chain *)
Definition unscaled (t : tr) : Prop := match t with TScale _ | TChain _ => False | _ => True end.
(** [y] is in the unconstrained space of the chain (and reciprocals are met at positive points) *)
Definition good (l : list tr) (y : R) : Prop := exists x, tmaps (TChain l) x y /\ tpos (TChain l) x.
