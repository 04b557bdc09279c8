(** Laws of clipped and rounded variables, from the law of the base variable.
    From the model only the names of the three rounding operations are used. *)
From Coq Require Import Reals Lra Lia ZArith List Bool.
From Coquelicot Require Import Coquelicot.
From Verif Require Import XR LemInt SpecDist ModelCens.
Open Scope R_scope.

(** A law on the reals with density [f] and continuous distribution function [F]. *)
Record cont_law (f F : R -> R) : Prop := {
  cl_nonneg : forall x, 0 <= f x;
  cl_cont : forall x, continuous F x;
  cl_int : forall x y, x < y -> is_RInt f x y (F y - F x);
  cl_m : filterlim F (Rbar_locally m_infty) (locally 0);
  cl_p : filterlim F (Rbar_locally p_infty) (locally 1) }.
(** [lp] and [lc] compute the logarithms of [f] and [F] *)
Definition computes_law (lp lc : xr -> res xr) (f F : R -> R) : Prop :=
  (forall x, denotes (lp (Fin x)) (f x)) /\ (forall x, denotes (lc (Fin x)) (F x)).

(** Bounds as extended reals *)
Definition rbar (x : xr) : option Rbar :=
  match x with Fin r => Some (Finite r) | PInf => Some p_infty | NInf => Some m_infty | NaN => None end.

(** [clip(x, lo, hi)] on reals *)
Definition clip_fun (lo hi : Rbar) (x : R) : R :=
  let y := match lo with Finite a => Rmax a x | _ => x end in
  match hi with Finite b => Rmin b y | _ => y end.
(** Distribution function of [clip(X, lo, hi)] for [lo < hi]:
    P(clip X <= y) = 0 below [lo], P(X <= y) up to [hi], 1 from [hi] on. *)
Definition clip_cdf (F : R -> R) (lo hi : Rbar) (y : R) : R :=
  if Rbar_lt_dec y lo then 0 else if Rbar_lt_dec y hi then F y else 1.
(** Atoms and density of the clipped law *)
Definition clip_density (f F : R -> R) (lo hi : Rbar) (y : R) : R :=
  if Rbar_lt_dec y lo then 0
  else if Rbar_eq_dec y lo then F y
  else if Rbar_lt_dec y hi then f y
  else if Rbar_eq_dec y hi then 1 - F y else 0.
(** [m] is, with respect to the sum of Lebesgue measure on (lo,hi) and unit
    atoms at the finite end points, a density whose distribution function is [G]. *)
Definition atom (m : R -> R) (b : Rbar) (y : R) : R :=
  match b with Finite r => if Rle_dec r y then m r else 0 | _ => 0 end.
Definition mixed_cdf (m : R -> R) (lo hi : Rbar) (G : R -> R) : Prop :=
  (forall y : R, Rbar_lt y lo -> G y = 0) /\
  (forall y : R, lo = Finite y -> G y = m y) /\
  (forall y, inside lo hi y -> exists v, is_RInt_gen m (Fr lo) (Fl y) v /\ G y = atom m lo y + v) /\
  (exists v, is_RInt_gen m (Fr lo) (Fl hi) v /\
     (forall y : R, Rbar_le hi y -> G y = atom m lo y + v + atom m hi y) /\
     (hi = p_infty -> filterlim G (Rbar_locally p_infty) (locally (match lo with Finite r => m r | _ => 0 end + v)))).

(** A law on the integers with masses [p] and distribution function [F]. *)
Record int_law (p F : Z -> R) : Prop := {
  il_nonneg : forall k, 0 <= p k;
  il_step : forall k, F k = F (k - 1)%Z + p k;
  il_m : is_lim_seq (fun n => F (- Z.of_nat n)%Z) 0;
  il_p : is_lim_seq (fun n => F (Z.of_nat n)) 1 }.
(** [clip] on the integers, [None] for a missing bound *)
Definition zclip (lo hi : option Z) (k : Z) : Z :=
  let y := match lo with Some a => Z.max a k | None => k end in
  match hi with Some b => Z.min b y | None => y end.
(** Distribution function of [clip(K, lo, hi)] ([lo <= hi]) and its masses *)
Definition int_clip_cdf (F : Z -> R) (lo hi : option Z) (k : Z) : R :=
  if match lo with Some a => (k <? a)%Z | None => false end then 0
  else if match hi with Some b => (b <=? k)%Z | None => false end then 1 else F k.
Definition int_clip_mass (F : Z -> R) (lo hi : option Z) (k : Z) : R :=
  int_clip_cdf F lo hi k - int_clip_cdf F lo hi (k - 1).
Definition zbefore (lo hi : option Z) : Prop :=
  match lo, hi with Some a, Some b => (a < b)%Z | _, _ => True end.
Definition zoutside (lo hi : option Z) (y : R) : Prop :=
  match lo with Some a => y < IZR a | None => False end \/ match hi with Some b => IZR b < y | None => False end.
Definition lower_bound_is (v : xr) (lo : option Z) : Prop := v = match lo with Some a => Fin (IZR a) | None => NInf end.
Definition upper_bound_is (v : xr) (hi : option Z) : Prop := v = match hi with Some b => Fin (IZR b) | None => PInf end.
(** the masses over all integers sum to [s] *)
Definition zseries (g : Z -> R) (s : R) : Prop :=
  exists s1 s2, is_series (fun n => g (Z.of_nat n)) s1 /\ is_series (fun n => g (- Z.of_nat n - 1)%Z) s2 /\ s1 + s2 = s.

(** ** Rounding functions on reals, as relations *)
Definition rounds_half_even (x : R) (k : Z) : Prop :=
  Rabs (x - IZR k) < 1/2 \/ (Rabs (x - IZR k) = 1/2 /\ Z.Even k).
Definition rounds_floor (x : R) (k : Z) : Prop := IZR k <= x < IZR k + 1.
Definition rounds_ceil (x : R) (k : Z) : Prop := IZR k - 1 < x <= IZR k.
(** The pre-image of [k] is an interval from [l] to [u], end points apart. *)
Definition preimage (rnd : R -> Z -> Prop) (k : Z) (l u : R) : Prop :=
  l < u /\ (forall x, l < x < u -> rnd x k) /\ (forall x, rnd x k -> l <= x <= u).
(** the function each rounding operation computes *)
Definition rnd_of (op : rounding) : R -> Z -> Prop :=
  match op with RHalfEven => rounds_half_even | RFloor => rounds_floor | RCeil => rounds_ceil end.
