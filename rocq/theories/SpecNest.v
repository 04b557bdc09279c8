(** The meaning of expressions over the reals, written without the rewrites:
    which number an expression denotes for given draws, and when a single draw
    determines it invertibly and smoothly. *)
From Coq Require Import Reals List.
From Coquelicot Require Import Coquelicot.
From Verif Require Import XR SpecVec ModelNest.
Import ListNotations.
Open Scope R_scope.

Section Meaning.
Variable fs : nat -> list xr -> xr.
(** [means rho e r]: with the draws [rho], [e] is the real number [r] *)
Inductive means (rho : nat -> R) : nexpr -> R -> Prop :=
| m_rv i : means rho (NRv i) (rho i)
| m_con c : means rho (NCon (Fin c)) c
| m_exp e r : means rho e r -> means rho (NOne UExp e) (exp r)
| m_log e r : means rho e r -> 0 < r -> means rho (NOne ULog e) (ln r)
| m_recip e r : means rho e r -> r <> 0 -> means rho (NOne URecip e) (/ r)
| m_add es rs : Forall2 (means rho) es rs -> means rho (NMany NAdd es) (rtotal rs)
| m_mul es rs : Forall2 (means rho) es rs -> means rho (NMany NMul es) (rprod rs)
| m_sub a b r s : means rho a r -> means rho b s -> means rho (NSub a b) (r - s)
| m_div a b r s : means rho a r -> means rho b s -> s <> 0 -> means rho (NDiv a b) (r / s)
| m_other k es rs r : Forall2 (means rho) es rs -> fs k (map Fin rs) = Fin r -> means rho (NOther k es) r.

(** the random variables occurring in an expression, with repetitions *)
Fixpoint occs (e : nexpr) : list nat :=
  match e with
  | NRv i => [i] | NCon _ => []
  | NOne _ e => occs e
  | NMany _ es | NOther _ es => flat_map occs es
  | NSub a b | NDiv a b => occs a ++ occs b
  end.

(** [e] is reached from one occurrence of variable [i] by exp, log,
    reciprocal, and sums, differences, products and quotients with
    expressions free of random variables *)
Inductive chain (i : nat) : nexpr -> Prop :=
| c_rv : chain i (NRv i)
| c_one u e : chain i e -> chain i (NOne u e)
| c_many n l e r : chain i e -> occs (NMany n l) = [] -> occs (NMany n r) = [] -> l ++ r <> [] -> chain i (NMany n (l ++ e :: r))
| c_sub_l a b : chain i a -> occs b = [] -> chain i (NSub a b)
| c_sub_r a b : chain i b -> occs a = [] -> chain i (NSub a b)
| c_div_l a b : chain i a -> occs b = [] -> chain i (NDiv a b)
| c_div_r a b : chain i b -> occs a = [] -> chain i (NDiv a b).

(** a chain along which nothing is multiplied by zero and reciprocals are
    taken of positive numbers only *)
Inductive regular (rho : nat -> R) (i : nat) : nexpr -> Prop :=
| g_rv : regular rho i (NRv i)
| g_one u e r : regular rho i e -> means rho e r -> (u = URecip -> 0 < r) -> regular rho i (NOne u e)
| g_add l e r : regular rho i e -> occs (NMany NAdd l) = [] -> occs (NMany NAdd r) = [] -> l ++ r <> [] ->
    regular rho i (NMany NAdd (l ++ e :: r))
| g_mul l e r ls rs : regular rho i e -> occs (NMany NMul l) = [] -> occs (NMany NMul r) = [] -> l ++ r <> [] ->
    Forall2 (means rho) l ls -> Forall2 (means rho) r rs -> rprod ls * rprod rs <> 0 ->
    regular rho i (NMany NMul (l ++ e :: r))
| g_sub_l a b : regular rho i a -> occs b = [] -> regular rho i (NSub a b)
| g_sub_r a b : regular rho i b -> occs a = [] -> regular rho i (NSub a b)
| g_div_l a b : regular rho i a -> occs b = [] -> regular rho i (NDiv a b)
| g_div_r a b r s : regular rho i b -> occs a = [] -> means rho a r -> r <> 0 -> means rho b s -> 0 < s ->
    regular rho i (NDiv a b).

Definition upd (rho : nat -> R) (i : nat) (x : R) : nat -> R := fun j => if Nat.eqb j i then x else rho j.
(** [d] is the density at [y] of [e] when variable [i] has density [f]: [e],
    as a function of the draw of [i], is differentiable at [x] with [y] its value *)
Definition density_of (rho : nat -> R) (e : nexpr) (i : nat) (f : R -> R) (x y d : R) : Prop :=
  exists (g : R -> R) (g' : R), locally x (fun t => means (upd rho i t) e (g t)) /\ g x = y /\
    is_derive g x g' /\ g' <> 0 /\ d = f x / Rabs g'.
End Meaning.
