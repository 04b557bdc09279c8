(** What it means for a joint log-probability to be that of a probability law:
    iterated over all values of all variables its density has total mass one. *)
From Coq Require Import Reals List Arith.
From Coquelicot Require Import Coquelicot.
From Verif Require Import XR SpecDist SpecTrans LemInt ModelVec ModelTrans ModelJoint SpecJoint ModelGraph SpecGraph ModelLaw.
Import ListNotations.
Open Scope R_scope.

(** values of a variable: an open interval, or the naturals of positive mass *)
Inductive support := Interval (lo hi : Rbar) | Points (mass : nat -> R).
Definition contains (s : support) (x : R) : Prop :=
  match s with Interval lo hi => inside lo hi x | Points m => exists k, x = INR k /\ m k <> 0 end.
Definition law_support (L : law) : support :=
  match L with
  | LFam f => match f with
              | FUniform a b => Interval a b | FPareto _ m => Interval m p_infty | FTriangular a _ b => Interval a b
              | FHalfNormal l _ => Interval l p_infty | FHalfCauchy l _ => Interval l p_infty
              | FBeta _ _ => Interval 0 1 | FVonMises _ _ => Interval (- PI) PI
              | _ => Interval 0 p_infty
              end
  | LNormal _ _ | LLaplace _ _ | LCauchy _ _ | LGumbel _ _ | LLogistic _ _ | LStudentT _ _ _ => Interval m_infty p_infty
  | LBinomial n p => Points (binomial_pmf n p) | LBetaBinomial n a b => Points (betabinomial_pmf n a b) | LBernoulli p => Points (bernoulli_pmf p)
  | LPoisson mu => Points (poisson_pmf mu) | LGeometric p => Points (geometric_pmf p) | LHyperGeometric a b n => Points (hypergeometric_pmf a b n)
  | LNBinom n p => Points (nbinom_pmf n p)
  end.
(** parameters of the family; the negative binomial up to the n from which on
    the code uses the Poisson mass (C06_nbinom_large_n_refuted) *)
Definition law_valid (L : law) : Prop :=
  match L with
  | LFam f => family_valid f
  | LNormal _ s | LLaplace _ s | LCauchy _ s | LGumbel _ s | LLogistic _ s => 0 < s
  | LStudentT nu _ s => 0 < nu /\ 0 < s
  | LBinomial _ p | LBernoulli p => 0 <= p <= 1 | LBetaBinomial _ a b => 0 < a /\ 0 < b
  | LPoisson mu => 0 <= mu | LGeometric p => 0 < p <= 1 | LHyperGeometric a b n => (n <= a + b)%nat | LNBinom n p => 0 < n <= 10000000000 /\ 0 < p < 1
  end.
(** families whose default transform is a bijection onto the support (C11) *)
Definition transformable (L : law) : Prop :=
  exists f, L = LFam f /\ ~ misplaced f /\ forall m k, f <> FVonMises m k.

Definition upd (zs : nat -> R) (v : nat) (x : R) (u : nat) : R := if Nat.eqb u v then x else zs u.
(** [mass J dom vs zs m]: the density of [J], integrated or summed over the
    values of [vs], the first variable outermost, is [m]; the other variables
    have the values [zs].  [dom] gives the values of a variable, which may depend
    on those of the variables before it. *)
Inductive mass (J : (nat -> R) -> xr -> Prop) (dom : (nat -> R) -> nat -> support -> Prop) : list nat -> (nat -> R) -> R -> Prop :=
| mass_here zs y d : J zs y -> denotes (Val y) d -> mass J dom [] zs d
| mass_int v vs zs lo hi f m : dom zs v (Interval lo hi) -> Rbar_lt lo hi ->
    (forall x, inside lo hi x -> mass J dom vs (upd zs v x) (f x)) -> is_RInt_gen f (Fr lo) (Fl hi) m -> mass J dom (v :: vs) zs m
| mass_sum v vs zs pm f m : dom zs v (Points pm) ->
    (forall k, pm k <> 0 -> mass J dom vs (upd zs v (INR k)) (f k)) -> (forall k, pm k = 0 -> f k = 0) -> is_series f m -> mass J dom (v :: vs) zs m.

Section Model.
Variables (S : sem R (list xr)) (D : nat -> list R -> law) (g : heap) (requested : list nat) (trs : list (nat * nat)).
(** the values of the requested variables on their own scale when the value
    variables are [zs] *)
Definition natural (zs : nat -> R) (rho : nat -> option R) : Prop :=
  (forall v, In v requested -> match dget trs v with
     | None => rho v = Some (zs v)
     | Some tr => exists rng dist ps xs, nth_error g v = Some (mk (ORv rng dist) ps) /\ meanss S g rho ps xs /\ rho v = Some (s_back S tr (zs v) xs)
     end) /\
  (forall v, ~ In v requested -> rho v = None).
(** the law of a variable given the values of the others *)
Definition law_at (zs : nat -> R) (v : nat) (L : law) : Prop :=
  exists rho rng dist ps xs, natural zs rho /\ nth_error g v = Some (mk (ORv rng dist) ps) /\ meanss S g rho ps xs /\ L = D dist xs.
Definition value_at (zs : nat -> R) (v : nat) (x : R) : Prop := exists rho, natural zs rho /\ rho v = Some x.
(** a model: at all possible values of the variables before it, a variable has
    proper parameters (and a proper default transform if one is asked for) *)
Definition proper_model : Prop := forall zs v L, In v requested -> law_at zs v L ->
  (forall u M x, In u requested -> (u < v)%nat -> law_at zs u M -> value_at zs u x -> contains (law_support M) x) ->
  law_valid L /\ (dget trs v <> None -> transformable L).
(** the values of the value variable: those of the law, or all reals if transformed *)
Definition value_domain (zs : nat -> R) (v : nat) (s : support) : Prop :=
  exists L, law_at zs v L /\ s = match dget trs v with None => law_support L | Some _ => Interval m_infty p_infty end.
End Model.
(** the interpretation with the value variables [vv] set *)
Fixpoint position (v : nat) (vv : list nat) : option nat :=
  match vv with [] => None | w :: vv => if Nat.eqb v w then Some 0%nat else option_map S (position v vv) end.
Definition set_values (requested vv : list nat) (zs : nat -> R) (inp : nat -> R) (v : nat) : R :=
  match position v vv with Some i => zs (nth i requested 0%nat) | None => inp v end.
(** the joint log-probability of the result of conditional_logprob *)
Definition joint_value (S : sem R (list xr)) (h : heap) (fs : list (nat * factor)) (y : xr) : Prop :=
  exists ys, List.Forall2 (fun p y => fvalue S h (snd p) y) fs ys /\ joint_reduce ys = Some y.
