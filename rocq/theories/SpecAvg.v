(** What the variables of a model that are not passed to joint_logprob are for
    its result: random draws, over which the density can be averaged. *)
From Coq Require Import Reals List Arith.
From Coquelicot Require Import Coquelicot.
From Verif Require Import XR SpecDist SpecTrans LemInt ModelTrans ModelJoint ModelGraph SpecGraph ModelLaw SpecLaw.
Import ListNotations.
Open Scope R_scope.

(** textbook densities of the continuous laws *)
Definition law_pdf (L : law) (x : R) : R :=
  match L with
  | LFam f => match f with
              | FUniform a b => uniform_pdf a b x | FPareto a m => pareto_pdf a m x | FTriangular a c b => triangular_pdf a c b x
              | FHalfNormal l s => halfnormal_pdf l s x | FWald m l => wald_pdf m l x | FExponential m => exponential_pdf m x
              | FLognormal m s => lognormal_pdf m s x | FHalfCauchy l s => halfcauchy_pdf l s x | FGamma a s => gamma_pdf a s x
              | FInvGamma a b => invgamma_pdf a b x | FChiSquare k => chisquare_pdf k x | FWeibull c => weibull_pdf c x
              | FBeta a b => beta_pdf a b x | FVonMises m k => vonmises_pdf m k x
              end
  | LNormal m s => normal_pdf m s x | LLaplace m s => laplace_pdf m s x | LCauchy a b => cauchy_pdf a b x
  | LGumbel m s => gumbel_pdf m s x | LLogistic m s => logistic_pdf m s x | LStudentT n m s => studentt_pdf n m s x
  | _ => 0
  end.
(** the draws of the variables [us], each with its own generator, are their values in [zs] *)
Fixpoint generator_of (g : heap) (us : list nat) (rng : nat) : option nat :=
  match us with
  | [] => None
  | u :: us => match nth_error g u with
               | Some (mk (ORv r _) _) => if Nat.eqb r rng then Some u else generator_of g us rng
               | _ => generator_of g us rng
               end
  end.
Definition set_draws (g : heap) (us : list nat) (zs : nat -> R) (draw : nat -> nat -> list R -> R) (rng dist : nat) (ps : list R) : R :=
  match generator_of g us rng with Some u => zs u | None => draw rng dist ps end.
(** the law from which the variable [u] is drawn when the others have the values of the point *)
Definition draw_law (S : sem R (list xr)) (D : nat -> list R -> law) (g : heap) (requested vv : list nat) (realized trs : list (nat * nat)) (u : nat) (L : law) : Prop :=
  exists rho rng dist ps xs, point S g requested vv realized trs rho /\ nth_error g u = Some (mk (ORv rng dist) ps) /\ meanss S g rho ps xs /\ L = D dist xs.
(** a model graph with variables [requested] and [realized], transforms [trs],
    and variables [us] that are drawn, each with its own generator; the realized
    values are inputs *)
Definition drawable (g : heap) (requested : list nat) (realized trs : list (nat * nat)) (us : list nat) : Prop :=
  request g requested realized trs /\ transformed_first g requested trs /\ requested ++ map fst realized <> [] /\ NoDup ((requested ++ map fst realized) ++ us) /\
  (forall rv, In rv ((requested ++ map fst realized) ++ us) -> exists rng dist ps, nth_error g rv = Some (mk (ORv rng dist) ps)) /\
  (forall rv tr, dget trs rv = Some tr -> exists rng ps, nth_error g rv = Some (mk (ORv rng tr) ps)) /\
  (forall u w rng dist ps dist' ps', In u us -> nth_error g u = Some (mk (ORv rng dist) ps) -> nth_error g w = Some (mk (ORv rng dist') ps') -> w = u) /\
  (forall rv val, In (rv, val) realized -> exists ps, nth_error g val = Some (mk OIn ps)).
(** [average J lawof us zs m]: the mean of the density of [J] over the draws of
    [us], each drawn from its law given the draws before it, is [m] *)
Inductive average (J : (nat -> R) -> xr -> Prop) (lawof : (nat -> R) -> nat -> law -> Prop) : list nat -> (nat -> R) -> R -> Prop :=
| average_here zs y d : J zs y -> denotes (Val y) d -> average J lawof [] zs d
| average_int u us zs L lo hi f m : lawof zs u L -> law_valid L -> law_support L = Interval lo hi ->
    (forall x, inside lo hi x -> average J lawof us (upd zs u x) (f x)) ->
    is_RInt_gen (fun x => law_pdf L x * f x) (Fr lo) (Fl hi) m -> average J lawof (u :: us) zs m
| average_sum u us zs L pm f m : lawof zs u L -> law_valid L -> law_support L = Points pm ->
    (forall k, pm k <> 0 -> average J lawof us (upd zs u (INR k)) (f k)) ->
    is_series (fun k => pm k * f k) m -> average J lawof (u :: us) zs m.
