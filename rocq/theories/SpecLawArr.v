(** What it means for the joint log-probability of a model of array variables to
    be that of a probability law: integrated and summed over all entries of all
    variables its density has total mass one. *)
From Coq Require Import Reals List Arith.
From Coquelicot Require Import Coquelicot.
From Verif Require Import XR SpecDist LemInt ModelVec ModelTrans ModelTen SpecIdx SpecElem ModelJoint SpecJoint ModelGraph SpecGraph ModelLaw SpecLaw ModelUniv ModelLawArr.
Import ListNotations.
Open Scope R_scope.

(** the law of a scalar variable of family [u] with the parameters [ps] *)
Definition law_of (u : univ) (ps : list R) (L : law) : Prop :=
  match u, ps with
  | UUniform, [a; b] => L = LFam (FUniform a b)
  | UNormal, [mu; s] => L = LNormal mu s
  | UHalfnormal, [l; s] => L = LFam (FHalfNormal l s)
  | UBeta, [a; b] => L = LFam (FBeta a b)
  | UExponential, [m] => L = LFam (FExponential m)
  | ULaplace, [mu; s] => L = LLaplace mu s
  | ULognormal, [mu; s] => L = LFam (FLognormal mu s)
  | UPareto, [a; m] => L = LFam (FPareto a m)
  | UCauchy, [a; b] => L = LCauchy a b
  | UHalfcauchy, [l; s] => L = LFam (FHalfCauchy l s)
  | UGamma, [a; s] => L = LFam (FGamma a s)
  | UInvgamma, [a; b] => L = LFam (FInvGamma a b)
  | UChisquare, [k] => L = LFam (FChiSquare k)
  | UWald, [m; l] => L = LFam (FWald m l)
  | UWeibull, [c] => L = LFam (FWeibull c)
  | UVonmises, [m; k] => L = LFam (FVonMises m k)
  | UTriangular, [a; c; b] => L = LFam (FTriangular a c b)
  | UGumbel, [mu; s] => L = LGumbel mu s
  | ULogistic, [mu; s] => L = LLogistic mu s
  | UBinomial, [x; p] => exists n, x = INR n /\ L = LBinomial n p
  | UBetabinomial, [x; a; b] => exists n, x = INR n /\ L = LBetaBinomial n a b
  | UBernoulli, [p] => L = LBernoulli p
  | UPoisson, [mu] => L = LPoisson mu
  | UNbinom, [n; p] => L = LNBinom n p
  | UGeometric, [p] => L = LGeometric p
  | UHypergeometric, [x; y; z] => exists a b n, x = INR a /\ y = INR b /\ z = INR n /\ L = LHyperGeometric a b n
  | UStudentt, [nu; m; s] => L = LStudentT nu m s
  | _, _ => False
  end.

(** the values of the entries of the value variables *)
Definition point_values := nat -> list nat -> R.
Definition upd_entry (zs : point_values) (e : nat * list nat) (x : R) : point_values :=
  fun u => if Nat.eqb u (fst e) then fun j => if list_eq_dec Nat.eq_dec j (snd e) then x else zs u j else zs u.
(** [total J dom es zs m]: the density of [J], integrated or summed over the
    entries [es], the first one outermost, is [m] *)
Inductive total (J : point_values -> xr -> Prop) (dom : point_values -> nat * list nat -> support -> Prop) : list (nat * list nat) -> point_values -> R -> Prop :=
| total_here zs y d : J zs y -> denotes (Val y) d -> total J dom [] zs d
| total_int e es zs lo hi f m : dom zs e (Interval lo hi) -> Rbar_lt lo hi ->
    (forall x, LemInt.inside lo hi x -> total J dom es (upd_entry zs e x) (f x)) -> is_RInt_gen f (Fr lo) (Fl hi) m -> total J dom (e :: es) zs m
| total_sum e es zs pm f m : dom zs e (Points pm) ->
    (forall k, pm k <> 0 -> total J dom es (upd_entry zs e (INR k)) (f k)) -> (forall k, pm k = 0 -> f k = 0) -> is_series f m -> total J dom (e :: es) zs m.

Section Model.
Variables (S : sem arr arr) (fam : nat -> univ) (g : heap) (requested : list nat) (trs : list (nat * nat)) (shape : nat -> list nat).
(** the array of the value variable of [v] *)
Definition value_array (zs : point_values) (v : nat) : arr := Val {| nshp := shape v; nelt := fun i => Fin (zs v i) |}.
(** the arrays of the requested variables on their own scale *)
Definition natural_arr (zs : point_values) (rho : nat -> option arr) : Prop :=
  (forall v, In v requested -> match dget trs v with
     | None => rho v = Some (value_array zs v)
     | Some tr => exists rng dist ps xs, nth_error g v = Some (mk (ORv rng dist) ps) /\ meanss S g rho ps xs /\ rho v = Some (s_back S tr (value_array zs v) xs)
     end) /\
  (forall v, ~ In v requested -> rho v = None).
(** the parameters of a variable *)
Definition params_at (zs : point_values) (v dist : nat) (xs : list arr) : Prop :=
  exists rho rng ps, natural_arr zs rho /\ nth_error g v = Some (mk (ORv rng dist) ps) /\ meanss S g rho ps xs.
(** the law of the entry at position [i], from the entries of the parameters that
    broadcasting brings there *)
Definition entry_law (zs : point_values) (v : nat) (i : list nat) (L : law) : Prop :=
  exists dist xs ys, params_at zs v dist xs /\
    List.Forall2 (fun a y => exists n c, a = Val n /\ aligned (nshp n) i c /\ nelt n c = Fin y) xs ys /\ law_of (fam dist) ys L.
Definition entry_value (zs : point_values) (v : nat) (i : list nat) (x : R) : Prop :=
  exists rho a, natural_arr zs rho /\ rho v = Some (Val a) /\ nelt a i = Fin x.
(** the parameters are arrays that broadcast to the shape of the variable *)
Definition fits (zs : point_values) (v : nat) : Prop :=
  forall dist xs, params_at zs v dist xs -> List.Forall (fun a => exists n, a = Val n /\ broadcasts (nshp n) (shape v)) xs.
(** a model: at all possible values of the variables before it, a variable has
    parameters of fitting shapes and its entries have proper laws *)
Definition proper_arrays : Prop := forall zs v, In v requested ->
  (forall u j M x, In u requested -> (u < v)%nat -> SpecIdx.inside (shape u) j -> entry_law zs u j M -> entry_value zs u j x -> contains (law_support M) x) ->
  fits zs v /\ forall i, SpecIdx.inside (shape v) i -> exists L, entry_law zs v i L /\ law_valid L /\ (dget trs v <> None -> transformable L).
Definition entry_domain (zs : point_values) (e : nat * list nat) (s : support) : Prop :=
  exists L, entry_law zs (fst e) (snd e) L /\ s = match dget trs (fst e) with None => law_support L | Some _ => Interval m_infty p_infty end.
End Model.
(** all entries of all requested variables, once each, those of earlier variables first *)
Definition all_entries (requested : list nat) (shape : nat -> list nat) (es : list (nat * list nat)) : Prop :=
  NoDup es /\ (forall v i, In (v, i) es <-> In v requested /\ SpecIdx.inside (shape v) i) /\
  forall es1 e es2 e' es3, es = es1 ++ e :: es2 ++ e' :: es3 -> (fst e <= fst e')%nat.
Definition set_arrays (shape : nat -> list nat) (requested vv : list nat) (zs : point_values) (inp : nat -> arr) (v : nat) : arr :=
  match position v vv with Some i => value_array shape zs (nth i requested 0%nat) | None => inp v end.
(** joint_logprob.py:311-318 on arrays; there is no result if one of them raises *)
Definition joint_array (S : sem arr arr) (h : heap) (fs : list (nat * factor)) (y : xr) : Prop :=
  exists ys, List.Forall2 (fun p y => fvalue S h (snd p) (Val y)) fs ys /\ joint_reduce (map entries ys) = Some y.
