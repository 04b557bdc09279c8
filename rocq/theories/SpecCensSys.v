(** Expectations of functions of the requested variables of a model: by
    drawing the random variables one after the other, and from a joint
    log-probability. *)
From Coq Require Import Reals List Arith ZArith.
From Coquelicot Require Import Coquelicot.
From Verif Require Import XR SpecDist SpecCens LemInt ModelDist ModelCens ModelNest ModelGuard ModelCensSys.
Import ListNotations.
Open Scope R_scope.

Definition cinputs (n : cnode) : list nat :=
  match n with
  | CCon _ => [] | CRv _ l | CMany _ l | COther _ l => l
  | COne _ a | CRound _ a => [a] | CSub a b | CDiv a b => [a; b] | CClip _ a lo hi => [a; lo; hi]
  end.
Definition cacyclic (h : list cnode) : Prop := forall v n a, nth_error h v = Some n -> In a (cinputs n) -> (a < v)%nat.

Section Values.
Variable fs : nat -> list xr -> xr.
Variable h : list cnode.

(** Values of the nodes when those of some are given by [env].  A bound of a
    clip is a value, an infinite constant, or missing when it is the clipped
    variable itself. *)
Inductive cvalue (env : nat -> option R) : nat -> R -> Prop :=
| c_given v r : env v = Some r -> cvalue env v r
| c_con v r : env v = None -> nth_error h v = Some (CCon (Fin r)) -> cvalue env v r
| c_exp v a x : env v = None -> nth_error h v = Some (COne UExp a) -> cvalue env a x -> cvalue env v (exp x)
| c_log v a x : env v = None -> nth_error h v = Some (COne ULog a) -> cvalue env a x -> 0 < x -> cvalue env v (ln x)
| c_recip v a x : env v = None -> nth_error h v = Some (COne URecip a) -> cvalue env a x -> x <> 0 -> cvalue env v (/ x)
| c_add v l xs : env v = None -> nth_error h v = Some (CMany NAdd l) -> List.Forall2 (cvalue env) l xs -> cvalue env v (fold_right Rplus 0 xs)
| c_mul v l xs : env v = None -> nth_error h v = Some (CMany NMul l) -> List.Forall2 (cvalue env) l xs -> cvalue env v (fold_right Rmult 1 xs)
| c_sub v a b x z : env v = None -> nth_error h v = Some (CSub a b) -> cvalue env a x -> cvalue env b z -> cvalue env v (x - z)
| c_div v a b x z : env v = None -> nth_error h v = Some (CDiv a b) -> cvalue env a x -> cvalue env b z -> z <> 0 -> cvalue env v (x / z)
| c_clip v d a lo hi x l u : env v = None -> nth_error h v = Some (CClip d a lo hi) -> cvalue env a x -> cbound env a m_infty lo l -> cbound env a p_infty hi u ->
    Rbar_lt l u -> cvalue env v (clip_fun l u x)
| c_round v op a x k : env v = None -> nth_error h v = Some (CRound op a) -> cvalue env a x -> rnd_of op x k -> cvalue env v (IZR k)
| c_other v k l xs r : env v = None -> nth_error h v = Some (COther k l) -> List.Forall2 (cvalue env) l xs -> fs k (map Fin xs) = Fin r -> cvalue env v r
with cbound (env : nat -> option R) : nat -> Rbar -> nat -> Rbar -> Prop :=
| b_self a inf : cbound env a inf a inf
| b_inf a inf b c l : a <> b -> env b = None -> nth_error h b = Some (CCon c) -> rbar c = Some l -> cbound env a inf b l
| b_val a inf b r : a <> b -> cvalue env b r -> cbound env a inf b (Finite r).

(** the random variables have the values [rho] *)
Definition drawn (rho : nat -> R) (v : nat) : option R := match nth_error h v with Some (CRv _ _) => Some (rho v) | _ => None end.
(** the requested variables have the values [y] *)
Definition valued (req : list nat) (y : nat -> R) (v : nat) : option R := if in_dec Nat.eq_dec v req then Some (y v) else None.

(** no random variable enters a known variable but by way of requested ones *)
Inductive cknown (req : list nat) : nat -> Prop :=
| ck_req v : In v req -> cknown req v
| ck_det v n : nth_error h v = Some n -> (forall d ps, n <> CRv d ps) -> (forall a, In a (cinputs n) -> cknown req a) -> cknown req v.
(** [v] is computed from [b] by way of the variables [ws], ending with [v], by
    exp, log, reciprocals, and sums, differences, products and quotients with
    known variables; none of the variables on the way is requested *)
Inductive chained (req : list nat) (b : nat) : list nat -> nat -> Prop :=
| ch_start : chained req b [] b
| ch_one ws a v u : chained req b ws a -> ~ In a req -> nth_error h v = Some (COne u a) -> chained req b (v :: ws) v
| ch_many ws a v n l r : chained req b ws a -> ~ In a req -> nth_error h v = Some (CMany n (l ++ a :: r)) -> l ++ r <> [] -> (forall p, In p (l ++ r) -> cknown req p) -> chained req b (v :: ws) v
| ch_sub_l ws a v c : chained req b ws a -> ~ In a req -> nth_error h v = Some (CSub a c) -> cknown req c -> chained req b (v :: ws) v
| ch_sub_r ws a v c : chained req b ws a -> ~ In a req -> nth_error h v = Some (CSub c a) -> cknown req c -> chained req b (v :: ws) v
| ch_div_l ws a v c : chained req b ws a -> ~ In a req -> nth_error h v = Some (CDiv a c) -> cknown req c -> chained req b (v :: ws) v
| ch_div_r ws a v c : chained req b ws a -> ~ In a req -> nth_error h v = Some (CDiv c a) -> cknown req c -> chained req b (v :: ws) v.
(** [v] is the random variable [b], clips or rounds it, or is computed from it *)
Inductive observes (cont : nat -> bool) (req : list nat) : nat -> nat -> Prop :=
| o_rv v d ps : nth_error h v = Some (CRv d ps) -> (forall p, In p ps -> cknown req p) -> observes cont req v v
| o_clip v t b lo hi d ps : nth_error h v = Some (CClip t b lo hi) -> ~ In b req -> nth_error h b = Some (CRv d ps) -> (forall p, In p ps -> cknown req p) ->
    (lo = b \/ cknown req lo) -> (hi = b \/ cknown req hi) -> observes cont req v b
| o_round v op b d ps : nth_error h v = Some (CRound op b) -> ~ In b req -> nth_error h b = Some (CRv d ps) -> cont d = true -> (forall p, In p ps -> cknown req p) ->
    observes cont req v b
| o_chain v b ws d ps : chained req b ws v -> ws <> [] -> nth_error h b = Some (CRv d ps) -> cont d = true -> (forall p, In p ps -> cknown req p) -> observes cont req v b.

(** Measures: Lebesgue's, the counting measures on the naturals and the
    integers, Lebesgue's between two bounds with unit atoms at the finite ones,
    unit atoms at the finite bounds and the naturals between them, Lebesgue's on
    an open interval. *)
Inductive measure := Leb | Nats | Ints | Between (l u : Rbar) | Steps (l u : Rbar) | Open (l u : Rbar).
Definition between (l u : Rbar) (x : R) : Prop := Rbar_lt l x /\ Rbar_lt x u.
Definition charges (mu : measure) (x : R) : Prop :=
  match mu with
  | Leb => True
  | Nats => exists k, x = INR k
  | Ints => exists k, x = IZR k
  | Between l u => Rbar_le l x /\ Rbar_le x u
  | Steps l u => Finite x = l \/ Finite x = u \/ between l u x /\ exists k, x = INR k
  | Open l u => between l u x
  end.
Definition at_end (g : R -> R) (b : Rbar) : R := match b with Finite r => g r | _ => 0 end.
Definition integral (mu : measure) (g : R -> R) (m : R) : Prop :=
  match mu with
  | Leb => is_RInt_gen g (Rbar_locally m_infty) (Rbar_locally p_infty) m
  | Nats => is_series (fun k => g (INR k)) m
  | Ints => zseries (fun k => g (IZR k)) m
  | Between l u => exists v, is_RInt_gen g (Fr l) (Fl u) v /\ m = at_end g l + v + at_end g u
  | Steps l u => exists v, (exists a, is_series a v /\ forall k, (between l u (INR k) -> a k = g (INR k)) /\ (~ between l u (INR k) -> a k = 0)) /\ m = at_end g l + v + at_end g u
  | Open l u => is_RInt_gen g (Fr l) (Fl u) m
  end.

(** continuous distributions; densities or masses; parameters for which they are laws *)
Variable cont : nat -> bool.
Variable pdf : nat -> list R -> R -> R.
Variable proper : nat -> list R -> Prop.
(** distributions of which the requested variables are clipped or rounded draws, or computed from draws *)
Definition clipped (req : list nat) (d : nat) : Prop :=
  exists v t b lo hi ps, In v req /\ nth_error h v = Some (CClip t b lo hi) /\ nth_error h b = Some (CRv d ps).
Definition rounded (req : list nat) (d : nat) : Prop := exists v op b ps, In v req /\ nth_error h v = Some (CRound op b) /\ nth_error h b = Some (CRv d ps).
Definition transformed (req : list nat) (d : nat) : Prop := exists v b ws ps, In v req /\ chained req b ws v /\ ws <> [] /\ nth_error h b = Some (CRv d ps).
(** the density [f] is 0 outside of an interval and not 0 inside it *)
Definition supported (f : R -> R) (s t : Rbar) : Prop :=
  Rbar_lt s t /\ (forall x : R, between s t x -> f x <> 0) /\ (forall x : R, Rbar_lt x s \/ Rbar_lt t x -> f x = 0).
(** masses of the integers *)
Definition zmass (p : R -> R) (k : Z) : R := if Z.ltb k 0 then 0 else p (IZR k).
(** The log-probabilities [dlp] and [dlc] are those of the distributions:
    densities or masses of total mass 1 and, where they are needed, distribution
    functions; those of rounded variables are nowhere 0; densities of variables
    from which others are computed are not 0 on an interval. *)
Record lawful (req : list nat) (ddt : nat -> dtype) (dlp dlc : nat -> list xr -> xr -> res xr) (cdf : nat -> list R -> R -> R) : Prop := {
  lf_unit : forall d xs, proper d xs -> integral (if cont d then Leb else Nats) (pdf d xs) 1;
  lf_lp : forall d xs x, proper d xs -> charges (if cont d then Leb else Nats) x -> denotes (dlp d (map Fin xs) (Fin x)) (pdf d xs x);
  lf_cens : forall d xs, clipped req d \/ rounded req d -> cont d = true -> proper d xs -> ddt d = DFloat /\ cont_law (pdf d xs) (cdf d xs) /\ forall x, denotes (dlc d (map Fin xs) (Fin x)) (cdf d xs x);
  lf_count : forall d xs, clipped req d -> cont d = false -> proper d xs -> ddt d = DInt /\ int_law (zmass (pdf d xs)) (fun k => cdf d xs (IZR k)) /\
    forall k, denotes (dlp d (map Fin xs) (Fin (IZR k))) (zmass (pdf d xs) k) /\ denotes (dlc d (map Fin xs) (Fin (IZR k))) (cdf d xs (IZR k));
  lf_pos : forall d xs x, rounded req d -> proper d xs -> 0 < cdf d xs x;
  lf_chain : forall d xs, transformed req d -> proper d xs -> ddt d <> DInt /\ exists s t, supported (pdf d xs) s t }.
(** possible draws; clipped discrete variables have integers as bounds *)
Definition possible (rho : nat -> R) : Prop := forall b d ps, nth_error h b = Some (CRv d ps) -> charges (if cont d then Leb else Nats) (rho b).
Definition whole_bounds (req : list nat) : Prop := forall v t b lo hi d ps, In v req -> nth_error h v = Some (CClip t b lo hi) -> nth_error h b = Some (CRv d ps) -> cont d = false ->
  forall rho r, possible rho -> cbound (drawn rho) b m_infty lo (Finite r) \/ cbound (drawn rho) b p_infty hi (Finite r) -> exists k, r = IZR k.
(** draws of the variables behind the requested ones up to [v] at which their densities are not 0 *)
Definition likely (req : list nat) (rho : nat -> R) (v : nat) : Prop := forall w b d ps xs, In w req -> (w <= v)%nat -> observes cont req w b -> nth_error h b = Some (CRv d ps) ->
  List.Forall2 (cvalue (drawn rho)) ps xs -> pdf d xs (rho b) <> 0.
(** reciprocals are taken of positive numbers only; no factor is 0 *)
Definition safe (req : list nat) (rho : nat -> R) (w : nat) : Prop :=
  match nth_error h w with
  | Some (COne URecip a) => forall x, cvalue (drawn rho) a x -> 0 < x
  | Some (CMany NMul l) => forall p x, In p l -> cknown req p -> cvalue (drawn rho) p x -> x <> 0
  | Some (CDiv c a) => (forall x, cknown req c -> cvalue (drawn rho) c x -> x <> 0) /\ (forall x, ~ cknown req a -> cvalue (drawn rho) a x -> 0 < x)
  | _ => True
  end.
Definition safe_chains (req : list nat) : Prop := forall v b ws rho, In v req -> chained req b ws v -> possible rho -> likely req rho v -> forall w, In w ws -> safe req rho w.
Definition upd (f : nat -> R) (v : nat) (x : R) (w : nat) : R := if Nat.eqb w v then x else f w.

(** [expects req f bs rho m]: drawing the random variables [bs] one after the
    other, the others having the values [rho], [f] of the requested variables
    has expectation [m]. *)
Inductive expects (req : list nat) (f : list R -> R) : list nat -> (nat -> R) -> R -> Prop :=
| ex_end rho zs : List.Forall2 (cvalue (drawn rho)) req zs -> expects req f [] rho (f zs)
| ex_draw b bs rho d ps xs g m : nth_error h b = Some (CRv d ps) -> List.Forall2 (cvalue (drawn rho)) ps xs -> proper d xs ->
    (forall x, charges (if cont d then Leb else Nats) x -> pdf d xs x <> 0 -> expects req f bs (upd rho b x) (g x)) ->
    integral (if cont d then Leb else Nats) (fun x => pdf d xs x * g x) m -> expects req f (b :: bs) rho m.

(** every draw from [bs] has proper parameters and all requested variables get values *)
Inductive runs (req : list nat) : list nat -> (nat -> R) -> Prop :=
| run_end rho zs : List.Forall2 (cvalue (drawn rho)) req zs -> runs req [] rho
| run_draw b bs rho d ps xs : nth_error h b = Some (CRv d ps) -> List.Forall2 (cvalue (drawn rho)) ps xs -> proper d xs ->
    (forall x, charges (if cont d then Leb else Nats) x -> pdf d xs x <> 0 -> runs req bs (upd rho b x)) -> runs req (b :: bs) rho.

(** the requested variables but [v] have the values [y], and [b] has the value [x] *)
Definition assigned (req : list nat) (y : nat -> R) (v b : nat) (x : R) (w : nat) : option R :=
  if Nat.eqb w v then None else if Nat.eqb w b then Some x else valued req y w.
(** the measure of a requested variable when those before it have the values [y] *)
Inductive measure_of (req : list nat) (y : nat -> R) : nat -> measure -> Prop :=
| mo_rv v d ps : nth_error h v = Some (CRv d ps) -> measure_of req y v (if cont d then Leb else Nats)
| mo_clip v t b lo hi d ps l u : nth_error h v = Some (CClip t b lo hi) -> nth_error h b = Some (CRv d ps) -> cbound (valued req y) b m_infty lo l -> cbound (valued req y) b p_infty hi u -> Rbar_lt l u ->
    measure_of req y v (if cont d then Between l u else Steps l u)
| mo_round v op b : nth_error h v = Some (CRound op b) -> measure_of req y v Ints
| mo_chain v b ws d ps xs s t l u : chained req b ws v -> ws <> [] -> nth_error h b = Some (CRv d ps) -> List.Forall2 (cvalue (valued req y)) ps xs -> supported (pdf d xs) s t -> Rbar_lt l u ->
    (forall z, between l u z <-> exists x, between s t x /\ cvalue (assigned req y v b x) v z) -> measure_of req y v (Open l u).
(** [weighs req F J f vs y m]: integrating over the values of [vs] one after the
    other, the others having the values [y], [f] of the requested variables
    with the density denoted by [J] has the integral [m].  Values at which the
    factor [F] of a variable is 0 are left out. *)
Inductive weighs (req : list nat) (F : (nat -> R) -> nat -> option (res xr)) (J : (nat -> R) -> option (res xr)) (f : list R -> R) : list nat -> (nat -> R) -> R -> Prop :=
| we_end y r p : J y = Some r -> denotes r p -> weighs req F J f [] y (p * f (map y req))
| we_value v vs y mu g m : measure_of req y v mu ->
    (forall x, charges mu x -> exists r p, F (upd y v x) v = Some r /\ denotes r p /\ (p <> 0 -> weighs req F J f vs (upd y v x) (g x)) /\ (p = 0 -> g x = 0)) ->
    integral mu g m -> weighs req F J f (v :: vs) y m.
End Values.
