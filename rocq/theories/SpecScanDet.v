(** Specifications for C63. *)
From Coq Require Import Reals List Arith ZArith.
From Verif Require Import XR SpecDist ModelScan SpecScan ModelScanDet.
Import ListNotations.
Open Scope nat_scope.

(** the values at a step, by variable and tap *)
Notation hist := (nat -> Z -> option R).
(** the same for computed series [S] *)
Definition c_history (cs : list cout) (S : list (list R)) (t : nat) : hist :=
  fun j k => match nth_error cs j, nth_error S j with Some c, Some s => lagged s (length (c_init c)) t k | _, _ => None end.
(** the inner inputs [e] are all those of the given taps, with the values [h] *)
Definition agrees (e : inputs) (h : hist) (taps : list (list Z)) : Prop :=
  (forall u k x, In ((u, k), x) e -> h u k = Some x) /\
  (forall u l k, nth_error taps u = Some l -> In k l -> exists y, In ((u, k), y) e).
(** [c] computes [g] from the earlier values *)
Definition series_computes (c : cout) (g : nat -> hist -> hist -> R) (vars : list (svar R)) (cs : list cout) : Prop :=
  forall t e ce h hc, agrees e h (map s_taps vars) -> agrees ce hc (map c_taps cs) -> c_fn c t e ce = Val (g t h hc).
(** [step] computes the log of the densities [D] of the random outputs at
    the given values and the computed series [S] *)
Definition density_computes (step : nat -> nat -> inputs -> inputs -> res xr) (D : nat -> nat -> hist -> hist -> R) (vars : list (svar R)) (L : nat -> nat) (N : nat) (cs : list cout) (S : list (list R)) : Prop :=
  forall t v e ce, t < N -> v < length vars -> agrees e (history vars L t) (map (fun x => 0%Z :: s_taps x) vars) -> agrees ce (c_history cs S t) (map c_taps cs) ->
    denotes (step t v e ce) (D t v (history vars L t) (c_history cs S t)).
(** [S] are the series of the computed outputs, initial values first, when the
    random outputs take their given values *)
Definition solves (cs : list (cout * (nat -> hist -> hist -> R))) (vars : list (svar R)) (L : nat -> nat) (N : nat) (S : list (list R)) : Prop :=
  length S = length cs /\
  forall j c g s, nth_error cs j = Some (c, g) -> nth_error S j = Some s ->
    length s = length (c_init c) + N /\ firstn (length (c_init c)) s = c_init c /\
    forall t, t < N -> nth_error s (length (c_init c) + t) = Some (g t (history vars L t) (c_history (map fst cs) S t)).
Definition total (l : list R) : R := fold_right Rplus 0%R l.
