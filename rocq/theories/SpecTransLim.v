(** The limits of the inverses of transforms, and of chains of them. *)
From Coq Require Import Reals List.
From Coquelicot Require Import Coquelicot.
From Verif Require Import XR ModelTrans SpecTrans SpecTransInf.
Import ListNotations.
Open Scope R_scope.

(** the inverse of [t] goes to [p] at [s] *)
Inductive inverse_at : tr -> Rbar -> Rbar -> Prop :=
| i_fin t x y : tmaps t x y -> tpos t x -> inverse_at t (Finite y) (Finite x)
| i_loc c s : infinite s -> inverse_at (TLoc (Fin c)) s s
| i_scale_pos c s : infinite s -> 0 < c -> inverse_at (TScale (Fin c)) s s
| i_scale_neg c s : infinite s -> c < 0 -> inverse_at (TScale (Fin c)) s (Rbar_opp s)
| i_log_p : inverse_at TLog p_infty p_infty
| i_log_m : inverse_at TLog m_infty (Finite 0)
| i_exp : inverse_at TExp p_infty p_infty
| i_recip s : infinite s -> inverse_at TRecip s (Finite 0)
| i_between_p a b : a < b -> inverse_at (TInterval (Some (Fin a)) (Some (Fin b))) p_infty (Finite b)
| i_between_m a b : a < b -> inverse_at (TInterval (Some (Fin a)) (Some (Fin b))) m_infty (Finite a)
| i_above_p a : inverse_at (TInterval (Some (Fin a)) None) p_infty p_infty
| i_above_m a : inverse_at (TInterval (Some (Fin a)) None) m_infty (Finite a)
| i_below_p b : inverse_at (TInterval None (Some (Fin b))) p_infty m_infty
| i_below_m b : inverse_at (TInterval None (Some (Fin b))) m_infty (Finite b)
| i_odds_p : inverse_at TLogOdds p_infty (Finite 1)
| i_odds_m : inverse_at TLogOdds m_infty (Finite 0)
| i_nil s : inverse_at (TChain []) s s
| i_cons t l s p p' : inverse_at (TChain l) s p -> inverse_at t p p' -> inverse_at (TChain (t :: l)) s p'.
(** as [inverse_at], without reciprocals at minus infinity: the model has only
    one zero (floating point numbers have a negative one) *)
Inductive retraced : tr -> Rbar -> Rbar -> Prop :=
| r_one t s p : inverse_at t s p -> (t = TRecip -> s <> m_infty) -> (forall l, t <> TChain l) -> retraced t s p
| r_nil s : retraced (TChain []) s s
| r_cons t l s p p' : retraced (TChain l) s p -> retraced t p p' -> retraced (TChain (t :: l)) s p'.
