(** The special functions aeppl calls through Aesara (SciPy), given by their
    mathematical definitions (integrals), not as oracles. *)
From Coq Require Import Reals Lra Lia ZArith List Bool.
From Coquelicot Require Import Coquelicot.
From Verif Require Import XR.
Open Scope R_scope.

(** Euler's integral; used for [at.gammaln]. *)
Definition gam_f (a t : R) : R := Rpower t (a - 1) * exp (- t).
Definition Gam (a : R) : R :=
  RInt_gen (gam_f a) (at_right 0) (Rbar_locally p_infty).

(** [at.gammaln] on finite reals: ln|Gamma a|; +inf at the poles; the
    recurrence defines it at negative non-integers. *)
Definition lgam (a : R) : xr :=
  if Rlt_dec 0 a then Fin (ln (Gam a))
  else if Rintb a then PInf
  else let n := Z.to_nat (up (- a)) in
       Fin (ln (Gam (a + INR n))
            - fold_right Rplus 0 (map (fun i => ln (Rabs (a + INR i))) (seq 0 n))).
Definition xgammaln (x : xr) : xr :=
  match x with Fin a => lgam a | PInf => PInf | NInf => PInf | NaN => NaN end.

(** Error functions: [at.erfc], [at.erfcx], [at.erfcinv]. *)
Definition gauss (t : R) : R := exp (- (t * t)).
Definition erf (x : R) : R := 2 / sqrt PI * RInt gauss 0 x.
Definition erfc (x : R) : R := 1 - erf x.
Definition xerfc (x : xr) : xr :=
  match x with Fin a => Fin (erfc a) | PInf => Fin 0 | NInf => Fin 2 | NaN => NaN end.
Definition xerfcx (x : xr) : xr :=
  match x with
  | Fin a => Fin (exp (a * a) * erfc a) | PInf => Fin 0 | NInf => PInf | NaN => NaN end.
(** inverse of [erfc]: the supremum of the points where [erfc >= q]. *)
Definition erfcinv (q : R) : R := real (Lub_Rbar (fun y => q <= erfc y)).
Definition xerfcinv (x : xr) : xr :=
  match x with
  | Fin q => if Rlt_dec 0 q then
               if Rlt_dec q 2 then Fin (erfcinv q)
               else if Req_EM_T q 2 then NInf else NaN
             else if Req_EM_T q 0 then PInf else NaN
  | _ => NaN
  end.

(** Modified Bessel function [at.i0]. *)
Definition i0 (k : R) : R := / PI * RInt (fun t => exp (k * cos t)) 0 PI.
Definition xi0 (x : xr) : xr :=
  match x with Fin k => Fin (i0 k) | PInf => PInf | NInf => PInf | NaN => NaN end.

(** Regularised upper incomplete gamma [at.gammaincc] for a > 0, x >= 0
    (NaN elsewhere, as SciPy). *)
Definition gammaincc (a x : R) : R :=
  RInt_gen (gam_f a) (at_right x) (Rbar_locally p_infty) / Gam a.
Definition xgammaincc (a x : xr) : xr :=
  match a, x with
  | Fin a, Fin x => if Rlt_dec 0 a then if Rle_dec 0 x then Fin (gammaincc a x) else NaN else NaN
  | Fin a, PInf => if Rlt_dec 0 a then Fin 0 else NaN
  | PInf, Fin x => if Rle_dec 0 x then Fin 1 else NaN
  | _, _ => NaN
  end.
