(** Clipped and rounded variables, /repo/aeppl/censoring.py, on scalars. *)
From Coq Require Import Reals Lra Lia ZArith List Bool.
From Verif Require Import XR Special ModelDist ModelVec.
Import ListNotations.
Open Scope R_scope.

(** A bound as written by the user in [clip(x, lower, upper)]: the base
    variable itself, a constant, or another symbolic value. *)
Inductive raw_bound : Type := RBase | RConst (v : xr) | RSym (v : xr).
(** A bound of the measurable clip node (a TensorConstant or not). *)
Inductive bound : Type := BConst (v : xr) | BSym (v : xr).
Definition bval (b : bound) : xr := match b with BConst v | BSym v => v end.

(** censoring.py:57-58 (in [find_measurable_clips]) *)
Definition lower_of (b : raw_bound) : bound :=
  match b with RBase => BConst NInf | RConst v => BConst v | RSym v => BSym v end.
Definition upper_of (b : raw_bound) : bound :=
  match b with RBase => BConst PInf | RConst v => BConst v | RSym v => BSym v end.

(** censoring.py:112-114 (np.isinf is true of both infinities) and 129-132 *)
Definition upper_unbounded (b : bound) : bool :=
  match b with BConst PInf | BConst NInf => true | _ => false end.
Definition lower_unbounded (b : bound) : bool :=
  match b with BConst NInf => true | _ => false end.

(** censoring.py:81-143 [clip_logprob]; [discrete] is
    [base_rv.dtype.startswith("int")], [lp] and [lc] are the base variable's
    log-probability and log-CDF. *)
Definition clip_logprob (discrete : bool) (lp lc : xr -> res xr) (lower upper : bound) (value : xr) : res xr :=
  bind (lp value) (fun logprob => bind (lc value) (fun logcdf =>
  let r1 :=
    if upper_unbounded upper then logprob
    else
      let logccdf := xlog1mexp logcdf in
      let logccdf := if discrete then xlogaddexp logccdf logprob else logccdf in
      if xeq value (bval upper) then logccdf
      else if xgt value (bval upper) then NInf else logprob in
  let r2 :=
    if lower_unbounded lower then r1
    else if xeq value (bval lower) then logcdf
    else if xlt value (bval lower) then NInf else r1 in
  if negb (lower_unbounded lower) && negb (upper_unbounded upper)
  then check (Val r2) [xle (bval lower) (bval upper)] else Val r2)).

(** ** Rounding *)
Inductive rounding : Type := RHalfEven | RFloor | RCeil.
(** [round_half_to_even] of Aesara's scalar ops (NumPy's [around]) *)
Definition Rround (a : R) : Z :=
  let n := Int_part a in
  let d := a - IZR n in
  if Rlt_dec d (1/2) then n
  else if Rlt_dec (1/2) d then (n + 1)%Z
  else if Z.even n then n else (n + 1)%Z.
Definition xround (x : xr) : xr := match x with Fin a => Fin (IZR (Rround a)) | y => y end.

(** censoring.py:216-275 [round_logprob] *)
Definition round_logprob (op : rounding) (lc : xr -> res xr) (value : xr) : res xr :=
  let '(value_upper, value_lower) :=
    match op with
    | RHalfEven => let value := xround value in (xadd value (Fin (1/2)), xsub value (Fin (1/2)))
    | RFloor => let value := xfloor value in (xadd value (Fin 1), value)
    | RCeil => let value := xceil value in (value, xsub value (Fin 1))
    end in
  bind (lc value_upper) (fun logcdf_upper =>
  bind (lc value_lower) (fun logcdf_lower =>
  Val (logdiffexp logcdf_upper logcdf_lower))).
