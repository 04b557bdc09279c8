(** Extended reals with IEEE-754 style propagation over exact reals, and
    evaluation results (a number or a raised assertion).

    This file models the run-time values of the graphs built by aeppl.
    Simplifications (see DESIGN.md): no rounding, no overflow, a single zero
    (treated as +0 when divided by). *)
From Coq Require Import Reals Lra Lia ZArith List Bool.
Import ListNotations.
Open Scope R_scope.

(** A float-like value: a real number, an infinity or NaN. *)
Inductive xr : Type :=
| Fin (r : R)
| PInf
| NInf
| NaN.

(** Boolean comparisons on reals (classical decidability of the reals). *)
Definition Rltb (a b : R) : bool := if Rlt_dec a b then true else false.
Definition Rleb (a b : R) : bool := if Rle_dec a b then true else false.
Definition Reqb (a b : R) : bool := if Req_EM_T a b then true else false.

Lemma Rltb_true a b : Rltb a b = true <-> a < b.
Proof. unfold Rltb; destruct (Rlt_dec a b); split; intros; auto; discriminate. Qed.
Lemma Rltb_false a b : Rltb a b = false <-> b <= a.
Proof. unfold Rltb; destruct (Rlt_dec a b); split; intros; auto; try discriminate; lra. Qed.
Lemma Rleb_true a b : Rleb a b = true <-> a <= b.
Proof. unfold Rleb; destruct (Rle_dec a b); split; intros; auto; discriminate. Qed.
Lemma Rleb_false a b : Rleb a b = false <-> b < a.
Proof. unfold Rleb; destruct (Rle_dec a b); split; intros; auto; try discriminate; lra. Qed.
Lemma Reqb_true a b : Reqb a b = true <-> a = b.
Proof. unfold Reqb; destruct (Req_EM_T a b); split; intros; auto; discriminate. Qed.
Lemma Reqb_false a b : Reqb a b = false <-> a <> b.
Proof. unfold Reqb; destruct (Req_EM_T a b); split; intros; auto; try discriminate; contradiction. Qed.

(** Integrality test on reals. *)
Definition Rintb (a : R) : bool := Reqb a (IZR (Int_part a)).
Lemma Int_part_IZR z : Int_part (IZR z) = z.
Proof.
  destruct (base_Int_part (IZR z)) as [H1 H2].
  apply le_IZR in H1.
  assert (IZR (Int_part (IZR z)) + 1 > IZR z) by lra.
  rewrite <- plus_IZR in H. apply Rgt_lt, lt_IZR in H. lia.
Qed.
Lemma Rintb_true a : Rintb a = true <-> exists z, a = IZR z.
Proof.
  unfold Rintb. rewrite Reqb_true. split.
  - intros H; eauto.
  - intros [z ->]. now rewrite Int_part_IZR.
Qed.

(** ** Comparisons: aesara [at.lt], [at.le], [at.gt], [at.ge], [at.eq]
    (NaN compares false). *)
Definition xlt (x y : xr) : bool :=
  match x, y with
  | Fin a, Fin b => Rltb a b
  | Fin _, PInf => true
  | NInf, Fin _ => true
  | NInf, PInf => true
  | _, _ => false
  end.
Definition xeq (x y : xr) : bool :=
  match x, y with
  | Fin a, Fin b => Reqb a b
  | PInf, PInf => true
  | NInf, NInf => true
  | _, _ => false
  end.
Definition xle (x y : xr) : bool := xlt x y || xeq x y.
Definition xgt (x y : xr) : bool := xlt y x.
Definition xge (x y : xr) : bool := xle y x.

(** ** Arithmetic *)
Definition xneg (x : xr) : xr :=
  match x with Fin a => Fin (- a) | PInf => NInf | NInf => PInf | NaN => NaN end.
Definition xadd (x y : xr) : xr :=
  match x, y with
  | NaN, _ | _, NaN => NaN
  | Fin a, Fin b => Fin (a + b)
  | PInf, NInf | NInf, PInf => NaN
  | PInf, _ | _, PInf => PInf
  | NInf, _ | _, NInf => NInf
  end.
Definition xsub (x y : xr) : xr := xadd x (xneg y).
(** infinity with the sign of a finite real (NaN for zero) *)
Definition sgn_inf (a : R) : xr :=
  if Rlt_dec 0 a then PInf else if Rlt_dec a 0 then NInf else NaN.
Definition xmul (x y : xr) : xr :=
  match x, y with
  | NaN, _ | _, NaN => NaN
  | Fin a, Fin b => Fin (a * b)
  | Fin a, PInf | PInf, Fin a => sgn_inf a
  | Fin a, NInf | NInf, Fin a => xneg (sgn_inf a)
  | PInf, PInf | NInf, NInf => PInf
  | PInf, NInf | NInf, PInf => NInf
  end.
(** division; a zero denominator counts as +0 *)
Definition xdiv (x y : xr) : xr :=
  match x, y with
  | NaN, _ | _, NaN => NaN
  | Fin a, Fin b => if Req_EM_T b 0 then sgn_inf a else Fin (a / b)
  | Fin _, _ => Fin 0
  | PInf, Fin b => if Rle_dec 0 b then PInf else NInf
  | NInf, Fin b => if Rle_dec 0 b then NInf else PInf
  | _, _ => NaN
  end.
Definition xabs (x : xr) : xr :=
  match x with Fin a => Fin (Rabs a) | PInf | NInf => PInf | NaN => NaN end.
Definition xlog (x : xr) : xr :=
  match x with
  | Fin a => if Rlt_dec 0 a then Fin (ln a) else if Req_EM_T a 0 then NInf else NaN
  | PInf => PInf
  | _ => NaN
  end.
Definition xlog1p (x : xr) : xr := xlog (xadd (Fin 1) x).
Definition xexp (x : xr) : xr :=
  match x with Fin a => Fin (exp a) | PInf => PInf | NInf => Fin 0 | NaN => NaN end.
Definition xexpm1 (x : xr) : xr := xsub (xexp x) (Fin 1).
Definition xsqrt (x : xr) : xr :=
  match x with
  | Fin a => if Rle_dec 0 a then Fin (sqrt a) else NaN
  | PInf => PInf
  | _ => NaN
  end.
Definition xsq (x : xr) : xr := xmul x x.
Definition xcos (x : xr) : xr :=
  match x with Fin a => Fin (cos a) | _ => NaN end.
(** [at.pow] *)
Definition xpow (x y : xr) : xr :=
  if xeq y (Fin 0) then Fin 1 else if xeq x (Fin 1) then Fin 1 else
  match x, y with
  | NaN, _ | _, NaN => NaN
  | Fin a, Fin b =>
      if Rlt_dec 0 a then Fin (Rpower a b)
      else if Req_EM_T a 0 then (if Rlt_dec 0 b then Fin 0 else PInf)
      else if Rintb b then Fin (powerRZ a (Int_part b)) else NaN
  | Fin a, PInf => if Rlt_dec 1 (Rabs a) then PInf else if Rlt_dec (Rabs a) 1 then Fin 0 else Fin 1
  | Fin a, NInf => if Rlt_dec 1 (Rabs a) then Fin 0 else if Rlt_dec (Rabs a) 1 then PInf else Fin 1
  | PInf, Fin b => if Rlt_dec 0 b then PInf else Fin 0
  | PInf, PInf => PInf
  | PInf, NInf => Fin 0
  | NInf, Fin b =>
      if Rlt_dec 0 b then
        (if Rintb b && Z.odd (Int_part b) then NInf else PInf) else Fin 0
  | NInf, PInf => PInf
  | NInf, NInf => Fin 0
  end.
Definition xfloor (x : xr) : xr :=
  match x with Fin a => Fin (IZR (Int_part a)) | y => y end.
Definition Rceil_part (a : R) : Z := (- Int_part (- a))%Z.
Definition xceil (x : xr) : xr :=
  match x with Fin a => Fin (IZR (Rceil_part a)) | y => y end.

(** [at.log1mexp]: x < log(0.5) -> log1p(-exp x), else log(-expm1 x)
    (aesara.tensor.math.log1mexp, an external helper). *)
Definition xlog1mexp (x : xr) : xr :=
  if xlt x (Fin (ln (1/2))) then xlog1p (xneg (xexp x)) else xlog (xneg (xexpm1 x)).

(** [at.logaddexp a b = log (exp a + exp b)], evaluated through
    max + log1p(exp(-|a-b|)) with equal infinities handled as NumPy does. *)
Definition xlogaddexp (a b : xr) : xr :=
  match a, b with
  | NaN, _ | _, NaN => NaN
  | PInf, _ | _, PInf => PInf
  | NInf, y => y
  | x, NInf => x
  | Fin x, Fin y => Fin (ln (exp x + exp y))
  end.

(** ** Evaluation results *)
Inductive res (A : Type) : Type := Val (a : A) | Raise.
Arguments Val {A}. Arguments Raise {A}.

(** [CheckAndRaise(res, *conds)]: the value if all conditions hold, else an exception. *)
Definition check {A} (r : res A) (conds : list bool) : res A :=
  match r with
  | Val v => if forallb (fun b => b) conds then Val v else Raise
  | Raise => Raise
  end.
(** [at.switch]: both branches are evaluated. *)
Definition rswitch {A} (c : bool) (a b : res A) : res A :=
  match a, b with
  | Val x, Val y => Val (if c then x else y)
  | _, _ => Raise
  end.
Definition rmap {A B} (f : A -> B) (r : res A) : res B :=
  match r with Val v => Val (f v) | Raise => Raise end.

(** [exp] of an extended real read as a non-negative extended number:
    probability/density denoted by a log-probability. *)
Definition dens_of (x : xr) : option R :=
  match x with Fin a => Some (exp a) | NInf => Some 0 | _ => None end.

(** ** Automation *)
Ltac xcase :=
  repeat match goal with
  | |- context [if Rlt_dec ?a ?b then _ else _] => destruct (Rlt_dec a b)
  | |- context [if Rle_dec ?a ?b then _ else _] => destruct (Rle_dec a b)
  | |- context [if Req_EM_T ?a ?b then _ else _] => destruct (Req_EM_T a b)
  end.

Lemma xlog_pos a : 0 < a -> xlog (Fin a) = Fin (ln a).
Proof. intros H; simpl; destruct (Rlt_dec 0 a); [reflexivity|lra]. Qed.
Lemma xlog_zero : xlog (Fin 0) = NInf.
Proof. simpl; destruct (Rlt_dec 0 0); [lra|]. destruct (Req_EM_T 0 0); [reflexivity|lra]. Qed.
Lemma xlog_neg a : a < 0 -> xlog (Fin a) = NaN.
Proof. intros H; simpl; destruct (Rlt_dec 0 a); [lra|]. destruct (Req_EM_T a 0); [lra|reflexivity]. Qed.
Lemma xdiv_fin a b : b <> 0 -> xdiv (Fin a) (Fin b) = Fin (a / b).
Proof. intros H; simpl; destruct (Req_EM_T b 0); [contradiction|reflexivity]. Qed.
Lemma xsqrt_fin a : 0 <= a -> xsqrt (Fin a) = Fin (sqrt a).
Proof. intros H; simpl; destruct (Rle_dec 0 a); [reflexivity|lra]. Qed.
Lemma xpow_pos a b : 0 < a -> xpow (Fin a) (Fin b) = Fin (Rpower a b).
Proof.
  intros H. unfold xpow. simpl xeq.
  destruct (Reqb b 0) eqn:Eb. { apply Reqb_true in Eb; subst. now rewrite Rpower_O. }
  destruct (Reqb a 1) eqn:Ea. { apply Reqb_true in Ea; subst. unfold Rpower. now rewrite ln_1, Rmult_0_r, exp_0. }
  destruct (Rlt_dec 0 a); [reflexivity|lra].
Qed.
Lemma xlt_true a b : a < b -> xlt (Fin a) (Fin b) = true.
Proof. intros; simpl; now apply Rltb_true. Qed.
Lemma xlt_false a b : b <= a -> xlt (Fin a) (Fin b) = false.
Proof. intros; simpl; now apply Rltb_false. Qed.
Lemma xle_fin a b : xle (Fin a) (Fin b) = Rleb a b.
Proof.
  unfold xle; simpl. destruct (Rleb a b) eqn:E.
  - apply Rleb_true in E. destruct (Rltb a b) eqn:E1; auto. apply Rltb_false in E1.
    simpl. apply Reqb_true; lra.
  - apply Rleb_false in E. apply orb_false_intro; [apply Rltb_false; lra|apply Reqb_false; lra].
Qed.
Lemma xle_true a b : a <= b -> xle (Fin a) (Fin b) = true.
Proof. intros; rewrite xle_fin; now apply Rleb_true. Qed.
Lemma xle_false a b : b < a -> xle (Fin a) (Fin b) = false.
Proof. intros; rewrite xle_fin; now apply Rleb_false. Qed.
Lemma xeq_true a b : a = b -> xeq (Fin a) (Fin b) = true.
Proof. intros; simpl; now apply Reqb_true. Qed.
Lemma xeq_false a b : a <> b -> xeq (Fin a) (Fin b) = false.
Proof. intros; simpl; now apply Reqb_false. Qed.
