(** Measurable expressions with censoring, and mixtures of them: the rewrites
    of /repo/aeppl/transforms.py 386-597, censoring.py 37-70 and 189-212 applied
    bottom-up, then those of mixture.py 204-347, which run last (mixture.py:411;
    the [SequenceDB] of rewriting.py:158-183).  Scalars only. *)
From Coq Require Import Reals ZArith List Bool.
From Verif Require Import XR ModelDist ModelVec ModelTrans ModelCens ModelMix ModelNest.
Import ListNotations.
Open Scope R_scope.

(** [GRv] is an un-valued random variable; [GCon] a constant; [GIn] an input or
    a variable that has a value; [GSelf], as a bound of [GClip], the clipped
    variable itself (its node is the same, censoring.py:57-58); [GClip d] has
    output dtype [d]; [GOther] any operation without a measurable rewrite. *)
Inductive gexpr : Type :=
| GRv (i : nat)
| GCon (c : xr)
| GIn (c : xr)
| GSelf
| GOne (u : unary) (e : gexpr)
| GMany (n : nary) (es : list gexpr)
| GSub (a b : gexpr)
| GDiv (a b : gexpr)
| GClip (d : dtype) (e lo hi : gexpr)
| GRound (op : rounding) (e : gexpr)
| GOther (k : nat) (es : list gexpr).

(** The measurable forms. *)
Inductive gm : Type :=
| GB (i : nat)
| GE (t : tr) (m : gm)                          (* MeasurableElemwiseTransform *)
| GC (d : dtype) (m : gm) (lo hi : bound)       (* MeasurableClip *)
| GR (op : rounding) (m : gm).                  (* MeasurableRound *)

Section Rewrites.
Variable dt : nat -> dtype.
Variable fs : nat -> list xr -> xr.
(** the current draws of the un-valued random variables *)
Variable rho : nat -> xr.

(** As [ModelNest.ann]; [g_val] is the value for the draws [rho]. *)
Record gann := { g_m : option gm; g_rand : bool; g_val : xr }.
Definition gcon (c : xr) : gann := {| g_m := None; g_rand := false; g_val := c |}.

(** dtypes of the measurable variables: transforms and rounding yield floats *)
Definition gdt (m : gm) : dtype := match m with GB i => dt i | GE _ _ => DFloat | GC d _ _ _ => d | GR _ _ => DFloat end.
Definition is_int (d : dtype) : bool := match d with DInt => true | _ => false end.       (* startswith("int") *)
Definition is_float (d : dtype) : bool := match d with DFloat => true | _ => false end.   (* startswith("float") *)

(** transforms.py:507-597 *)
Definition gmeasurable (l : list gann) : list gm := flat_map (fun a => match g_m a with Some m => [m] | None => [] end) l.
Definition gothers (l : list gann) : list gann := filter (fun a => match g_m a with Some _ => false | None => true end) l.
Definition gconstruct (l : list gann) (mk : list xr -> option tr) : option gm :=
  match gmeasurable l with
  | [m] => if is_int (gdt m) then None
           else if existsb g_rand (gothers l) then None
           else match mk (map g_val (gothers l)) with Some t => Some (GE t m) | None => None end
  | _ => None
  end.
(** transforms.py:436-504 *)
Definition g_unary (u : unary) (a : gann) : gann :=
  {| g_m := gconstruct [a] (fun _ => Some (tr_unary u)); g_rand := g_rand a; g_val := un_val u (g_val a) |}.
Definition g_nary (n : nary) (l : list gann) : gann :=
  {| g_m := gconstruct l (tr_nary n); g_rand := existsb g_rand l; g_val := nary_val n (map g_val l) |}.
Definition g_sub (a b : gann) : gann := g_nary NAdd [a; g_nary NMul [gcon (Fin (-1)); b]].  (* 409-433 *)
Definition g_div (a b : gann) : gann := g_nary NMul [a; g_unary URecip b].                  (* 386-406 *)

(** Aesara's scalar [clip]: the lower bound is looked at first *)
Definition xclip (x lo hi : xr) : xr := if xlt x lo then lo else if xgt x hi then hi else x.
(** censoring.py:57-58: bounds of the measurable clip, [a] describing the bound *)
Definition g_bound (inf : xr) (e : gexpr) (a : gann) : bound :=
  match e with GSelf => BConst inf | GCon c => BConst c | _ => BSym (g_val a) end.
(** censoring.py:37-70: the base variable is measurable; the bounds are not looked at *)
Definition g_clip (d : dtype) (a : gann) (lo hi : gexpr) (alo ahi : gann) : gann :=
  {| g_m := match g_m a with Some m => Some (GC d m (g_bound NInf lo alo) (g_bound PInf hi ahi)) | None => None end;
     g_rand := g_rand a || g_rand alo || g_rand ahi;
     g_val := xclip (g_val a) (match lo with GSelf => g_val a | _ => g_val alo end) (match hi with GSelf => g_val a | _ => g_val ahi end) |}.
(** censoring.py:189-212 *)
Definition round_val (op : rounding) (x : xr) : xr := match op with RHalfEven => xround x | RFloor => xfloor x | RCeil => xceil x end.
Definition g_round (op : rounding) (a : gann) : gann :=
  {| g_m := match g_m a with Some m => if is_float (gdt m) then Some (GR op m) else None | None => None end;
     g_rand := g_rand a; g_val := round_val op (g_val a) |}.

Fixpoint gannotate (e : gexpr) : gann :=
  match e with
  | GRv i => {| g_m := Some (GB i); g_rand := true; g_val := rho i |}
  | GCon c | GIn c => gcon c
  | GSelf => gcon NaN
  | GOne u e => g_unary u (gannotate e)
  | GMany n es => g_nary n (map gannotate es)
  | GSub a b => g_sub (gannotate a) (gannotate b)
  | GDiv a b => g_div (gannotate a) (gannotate b)
  | GClip d e lo hi => g_clip d (gannotate e) lo hi (gannotate lo) (gannotate hi)
  | GRound op e => g_round op (gannotate e)
  | GOther k es => let l := map gannotate es in {| g_m := None; g_rand := existsb g_rand l; g_val := fs k (map g_val l) |}
  end.

(** Random variables: distribution and parameters; log-probabilities and
    log-CDFs of the distributions. *)
Variable rvs : nat -> nat * list gexpr.
Variable dlp dlc : nat -> list xr -> xr -> res xr.
Definition params (i : nat) : list xr := map (fun p => g_val (gannotate p)) (snd (rvs i)).
(** [_logcdf]: NotImplementedError for the derived variables (logprob.py:99-107) *)
Definition glogcdf (m : gm) : xr -> res xr := match m with GB i => dlc (fst (rvs i)) (params i) | _ => fun _ => Raise end.
(** [_logprob] of a measurable variable, as the base of another one
    ([nested]) or itself.  The base is replaced by a clone whose op has a new
    type (abstract.py:69-121) and is unequal to the original op
    (abstract.py:30-33, given Aesara's [Op.__eq__], which compares the types):
    [round_logprob] then raises TypeError (censoring.py:246-259). *)
Fixpoint glogprob (nested : bool) (m : gm) : xr -> res xr :=
  match m with
  | GB i => dlp (fst (rvs i)) (params i)
  | GE t m => elemwise_logprob t (glogprob true m)
  | GC _ m lo hi => clip_logprob (is_int (gdt m)) (glogprob true m) (glogcdf m) lo hi
  | GR op m => if nested then fun _ => Raise else round_logprob op (glogcdf m)
  end.
(** the derived log-probability of a requested expression; [None]: DensityNotFound *)
Definition derived (e : gexpr) (v : xr) : option (res xr) :=
  match g_m (gannotate e) with Some m => Some (glogprob false m v) | None => None end.

(** mixture.py:204-303, 350-409: [stack(es)[idx]] for a scalar [idx]; every
    component is measurable, the index is not looked at.  Indices are integers.
    ([switch] is treated in ModelMix.) *)
Fixpoint all_measurable (l : list gann) : option (list gm) :=
  match l with
  | [] => Some []
  | a :: l => match g_m a, all_measurable l with Some m, Some ms => Some (m :: ms) | _, _ => None end
  end.
Definition index_of (x : xr) : Z := match x with Fin r => Int_part r | _ => (-1)%Z end.
Definition derived_mix (idx : gexpr) (es : list gexpr) (v : xr) : option (res xr) :=
  match all_measurable (map gannotate es) with
  | Some ms => Some (mixture_scalar (map (glogprob true) ms) (index_of (g_val (gannotate idx))) v)
  | None => None
  end.
End Rewrites.
