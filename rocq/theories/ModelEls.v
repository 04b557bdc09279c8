(** Joint log-probabilities of whole models of arrays whose requested variables
    may be element-wise measurable expressions: [ModelSys] with arrays in the
    place of scalars.  /repo/aeppl/rewriting.py 240-271, transforms.py 366-597
    and 600-673, joint_logprob.py 140-219, 300-319. *)
From Coq Require Import Reals List Arith Bool.
From Verif Require Import XR ModelDist ModelVec ModelIdx ModelTen ModelConv ModelSub ModelTrans ModelElem ModelJoint ModelNest ModelSys.
Import ListNotations.
Open Scope nat_scope.

(** A graph is a list of nodes with one output each.  [GRv d sh ps] is a
    univariate RandomVariable of shape [sh]; [GOne] to [GDiv] are Elemwise
    nodes, whose inputs Aesara gives the same number of axes; [GOther k] is
    every operation without a measurable rewrite (also the DimShuffles of
    known arrays that Aesara inserts).  Simplification: MakeVector, Join,
    DimShuffle and Subtensor of random variables are not among the nodes. *)
Inductive gnode :=
| GCon (c : nd xr)
| GRv (d : nat) (sh : list nat) (ps : list nat)
| GOne (u : unary) (a : nat)
| GMany (n : nary) (l : list nat)
| GSub (a b : nat)
| GDiv (a b : nat)
| GOther (k : nat) (l : list nat).

(** The measurable intermediate representation, see [ModelNest.mexpr]; the
    operand of a transform may fail to evaluate. *)
Inductive gtr := GLoc (c : res (nd xr)) | GScale (c : res (nd xr)) | GFun (u : unary).
Inductive gexpr := GBase (i : nat) | GElem (t : gtr) (m : gexpr).
(** transforms.py:600-673, with [ModelElem.arrtr] *)
Definition gtr_eval (t : gtr) : res arrtr :=
  match t with
  | GLoc c => rmap ALoc c
  | GScale c => rmap AScale c
  | GFun UExp => Val AExp | GFun ULog => Val ALog | GFun URecip => Val ARecip
  end.
Record gann := { g_m : option gexpr; g_rand : bool; g_val : res (nd xr) }.

Section Joint.
(** dtypes of the distributions; meaning of the other operations (on arrays);
    [_logprob] of the distributions at one element (parameters, value) *)
Variable ddt : nat -> dtype.
Variable afs : nat -> list (nd xr) -> nd xr.
Variable dlp : nat -> list xr -> xr -> res xr.
Variable h : list gnode.
(** the requested variables and their values *)
Variable req : list nat.
Variable y : nat -> nd xr.

Definition g_dtype (i : nat) : dtype := match nth_error h i with Some (GRv d _ _) => ddt d | _ => DFloat end.
Definition g_con (c : nd xr) : gann := {| g_m := None; g_rand := false; g_val := Val c |}.
(** 548 [measurable_input.type.dtype.startswith("int")] *)
Definition g_starts_int (m : gexpr) : bool :=
  match m with GBase i => match g_dtype i with DInt => true | _ => false end | GElem _ _ => false end.
Definition g_measurable (l : list gann) : list gexpr := flat_map (fun a => match g_m a with Some m => [m] | None => [] end) l.
Definition g_others (l : list gann) : list gann := filter (fun a => match g_m a with Some _ => false | None => true end) l.
(** 507-597 [construct_elemwise_transform], see [ModelNest.construct] *)
Definition g_construct (l : list gann) (mk : list (res (nd xr)) -> option gtr) : option gexpr :=
  match g_measurable l with
  | [m] => if g_starts_int m then None
           else if existsb g_rand (g_others l) then None
           else match mk (map g_val (g_others l)) with Some t => Some (GElem t m) | None => None end
  | _ => None
  end.
(** an Elemwise [add] or [mul] with broadcasting *)
Definition g_nary (n : nary) (vs : list (res (nd xr))) : res (nd xr) := bind (rseq vs) (elemwise (nary_val n)).
(** 466-470, 484-489: the only other input, or their sum (product) *)
Definition g_fold_others (n : nary) (vs : list (res (nd xr))) : option (res (nd xr)) :=
  match vs with [] => None | [v] => Some v | _ => Some (g_nary n vs) end.
Definition g_tr_nary (n : nary) (vs : list (res (nd xr))) : option gtr :=
  match g_fold_others n vs with
  | None => None
  | Some c => Some (match n with NAdd => GLoc c | NMul => GScale c end)
  end.
(** 436-455, 496-504 *)
Definition g_rw_unary (u : unary) (a : gann) : gann :=
  {| g_m := g_construct [a] (fun _ => Some (GFun u)); g_rand := g_rand a; g_val := rmap (nd_map (un_val u)) (g_val a) |}.
(** 458-493 *)
Definition g_rw_nary (n : nary) (l : list gann) : gann :=
  {| g_m := g_construct l (g_tr_nary n); g_rand := existsb g_rand l; g_val := g_nary n (map g_val l) |}.
(** 409-433: [minuend + (-1 * subtrahend)] *)
Definition g_rw_sub (a b : gann) : gann :=
  g_rw_nary NAdd [a; g_rw_nary NMul [g_con {| nshp := []; nelt := fun _ => Fin (-1) |}; b]].
(** 386-406: [numerator * reciprocal(denominator)] *)
Definition g_rw_div (a b : gann) : gann := g_rw_nary NMul [a; g_rw_unary URecip b].

(** the rewrites at node [v] whose inputs are annotated by [go]; a random
    variable has no value ([ModelNest.annotate] uses NaN as well) *)
Definition g_node (go : nat -> gann) (v : nat) : gann :=
  match nth_error h v with
  | None => g_con {| nshp := []; nelt := fun _ => NaN |}
  | Some (GCon c) => g_con c
  | Some (GRv _ sh _) => {| g_m := Some (GBase v); g_rand := true; g_val := Val {| nshp := sh; nelt := fun _ => NaN |} |}
  | Some (GOne u a) => g_rw_unary u (go a)
  | Some (GMany n l) => g_rw_nary n (map go l)
  | Some (GSub a b) => g_rw_sub (go a) (go b)
  | Some (GDiv a b) => g_rw_div (go a) (go b)
  | Some (GOther k l) =>
      {| g_m := None; g_rand := existsb (fun a => g_rand (go a)) l;
         g_val := rmap (afs k) (rseq (map (fun a => g_val (go a)) l)) |}
  end.
(** rewriting.py:266-271: requested variables are replaced by their values
    where they are inputs; [fuel] as in [ModelSys.unfold] *)
Fixpoint g_unfold (fuel v : nat) : gann :=
  match fuel with
  | 0 => g_con {| nshp := []; nelt := fun _ => NaN |}
  | S fuel => if mem v req then g_con (y v) else g_node (g_unfold fuel) v
  end.
(** rewriting.py:242-251: the requested node itself is cloned and stays *)
Definition g_top (v : nat) : gann := g_node (g_unfold (length h)) v.

(** [logprob] of the random variable [i] at an array: parameters and value
    broadcast against each other (logprob.py, element-wise expressions) *)
Definition g_rv_logprob (i : nat) (x : nd xr) : res (nd (res xr)) :=
  match nth_error h i with
  | Some (GRv d _ ps) =>
      bind (rseq (map (fun p => g_val (g_unfold (length h) p)) ps)) (fun P =>
      bind (bcast_all (map nshp P ++ [nshp x])) (fun s =>
      Val {| nshp := s; nelt := fun j => dlp d (map (fun p => nelt p (align (nshp p) j)) P) (nelt x (align (nshp x) j)) |}))
  | _ => Raise
  end.
(** transforms.py:366-383 at every level, see [ModelElem.arr_elemwise_logprob] *)
Fixpoint g_logprob (m : gexpr) (value : nd xr) : res (nd (res xr)) :=
  match m with
  | GBase i => g_rv_logprob i value
  | GElem t m =>
      bind (gtr_eval t) (fun a =>
      bind (arr_backward a value) (fun bv =>
      bind (g_logprob m bv) (fun l =>
      let j := arr_log_jac_det a value in
      bind (bcast_all [nshp l; nshp j]) (fun s =>
      Val {| nshp := s; nelt := fun i => bind (nelt l (align (nshp l) i)) (fun x => Val (xadd x (nelt j (align (nshp j) i)))) |}))))
  end.
(** joint_logprob.py:150-206, one requested variable; [None]: DensityNotFound *)
Definition g_conditional (v : nat) : option (res (nd (res xr))) :=
  match g_m (g_top v) with
  | None => None
  | Some m => Some (g_logprob m (y v))
  end.
Fixpoint g_conditionals (l : list nat) : option (list (res (nd (res xr)))) :=
  match l with
  | [] => Some []
  | v :: l => match g_conditional v, g_conditionals l with Some r, Some rs => Some (r :: rs) | _, _ => None end
  end.
(** joint_logprob.py:300-319: [at.sum] of every factor, and the sum of the sums *)
Definition g_joint : option (res xr) :=
  match g_conditionals req with
  | None => None
  | Some rs => Some (rmap xsum (rseq (map (fun r => bind r factor_sum) rs)))
  end.
End Joint.
