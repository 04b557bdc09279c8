(** Joint log-probabilities of whole models of arrays with stacks, joins,
    dimension shuffles, cumulative sums and elements of random arrays: [ModelEls]
    with the rewrites of /repo/aeppl/tensor.py 25-192, /repo/aeppl/cumsum.py
    22-76 and the one registered at /repo/aeppl/rewriting.py 179. *)
From Coq Require Import Reals List Arith ZArith Bool.
From Verif Require Import XR ModelDist ModelVec ModelIdx ModelTen ModelConv ModelSub ModelTrans ModelElem ModelJoint ModelNest ModelSys ModelEls.
Import ListNotations.
Open Scope nat_scope.

(** Nodes as in [ModelEls.gnode].  [VVec l] is MakeVector of scalars, [VJoin axis
    l] Join, [VShuf o a] DimShuffle with the order [o], [VCum axis a] CumOp in
    mode "add" along one axis ([axis = None] for at most one axis is
    [axis = 0]).  [VOther]: every other operation, flattening cumulative sums
    of several axes included.  Simplification: the fallback at tensor.py
    196-206 is used for every DimShuffle; Aesara's [local_dimshuffle_rv_lift],
    which runs before it, is not modelled.  [VTake ix t a] is a Subtensor or
    AdvancedSubtensor with the index tuple [ix]; [t] gives the positions it
    reads (those of NumPy's rules, [SpecElsV.v_well_shaped]). *)
Inductive vnode :=
| VCon (c : nd xr)
| VRv (d : nat) (sh : list nat) (ps : list nat)
| VOne (u : unary) (a : nat)
| VMany (n : nary) (l : list nat)
| VSub (a b : nat)
| VDiv (a b : nat)
| VOther (k : nat) (l : list nat)
| VVec (l : list nat)
| VJoin (axis : Z) (l : list nat)
| VShuf (o : list (option nat)) (a : nat)
| VCum (axis : Z) (a : nat)
| VTake (ix : list index) (t : nd (list nat)) (a : nat).

(** The measurable intermediate representation, see [ModelEls.gexpr]; a join
    carries the shapes of its parts, a shuffle the rank of its variable. *)
Inductive vexpr :=
| WBase (i : nat)
| WElem (t : gtr) (m : vexpr)
| WVec (ms : list vexpr)
| WJoin (axis : Z) (ms : list vexpr) (shs : list (list nat))
| WShuf (n : nat) (o : list (option nat)) (m : vexpr)
| WCum (axis : Z) (m : vexpr)
| WTake (t : nd (list nat)) (i : nat).
(** a RandomVariable: the lift at rewriting.py:179 turns an indexed one into another *)
Definition is_rv (m : vexpr) : bool := match m with WBase _ | WTake _ _ => true | _ => false end.
Record vann := { v_m : option vexpr; v_rand : bool; v_val : res (nd xr) }.

(** [at.stack] along a new first axis *)
Definition stack {A} (l : list (nd A)) (d : A) : res (nd A) :=
  match l with
  | [] => Raise
  | a :: _ =>
      if forallb (fun b => if list_eq_dec Nat.eq_dec (nshp b) (nshp a) then true else false) l
      then Val {| nshp := length l :: nshp a; nelt := fun q => match q with k :: q => match nth_error l k with Some b => nelt b q | None => d end | [] => d end |}
      else Raise
  end.
(** [value[k]] *)
Definition item {A} (v : nd A) (k : nat) : res (nd A) :=
  match nshp v with
  | n :: s => if k <? n then Val {| nshp := s; nelt := fun q => nelt v (k :: q) |} else Raise
  | [] => Raise
  end.
(** [n] entries of [value] along [ax], from [off] on ([at.split]) *)
Definition part {A} (ax off n : nat) (v : nd A) : nd A :=
  {| nshp := set_nth ax n (nshp v); nelt := fun p => nelt v (set_nth ax (nth ax p 0 + off) p) |}.
(** [at.cumsum] along an axis *)
Definition cumulate (axis : Z) (v : nd xr) : res (nd xr) :=
  match norm_axis (length (nshp v)) axis with
  | None => Raise
  | Some ax => Val {| nshp := nshp v; nelt := fun p => xsum (map (fun i => nelt v (set_nth ax i p)) (seq 0 (S (nth ax p 0)))) |}
  end.

Section Joint.
(** as in [ModelEls.Joint] *)
Variable ddt : nat -> dtype.
Variable afs : nat -> list (nd xr) -> nd xr.
Variable dlp : nat -> list xr -> xr -> res xr.
Variable h : list vnode.
Variable req : list nat.
Variable y : nat -> nd xr.

Definition v_dtype (i : nat) : dtype := match nth_error h i with Some (VRv d _ _) => ddt d | _ => DFloat end.
Definition v_con (c : nd xr) : vann := {| v_m := None; v_rand := false; v_val := Val c |}.
(** transforms.py:548; joins and stacks have the common dtype of their parts *)
Fixpoint v_starts_int (m : vexpr) : bool :=
  match m with
  | WBase i | WTake _ i => match v_dtype i with DInt => true | _ => false end
  | WElem _ _ => false
  | WVec ms | WJoin _ ms _ => forallb v_starts_int ms
  | WShuf _ _ m | WCum _ m => v_starts_int m
  end.
Definition v_measurable (l : list vann) : list vexpr := flat_map (fun a => match v_m a with Some m => [m] | None => [] end) l.
Definition v_others (l : list vann) : list vann := filter (fun a => match v_m a with Some _ => false | None => true end) l.
(** transforms.py:507-597, see [ModelEls.g_construct] *)
Definition v_construct (l : list vann) (mk : list (res (nd xr)) -> option gtr) : option vexpr :=
  match v_measurable l with
  | [m] => if v_starts_int m then None
           else if existsb v_rand (v_others l) then None
           else match mk (map v_val (v_others l)) with Some t => Some (WElem t m) | None => None end
  | _ => None
  end.
(** transforms.py:386-504, see [ModelEls] *)
Definition v_rw_unary (u : unary) (a : vann) : vann :=
  {| v_m := v_construct [a] (fun _ => Some (GFun u)); v_rand := v_rand a; v_val := rmap (nd_map (un_val u)) (v_val a) |}.
Definition v_rw_nary (n : nary) (l : list vann) : vann :=
  {| v_m := v_construct l (g_tr_nary n); v_rand := existsb v_rand l; v_val := g_nary n (map v_val l) |}.
Definition v_rw_sub (a b : vann) : vann :=
  v_rw_nary NAdd [a; v_rw_nary NMul [v_con {| nshp := []; nelt := fun _ => Fin (-1) |}; b]].
Definition v_rw_div (a b : vann) : vann := v_rw_nary NMul [a; v_rw_unary URecip b].

(** tensor.py:96-102: all inputs are measurable and have no value (a
    requested input is a constant here) *)
Fixpoint v_all (l : list vann) : option (list vexpr) :=
  match l with
  | [] => Some []
  | a :: l => match v_m a, v_all l with Some m, Some ms => Some (m :: ms) | _, _ => None end
  end.
(** [base_var.shape] *)
Definition v_shape (a : vann) : list nat := match v_val a with Val r => nshp r | Raise => [] end.

(** the rewrites at node [v] whose inputs are annotated by [go] *)
Definition v_node (go : nat -> vann) (v : nat) : vann :=
  match nth_error h v with
  | None => v_con {| nshp := []; nelt := fun _ => NaN |}
  | Some (VCon c) => v_con c
  | Some (VRv _ sh _) => {| v_m := Some (WBase v); v_rand := true; v_val := Val {| nshp := sh; nelt := fun _ => NaN |} |}
  | Some (VOne u a) => v_rw_unary u (go a)
  | Some (VMany n l) => v_rw_nary n (map go l)
  | Some (VSub a b) => v_rw_sub (go a) (go b)
  | Some (VDiv a b) => v_rw_div (go a) (go b)
  | Some (VOther k l) =>
      {| v_m := None; v_rand := existsb (fun a => v_rand (go a)) l;
         v_val := rmap (afs k) (rseq (map (fun a => v_val (go a)) l)) |}
  | Some (VVec l) =>                                                     (* tensor.py:77-116 *)
      {| v_m := option_map WVec (v_all (map go l)); v_rand := existsb (fun a => v_rand (go a)) l;
         v_val := bind (rseq (map (fun a => v_val (go a)) l)) (fun vs => stack vs NaN) |}
  | Some (VJoin axis l) =>                                               (* tensor.py:77-116 *)
      {| v_m := option_map (fun ms => WJoin axis ms (map (fun a => v_shape (go a)) l)) (v_all (map go l));
         v_rand := existsb (fun a => v_rand (go a)) l;
         v_val := bind (rseq (map (fun a => v_val (go a)) l)) (fun vs => concatenate axis vs NaN) |}
  | Some (VShuf o a) =>                                                  (* tensor.py:159-192: only over a RandomVariable *)
      {| v_m := match v_m (go a) with Some m => if is_rv m then Some (WShuf (length (v_shape (go a))) o m) else None | None => None end;
         v_rand := v_rand (go a); v_val := rmap (dimshuffle o) (v_val (go a)) |}
  | Some (VCum axis a) =>                                                (* cumsum.py:47-76 *)
      {| v_m := option_map (WCum axis) (v_m (go a)); v_rand := v_rand (go a); v_val := bind (v_val (go a)) (cumulate axis) |}
  | Some (VTake _ t a) =>                                                (* rewriting.py:179: only over a RandomVariable; a lifted one is lifted again *)
      {| v_m := match v_m (go a) with Some (WBase b) => Some (WTake t b) | Some (WTake t' b) => Some (WTake {| nshp := nshp t; nelt := fun i => nelt t' (nelt t i) |} b) | _ => None end;
         v_rand := v_rand (go a); v_val := rmap (fun r => {| nshp := nshp t; nelt := fun i => nelt r (nelt t i) |}) (v_val (go a)) |}
  end.
(** rewriting.py:266-271 *)
Fixpoint v_unfold (fuel v : nat) : vann :=
  match fuel with
  | 0 => v_con {| nshp := []; nelt := fun _ => NaN |}
  | S fuel => if mem v req then v_con (y v) else v_node (v_unfold fuel) v
  end.
(** rewriting.py:242-251: the requested node itself is cloned and stays *)
Definition v_top (v : nat) : vann := v_node (v_unfold (length h)) v.

(** see [ModelEls.g_rv_logprob] *)
Definition v_rv_logprob (i : nat) (x : nd xr) : res (nd (res xr)) :=
  match nth_error h i with
  | Some (VRv d _ ps) =>
      bind (rseq (map (fun p => v_val (v_unfold (length h) p)) ps)) (fun P =>
      bind (bcast_all (map nshp P ++ [nshp x])) (fun s =>
      Val {| nshp := s; nelt := fun j => dlp d (map (fun p => nelt p (align (nshp p) j)) P) (nelt x (align (nshp x) j)) |}))
  | _ => Raise
  end.
(** rewriting.py:179: Aesara's [local_subtensor_rv_lift] by its contract: the
    indexed variable becomes a random variable of the shape of the result whose
    parameters are those of the elements read *)
Definition v_take_logprob (t : nd (list nat)) (i : nat) (x : nd xr) : res (nd (res xr)) :=
  match nth_error h i with
  | Some (VRv d _ ps) =>
      bind (rseq (map (fun p => v_val (v_unfold (length h) p)) ps)) (fun P =>
      bind (bcast_all [nshp t; nshp x]) (fun s =>
      Val {| nshp := s; nelt := fun j => dlp d (map (fun p => nelt p (align (nshp p) (nelt t (align (nshp t) j)))) P) (nelt x (align (nshp x) j)) |}))
  | _ => Raise
  end.
(** [_logprob] of the measurable operations: transforms.py:366-383; tensor.py:25-34,
    42-74, 128-156 (the value is un-shuffled, the result shuffled again); cumsum.py:22-44 *)
Fixpoint v_logprob (m : vexpr) (value : nd xr) : res (nd (res xr)) :=
  match m with
  | WBase i => v_rv_logprob i value
  | WElem t m =>
      bind (gtr_eval t) (fun a =>
      bind (arr_backward a value) (fun bv =>
      bind (v_logprob m bv) (fun l =>
      let j := arr_log_jac_det a value in
      bind (bcast_all [nshp l; nshp j]) (fun s =>
      Val {| nshp := s; nelt := fun i => bind (nelt l (align (nshp l) i)) (fun x => Val (xadd x (nelt j (align (nshp j) i)))) |}))))
  | WVec ms =>
      bind (rseq ((fix go (k : nat) (ms : list vexpr) : list (res (nd (res xr))) :=
                     match ms with [] => [] | m :: ms => bind (item value k) (v_logprob m) :: go (S k) ms end) 0 ms))
        (fun logps => stack logps (Val NaN))
  | WJoin axis ms shs =>
      match norm_axis (length (nshp value)) axis with
      | None => Raise
      | Some ax =>
          let sizes := map (fun s => nth ax s 0) shs in
          if list_sum sizes =? nth ax (nshp value) 0 then
            bind (rseq ((fix go (off : nat) (ms : list vexpr) (sizes : list nat) : list (res (nd (res xr))) :=
                           match ms, sizes with
                           | m :: ms, n :: sizes => v_logprob m (part ax off n value) :: go (off + n) ms sizes
                           | _, _ => []
                           end) 0 ms sizes))
              (fun logps =>
                 match logps with
                 | [] => Raise
                 | l0 :: _ =>
                     if forallb (fun l => length (nshp l) =? length (nshp l0)) logps
                     then concatenate (axis - (Z.of_nat (length (nshp value)) - Z.of_nat (length (nshp l0)))) (map atleast_1d logps) (Val NaN)
                     else Raise
                 end)
          else Raise
      end
  | WShuf n o m =>
      bind (v_logprob m (unshuffled n o value)) (fun raw => Val (dimshuffle (redo (length (nshp raw)) o) raw))
  | WCum axis m => bind (value_diff axis value) (v_logprob m)
  | WTake t i => v_take_logprob t i value
  end.
(** joint_logprob.py:150-206, one requested variable; [None]: DensityNotFound *)
Definition v_conditional (v : nat) : option (res (nd (res xr))) :=
  match v_m (v_top v) with
  | None => None
  | Some m => Some (v_logprob m (y v))
  end.
Fixpoint v_conditionals (l : list nat) : option (list (res (nd (res xr)))) :=
  match l with
  | [] => Some []
  | v :: l => match v_conditional v, v_conditionals l with Some r, Some rs => Some (r :: rs) | _, _ => None end
  end.
(** joint_logprob.py:300-319 *)
Definition v_joint : option (res xr) :=
  match v_conditionals req with
  | None => None
  | Some rs => Some (rmap xsum (rseq (map (fun r => bind r factor_sum) rs)))
  end.
End Joint.
