(** Missing data in whole models of arrays: requested variables of the form
    at.set_subtensor(X[idx], data).  /repo/aeppl/rewriting.py 116-159 and
    269-274, joint_logprob.py 140-219, 300-319; the nodes and the other rewrites
    are those of [ModelElsV]. *)
From Coq Require Import Reals List Arith ZArith Bool.
From Verif Require Import XR ModelDist ModelVec ModelIdx ModelTen ModelConv ModelSub ModelTrans ModelElem ModelJoint ModelNest ModelSys ModelEls ModelElsV.
Import ListNotations.
Open Scope nat_scope.

Section Missing.
Variable ddt : nat -> dtype.
Variable afs : nat -> list (nd xr) -> nd xr.
Variable dlp : nat -> list xr -> xr -> res xr.
(** The IncSubtensor Ops among the operations [VOther]: what
    at.set_subtensor(value[idx], data) computes for the Op's indices, from the
    value, the data and the symbolic indices (rewriting.py:149-155; that
    indices_from_subtensor gives the Op's own indices is C26). *)
Variable puts : nat -> option (list (nd xr) -> nd xr).
Variable h : list vnode.
Variable req : list nat.
Variable y : nat -> nd xr.

(** [_logprob] as in [ModelElsV], for given values of the parameters *)
Section Logprob.
Variable pv : nat -> res (nd xr).
(** see [ModelEls.g_rm_logprob] *)
Definition m_rv_logprob (i : nat) (x : nd xr) : res (nd (res xr)) :=
  match nth_error h i with
  | Some (VRv d _ ps) =>
      bind (rseq (map pv ps)) (fun P =>
      bind (bcast_all (map nshp P ++ [nshp x])) (fun s =>
      Val {| nshp := s; nelt := fun j => dlp d (map (fun p => nelt p (align (nshp p) j)) P) (nelt x (align (nshp x) j)) |}))
  | _ => Raise
  end.
(** rewriting.py:179: Aesara's [local_subtensor_rv_lift] by its contract: the
    indexed variable becomes a random variable of the shape of the result whose
    parameters are those of the elements read *)
Definition m_take_logprob (t : nd (list nat)) (i : nat) (x : nd xr) : res (nd (res xr)) :=
  match nth_error h i with
  | Some (VRv d _ ps) =>
      bind (rseq (map pv ps)) (fun P =>
      bind (bcast_all [nshp t; nshp x]) (fun s =>
      Val {| nshp := s; nelt := fun j => dlp d (map (fun p => nelt p (align (nshp p) (nelt t (align (nshp t) j)))) P) (nelt x (align (nshp x) j)) |}))
  | _ => Raise
  end.
(** [_logprob] of the measurable operations: transforms.py:366-383; tensor.py:25-34,
    42-74, 128-156 (the value is un-shuffled, the result shuffled again); cumsum.py:22-44 *)
Fixpoint m_logprob (m : vexpr) (value : nd xr) : res (nd (res xr)) :=
  match m with
  | WBase i => m_rv_logprob i value
  | WElem t m =>
      bind (gtr_eval t) (fun a =>
      bind (arr_backward a value) (fun bv =>
      bind (m_logprob m bv) (fun l =>
      let j := arr_log_jac_det a value in
      bind (bcast_all [nshp l; nshp j]) (fun s =>
      Val {| nshp := s; nelt := fun i => bind (nelt l (align (nshp l) i)) (fun x => Val (xadd x (nelt j (align (nshp j) i)))) |}))))
  | WVec ms =>
      bind (rseq ((fix go (k : nat) (ms : list vexpr) : list (res (nd (res xr))) :=
                     match ms with [] => [] | m :: ms => bind (item value k) (m_logprob m) :: go (S k) ms end) 0 ms))
        (fun logps => stack logps (Val NaN))
  | WJoin axis ms shs =>
      match norm_axis (length (nshp value)) axis with
      | None => Raise
      | Some ax =>
          let sizes := map (fun s => nth ax s 0) shs in
          if list_sum sizes =? nth ax (nshp value) 0 then
            bind (rseq ((fix go (off : nat) (ms : list vexpr) (sizes : list nat) : list (res (nd (res xr))) :=
                           match ms, sizes with
                           | m :: ms, n :: sizes => m_logprob m (part ax off n value) :: go (off + n) ms sizes
                           | _, _ => []
                           end) 0 ms sizes))
              (fun logps =>
                 match logps with
                 | [] => Raise
                 | l0 :: _ =>
                     if forallb (fun l => length (nshp l) =? length (nshp l0)) logps
                     then concatenate (axis - (Z.of_nat (length (nshp value)) - Z.of_nat (length (nshp l0)))) (map atleast_1d logps) (Val NaN)
                     else Raise
                 end)
          else Raise
      end
  | WShuf n o m =>
      bind (m_logprob m (unshuffled n o value)) (fun raw => Val (dimshuffle (redo (length (nshp raw)) o) raw))
  | WCum axis m => bind (value_diff axis value) (m_logprob m)
  | WTake t i => m_take_logprob t i value
  end.
End Logprob.

(** rewriting.py:134-155 at the ValuedVariable of [v]: the base variable, its
    measurable form and the new value.  137: an IncSubtensor Op; 142-146: the
    base is measurable and has no value of its own *)
Definition m_fill (go : nat -> vann) (v : nat) : option (nat * vexpr * res (nd xr)) :=
  match nth_error h v with
  | Some (VOther k (x :: l)) =>
      match puts k with
      | None => None
      | Some over =>
          if mem x req then None
          else match v_m (go x) with
               | None => None
               | Some m => Some (x, m, rmap over (rseq (Val (y v) :: map (fun a => v_val (go a)) l)))
               end
      end
  | _ => None
  end.
(** rewriting.py:269-274 and 157-159: the new ValuedVariable takes the place of
    the old one also where the variable is an input; see [ModelElsV.v_unfold] *)
Fixpoint m_unfold (fuel v : nat) : vann :=
  match fuel with
  | 0 => v_con {| nshp := []; nelt := fun _ => NaN |}
  | S fuel =>
      if mem v req
      then match m_fill (m_unfold fuel) v with
           | Some (_, z) => {| v_m := None; v_rand := false; v_val := z |}
           | None => v_con (y v)
           end
      else v_node ddt afs h (m_unfold fuel) v
  end.
Definition m_values (p : nat) : res (nd xr) := v_val (m_unfold (length h) p).
Definition m_filled (v : nat) : option (nat * vexpr * res (nd xr)) := m_fill (m_unfold (length h)) v.
(** joint_logprob.py:150-206, one requested variable; [None]: DensityNotFound *)
Definition m_conditional (v : nat) : option (res (nd (res xr))) :=
  match m_filled v with
  | Some (_, m, z) => Some (bind z (m_logprob m_values m))
  | None => match v_m (v_node ddt afs h (m_unfold (length h)) v) with None => None | Some m => Some (m_logprob m_values m (y v)) end
  end.
Fixpoint m_conditionals (l : list nat) : option (list (res (nd (res xr)))) :=
  match l with
  | [] => Some []
  | v :: l => match m_conditional v, m_conditionals l with Some r, Some rs => Some (r :: rs) | _, _ => None end
  end.
(** joint_logprob.py:163, 172-175: two values for one node raise a ValueError;
    [None] here as well *)
Definition m_bases : list nat := flat_map (fun v => match m_filled v with Some (x, _, _) => [x] | None => [] end) req.
Fixpoint distinct (l : list nat) : bool := match l with [] => true | x :: l => negb (mem x l) && distinct l end.
(** joint_logprob.py:300-319 *)
Definition m_joint : option (res xr) :=
  if distinct m_bases
  then match m_conditionals req with
       | None => None
       | Some rs => Some (rmap xsum (rseq (map (fun r => bind r factor_sum) rs)))
       end
  else None.
End Missing.
