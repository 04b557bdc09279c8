(** What resized variables and extracted data should be. *)
From Coq Require Import Reals List Arith ZArith Bool String.
From Verif Require Import XR ModelIdx ModelTen ModelSub SpecIdx SpecSub SpecElem ModelUtil.
Import ListNotations.
Open Scope nat_scope.

(** ** Random variables as arrays of parameter sets *)
(** batch dimensions of the [k]-th parameter: all but its last [n] *)
Definition batch_dims (r : rvar) (k : nat) (b : list nat) : Prop :=
  exists p n core, nth_error (vparams r) k = Some p /\ nth_error (ndims_params (vop r)) k = Some n /\
    nshp p = b ++ core /\ List.length core = n.
Definition well_formed (r : rvar) : Prop :=
  List.length (vparams r) = List.length (ndims_params (vop r)) /\
  forall k, k < List.length (vparams r) -> exists b, batch_dims r k b.
(** the variable is an array, of dimensions [B], of draws: with a size it is
    the size, to which all parameters must broadcast; without one it is the
    broadcast of the parameters *)
Definition batch_shape (r : rvar) (B : list nat) : Prop :=
  (vsize r = [] -> exists l, (forall b, In b l <-> exists k, batch_dims r k b) /\ is_broadcast l B) /\
  (vsize r <> [] -> B = vsize r /\ forall k b, batch_dims r k b -> broadcasts b B).
(** [x] is the entry [c] of the [k]-th parameter of the draw at position [i] *)
Definition param_at (r : rvar) (i : list nat) (k : nat) (c : list nat) (x : xr) : Prop :=
  exists p b a, nth_error (vparams r) k = Some p /\ batch_dims r k b /\ aligned b i a /\ x = nelt p (a ++ c).
(** [r'] differs from [r] in size and tags at most *)
Definition same_but_size (r r' : rvar) : Prop := vop r' = vop r /\ vrng r' = vrng r /\ vdtype r' = vdtype r /\ vparams r' = vparams r /\ vname r' = vname r.
Definition dims (n : newsize) : list nat := match n with NInt k => [k] | NVec l => l end.
(** each draw is one number, a size was given, or no parameter is batched *)
Definition expandable (r : rvar) : Prop :=
  ndim_supp (vop r) = 0 \/ vsize r <> [] \/ forall k b, batch_dims r k b -> b = [].

(** ** The value of an observed expression, by NumPy's rules *)
Definition insert (env : nat -> list nat -> R) (w : inserted) (c : list nat) : R :=
  match w with Known f => f c | Unknown v => env v c end.
Definition total (l : list R) : R := fold_right Rplus 0%R l.
Inductive value (env : nat -> list nat -> R) : obs -> nd R -> Prop :=
| v_const a : value env (OConst a) a
| v_shared a : value env (OShared a) a
| v_inc (set : bool) x w dsh js y0 y osh : value env x y0 -> assignable js (nshp y0) osh dsh -> nshp y = nshp y0 ->
    (forall p, (forall o, ~ targets js (nshp y0) osh o p) -> nelt y p = nelt y0 p) ->
    (forall p, (exists o, targets js (nshp y0) osh o p) ->
       if set then exists o c, targets js (nshp y0) osh o p /\ aligned dsh o c /\ nelt y p = insert env w c
       else exists os cs, NoDup os /\ (forall o, In o os <-> targets js (nshp y0) osh o p) /\ Forall2 (aligned dsh) os cs /\
            nelt y p = (nelt y0 p + total (map (insert env w) cs))%R) ->
    value env (OInc set x w dsh (map Some js)) y.
(** expressions that make sense, with their shape *)
Inductive legal : obs -> list nat -> Prop :=
| l_const a : nshp a <> [] -> legal (OConst a) (nshp a)
| l_shared a : nshp a <> [] -> legal (OShared a) (nshp a)
| l_inc set x w dsh js sh osh : legal x sh -> positive_steps js -> assignable js sh osh dsh ->
    legal (OInc set x w dsh (map Some js)) sh.
(** not made of data only *)
Inductive unreadable : obs -> Prop :=
| u_other : unreadable OOther
| u_base set x w dsh ix : unreadable x -> unreadable (OInc set x w dsh ix)
| u_index set x w dsh ix : In None ix -> unreadable (OInc set x w dsh ix).
(** everything written is unknown; nothing written is unknown *)
Fixpoint all_unknown (x : obs) : Prop :=
  match x with OInc _ x w _ _ => all_unknown x /\ (exists v, w = Unknown v) | _ => True end.
Fixpoint none_unknown (x : obs) : Prop :=
  match x with OInc _ x w _ _ => none_unknown x /\ (exists f, w = Known f) | _ => True end.
(** reading a mask: none means nothing is masked *)
Definition masked (m : option (list nat -> bool)) (p : list nat) : Prop := exists f, m = Some f /\ f p = true.
