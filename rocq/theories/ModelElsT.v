(** Joint log-probabilities of models of arrays in the transformed space: the
    rewrite of /repo/aeppl/transforms.py 141-239 applied to the models of
    [ModelEls], see [ModelSysT] for scalars. *)
From Coq Require Import Reals List Arith Bool.
From Verif Require Import XR ModelDist ModelVec ModelIdx ModelTen ModelConv ModelSub ModelTrans ModelElem ModelBatch ModelJoint ModelNest ModelSys ModelEls.
Import ListNotations.
Open Scope nat_scope.

(** The RVTransform classes but the simplex (transforms.py:600-815), see
    [ModelTrans.tr]; the parameters are arrays. *)
Inductive atr : Type :=
| XLoc (c : nd xr)                     (* 600-615 *)
| XScale (c : nd xr)                   (* 618-634 *)
| XLog                                 (* 637-647 *)
| XExp                                 (* 650-660 *)
| XRecip                               (* 663-673 *)
| XInterval (a b : option (nd xr))     (* 676-727 *)
| XLogOdds                             (* 730-741 *)
| XCircular                            (* 769-779 *)
| XChain (l : list atr).               (* 782-815 *)

(** The element-wise operations of the methods.  Simplification: a chain of
    element-wise operations of the same arrays is one element-wise operation. *)
Definition x_add (l : list xr) : xr := match l with [x; y] => xadd x y | _ => NaN end.
Definition x_between (l : list xr) : xr :=                             (* 708-710 *)
  match l with [v; a; b] => let s := xsigmoid v in xadd (xmul s b) (xmul (xsub (Fin 1) s) a) | _ => NaN end.
Definition x_above (l : list xr) : xr := match l with [v; a] => xadd (xexp v) a | _ => NaN end.  (* 712 *)
Definition x_under (l : list xr) : xr := match l with [v; b] => xsub b (xexp v) | _ => NaN end.  (* 714 *)
Definition x_between_jac (l : list xr) : xr :=                         (* 721-723 *)
  match l with [v; a; b] => xsub (xsub (xlog (xsub b a)) (xmul (Fin 2) (xsoftplus (xneg v)))) v | _ => NaN end.

(** [backward] *)
Fixpoint x_backward (t : atr) (value : nd xr) : res (nd xr) :=
  match t with
  | XLoc c => elemwise x_sub [value; c]                                (* 610-612 *)
  | XScale c => elemwise x_div [value; c]                              (* 628-630 *)
  | XLog => Val (nd_map xexp value)                                    (* 643-644 *)
  | XExp => Val (nd_map xlog value)                                    (* 656-657 *)
  | XRecip => Val (nd_map xrecip value)                                (* 669-670 *)
  | XInterval (Some a) (Some b) => elemwise x_between [value; a; b]    (* 705-716 *)
  | XInterval (Some a) None => elemwise x_above [value; a]
  | XInterval None (Some b) => elemwise x_under [value; b]
  | XInterval None None => Raise
  | XLogOdds => Val (nd_map xsigmoid value)                            (* 733-734 *)
  | XCircular => Val (nd_map (fun x => match x with Fin v => Fin (Ratan2 (sin v) (cos v)) | _ => NaN end) value)  (* 772-773 *)
  | XChain l =>                                                        (* 794-797 *)
      (fix go l v := match l with [] => Val v | t :: l => bind (go l v) (x_backward t) end) l value
  end.
(** [det_.sum(axis=-1)] *)
Definition sum_last (a : nd xr) : nd xr := reduce xsum a.
(** transforms.py:801-815: [det += det_], the determinants of larger rank than
    the smallest are summed over the last axis *)
Definition add_dets (n0 : nat) (dets : list (nd xr)) : res (nd xr) :=
  fold_left (fun det d => bind det (fun det => elemwise x_add [det; if n0 <? length (nshp d) then sum_last d else d]))
    dets (Val {| nshp := []; nelt := fun _ => Fin 0 |}).
(** [log_jac_det]; the one of an empty chain is the number 0.0, which has no
    [ndim] when the chain is in another chain *)
Fixpoint x_log_jac_det (t : atr) (value : nd xr) : res (nd xr) :=
  match t with
  | XLoc _ => Val (nd_map (fun _ => Fin 0) value)                      (* 614-615 *)
  | XScale c => Val (nd_map (fun s => xneg (xlog (xabs s))) c)         (* 632-634: the shape of the scale *)
  | XLog => Val value                                                  (* 646-647 *)
  | XExp => Val (nd_map (fun y => xneg (xlog y)) value)                (* 659-660 *)
  | XRecip => Val (nd_map (fun y => xmul (Fin (-2)) (xlog y)) value)   (* 672-673 *)
  | XInterval (Some a) (Some b) => elemwise x_between_jac [value; a; b] (* 718-727 *)
  | XInterval None None => Raise
  | XInterval _ _ => Val value
  | XLogOdds => Val (nd_map (fun v => let s := xsigmoid v in xadd (xlog s) (xlog1p (xneg s))) value)  (* 739-741 *)
  | XCircular => Val (nd_map (fun _ => Fin 0) value)                   (* 778-779 *)
  | XChain l =>                                                        (* 799-815 *)
      bind ((fix go l v : res (nd xr * list (nd xr) * nat) :=
               match l with
               | [] => Val (v, [], length (nshp v))
               | t :: l => bind (go l v) (fun '(w, dets, n0) =>
                           match t with
                           | XChain [] => Raise
                           | _ => bind (x_log_jac_det t w) (fun d =>
                                  bind (x_backward t w) (fun w' => Val (w', dets ++ [d], Nat.min n0 (length (nshp d)))))
                           end)
               end) l value)
           (fun '(_, dets, n0) => add_dets n0 dets)
  end.

Section Joint.
Variable ddt : nat -> dtype.
Variable afs : nat -> list (nd xr) -> nd xr.
Variable dlp : nat -> list xr -> xr -> res xr.
Variable h : list gnode.
Variable req : list nat.
(** the transforms of the requested variables, as functions of the inputs of
    the nodes (transforms.py:214-224, 306-324), see [ModelSysT] *)
Variable tf : nat -> option (list (nd xr) -> atr).
Variable use_jacobian : bool.
(** the values in the transformed space *)
Variable z : nat -> nd xr.

Definition g_operands (v : nat) : list nat :=
  match nth_error h v with
  | Some (GRv _ _ l) | Some (GMany _ l) | Some (GOther _ l) => l
  | Some (GOne _ a) => [a]
  | Some (GSub a b) | Some (GDiv a b) => [a; b]
  | Some (GCon _) | None => []
  end.
Definition g_operand_values (y : nat -> nd xr) (v : nat) : res (list (nd xr)) :=
  rseq (map (fun p => g_val (g_unfold ddt afs h req y (length h) p)) (g_operands v)).
(** transforms.py:223-225, 239; a transform that raises does so in
    [g_conditional_trans] below *)
Definition g_untransformed (y : nat -> nd xr) (v : nat) : nd xr :=
  match tf v with
  | None => z v
  | Some f => match bind (g_operand_values y v) (fun l => x_backward (f l) (z v)) with
              | Val x => x
              | Raise => {| nshp := nshp (z v); nelt := fun _ => NaN |}
              end
  end.
(** the values of the first [n] nodes *)
Fixpoint g_values (n : nat) : list (nd xr) :=
  match n with 0 => [] | S n => let l := g_values n in l ++ [g_untransformed (fun i => nth i l (z i)) n] end.
Definition g_value_of (v : nat) : nd xr := nth v (g_values (length h)) (z v).

(** whether [v] is below [w] in the graph *)
Fixpoint g_below (fuel w v : nat) : bool :=
  match fuel with
  | 0 => false
  | S fuel => existsb (fun a => (a =? v) || g_below fuel a v) (g_operands w)
  end.
(** see [ModelSysT.output_transformed] *)
Definition g_output_transformed (before : list nat) (v : nat) : bool := forallb (fun w => negb (g_below (length h) w v)) before.
(** transforms.py:861-881: [logprob += jacobian] with broadcasting *)
Definition g_conditional_trans (before : list nat) (v : nat) : option (res (nd (res xr))) :=
  match g_conditional ddt afs dlp h req g_value_of v with
  | None => None
  | Some r =>
      Some match tf v with
           | None => r
           | Some f =>
               bind (g_operand_values g_value_of v) (fun args =>
               let t := f args in
               bind (x_backward t (z v)) (fun _ => bind r (fun l =>
               if use_jacobian && g_output_transformed before v then
                 bind (x_log_jac_det t (z v)) (fun j =>
                 bind (bcast_all [nshp l; nshp j]) (fun s =>
                 Val {| nshp := s; nelt := fun i => bind (nelt l (align (nshp l) i)) (fun x => Val (xadd x (nelt j (align (nshp j) i)))) |}))
               else Val l)))
           end
  end.
Fixpoint g_conditionals_trans (before l : list nat) : option (list (res (nd (res xr)))) :=
  match l with
  | [] => Some []
  | v :: l => match g_conditional_trans before v, g_conditionals_trans (before ++ [v]) l with Some r, Some rs => Some (r :: rs) | _, _ => None end
  end.
(** joint_logprob.py:300-319 *)
Definition g_joint_trans : option (res xr) :=
  match g_conditionals_trans [] req with
  | None => None
  | Some rs => Some (rmap xsum (rseq (map (fun r => bind r factor_sum) rs)))
  end.
End Joint.
