(** Models of array variables: the interpretation of the model graphs of
    ModelGraph by arrays, with the log-probability graphs of ModelUniv and the
    graphs of the default transforms of /repo/aeppl/transforms.py. *)
From Coq Require Import Reals List Arith.
From Verif Require Import XR ModelVec ModelDist ModelTrans ModelIdx ModelTen ModelSub ModelBatch ModelUniv ModelGraph SpecGraph.
Import ListNotations.
Open Scope nat_scope.

Local Notation "'K' x" := (GCon (Fin x%R)) (at level 9, x at level 8).
(** the graph of [backward(value, *inputs)] (transforms.py:643-644, 705-716,
    733-734, 772-773) of the default transforms (transforms.py:901-960); the
    inputs are the parameters, then the value; the other families have none *)
Definition g_interval (a b v : gx xr) : gx xr :=
  let s := G1 xsigmoid v in G2 xadd (G2 xmul s b) (G2 xmul (G2 xsub (K 1) s) a).
Definition g_above (a v : gx xr) : gx xr := G2 xadd (G1 xexp v) a.
Definition g_backward (u : univ) : option (gx xr) :=
  match u with
  | UUniform => Some (g_interval (GVar 0) (GVar 1) (GVar 2))                    (* 901-905 *)
  | UPareto => Some (g_above (GVar 0) (GVar 2))                                 (* 906-910 *)
  | UTriangular => Some (g_interval (GVar 0) (GVar 2) (GVar 3))                 (* 911-915 *)
  | UHalfnormal => Some (g_above (GVar 0) (GVar 2))                             (* 916-920 *)
  | UWald | ULognormal | UHalfcauchy | UGamma | UInvgamma => Some (G1 xexp (GVar 2))   (* 921-952 *)
  | UExponential | UChisquare | UWeibull => Some (G1 xexp (GVar 1))
  | UBeta => Some (G1 xsigmoid (GVar 2))                                        (* 953-956 *)
  | UVonmises => Some (G1 (fun v => match v with Fin v => Fin (Ratan2 (sin v) (cos v)) | _ => NaN end) (GVar 2)) (* 957-960 *)
  | _ => None
  end.
(** the graph of [log_jac_det(value, *inputs)] (transforms.py:646-647, 718-727,
    739-741, 778-779) *)
Definition g_interval_jac (a b v : gx xr) : gx xr :=
  G2 xsub (G2 xsub (G1 xlog (G2 xsub b a)) (G2 xmul (K 2) (G1 xsoftplus (G1 xneg v)))) v.
Definition g_log_jac_det (u : univ) : option (gx xr) :=
  match u with
  | UUniform => Some (g_interval_jac (GVar 0) (GVar 1) (GVar 2))
  | UTriangular => Some (g_interval_jac (GVar 0) (GVar 2) (GVar 3))
  | UPareto | UHalfnormal | UWald | ULognormal | UHalfcauchy | UGamma | UInvgamma => Some (GVar 2)
  | UExponential | UChisquare | UWeibull => Some (GVar 1)
  | UBeta => Some (let s := G1 xsigmoid (GVar 2) in G2 xadd (G1 xlog s) (G1 xlog1p (G1 xneg s)))
  | UVonmises => Some (G1 (fun _ => Fin 0) (GVar 2))
  | _ => None
  end.

(** a computed array, or an exception *)
Definition arr := res (nd xr).
Fixpoint collect (l : list arr) : res (list (nd xr)) :=
  match l with [] => Val [] | a :: l => bind a (fun x => bind (collect l) (fun xs => Val (x :: xs))) end.
(** the inputs of a graph *)
Definition env_of (l : list (nd xr)) (k : nat) : nd xr := nth k l {| nshp := []; nelt := fun _ => NaN |}.
(** [_logprob(op, (value,), *inputs)], [backward] and [log_jac_det] need as many
    parameters as the family has *)
Definition with_inputs (n : nat) (ps : list arr) (x : arr) (f : (nat -> nd xr) -> arr) : arr :=
  if length ps =? n then bind (collect (ps ++ [x])) (fun l => f (env_of l)) else Raise.
Definition arity (u : univ) : nat :=
  match u with
  | UExponential | UChisquare | UWeibull | UBernoulli | UPoisson | UPoissonCdf | UGeometric | UGeometricCdf | UGeometricIcdf => 1
  | UTriangular | UBetabinomial | UHypergeometric | UStudentt => 3
  | _ => 2
  end.
Definition graph_or_raise (g : option (gx xr)) (env : nat -> nd xr) : arr := match g with Some e => eval_nd env e | None => Raise end.
(** transforms.py:862-881: the log-probability of a transformed variable is the
    sum of two arrays *)
Definition add_arr (a b : arr) : arr := bind a (fun x => bind b (fun y => elem2 xadd x y)).
(** The interpretation: [fam dist] is the family of an op, the default transform
    of an op is named by the op; [draw] and [det] are any functions of arrays. *)
Definition arr_sem (fam : nat -> univ) (inp : nat -> arr) (draw : nat -> nat -> list arr -> arr) (det : nat -> list arr -> arr) : sem arr arr :=
  {| s_in := inp; s_draw := draw; s_det := det;
     s_back := fun tr z ps => with_inputs (arity (fam tr)) ps z (graph_or_raise (g_backward (fam tr)));
     s_ld := fun dist ps x => with_inputs (arity (fam dist)) ps x (univ_nd (fam dist));
     s_lj := fun tr z ps => with_inputs (arity (fam tr)) ps z (graph_or_raise (g_log_jac_det (fam tr)));
     s_add := add_arr |}.
(** the entries that [at.sum] adds up (joint_logprob.py:311-318) *)
Definition entries (a : nd xr) : list xr := map (nelt a) (positions (nshp a)).
