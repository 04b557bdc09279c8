(** Chains of transforms on vectors: ChainedTransform of
    /repo/aeppl/transforms.py 782-815 with element-wise transforms and the
    simplex transform.
    Simplifications: vectors (no further axes); the arguments of Loc, Scale and
    Interval are scalars, as for draws of a given size with scalar parameters;
    the links are not themselves chains. *)
From Coq Require Import Reals List Bool Arith.
From Verif Require Import XR ModelDist ModelVec ModelTrans ModelSimplex.
Import ListNotations.
Open Scope R_scope.

Inductive vtr : Type :=
| VElem (t : tr)   (* 600-741, 769-779 *)
| VSimplex.        (* 744-766 *)
(** a log-determinant: a 0-d array or a vector *)
Inductive vdet : Type := DSca (d : xr) | DVec (l : list xr).
Definition ndim (d : vdet) : nat := match d with DSca _ => 0 | DVec _ => 1 end.
(** addition with broadcasting *)
Definition vadd (a b : vdet) : vdet :=
  match a, b with
  | DSca x, DSca y => DSca (xadd x y)
  | DSca x, DVec l => DVec (map (xadd x) l)
  | DVec l, DSca y => DVec (map (fun x => xadd x y) l)
  | DVec l, DVec m => DVec (map2 xadd l m)
  end.
(** [det_.sum(axis=-1)] *)
Definition vsum (d : vdet) : vdet := match d with DVec l => DSca (xsum l) | d => d end.
(** [backward] of one link *)
Definition vbackward (t : vtr) (value : list xr) : res (list xr) :=
  match t with VElem t => rseq (map (backward t) value) | VSimplex => Val (simplex_backward value) end.
(** [log_jac_det] of one link: ScaleTransform's does not mention the value
    (632-634) and has the shape of the scale; the others have the value's shape *)
Definition vlog_jac_det (t : vtr) (value : list xr) : res vdet :=
  match t with
  | VElem (TScale s) => Val (DSca (xneg (xlog (xabs s))))
  | VElem t => rmap DVec (rseq (map (log_jac_det t) value))
  | VSimplex => Val (DSca (simplex_log_jac_det value))
  end.
(** transforms.py:794-797 *)
Fixpoint chain_backward (l : list vtr) (value : list xr) : res (list xr) :=
  match l with [] => Val value | t :: l => bind (chain_backward l value) (vbackward t) end.
(** transforms.py:800-807: the loop over the reversed list; returns the value,
    [det_list] and [ndim0] *)
Fixpoint chain_dets (l : list vtr) (value : list xr) : res (list xr * list vdet * nat) :=
  match l with
  | [] => Val (value, [], 1%nat)
  | t :: l =>
      bind (chain_dets l value) (fun '(w, dets, n0) =>
      bind (vlog_jac_det t w) (fun d =>
      bind (vbackward t w) (fun w' => Val (w', dets ++ [d], Nat.min n0 (ndim d)))))
  end.
(** transforms.py:809-815 *)
Definition chain_log_jac_det (l : list vtr) (value : list xr) : res vdet :=
  bind (chain_dets l value) (fun '(_, dets, n0) =>
  Val (fold_left (fun det d => vadd det (if (n0 <? ndim d)%nat then vsum d else d)) dets (DSca (Fin 0)))).
