(** Specification for C75: the value of an expression. *)
From Coq Require Import Reals List.
From Verif Require Import XR ModelVec ModelTrans ModelCens ModelNest ModelGuard.
Import ListNotations.

(** the value of an expression for the draws [rho], operation by operation;
    the bound [GSelf] of a clip is the clipped expression itself *)
Fixpoint value (fs : nat -> list xr -> xr) (rho : nat -> xr) (e : gexpr) : xr :=
  let v := value fs rho in
  match e with
  | GRv i => rho i
  | GCon c | GIn c => c
  | GSelf => NaN
  | GOne UExp e => xexp (v e)
  | GOne ULog e => xlog (v e)
  | GOne URecip e => xdiv (Fin 1) (v e)
  | GMany NAdd es => fold_right xadd (Fin 0) (map v es)
  | GMany NMul es => fold_right xmul (Fin 1) (map v es)
  | GSub a b => xsub (v a) (v b)
  | GDiv a b => xdiv (v a) (v b)
  | GClip _ e lo hi =>
      let l := match lo with GSelf => v e | _ => v lo end in
      let h := match hi with GSelf => v e | _ => v hi end in
      if xlt (v e) l then l else if xgt (v e) h then h else v e
  | GRound RHalfEven e => xround (v e)
  | GRound RFloor e => xfloor (v e)
  | GRound RCeil e => xceil (v e)
  | GOther k es => fs k (map v es)
  end.
