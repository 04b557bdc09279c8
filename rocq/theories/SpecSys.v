(** Models as programs over draws: the value of every node for given draws,
    and the density of several nodes by the change of variables formula. *)
From Coq Require Import Reals List.
From Coquelicot Require Import Coquelicot.
From Verif Require Import XR SpecVec RMx ModelNest SpecNest ModelSys.
Import ListNotations.
Open Scope R_scope.

Definition node_inputs (nd : snode) : list nat :=
  match nd with SCon _ => [] | SRv _ l | SMany _ l | SOther _ l => l | SOne _ a => [a] | SSub a b | SDiv a b => [a; b] end.
(** inputs come before the nodes that use them *)
Definition acyclic (h : list snode) : Prop := forall v nd a, nth_error h v = Some nd -> In a (node_inputs nd) -> (a < v)%nat.

Section Values.
Variable fs : nat -> list xr -> xr.
Variable h : list snode.
(** [svalue rho v r]: when every random variable [i] is drawn as [rho i], node [v] has the value [r] *)
Inductive svalue (rho : nat -> R) : nat -> R -> Prop :=
| v_con v c : nth_error h v = Some (SCon (Fin c)) -> svalue rho v c
| v_rv v d ps : nth_error h v = Some (SRv d ps) -> svalue rho v (rho v)
| v_exp v a r : nth_error h v = Some (SOne UExp a) -> svalue rho a r -> svalue rho v (exp r)
| v_log v a r : nth_error h v = Some (SOne ULog a) -> svalue rho a r -> 0 < r -> svalue rho v (ln r)
| v_recip v a r : nth_error h v = Some (SOne URecip a) -> svalue rho a r -> r <> 0 -> svalue rho v (/ r)
| v_add v l rs : nth_error h v = Some (SMany NAdd l) -> Forall2 (svalue rho) l rs -> svalue rho v (rtotal rs)
| v_mul v l rs : nth_error h v = Some (SMany NMul l) -> Forall2 (svalue rho) l rs -> svalue rho v (rprod rs)
| v_sub v a b r s : nth_error h v = Some (SSub a b) -> svalue rho a r -> svalue rho b s -> svalue rho v (r - s)
| v_div v a b r s : nth_error h v = Some (SDiv a b) -> svalue rho a r -> svalue rho b s -> s <> 0 -> svalue rho v (r / s)
| v_other v k l rs r : nth_error h v = Some (SOther k l) -> Forall2 (svalue rho) l rs -> fs k (map Fin rs) = Fin r -> svalue rho v r.

Variable req : list nat.
(** no draw is needed for [a] once the requested variables are known *)
Inductive known : nat -> Prop :=
| k_req a : In a req -> known a
| k_det a nd : nth_error h a = Some nd -> (forall d ps, nd <> SRv d ps) -> List.Forall known (node_inputs nd) -> known a.

(** [leads v b]: [v] is computed from the draw of [b] by a chain of invertible
    operations whose other operands are known *)
Inductive leads : nat -> nat -> Prop :=
| d_rv v d ps : nth_error h v = Some (SRv d ps) -> leads v v
| d_one v u a b : nth_error h v = Some (SOne u a) -> ~ In a req -> leads a b -> leads v b
| d_many v n l a r b : nth_error h v = Some (SMany n (l ++ a :: r)) -> ~ In a req -> leads a b -> List.Forall known l -> List.Forall known r ->
    l ++ r <> [] -> leads v b
| d_sub_l v a c b : nth_error h v = Some (SSub a c) -> ~ In a req -> leads a b -> known c -> leads v b
| d_sub_r v a c b : nth_error h v = Some (SSub a c) -> known a -> ~ In c req -> leads c b -> leads v b
| d_div_l v a c b : nth_error h v = Some (SDiv a c) -> ~ In a req -> leads a b -> known c -> leads v b
| d_div_r v a c b : nth_error h v = Some (SDiv a c) -> known a -> ~ In c req -> leads c b -> leads v b.

(** at the draws [rho], nothing on the chain is multiplied by zero and
    reciprocals are taken of positive numbers *)
Inductive smooth (rho : nat -> R) : nat -> nat -> Prop :=
| s_rv v d ps : nth_error h v = Some (SRv d ps) -> smooth rho v v
| s_one v u a b r : nth_error h v = Some (SOne u a) -> ~ In a req -> smooth rho a b -> svalue rho a r -> (u = URecip -> 0 < r) -> smooth rho v b
| s_add v l a r b : nth_error h v = Some (SMany NAdd (l ++ a :: r)) -> ~ In a req -> smooth rho a b -> List.Forall known l -> List.Forall known r ->
    l ++ r <> [] -> smooth rho v b
| s_mul v l a r b ls rs : nth_error h v = Some (SMany NMul (l ++ a :: r)) -> ~ In a req -> smooth rho a b -> List.Forall known l -> List.Forall known r ->
    l ++ r <> [] -> Forall2 (svalue rho) l ls -> Forall2 (svalue rho) r rs -> rprod ls * rprod rs <> 0 -> smooth rho v b
| s_sub_l v a c b : nth_error h v = Some (SSub a c) -> ~ In a req -> smooth rho a b -> known c -> smooth rho v b
| s_sub_r v a c b : nth_error h v = Some (SSub a c) -> known a -> ~ In c req -> smooth rho c b -> smooth rho v b
| s_div_l v a c b : nth_error h v = Some (SDiv a c) -> ~ In a req -> smooth rho a b -> known c -> smooth rho v b
| s_div_r v a c b r s : nth_error h v = Some (SDiv a c) -> known a -> ~ In c req -> smooth rho c b -> svalue rho a r -> r <> 0 ->
    svalue rho c s -> 0 < s -> smooth rho v b.

(** [D] is the derivative of the value of [v] with respect to the draw of [b] *)
Definition partial (rho : nat -> R) (v b : nat) (D : R) : Prop :=
  exists g : R -> R, locally (rho b) (fun t => svalue (upd rho b t) v (g t)) /\ is_derive g (rho b) D.
(** [p] is the density of the draw of [b] given the other draws *)
Definition draw_density (pdf : nat -> list R -> R -> R) (rho : nat -> R) (b : nat) (p : R) : Prop :=
  exists d ps rs, nth_error h b = Some (SRv d ps) /\ Forall2 (svalue rho) ps rs /\ p = pdf d rs (rho b).
End Values.
