(** C59: transforms of censored variables; C60: what derived log-probabilities depend on. *)
From Coq Require Import Reals Lra Lia ZArith List Bool.
From Coquelicot Require Import Coquelicot.
From Verif Require Import XR XTac SpecDist ModelDist LemDist ModelVec SpecVec ModelTrans ModelCens SpecCens LemCens ModelMix ModelNest SpecNest LemNest LemNest2 ModelGuard SpecOrder SpecGuard LemGuard LemGuard2 LemCdf.
Import ListNotations.
Open Scope R_scope.

(** A chain of transforms [e] over [clip(X, lo, hi)], at the value [y] that [e]
    has when the clipped variable is [r i]: the derived value is the mixed
    density of the clipped variable over the absolute derivative. *)
Theorem C59_transforms : forall dt fs rho rvs dlp dlc i d lo hi a b f F e (r : nat -> R) y,
  dt i = DFloat -> d <> DInt -> cont_law f F ->
  computes_law (dlp (fst (rvs i)) (map (value fs rho) (snd (rvs i)))) (dlc (fst (rvs i)) (map (value fs rho) (snd (rvs i)))) f F ->
  bound_is fs rho m_infty lo a -> bound_is fs rho p_infty hi b -> Rbar_lt a b ->
  regular fs r i e -> e <> NRv i -> means fs r e y ->
  exists l z, derived dt fs rho rvs dlp dlc (plug (fun _ => GClip d (GRv i) lo hi) e) (Fin y) = Some l /\
    density_of fs r e i (clip_density f F a b) (r i) y z /\ denotes l z.
Proof. exact clip_transforms. Qed.
Print Assumptions C59_transforms.
(** Between the bounds this is the density of the expression.  Missing: the
    atoms at the bounds (refuted below). *)
Theorem C59_inside_partial : forall dt fs rho rvs dlp dlc i d lo hi a b f F e (r : nat -> R) y,
  dt i = DFloat -> d <> DInt -> cont_law f F ->
  computes_law (dlp (fst (rvs i)) (map (value fs rho) (snd (rvs i)))) (dlc (fst (rvs i)) (map (value fs rho) (snd (rvs i)))) f F ->
  bound_is fs rho m_infty lo a -> bound_is fs rho p_infty hi b ->
  Rbar_lt a (r i) -> Rbar_lt (r i) b ->
  regular fs r i e -> e <> NRv i -> means fs r e y ->
  exists l z, derived dt fs rho rvs dlp dlc (plug (fun _ => GClip d (GRv i) lo hi) e) (Fin y) = Some l /\
    density_of fs r e i f (r i) y z /\ denotes l z.
Proof. exact clip_inside. Qed.
Print Assumptions C59_inside_partial.
(** exp(2 * clip(X, L, 3)) for X ~ N(0, 1) and L an input of value -1 *)
Definition ex_e : nexpr := NOne UExp (NMany NMul [NCon (Fin 2); NRv 0]).
Definition ex_clip : gexpr := GClip DFloat (GRv 0) (GIn (Fin (-1))) (GCon (Fin 3)).
Definition ex_rvs (_ : nat) : nat * list gexpr := (0%nat, [GCon (Fin 0); GCon (Fin 1)]).
Lemma ex_mul c : means no_fs (fun _ => c) (NMany NMul [NCon (Fin 2); NRv 0]) (2 * c).
Proof.
  replace (2 * c) with (rprod [2; c]) by (unfold rprod; cbn; ring). apply m_mul. constructor; [apply m_con|]. constructor; [apply (m_rv no_fs (fun _ => c) 0)|constructor].
Qed.
Lemma ex_regular c : regular no_fs (fun _ => c) 0 ex_e.
Proof.
  apply (g_one no_fs _ 0 UExp _ (2 * c)); [|apply ex_mul|discriminate].
  apply (g_mul no_fs _ 0 [NCon (Fin 2)] (NRv 0) [] [2] []); try reflexivity; try discriminate; [apply g_rv|constructor; [apply m_con|constructor]|constructor|unfold rprod; cbn; lra].
Qed.
Example C59_inside_ex : forall c, -1 < c < 3 -> exists l z,
  derived (fun _ => DFloat) no_fs (fun _ => NaN) ex_rvs n_lp n_lc (plug (fun _ => ex_clip) ex_e) (Fin (exp (2 * c))) = Some l /\
  density_of no_fs (fun _ => c) ex_e 0 (normal_pdf 0 1) c (exp (2 * c)) z /\ denotes l z.
Proof.
  intros c H. apply (C59_inside_partial (fun _ => DFloat) no_fs (fun _ => NaN) ex_rvs n_lp n_lc 0 DFloat (GIn (Fin (-1))) (GCon (Fin 3)) (-1) 3 (normal_pdf 0 1) (normal_cdf 0 1) ex_e (fun _ => c)); try reflexivity; try discriminate.
  - apply normal_law; lra.
  - apply normal_computes; lra.
  - apply H.
  - apply H.
  - apply ex_regular.
  - apply m_exp, ex_mul.
Qed.
(** 2 * clip(X, 0, 1) takes the value 2 exactly when X >= 1, so with
    probability 1 - F(1); the derived value is half of it, because the Jacobian
    of the scaling is applied to the atom (transforms.py:383, with no check
    that the base variable has a density). *)
Theorem C59_atom_refuted : exists e l,
  (forall x, value no_fs (fun _ => Fin x) e = Fin (2 * clip_fun 0 1 x)) /\
  (forall x, 2 * clip_fun 0 1 x = 2 <-> 1 <= x) /\ 0 < 1 - normal_cdf 0 1 1 /\
  derived (fun _ => DFloat) no_fs (fun _ => NaN) std_rvs n_lp n_lc e (Fin 2) = Some l /\
  denotes l ((1 - normal_cdf 0 1 1) / 2).
Proof. exact scaled_atom. Qed.
Print Assumptions C59_atom_refuted.
(** Transforms of rounded variables raise, and so does clipping (or rounding)
    anything but a random variable: no wrong value is returned. *)
Theorem C59_round_refused : forall dt fs rho rvs dlp dlc op i e l v, (forall j, e <> NRv j) ->
  derived dt fs rho rvs dlp dlc (plug (fun _ => GRound op (GRv i)) e) v = Some l -> l = Raise.
Proof. exact round_transform. Qed.
Print Assumptions C59_round_refused.
Example C59_round_refused_ex : derived (fun _ => DFloat) no_fs (fun _ => NaN) std_rvs n_lp n_lc (plug (fun _ => GRound RFloor (GRv 0)) ex_e) (Fin 1) = Some Raise.
Proof.
  destruct (derived _ _ _ _ _ _ (plug (fun _ => GRound RFloor (GRv 0)) ex_e) (Fin 1)) as [l|] eqn:E; [|discriminate E].
  f_equal. revert E. apply C59_round_refused. discriminate.
Qed.
Theorem C59_clip_derived_refused : forall dt fs rho rvs dlp dlc d e lo hi l v, (forall i, e <> GRv i) ->
  (derived dt fs rho rvs dlp dlc (GClip d e lo hi) v = Some l -> l = Raise) /\
  (forall op, derived dt fs rho rvs dlp dlc (GRound op e) v = Some l -> l = Raise).
Proof. exact censor_derived. Qed.
Print Assumptions C59_clip_derived_refused.
Example C59_clip_derived_ex : derived (fun _ => DFloat) no_fs (fun _ => NaN) std_rvs n_lp n_lc (GClip DFloat (GOne UExp (GRv 0)) (GCon (Fin 0)) GSelf) (Fin 1) = Some Raise.
Proof.
  destruct (derived _ _ _ _ _ _ (GClip DFloat (GOne UExp (GRv 0)) (GCon (Fin 0)) GSelf) (Fin 1)) as [l|] eqn:E; [|discriminate E].
  f_equal. revert E. apply C59_clip_derived_refused. discriminate.
Qed.

(** A rounded continuous variable has the probability of the values that are
    rounded to the given integer. *)
Theorem C59_rounding : forall dt fs rho rvs dlp dlc i op f F k l u, dt i = DFloat -> cont_law f F ->
  computes_law (dlp (fst (rvs i)) (map (value fs rho) (snd (rvs i)))) (dlc (fst (rvs i)) (map (value fs rho) (snd (rvs i)))) f F ->
  preimage (rnd_of op) k l u -> 0 < F u -> exists r, derived dt fs rho rvs dlp dlc (GRound op (GRv i)) (Fin (IZR k)) = Some r /\
    is_RInt f l u (F u - F l) /\ denotes r (F u - F l).
Proof. exact round_derived. Qed.
Print Assumptions C59_rounding.
(** the ceiling of X ~ N(0, 1) is 2 when 1 < X <= 2 *)
Example C59_rounding_ex : exists r, derived (fun _ => DFloat) no_fs (fun _ => NaN) std_rvs n_lp n_lc (GRound RCeil (GRv 0)) (Fin (IZR 2)) = Some r /\
  is_RInt (normal_pdf 0 1) (IZR 2 - 1) (IZR 2) (normal_cdf 0 1 (IZR 2) - normal_cdf 0 1 (IZR 2 - 1)) /\ denotes r (normal_cdf 0 1 (IZR 2) - normal_cdf 0 1 (IZR 2 - 1)).
Proof.
  apply (C59_rounding (fun _ => DFloat) no_fs (fun _ => NaN) std_rvs n_lp n_lc 0 RCeil); [reflexivity|apply normal_law; lra|apply normal_computes; lra|apply (preimage_of RCeil 2)|apply Phi_range].
Qed.
(** Discrete variables are neither rounded nor transformed. *)
Theorem C59_discrete_refused : forall dt fs rho rvs dlp dlc i v,
  (dt i <> DFloat -> forall op, derived dt fs rho rvs dlp dlc (GRound op (GRv i)) v = None) /\
  (dt i = DInt -> (forall u, derived dt fs rho rvs dlp dlc (GOne u (GRv i)) v = None) /\
     forall n es, In (GRv i) es -> derived dt fs rho rvs dlp dlc (GMany n es) v = None).
Proof. exact discrete_refused. Qed.
Print Assumptions C59_discrete_refused.
Example C59_discrete_ex : derived (fun i => if Nat.eqb i 1 then DInt else DFloat) no_fs (fun _ => NaN) std_rvs n_lp n_lc (GRound RFloor (GRv 1)) (Fin 1) = None /\
  derived (fun i => if Nat.eqb i 1 then DInt else DFloat) no_fs (fun _ => NaN) std_rvs n_lp n_lc (GRound RFloor (GRv 0)) (Fin 1) <> None /\
  derived (fun i => if Nat.eqb i 1 then DInt else DFloat) no_fs (fun _ => NaN) std_rvs n_lp n_lc (GMany NAdd [GIn (Fin 1); GRv 1]) (Fin 1) = None.
Proof.
  destruct (C59_discrete_refused (fun i => if Nat.eqb i 1 then DInt else DFloat) no_fs (fun _ => NaN) std_rvs n_lp n_lc 1 (Fin 1)) as (A & B).
  split; [apply A; discriminate|]. split; [discriminate|]. apply (B eq_refl). cbn. auto.
Qed.

(** C60: the derived log-probability of an expression, and of a mixture of
    expressions, is the same for all draws of the variables that have no value,
    provided that those occur neither in the bounds of a [clip], nor in the
    index, nor in the parameters of the base variables.  For the other operands
    of the transforms nothing has to be assumed: the rewrites refuse them.
    Missing: bounds and indices (refuted below). *)
Theorem C60_expression_partial : forall dt fs rho rho' rvs dlp dlc e v, boccs e = [] ->
  (forall i, In i (goccs e) -> List.Forall (fun p => goccs p = []) (snd (rvs i))) ->
  derived dt fs rho rvs dlp dlc e v = derived dt fs rho' rvs dlp dlc e v.
Proof. exact derived_same. Qed.
Print Assumptions C60_expression_partial.
Theorem C60_mixture_partial : forall dt fs rho rho' rvs dlp dlc idx es v, goccs idx = [] -> flat_map boccs es = [] ->
  (forall i, In i (flat_map goccs es) -> List.Forall (fun p => goccs p = []) (snd (rvs i))) ->
  derived_mix dt fs rho rvs dlp dlc idx es v = derived_mix dt fs rho' rvs dlp dlc idx es v.
Proof. exact mix_same. Qed.
Print Assumptions C60_mixture_partial.
(** stack([X, exp Y])[I] for an index with the value 1 *)
Example C60_mixture_ex : forall rho rho' v,
  derived_mix (fun _ => DFloat) no_fs rho std_rvs n_lp n_lc (GIn (Fin 1)) [GRv 0; GOne UExp (GRv 1)] v =
  derived_mix (fun _ => DFloat) no_fs rho' std_rvs n_lp n_lc (GIn (Fin 1)) [GRv 0; GOne UExp (GRv 1)] v /\
  derived_mix (fun _ => DFloat) no_fs rho std_rvs n_lp n_lc (GIn (Fin 1)) [GRv 0; GOne UExp (GRv 1)] v <> None.
Proof. intros. split; [apply C60_mixture_partial; try reflexivity; intros i _; repeat constructor|discriminate]. Qed.
Example C60_expression_ex : forall rho rho' v,
  derived (fun _ => DFloat) no_fs rho std_rvs n_lp n_lc (plug (fun _ => ex_clip) ex_e) v =
  derived (fun _ => DFloat) no_fs rho' std_rvs n_lp n_lc (plug (fun _ => ex_clip) ex_e) v /\
  derived (fun _ => DFloat) no_fs rho std_rvs n_lp n_lc (plug (fun _ => ex_clip) ex_e) v <> None.
Proof. intros. split; [apply C60_expression_partial; try reflexivity; intros i _; repeat constructor|discriminate]. Qed.
(** The bounds of a [clip] are not examined (censoring.py:47-58): with a lower
    bound L that has no value and no upper bound, the log-probability of the
    clipped X at 1/2 depends on a fresh draw of L. *)
Theorem C60_bound_refuted : exists e v rho rho' x, boccs e = [1%nat] /\
  derived (fun _ => DFloat) no_fs rho std_rvs n_lp n_lc e v = Some (Val (Fin x)) /\
  derived (fun _ => DFloat) no_fs rho' std_rvs n_lp n_lc e v = Some (Val NInf).
Proof. exact random_bound. Qed.
Print Assumptions C60_bound_refuted.
(** The index of a mixture is not examined either (mixture.py:267): with an
    index I that has no value, the log-probability of stack([X, |Y|])[I] at -1
    depends on a fresh draw of I instead of summing over I. *)
Theorem C60_index_refuted : exists idx es v rho rho' x, goccs idx = [2%nat] /\
  derived_mix (fun _ => DFloat) no_fs rho std_rvs n_lp n_lc idx es v = Some (Val (Fin x)) /\
  derived_mix (fun _ => DFloat) no_fs rho' std_rvs n_lp n_lc idx es v = Some (Val NInf).
Proof. exact random_index. Qed.
Print Assumptions C60_index_refuted.
