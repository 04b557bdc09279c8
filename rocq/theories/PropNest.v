(** C55: measurable expressions of any depth. *)
From Coq Require Import Reals Lra Lia ZArith List Bool.
From Coquelicot Require Import Coquelicot.
From Verif Require Import XR XTac SpecDist ModelDist ModelVec SpecVec LemDist ModelTrans ModelNest SpecNest LemNest LemNest2 LemSound3.
Import ListNotations.
Open Scope R_scope.

(** An expression is given a log-probability derived from variable [i]
    exactly when it is a chain over one occurrence of [i] (and [i] is not of
    an integer type, or is the expression itself). *)
Theorem C55_accepted : forall dt fs e i,
  (exists m, a_m (annotate dt fs e) = Some m /\ mbase m = i) <-> chain i e /\ (dt i <> DInt \/ e = NRv i).
Proof. exact accepted_iff. Qed.
Print Assumptions C55_accepted.
(** In particular no variable is used twice and no other variable occurs. *)
Theorem C55_single_source : forall dt fs e m, a_m (annotate dt fs e) = Some m -> occs e = [mbase m].
Proof. exact (fun dt fs e m H => chain_occs _ _ (proj1 (accepted_chain dt fs e m H))). Qed.
Print Assumptions C55_single_source.
(** exp(3 - 2 * (X / 5)) *)
Definition ex_nest : nexpr := NOne UExp (NSub (NCon (Fin 3)) (NMany NMul [NCon (Fin 2); NDiv (NRv 0) (NCon (Fin 5))])).
Lemma ex_nest_chain : chain 0 ex_nest.
Proof. apply c_one, c_sub_r; [|reflexivity]. apply (c_many 0 NMul [NCon (Fin 2)] _ []); [|reflexivity|reflexivity|discriminate]. apply c_div_l; [constructor|reflexivity]. Qed.
Example C55_accepted_ex : exists m, a_m (annotate (fun _ => DFloat) (fun _ _ => NaN) ex_nest) = Some m /\ mbase m = 0%nat.
Proof. apply C55_accepted. split; [apply ex_nest_chain|left; discriminate]. Qed.
(** X - X, X + exp X and exp(1/X) + f(X) are refused *)
Example C55_refused_ex : List.Forall (fun e => a_m (annotate (fun _ => DFloat) (fun _ _ => NaN) e) = None)
  [NSub (NRv 0) (NRv 0); NMany NAdd [NRv 0; NOne UExp (NRv 0)]; NMany NAdd [NOne UExp (NOne URecip (NRv 0)); NOther 7 [NRv 0]]].
Proof. repeat constructor. Qed.

(** The derived value denotes the density of the expression (of any depth) at
    [y], the number the expression denotes for the draw [rho i].  Missing: the
    points excluded by [regular] (reciprocals of negative numbers, where the
    code yields NaN: C15_recip_negative_refuted); C55_sound shows that no
    density is returned there. *)
Theorem C55_density_partial : forall dt fs rho i lps f e y,
  dt i <> DInt -> denotes (lps i (Fin (rho i))) (f (rho i)) -> regular fs rho i e -> means fs rho e y ->
  exists m d, a_m (annotate dt fs e) = Some m /\ density_of fs rho e i f (rho i) y d /\ denotes (nested_logprob lps m (Fin y)) d.
Proof. exact nested_density. Qed.
Print Assumptions C55_density_partial.
(** The draw is determined by the value of the expression, so the density of
    the specification is the density of the law of the expression. *)
Theorem C55_injective : forall fs rho i x x' e y, regular fs (upd rho i x') i e ->
  means fs (upd rho i x) e y -> means fs (upd rho i x') e y -> x = x'.
Proof. exact nested_inj. Qed.
Print Assumptions C55_injective.
Example C55_density_of_unique : forall fs rho e i f x y d d', density_of fs rho e i f x y d -> density_of fs rho e i f x y d' -> d = d'.
Proof. exact density_unique. Qed.
Lemma ex_nest_inner x : means (fun _ _ => NaN) (fun _ => x) (NSub (NCon (Fin 3)) (NMany NMul [NCon (Fin 2); NDiv (NRv 0) (NCon (Fin 5))])) (3 - 2 * (x / 5)).
Proof.
  apply m_sub; [apply m_con|]. replace (2 * (x / 5)) with (rprod [2; x / 5]) by (unfold rprod; cbn; ring).
  apply m_mul.
  apply Forall2_cons; [apply m_con|]. apply Forall2_cons; [|apply Forall2_nil]. apply m_div; [apply (m_rv _ (fun _ => x) 0%nat)|apply m_con|lra].
Qed.
Lemma ex_nest_means x : means (fun _ _ => NaN) (fun _ => x) ex_nest (exp (3 - 2 * (x / 5))).
Proof. apply m_exp, ex_nest_inner. Qed.
Lemma ex_nest_regular x : regular (fun _ _ => NaN) (fun _ => x) 0 ex_nest.
Proof.
  apply (g_one _ _ 0 UExp _ (3 - 2 * (x / 5))); [|apply ex_nest_inner|discriminate].
  apply g_sub_r; [|reflexivity]. apply (g_mul _ _ 0 [NCon (Fin 2)] _ [] [2] []); try reflexivity; try discriminate.
    + apply g_div_l; [apply g_rv|reflexivity].
    + apply Forall2_cons; [apply m_con|apply Forall2_nil].
    + apply Forall2_nil.
    + unfold rprod. cbn. lra.
Qed.
Example C55_density_ex : forall x, exists m d,
  a_m (annotate (fun _ => DFloat) (fun _ _ => NaN) ex_nest) = Some m /\
  density_of (fun _ _ => NaN) (fun _ => x) ex_nest 0 (normal_pdf 0 1) x (exp (3 - 2 * (x / 5))) d /\
  denotes (nested_logprob (fun _ => normal_logprob (Fin 0) (Fin 1)) m (Fin (exp (3 - 2 * (x / 5))))) d.
Proof.
  intros x. apply (C55_density_partial (fun _ => DFloat) _ (fun _ => x) 0 _ (normal_pdf 0 1)); [discriminate| |apply ex_nest_regular|apply ex_nest_means].
  apply normal_ok. lra.
Qed.

(** At every value [y], whether or not the expression attains it: a result
    that denotes a density is the density of the expression at the one draw that
    gives [y]; no regularity is assumed. *)
Theorem C55_sound : forall dt fs rho lps f e m y0, a_m (annotate dt fs e) = Some m -> means fs rho e y0 -> (forall x, denotes (lps (mbase m) (Fin x)) (f x)) ->
  forall y d, denotes (nested_logprob lps m (Fin y)) d ->
  exists x, means fs (upd rho (mbase m) x) e y /\ (forall x', means fs (upd rho (mbase m) x') e y -> x' = x) /\ density_of fs rho e (mbase m) f x y d.
Proof. exact nested_right. Qed.
Print Assumptions C55_sound.
(** The result denotes a density exactly at the values of regular draws: it is
    NaN, +inf or an error at values that are not attained and at those attained
    through a product with zero or the reciprocal of a negative number. *)
Theorem C55_exact : forall dt fs rho lps f e m y0, a_m (annotate dt fs e) = Some m -> means fs rho e y0 -> (forall x, denotes (lps (mbase m) (Fin x)) (f x)) ->
  forall y, (exists d, denotes (nested_logprob lps m (Fin y)) d) <->
  exists x, means fs (upd rho (mbase m) x) e y /\ regular fs (upd rho (mbase m) x) (mbase m) e.
Proof. exact nested_when. Qed.
Print Assumptions C55_exact.
(** ex_nest is never negative *)
Example C55_exact_ex : forall m, a_m (annotate (fun _ => DFloat) (fun _ _ => NaN) ex_nest) = Some m -> mbase m = 0%nat ->
  forall y, (exists d, denotes (nested_logprob (fun _ => normal_logprob (Fin 0) (Fin 1)) m (Fin y)) d) <-> 0 < y.
Proof.
  intros m E B y.
  assert (L : forall x, denotes (normal_logprob (Fin 0) (Fin 1) (Fin x)) (normal_pdf 0 1 x)) by (intros x; apply normal_ok; lra).
  rewrite (C55_exact (fun _ => DFloat) (fun _ _ => NaN) (fun _ => 0) (fun _ => normal_logprob (Fin 0) (Fin 1)) (normal_pdf 0 1) ex_nest m _ E (ex_nest_means 0) L y). rewrite B. split.
  - intros (x & M & _). inversion M; subst. apply exp_pos.
  - intros P. set (x := (3 - ln y) * 5 / 2). exists x.
    assert (In : means (fun _ _ => NaN) (upd (fun _ => 0) 0 x) (NSub (NCon (Fin 3)) (NMany NMul [NCon (Fin 2); NDiv (NRv 0) (NCon (Fin 5))])) (3 - rprod [2; x / 5])).
    { apply m_sub; [apply m_con|]. apply m_mul. apply Forall2_cons; [apply m_con|]. apply Forall2_cons; [|apply Forall2_nil].
      apply m_div; [apply (m_rv _ (upd (fun _ => 0) 0 x) 0)|apply m_con|lra]. }
    replace (3 - rprod [2; x / 5]) with (ln y) in In by (unfold rprod, x; cbn; field).
    split; [pose proof (m_exp _ _ _ _ In) as Q; now rewrite (exp_ln y P) in Q|].
    apply (g_one _ _ 0 UExp _ (ln y)); [|exact In|discriminate].
    apply g_sub_r; [|reflexivity]. apply (g_mul _ _ 0 [NCon (Fin 2)] _ [] [2] []); try reflexivity; try discriminate.
    + apply g_div_l; [apply g_rv|reflexivity].
    + apply Forall2_cons; [apply m_con|apply Forall2_nil].
    + apply Forall2_nil.
    + unfold rprod. cbn. lra.
Qed.
(** 1 / X is given no density at negative values *)
Example C55_recip_ex : forall y, y < 0 -> ~ exists d, denotes (nested_logprob (fun _ => normal_logprob (Fin 0) (Fin 1)) (MElem TRecip (MBase 0)) (Fin y)) d.
Proof.
  intros y N.
  assert (L : forall x, denotes (normal_logprob (Fin 0) (Fin 1) (Fin x)) (normal_pdf 0 1 x)) by (intros x; apply normal_ok; lra).
  rewrite (C55_exact (fun _ => DFloat) (fun _ _ => NaN) (fun _ => 1) (fun _ => normal_logprob (Fin 0) (Fin 1)) (normal_pdf 0 1) (NOne URecip (NRv 0)) _ (/ 1)); [|reflexivity| |exact L].
  - intros (x & M & G). inversion M as [| | | |? r M1 Q| | | | |]; subst. inversion G as [|u e r' Ge Me P| | | | | |]; subst. inversion M1; subst. inversion Me; subst. cbn in *. specialize (P eq_refl).
    pose proof (Rinv_0_lt_compat x P). lra.
  - apply m_recip; [|lra]. apply (m_rv (fun _ _ => NaN) (fun _ => 1) 0).
Qed.

(** Only signed integer types count as discrete (transforms.py:548): 2 * X for
    a Bernoulli variable of an unsigned type is accepted, and the mass of the
    value 2 comes out as half of the mass of X = 1. *)
Theorem C55_unsigned_refuted : exists dt e m p, dt 0%nat = DUint /\ 0 < p < 1 /\
  a_m (annotate dt (fun _ _ => NaN) e) = Some m /\
  (forall x, means (fun _ _ => NaN) (fun _ => x) e (2 * x)) /\
  denotes (bernoulli_logprob (Fin p) (Fin 1)) p /\
  denotes (nested_logprob (fun _ => bernoulli_logprob (Fin p)) m (Fin (2 * 1))) (p / 2).
Proof. exact unsigned_halved. Qed.
Print Assumptions C55_unsigned_refuted.
