(** C17 - C20: clipped and rounded variables. *)
From Coq Require Import Reals Lra Lia ZArith List Bool.
From Coquelicot Require Import Coquelicot.
From Verif Require Import XR Special LemInt SpecDist SpecCdf LemDisc LemCdf ModelDist ModelCens SpecCens LemCens LemCens2.
Open Scope R_scope.

(** ** C17 *)
(** For every base law and any bounds (constant or symbolic, possibly
    infinite): the derived log-probability is that of the clipped law. *)
Theorem C17_clip : forall lp lc f F lower upper lo hi y,
  cont_law f F -> computes_law lp lc f F -> rbar (bval lower) = Some lo -> rbar (bval upper) = Some hi -> Rbar_lt lo hi ->
  denotes (clip_logprob false lp lc lower upper (Fin y)) (clip_density f F lo hi y).
Proof. exact clip_ok. Qed.
Print Assumptions C17_clip.
Example C17_clip_ex : denotes (clip_logprob false (normal_logprob (Fin 0) (Fin 2)) (normal_logcdf (Fin 0) (Fin 2))
    (BConst (Fin (-1))) (BSym (Fin 3)) (Fin 3)) (clip_density (normal_pdf 0 2) (normal_cdf 0 2) (-1) 3 3).
Proof. apply C17_clip; simpl; auto; try lra. apply normal_law; lra. apply normal_computes; lra. Qed.
Theorem C17_one_sided : forall lp lc f F y, cont_law f F -> computes_law lp lc f F ->
  (forall b, denotes (clip_logprob false lp lc (lower_of RBase) (upper_of (RConst (Fin b))) (Fin y)) (clip_density f F m_infty b y)) /\
  (forall a, denotes (clip_logprob false lp lc (lower_of (RConst (Fin a))) (upper_of RBase) (Fin y)) (clip_density f F a p_infty y)).
Proof. exact clip_one_sided. Qed.
Print Assumptions C17_one_sided.
Example C17_one_sided_ex : denotes (clip_logprob false (normal_logprob (Fin 0) (Fin 2)) (normal_logcdf (Fin 0) (Fin 2))
    (lower_of RBase) (upper_of (RConst (Fin 3))) (Fin (-7))) (clip_density (normal_pdf 0 2) (normal_cdf 0 2) m_infty 3 (-7)).
Proof. apply (C17_one_sided _ _ (normal_pdf 0 2) (normal_cdf 0 2)). apply normal_law; lra. apply normal_computes; lra. Qed.
(** [clip_density] is the law of [clip X]: its distribution function is
    [clip_cdf], which is P(clip X <= y) by [C17_event]. *)
Theorem C17_law : forall f F lo hi, cont_law f F -> Rbar_lt lo hi ->
  mixed_cdf (clip_density f F lo hi) lo hi (clip_cdf F lo hi).
Proof. exact clip_mixed. Qed.
Print Assumptions C17_law.
Example C17_law_ex : mixed_cdf (clip_density (normal_pdf 1 1) (normal_cdf 1 1) 0 p_infty) 0 p_infty (clip_cdf (normal_cdf 1 1) 0 p_infty).
Proof. apply C17_law; simpl; auto. apply normal_law; lra. Qed.
Theorem C17_event : forall lo hi (x y : R), Rbar_lt lo hi ->
  (Rbar_lt y lo -> ~ clip_fun lo hi x <= y) /\
  (~ Rbar_lt y lo -> Rbar_lt y hi -> (clip_fun lo hi x <= y <-> x <= y)) /\
  (Rbar_le hi y -> clip_fun lo hi x <= y).
Proof. exact clip_event. Qed.
Print Assumptions C17_event.
Example C17_event_ex : clip_fun 0 1 7 <= 1.
Proof. apply C17_event; simpl; lra. Qed.
(** atoms and density add to one *)
Theorem C17_total : forall f F lo hi, cont_law f F -> Rbar_lt lo hi -> exists v,
  is_RInt_gen (clip_density f F lo hi) (Fr lo) (Fl hi) v /\
  match lo with Finite a => clip_density f F lo hi a | _ => 0 end + v +
  match hi with Finite b => clip_density f F lo hi b | _ => 0 end = 1.
Proof. exact clip_total. Qed.
Print Assumptions C17_total.
Example C17_total_ex : exists v, is_RInt_gen (clip_density (normal_pdf 1 1) (normal_cdf 1 1) 0 5) (Fr 0) (Fl 5) v /\
  clip_density (normal_pdf 1 1) (normal_cdf 1 1) 0 5 0 + v + clip_density (normal_pdf 1 1) (normal_cdf 1 1) 0 5 5 = 1.
Proof. apply (C17_total (normal_pdf 1 1) (normal_cdf 1 1) 0 5); simpl; auto; try lra. apply normal_law; lra. Qed.
Theorem C17_bad_bounds : forall discrete lp lc lower upper a b y,
  bval lower = Fin a -> bval upper = Fin b -> b < a -> clip_logprob discrete lp lc lower upper (Fin y) = Raise.
Proof. exact clip_bad_bounds. Qed.
Print Assumptions C17_bad_bounds.
Example C17_bad_bounds_ex : clip_logprob true (poisson_logprob (Fin 1)) (poisson_logcdf (Fin 1)) (BConst (Fin 4)) (BSym (Fin 2)) (Fin 3) = Raise.
Proof. apply (C17_bad_bounds _ _ _ _ _ 4 2); auto; lra. Qed.

(** ** C18 *)
(** Missing from C18: equal bounds and bounds that are no integers (both refuted
    below) and non-integer values inside the bounds. *)
Theorem C18_clip_partial : forall lp lc p F lower upper lo hi k, int_law p F ->
  (forall k, denotes (lp (Fin (IZR k))) (p k)) -> (forall k, denotes (lc (Fin (IZR k))) (F k)) ->
  lower_bound_is (bval lower) lo -> upper_bound_is (bval upper) hi -> zbefore lo hi ->
  denotes (clip_logprob true lp lc lower upper (Fin (IZR k))) (int_clip_mass F lo hi k).
Proof. exact int_clip_ok. Qed.
Print Assumptions C18_clip_partial.
Example C18_clip_ex : denotes (clip_logprob true (poisson_logprob (Fin 3)) (poisson_logcdf (Fin 3)) (BConst (Fin (IZR 1))) (BConst (Fin (IZR 4))) (Fin (IZR 4)))
  (int_clip_mass (fun k => mass_upto (poisson_pmf 3) (IZR k)) (Some 1%Z) (Some 4%Z) 4).
Proof.
  apply (C18_clip_partial _ _ (natpmf (poisson_pmf 3))); try reflexivity.
  - apply nat_law; [intros; apply poisson_pmf_nonneg; lra|apply poisson_sum].
  - intros; apply poisson_Z; lra.
  - intros; apply poisson_logcdf_ok; lra.
Qed.
Theorem C18_event : forall lo hi j k, zbefore lo hi ->
  (zclip lo hi j <= k)%Z <->
  (match lo with Some a => (k <? a)%Z | None => false end = false /\
   (match hi with Some b => (b <=? k)%Z | None => false end = true \/ (j <= k)%Z)).
Proof. exact zclip_event. Qed.
Print Assumptions C18_event.
Example C18_event_ex : (zclip (Some 1) (Some 4) 9 <= 4)%Z.
Proof. apply C18_event; simpl; auto; lia. Qed.
Theorem C18_total : forall p F lo hi, int_law p F -> zbefore lo hi \/ (exists a, lo = Some a /\ hi = Some a) ->
  zseries (int_clip_mass F lo hi) 1.
Proof. exact int_clip_total. Qed.
Print Assumptions C18_total.
Example C18_total_ex : zseries (int_clip_mass (fun k => mass_upto (poisson_pmf 3) (IZR k)) None (Some 2%Z)) 1.
Proof. apply (C18_total (natpmf (poisson_pmf 3))); [|simpl; auto]. apply nat_law; [intros; apply poisson_pmf_nonneg; lra|apply poisson_sum]. Qed.
Theorem C18_outside : forall lp lc lower upper lo hi y vp vc,
  lp (Fin y) = Val vp -> lc (Fin y) = Val vc ->
  lower_bound_is (bval lower) lo -> upper_bound_is (bval upper) hi -> zbefore lo hi -> zoutside lo hi y ->
  clip_logprob true lp lc lower upper (Fin y) = Val NInf.
Proof. exact int_clip_outside. Qed.
Print Assumptions C18_outside.
Example C18_outside_ex : clip_logprob true (fun _ => Val (Fin (-1))) (fun _ => Val (Fin (-2))) (BConst (Fin (IZR 1))) (BSym (Fin (IZR 4))) (Fin (9/2)) = Val NInf.
Proof. apply (C18_outside _ _ _ _ (Some 1%Z) (Some 4%Z) (9/2) (Fin (-1)) (Fin (-2))); try reflexivity. right; simpl; lra. Qed.
(** clipping to a single point: the mass given to it is below one *)
Theorem C18_equal_bounds_refuted : exists (mu : R) (a : Z), 0 < mu /\
  exists d, denotes (clip_logprob true (poisson_logprob (Fin mu)) (poisson_logcdf (Fin mu)) (BConst (Fin (IZR a))) (BConst (Fin (IZR a))) (Fin (IZR a))) d /\ d < 1.
Proof. exact clip_equal_bounds. Qed.
Print Assumptions C18_equal_bounds_refuted.
(** clipping a discrete variable at a bound that is no integer: the bound gets
    more than the mass clipped to it, since [poisson_logprob] is not -inf there *)
Theorem C18_noninteger_bound_refuted : exists (mu b d s : R), 0 < mu /\
  denotes (clip_logprob true (poisson_logprob (Fin mu)) (poisson_logcdf (Fin mu)) (BConst NInf) (BConst (Fin b)) (Fin b)) d /\
  is_series (fun n => if Req_EM_T (clip_fun m_infty b (INR n)) b then poisson_pmf mu n else 0) s /\ s < d.
Proof. exact noninteger_bound. Qed.
Print Assumptions C18_noninteger_bound_refuted.

(** ** C19 *)
(** Missing from C19: integers with P(X <= u) = 0 at the upper end of their
    pre-image, where the code gives NaN (C20_zero_mass_refuted). *)
Theorem C19_round_partial : forall op lc f F k l u, cont_law f F -> (forall x, denotes (lc (Fin x)) (F x)) ->
  preimage (rnd_of op) k l u -> 0 < F u ->
  is_RInt f l u (F u - F l) /\ denotes (round_logprob op lc (Fin (IZR k))) (F u - F l).
Proof. exact round_ok. Qed.
Print Assumptions C19_round_partial.
Example C19_round_ex : denotes (round_logprob RCeil (normal_logcdf (Fin 0) (Fin 1)) (Fin (IZR 2))) (normal_cdf 0 1 (IZR 2) - normal_cdf 0 1 (IZR 2 - 1)).
Proof.
  apply (C19_round_partial RCeil (normal_logcdf (Fin 0) (Fin 1)) (normal_pdf 0 1)).
  apply normal_law; lra. apply normal_computes; lra. apply (preimage_of RCeil 2). apply Phi_range.
Qed.
Theorem C19_total : forall op f F m, cont_law f F ->
  (forall k l u, preimage (rnd_of op) k l u -> m k = F u - F l) -> zseries m 1.
Proof. exact round_masses. Qed.
Print Assumptions C19_total.
Example C19_total_ex : zseries (fun k => normal_cdf 0 1 (IZR k + 1) - normal_cdf 0 1 (IZR k)) 1.
Proof.
  apply (C19_total RFloor (normal_pdf 0 1) (normal_cdf 0 1)). apply normal_law; lra.
  intros k l u H. destruct (preimage_unique _ _ _ _ _ _ H (preimage_of RFloor k)) as [-> ->]. reflexivity.
Qed.
(** the roundings are functions and each integer has such a pre-image interval *)
Theorem C19_rounding_function : forall op x, exists k, rnd_of op x k /\ forall j, rnd_of op x j -> j = k.
Proof. exact rnd_function. Qed.
Print Assumptions C19_rounding_function.
Example C19_rounding_function_ex : rnd_of RHalfEven (5/2) 2 /\ ~ rnd_of RHalfEven (5/2) 3.
Proof. exact rnd_example. Qed.
Theorem C19_preimage : forall op k, exists l u, preimage (rnd_of op) k l u.
Proof. exact preimage_ex. Qed.
Print Assumptions C19_preimage.
Example C19_preimage_ex : preimage (rnd_of RFloor) 3 3 4.
Proof. destruct (C19_preimage RFloor 3) as (l & u & H). destruct (preimage_unique _ _ _ _ _ _ H (preimage_of RFloor 3)) as [-> ->]. simpl in H. now replace (3 + 1) with 4 in H by ring. Qed.

(** ** C20 *)
(** What remains true of C20: zero-probability integers with P(X <= u) > 0 get -inf. *)
Theorem C20_zero_mass_partial : forall op lc f F k l u, cont_law f F -> (forall x, denotes (lc (Fin x)) (F x)) ->
  preimage (rnd_of op) k l u -> 0 < F u -> F u = F l -> round_logprob op lc (Fin (IZR k)) = Val NInf.
Proof. exact round_zero_mass. Qed.
Print Assumptions C20_zero_mass_partial.
Example C20_zero_mass_ex : round_logprob RFloor (uniform_logcdf (Fin 0) (Fin 1)) (Fin (IZR 4)) = Val NInf.
Proof. apply (C20_zero_mass_partial RFloor _ (uniform_pdf 0 1) (uniform_cdf 0 1) 4 4 5).
  apply uniform_law; lra. intros; apply uniform_logcdf_ok; lra. exact C20_pre. unfold uniform_cdf; destruct (Rlt_dec 5 0), (Rlt_dec 5 1); lra.
  unfold uniform_cdf. destruct (Rlt_dec 5 0), (Rlt_dec 5 1), (Rlt_dec 4 0), (Rlt_dec 4 1); lra. Qed.
(** a value that is not an integer gets a positive mass *)
Theorem C20_noninteger_refuted : exists x d, (forall k, x <> IZR k) /\ 0 < d /\
  denotes (round_logprob RHalfEven (normal_logcdf (Fin 0) (Fin 1)) (Fin x)) d.
Proof. exact round_nonint. Qed.
Print Assumptions C20_noninteger_refuted.
(** an integer outside the support gives NaN instead of -inf *)
Theorem C20_zero_mass_refuted : exists k, round_logprob RFloor (uniform_logcdf (Fin 0) (Fin 1)) (Fin (IZR k)) = Val NaN.
Proof. exact round_nan. Qed.
Print Assumptions C20_zero_mass_refuted.
