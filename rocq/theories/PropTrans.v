(** C09, C10, C11, C12 and C15: transforms, default transforms, element-wise push-forwards.
    The simplex part of C09 is in PropSimplex.v. *)
From Coq Require Import Reals Lra Lia ZArith List Bool.
From Coquelicot Require Import Coquelicot.
From Verif Require Import XR Special SpecDist ModelDist ModelTrans SpecTrans LemTrans LemTrans2.
Import ListNotations.
Open Scope R_scope.

(** ** C09 and the inversion half of C12 ([t] may be any nested chain) *)
Theorem C09_forward_backward : forall t x y, tmaps t x y ->
  forward t (Fin x) = Val (Fin y) /\ backward t (Fin y) = Val (Fin x).
Proof. exact maps_both. Qed.
Print Assumptions C09_forward_backward.
Example C09_forward_backward_ex : forward (TInterval (Some (Fin 1)) (Some (Fin 3))) (Fin 2) = Val (Fin 0) /\
  backward (TInterval (Some (Fin 1)) (Some (Fin 3))) (Fin 0) = Val (Fin 2).
Proof. apply C09_forward_backward. split; simpl; [lra|]. replace ((2 - 1) / (3 - 2)) with 1 by field. apply ln_1. Qed.

Example C09_circular_ex : forward (TChain [TCircular; TScale (Fin 2)]) (Fin 3) = Val (Fin 6) /\
  backward (TChain [TCircular; TScale (Fin 2)]) (Fin 6) = Val (Fin 3).
Proof. apply C09_forward_backward. pose proof PI2_3_2. split; simpl; [repeat split; lra|ring]. Qed.

(** the unconstrained space of the single transforms: every such [y] is reached *)
Theorem C09_unconstrained : forall t y, timage t y -> exists x, tmaps t x y /\
  backward t (Fin y) = Val (Fin x) /\ forward t (Fin x) = Val (Fin y).
Proof. exact image_both. Qed.
Print Assumptions C09_unconstrained.
Example C09_unconstrained_ex : exists x, tmaps (TInterval None (Some (Fin 5))) x (-7) /\
  backward (TInterval None (Some (Fin 5))) (Fin (-7)) = Val (Fin x) /\ forward (TInterval None (Some (Fin 5))) (Fin x) = Val (Fin (-7)).
Proof. apply C09_unconstrained. simpl. auto. Qed.

(** ** C10 *)
(** Missing from C10: reciprocals at negative points (refuted below). *)
Theorem C10_log_jac_det_partial : forall t x y, tmaps t x y -> tpos t x ->
  exists b l, computes_near (backward t) y b /\ log_jac_det t (Fin y) = Val (Fin l) /\ log_abs_derivative b y l.
Proof. exact jac_maps. Qed.
Print Assumptions C10_log_jac_det_partial.
Example C10_log_jac_det_ex : exists b l, computes_near (backward (TScale (Fin (-3)))) (-6) b /\
  log_jac_det (TScale (Fin (-3))) (Fin (-6)) = Val (Fin l) /\ log_abs_derivative b (-6) l.
Proof. apply (C10_log_jac_det_partial _ 2); [split; simpl; lra|simpl; auto]. Qed.
Theorem C10_circular : forall (w : R) (k : Z), - PI < w < PI ->
  exists b, computes_near (backward TCircular) (w + 2 * IZR k * PI) b /\
  log_jac_det TCircular (Fin (w + 2 * IZR k * PI)) = Val (Fin 0) /\ log_abs_derivative b (w + 2 * IZR k * PI) 0.
Proof. exact circ_jac. Qed.
Print Assumptions C10_circular.
Example C10_circular_ex : exists b, computes_near (backward TCircular) (1 + 2 * IZR (-3) * PI) b /\
  log_jac_det TCircular (Fin (1 + 2 * IZR (-3) * PI)) = Val (Fin 0) /\ log_abs_derivative b (1 + 2 * IZR (-3) * PI) 0.
Proof. apply C10_circular. generalize PI2_1; lra. Qed.
(** the Jacobian term is NaN at negative points although the derivative exists *)
Theorem C10_reciprocal_refuted : exists y l, log_abs_derivative Rinv y l /\
  computes_near (backward TRecip) y Rinv /\ log_jac_det TRecip (Fin y) = Val NaN.
Proof. exact recip_neg_refuted. Qed.
Print Assumptions C10_reciprocal_refuted.

(** ** C12: chains *)
Theorem C12_chain_inverse : forall l x y, tmaps (TChain l) x y ->
  forward (TChain l) (Fin x) = Val (Fin y) /\ backward (TChain l) (Fin y) = Val (Fin x).
Proof. exact chain_both. Qed.
Print Assumptions C12_chain_inverse.
Example C12_chain_inverse_ex : forward (TChain [TLoc (Fin (-1)); TChain [TScale (Fin 2); TRecip]]) (Fin 3) = Val (Fin (/ ((3 + -1) * 2))) /\
  backward (TChain [TLoc (Fin (-1)); TChain [TScale (Fin 2); TRecip]]) (Fin (/ ((3 + -1) * 2))) = Val (Fin 3).
Proof. apply C12_chain_inverse. split; simpl; [repeat split; lra|reflexivity]. Qed.
(** the map of a chain is the composition of the maps, first transform first *)
Theorem C12_chain_composes : forall t l x y z, tmaps t x y -> tmaps (TChain l) y z -> tmaps (TChain (t :: l)) x z.
Proof. exact chain_composes. Qed.
Print Assumptions C12_chain_composes.
Example C12_chain_composes_ex : tmaps (TChain [TScale (Fin 2); TExp]) 1 (exp (1 * 2)).
Proof. apply (C12_chain_composes _ _ 1 (1 * 2)); split; simpl; auto; lra. Qed.
(** Missing from C12: chains through a reciprocal at a negative point (C10_reciprocal_refuted). *)
Theorem C12_chain_jacobian_partial : forall l x y, tmaps (TChain l) x y -> tpos (TChain l) x ->
  exists b j, computes_near (backward (TChain l)) y b /\ log_jac_det (TChain l) (Fin y) = Val (Fin j) /\ log_abs_derivative b y j.
Proof. exact chain_jac. Qed.
Print Assumptions C12_chain_jacobian_partial.
Example C12_chain_jacobian_ex : exists b j, computes_near (backward (TChain [TLog; TScale (Fin 2); TExp])) (exp (ln 3 * 2)) b /\
  log_jac_det (TChain [TLog; TScale (Fin 2); TExp]) (Fin (exp (ln 3 * 2))) = Val (Fin j) /\ log_abs_derivative b (exp (ln 3 * 2)) j.
Proof. apply (C12_chain_jacobian_partial _ 3); [split; simpl; [repeat split; lra|reflexivity]|simpl; auto]. Qed.

(** ** C11: default transforms *)
(** Missing from C11: Pareto and HalfCauchy (refuted below). *)
Theorem C11_into_support_partial : forall f y, family_valid f -> ~ misplaced f -> exists x,
  backward (default_transform f) (Fin y) = Val (Fin x) /\ family_support f x.
Proof. exact default_into. Qed.
Print Assumptions C11_into_support_partial.
Example C11_into_support_ex : exists x, backward (default_transform (FUniform 2 3)) (Fin (-40)) = Val (Fin x) /\ 2 < x < 3.
Proof. apply (C11_into_support_partial (FUniform 2 3)); simpl; [lra|auto]. Qed.
Theorem C11_onto_interior_partial : forall f x, family_valid f -> ~ misplaced f -> family_interior f x ->
  exists y, backward (default_transform f) (Fin y) = Val (Fin x).
Proof. exact default_onto. Qed.
Print Assumptions C11_onto_interior_partial.
Example C11_onto_interior_ex : exists y, backward (default_transform (FTriangular 0 1 4)) (Fin y) = Val (Fin 3).
Proof. apply C11_onto_interior_partial; simpl; [lra|auto|lra]. Qed.
Theorem C11_finite_partial : forall f y, family_valid f -> ~ misplaced f ->
  finite_val (transformed_logprob true (family_logprob f) (default_transform f) (Fin y)).
Proof. exact default_finite. Qed.
Print Assumptions C11_finite_partial.
Example C11_finite_ex : finite_val (transformed_logprob true (family_logprob (FBeta (1/2) 3)) (default_transform (FBeta (1/2) 3)) (Fin 9)).
Proof. apply C11_finite_partial; simpl; [lra|auto]. Qed.
(** the transformed density is again a probability density (the von Mises transform is not injective) *)
Theorem C11_normalised : forall f, family_valid f -> ~ misplaced f -> (forall m k, f <> FVonMises m k) ->
  integrates_to_one (transformed_logprob true (family_logprob f) (default_transform f)) m_infty p_infty.
Proof. exact default_normalised. Qed.
Print Assumptions C11_normalised.
Example C11_normalised_ex : integrates_to_one (transformed_logprob true (gamma_logprob (Fin (1/2)) (Fin 3)) TLog) m_infty p_infty.
Proof. apply (C11_normalised (FGamma (1/2) 3)); simpl; [lra|auto|discriminate]. Qed.
(** the default transform maps to points below the scale, outside the support *)
Theorem C11_pareto_refuted : exists a m y, 0 < a /\ 0 < m /\
  transformed_logprob true (family_logprob (FPareto a m)) (default_transform (FPareto a m)) (Fin y) = Val NInf.
Proof. exact pareto_default_bad. Qed.
Print Assumptions C11_pareto_refuted.
(** points of the support are not reached by the default transform *)
Theorem C11_pareto_onto_refuted : exists a m x, 0 < a /\ 0 < m /\ m < x /\
  forall y, backward (default_transform (FPareto a m)) y <> Val (Fin x).
Proof. exact pareto_default_miss. Qed.
Print Assumptions C11_pareto_onto_refuted.
(** the default transform maps to points below the location, outside the support *)
Theorem C11_halfcauchy_refuted : exists l s y, 0 < s /\
  transformed_logprob true (family_logprob (FHalfCauchy l s)) (default_transform (FHalfCauchy l s)) (Fin y) = Val NInf.
Proof. exact halfcauchy_default_bad. Qed.
Print Assumptions C11_halfcauchy_refuted.

(** ** C15: push-forward densities *)
(** Missing from C15: reciprocals at negative base points, and values off the image (refuted below). *)
Theorem C15_pushforward_partial : forall e lp f x, eadm e -> edom e x -> epos e x ->
  (forall z, denotes (lp (Fin z)) (f z)) ->
  exists d, pushforward_at (efun e) f x (efun e x) d /\ denotes (measurable_elem e lp (Fin (efun e x))) d.
Proof. exact push_ok. Qed.
Print Assumptions C15_pushforward_partial.
Example C15_pushforward_ex : exists d, pushforward_at (efun (ESubFrom (Fin 4))) (normal_pdf 0 1) 6 (4 - 6) d /\
  denotes (measurable_elem (ESubFrom (Fin 4)) (normal_logprob (Fin 0) (Fin 1)) (Fin (4 - 6))) d.
Proof. apply (C15_pushforward_partial (ESubFrom (Fin 4))); simpl; auto. intros; apply LemDist.normal_ok; lra. Qed.
(** values outside the image give NaN instead of -inf *)
Theorem C15_exp_off_image_refuted : exists y, y < 0 /\ measurable_elem EExp (normal_logprob (Fin 0) (Fin 1)) (Fin y) = Val NaN.
Proof. exact exp_off_image. Qed.
Print Assumptions C15_exp_off_image_refuted.
(** negative values of a reciprocal give NaN *)
Theorem C15_recip_negative_refuted : exists y, y < 0 /\ measurable_elem ERecip (normal_logprob (Fin 0) (Fin 1)) (Fin y) = Val NaN.
Proof. exact recip_negative. Qed.
Print Assumptions C15_recip_negative_refuted.
