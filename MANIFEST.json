{
 "claims": [
  {
   "property": "C01",
   "status": "proved",
   "theorems": [
    "C01_uniform",
    "C01_normal",
    "C01_halfnormal",
    "C01_beta",
    "C01_exponential",
    "C01_laplace",
    "C01_lognormal",
    "C01_pareto",
    "C01_cauchy",
    "C01_halfcauchy",
    "C01_gamma",
    "C01_invgamma",
    "C01_chisquare",
    "C01_wald",
    "C01_weibull",
    "C01_vonmises",
    "C01_triangular",
    "C01_gumbel",
    "C01_logistic",
    "C01_studentt",
    "C01_weibull_boundary_refuted",
    "C01_triangular_mode_refuted",
    "C01_gamma_boundary_refuted"
   ],
   "note": "All 20 scalar continuous families, on the whole real line except the boundary points named in the _refuted theorems (Weibull c=1 at 0, triangular with mode = upper at the mode, gamma shape < 1 at 0), which the property excludes as they are not interior."
  },
  {
   "property": "C02",
   "status": "partial",
   "theorems": [
    "C02_uniform",
    "C02_halfnormal",
    "C02_beta",
    "C02_exponential",
    "C02_lognormal",
    "C02_pareto",
    "C02_halfcauchy",
    "C02_gamma",
    "C02_invgamma",
    "C02_chisquare",
    "C02_wald",
    "C02_weibull",
    "C02_vonmises",
    "C02_triangular",
    "C02_binomial_partial",
    "C02_betabinomial_partial",
    "C02_bernoulli_partial",
    "C02_poisson_partial",
    "C02_geometric_partial",
    "C02_nbinom_partial",
    "C02_hypergeometric_partial",
    "C02_discrete_noninteger_refuted",
    "C02_discrete_exactly_partial"
   ],
   "note": "Continuous families: proved. Discrete families: proved for all reals below or above the range; non-integers inside the range get a finite value (refuted); for seven families every real of the range is shown to (C02_discrete_exactly_partial)."
  },
  {
   "property": "C03",
   "status": "partial",
   "theorems": [
    "C03_normal",
    "C03_normal_logcdf",
    "C03_halfnormal",
    "C03_beta",
    "C03_exponential",
    "C03_laplace",
    "C03_lognormal",
    "C03_pareto",
    "C03_cauchy",
    "C03_halfcauchy",
    "C03_invgamma",
    "C03_wald",
    "C03_weibull",
    "C03_vonmises",
    "C03_triangular",
    "C03_gumbel",
    "C03_logistic",
    "C03_uniform_logcdf",
    "C03_betabinomial",
    "C03_bernoulli",
    "C03_poisson",
    "C03_poisson_logcdf",
    "C03_geometric",
    "C03_geometric_logcdf",
    "C03_binomial_partial",
    "C03_studentt_partial",
    "C03_gamma_partial",
    "C03_gamma_scale_zero_refuted",
    "C03_chisquare",
    "C03_nbinom_partial",
    "C03_nbinom_p_zero_refuted",
    "C03_uniform_refuted",
    "C03_studentt_df_refuted",
    "C03_hypergeometric_refuted",
    "C03_binomial_n_refuted",
    "C03_categorical_refuted",
    "C03_multinomial_refuted"
   ],
   "note": "Proved (iff, arrays of any length) for the families that check their parameters; refuted for uniform logprob, Student t df, hypergeometric, binomial n, gamma scale 0, nbinom p=0, categorical and multinomial weights."
  },
  {
   "property": "C04",
   "status": "proved",
   "theorems": [
    "C04_uniform",
    "C04_normal",
    "C04_halfnormal",
    "C04_beta",
    "C04_exponential",
    "C04_laplace",
    "C04_lognormal",
    "C04_pareto",
    "C04_cauchy",
    "C04_halfcauchy",
    "C04_gamma",
    "C04_invgamma",
    "C04_chisquare",
    "C04_wald",
    "C04_weibull",
    "C04_vonmises",
    "C04_triangular",
    "C04_gumbel",
    "C04_logistic",
    "C04_studentt"
   ],
   "note": "Improper Riemann integral over the support."
  },
  {
   "property": "C05",
   "status": "partial",
   "theorems": [
    "C05_binomial",
    "C05_betabinomial",
    "C05_bernoulli",
    "C05_poisson",
    "C05_geometric",
    "C05_hypergeometric",
    "C05_nbinom_partial",
    "C05_categorical"
   ],
   "note": "Negative binomial with p=1 raises; every other family, incl. the categorical, proved."
  },
  {
   "property": "C06",
   "status": "partial",
   "theorems": [
    "C06_binomial",
    "C06_binomial_neg",
    "C06_betabinomial",
    "C06_betabinomial_neg",
    "C06_bernoulli",
    "C06_bernoulli_neg",
    "C06_poisson",
    "C06_poisson_neg",
    "C06_geometric",
    "C06_geometric_neg",
    "C06_hypergeometric",
    "C06_hypergeometric_neg",
    "C06_nbinom_partial",
    "C06_nbinom_p_one_refuted",
    "C06_nbinom_large_n_refuted",
    "C06_categorical",
    "C06_categorical_neg_partial",
    "C06_categorical_range_refuted",
    "C06_categorical_raises"
   ],
   "note": "Negative binomial: p=1 raises and n>1e10 uses the Poisson mass (both refuted); the categorical raises from the number of categories on (refuted); all other families proved at every integer."
  },
  {
   "property": "C07",
   "status": "partial",
   "theorems": [
    "C07_normal",
    "C07_uniform",
    "C07_poisson",
    "C07_geometric_partial",
    "C07_geometric_neg",
    "C07_geometric_noninteger_refuted",
    "C07_geometric_exactly_partial",
    "C07_geometric_between"
   ],
   "note": "Geometric log-CDF is not floored: refuted at non-integers; proved exactly at integers and below 0 (for p = 1 exactly outside 0 < x < 1, C07_geometric_exactly_partial); normal, uniform, Poisson proved for all reals."
  },
  {
   "property": "C08",
   "status": "partial",
   "theorems": [
    "C08_normal",
    "C08_normal_unique",
    "C08_geometric_partial",
    "C08_geometric_p_one_refuted",
    "C08_geometric_p_one"
   ],
   "note": "Geometric p=1 returns 0 (refuted); 0<p<1 and the normal are proved."
  },
  {
   "property": "C09",
   "status": "proved",
   "theorems": [
    "C09_forward_backward",
    "C09_unconstrained"
   ],
   "note": "All scalar transforms and arbitrarily nested chains; the simplex transform is C13."
  },
  {
   "property": "C10",
   "status": "partial",
   "theorems": [
    "C10_log_jac_det_partial",
    "C10_circular",
    "C10_reciprocal_refuted"
   ],
   "note": "Every scalar transform incl. circular; reciprocal at negative points gives NaN (refuted)."
  },
  {
   "property": "C11",
   "status": "partial",
   "theorems": [
    "C11_vonmises_turn",
    "C11_vonmises_refuted",
    "C11_vonmises_infinite",
    "C11_into_support_partial",
    "C11_onto_interior_partial",
    "C11_finite_partial",
    "C11_normalised",
    "C11_pareto_refuted",
    "C11_pareto_onto_refuted",
    "C11_halfcauchy_refuted"
   ],
   "note": "12 of 14 families (also: the transformed density integrates to one); Pareto and HalfCauchy refuted. Von Mises: one over every turn of the circle (C11_vonmises_turn), so no density over the real line (C11_vonmises_refuted, C11_vonmises_infinite)."
  },
  {
   "property": "C12",
   "status": "partial",
   "theorems": [
    "C12_chain_inverse",
    "C12_chain_composes",
    "C12_chain_jacobian_partial"
   ],
   "note": "Chains of any length and nesting; chains through a reciprocal at a negative point are excluded (C10_reciprocal_refuted)."
  },
  {
   "property": "C13",
   "status": "proved",
   "theorems": [
    "C13_simplex",
    "C13_forward_backward",
    "C13_backward_forward",
    "C13_forward"
   ],
   "note": "Every dimension; the Jacobian matrix is the matrix of partial derivatives of the computed map. Vectors only (batch dimensions not modelled)."
  },
  {
   "property": "C14",
   "status": "partial",
   "theorems": [
    "C14_factors_partial",
    "C14_joint_partial",
    "C14_defined_partial",
    "C14_request_order_refuted",
    "C14_realized_refuted"
   ],
   "note": "Proved for every model graph and every set of transformed variables, when each transformed variable is requested before the requested variables depending on it. Refuted otherwise (C14_request_order_refuted: the Jacobian term and the value are lost), and for transforms of realized variables (C14_realized_refuted). The merge pass of canonicalization is not modelled; transforms of measurable expressions are in C92."
  },
  {
   "property": "C15",
   "status": "partial",
   "theorems": [
    "C15_pushforward_partial",
    "C15_exp_off_image_refuted",
    "C15_recip_negative_refuted"
   ],
   "note": "All nine expressions at image points of any base density; NaN instead of -inf off the image of exp and NaN for 1/X at negative points (refuted)."
  },
  {
   "property": "C16",
   "status": "proved",
   "theorems": [
    "C16_single_source",
    "C16_two_sources",
    "C16_sub",
    "C16_true_divide"
   ],
   "note": "Guard of construct_elemwise_transform and of the two rewrites that feed it (sub, true_div) on arbitrary graphs: accepted iff exactly one input is computed from an un-valued random variable. Single-output nodes."
  },
  {
   "property": "C17",
   "status": "proved",
   "theorems": [
    "C17_clip",
    "C17_one_sided",
    "C17_law",
    "C17_event",
    "C17_total",
    "C17_bad_bounds"
   ],
   "note": "Any base law with density and continuous distribution function, any finite or infinite bounds, one- and two-sided."
  },
  {
   "property": "C18",
   "status": "partial",
   "theorems": [
    "C18_clip_partial",
    "C18_event",
    "C18_total",
    "C18_outside",
    "C18_equal_bounds_refuted",
    "C18_noninteger_bound_refuted"
   ],
   "note": "Any integer law, one- or two-sided integer bounds a<b; masses sum to one, -inf outside. Equal bounds refuted (the point gets P(K<=a)). Bounds that are no integers are outside the statement; there the masses are wrong (C18_noninteger_bound_refuted)."
  },
  {
   "property": "C19",
   "status": "partial",
   "theorems": [
    "C19_round_partial",
    "C19_total",
    "C19_rounding_function",
    "C19_preimage"
   ],
   "note": "round/floor/ceil of any law at every integer whose upper pre-image end has positive distribution function; sum to one. Otherwise NaN (C20_zero_mass_refuted)."
  },
  {
   "property": "C20",
   "status": "partial",
   "theorems": [
    "C20_zero_mass_partial",
    "C20_noninteger_refuted",
    "C20_zero_mass_refuted"
   ],
   "note": "Refuted: non-integers get the mass of the integer they round to; integers below the support get NaN. Proved: -inf at zero-mass integers above the bottom of the support."
  },
  {
   "property": "C21",
   "status": "proved",
   "theorems": [
    "C21_expand_indices"
   ],
   "note": "All shapes, all index tuples of integers, integer arrays of any rank, positive-step slices and newaxis: accepted exactly when NumPy accepts, same result shape, same source element at every position."
  },
  {
   "property": "C22",
   "status": "partial",
   "theorems": [
    "C22_negative_step_refuted",
    "C22_reversed_partial"
   ],
   "note": "Refuted: negative-step slices come out in increasing order. Proved: what the code selects instead."
  },
  {
   "property": "C23",
   "status": "partial",
   "theorems": [
    "C23_scalar",
    "C23_array_scalars",
    "C23_array_partial",
    "C23_join_axis_refuted",
    "C23_slice_refuted",
    "C23_constant_entry_refuted"
   ],
   "note": "Scalar index; arrays of indices over scalar components (any index tuple) and over array components joined on axis 0 with an integer or array on that axis. Refuted: other join axes, slices on the join axis, constant entries of basic indices."
  },
  {
   "property": "C24",
   "status": "partial",
   "theorems": [
    "C24_out_of_range_zero",
    "C24_negative_refuted",
    "C24_beyond_refuted",
    "C24_array_refuted"
   ],
   "note": "Refuted: out-of-range and negative scalar indices always give log-probability 0; a negative array index leaves the element uninitialised."
  },
  {
   "property": "C25",
   "status": "partial",
   "theorems": [
    "C25_false_takes_first",
    "C25_true_takes_second",
    "C25_other_zero",
    "C25_switch_refuted"
   ],
   "note": "Refuted: the branches are swapped; proved what is computed for every condition value."
  },
  {
   "property": "C26",
   "status": "partial",
   "theorems": [
    "C26_exact_partial",
    "C26_one_symbolic_partial",
    "C26_two_symbolic_refuted"
   ],
   "note": "Exact condition proved; holds for tuples with at most one symbolic entry, refuted for two ([i, j] becomes [i, i])."
  },
  {
   "property": "C27",
   "status": "partial",
   "theorems": [
    "C27_basic_partial",
    "C27_advanced_partial",
    "C27_increment_refuted",
    "C27_two_symbolic_refuted"
   ],
   "note": "Assignments through advanced indices (any tuple) and basic indices with one symbolic entry. Refuted: increments are scored as assignments; two symbolic entries hit the wrong position."
  },
  {
   "property": "C28",
   "status": "proved",
   "theorems": [
    "C28_unshuffle",
    "C28_logprob",
    "C28_dimshuffle_op"
   ],
   "note": "Univariate variables of any rank, any order with dropped and inserted axes."
  },
  {
   "property": "C29",
   "status": "partial",
   "theorems": [
    "C29_make_vector",
    "C29_join_univariate",
    "C29_mixed_ranks",
    "C29_join_multivariate_partial",
    "C29_join_multivariate_refuted",
    "C29_join_negative_axis_refuted"
   ],
   "note": "Stacks, joins of univariate variables along any axis, mixed ranks raise; multivariate joins when batch and support ranks agree. Refuted: multivariate joins with other batch ranks or an axis counted from the end."
  },
  {
   "property": "C30",
   "status": "partial",
   "theorems": [
    "C30_accepts_iff",
    "C30_repeated_refuted"
   ],
   "note": "Refuted: repeated variables are accepted; exact acceptance condition proved."
  },
  {
   "property": "C31",
   "status": "proved",
   "theorems": [
    "C31_logprob",
    "C31_unit_jacobian",
    "C31_axis"
   ],
   "note": "Any rank, axis and length >= 1: unique pre-image and unit Jacobian determinant over the whole array."
  },
  {
   "property": "C32",
   "status": "proved",
   "theorems": [
    "C32_keys"
   ],
   "note": "Keys of the returned dictionary are the requested and realized variables, each once, for every list of requested/realized variables for which conditional_logprob's two loops succeed. The graph of the model supplies well_owned (distinct node outputs) and one_each (one log-probability per measurable output)."
  },
  {
   "property": "C33",
   "status": "partial",
   "theorems": [
    "C33_order_partial",
    "C33_request_order",
    "C33_interleaved_refuted",
    "C33_realized_refuted"
   ],
   "note": "Proved: the value variables come in request order when the variables of each node are requested consecutively and no variable is realized twice. The unconditional claim is refuted (interleaved requests of the outputs of two nodes, and realized variables among the outputs of one node)."
  },
  {
   "property": "C34",
   "status": "partial",
   "theorems": [
    "C34_in_order_partial",
    "C34_permuted_refuted"
   ],
   "note": "Proved: values and log-probabilities are paired with their own variable when the outputs of each node are requested in the order of its measurable outputs. The unconditional claim is refuted: requesting them in another order pairs the log-probability with the value of another output."
  },
  {
   "property": "C35",
   "status": "proved",
   "theorems": [
    "C35_factors",
    "C35_joint",
    "C35_defined"
   ],
   "note": "All model graphs, requests without transforms, any traversal order; includes existence of an answer and of the point. Nodes are single-output; deterministic rewrites of the IR database are not run in this model (they are modelled one by one for C15-C31)."
  },
  {
   "property": "C36",
   "status": "partial",
   "theorems": [
    "C36_draws",
    "C36_draws_transformed_partial",
    "C36_realized_expression_refuted",
    "C36_request_order_refuted"
   ],
   "note": "Proved when realized values do not depend on valued variables; refuted without that condition and for transforms requested in the wrong order."
  },
  {
   "property": "C37",
   "status": "partial",
   "theorems": [
    "C37_no_omission",
    "C37_kind_partial",
    "C37_no_owner",
    "C37_defined",
    "C37_kind_refuted",
    "C37_short_dispatch_refuted"
   ],
   "note": "Proved: when the call succeeds nothing is omitted, and a variable without owner raises. The exception class claim is partial: refuted in general, proved for the cases the code distinguishes."
  },
  {
   "property": "C38",
   "status": "proved",
   "theorems": [
    "C38_all_entries",
    "C38_real",
    "C38_minus_inf",
    "C38_nan",
    "C38_order"
   ],
   "note": "joint_logprob's reduction is the sum over all entries of all factors over extended reals, independent of order; -inf and NaN cases characterised."
  },
  {
   "property": "C39",
   "status": "partial",
   "theorems": [
    "C39_replaced_partial",
    "C39_order_refuted",
    "C39_self_refuted",
    "C39_in_place_refuted"
   ],
   "note": "Proved when every replacement value contains only variables that come later in the map. For other orders, and for values containing the variable itself, refuted; the call also changes nodes of the caller's graph (refuted). Nodes are single-output; walk_past_rvs and stop_at_vars arbitrary."
  },
  {
   "property": "C40",
   "status": "proved",
   "theorems": [
    "C40_walk",
    "C40_walk_extra"
   ],
   "note": "The yielded variables are exactly those reachable under the stated stopping rules, each once, on arbitrary finite graphs; expand_fn without side effects."
  },
  {
   "property": "C41",
   "status": "partial",
   "theorems": [
    "C41_remark_partial",
    "C41_outputs_kept_partial",
    "C41_marked_outputs_partial",
    "C41_collision_refuted"
   ],
   "note": "Proved for hash functions without collisions on the graph; a collision drops a variable (refuted). The registry is modelled as a weak-key dictionary keyed by hash and equality."
  },
  {
   "property": "C42",
   "status": "partial",
   "theorems": [
    "C42_parameters",
    "C42_sum",
    "C42_difference",
    "C42_shape_partial",
    "C42_broadcast_refuted",
    "C42_shape_refuted"
   ],
   "note": "Per-element law, parameters and the shape condition (iff) proved; refuted when a term is broadcast (elements share it and are dependent) and when sizes differ."
  },
  {
   "property": "C43",
   "status": "partial",
   "theorems": [
    "C43_guard_partial",
    "C43_same_refuted",
    "C43_dependent_refuted"
   ],
   "note": "The guard on the inputs of the sum is characterised; independence itself is refuted: X + X and X + Y(X) are accepted."
  },
  {
   "property": "C44",
   "status": "partial",
   "theorems": [
    "C44_symmetric_partial",
    "C44_contiguous_partial",
    "C44_exactly_partial",
    "C44_lags_refuted",
    "C44_steps_refuted"
   ],
   "note": "Exactly the tap sets that, with 0, are their own mirror image are read right (proved, iff); refuted for taps (-3,-1) (wrong lag) and (-5,-4,-3) (lost steps)."
  },
  {
   "property": "C45",
   "status": "proved",
   "theorems": [
    "C45_steps"
   ],
   "note": "For every family of conditional densities computed by the inner graph (hypothesis step_computes), any number of variables, steps and symmetric (in particular contiguous) taps."
  },
  {
   "property": "C46",
   "status": "partial",
   "theorems": [
    "C46_homogeneous_partial",
    "C46_sampler",
    "C46_late_partial",
    "C46_total",
    "C46_sampler_total",
    "C46_time_varying_refuted"
   ],
   "note": "Proved for one matrix used at all times; refuted for matrices varying over time, where each is used one step late (proved: C46_late). Total mass one proved for both the log-likelihood and the sampler in general. One-dimensional states."
  },
  {
   "property": "C47",
   "status": "proved",
   "theorems": [
    "C47_score",
    "C47_lift",
    "C47_lift_end",
    "C47_value",
    "C47_kept",
    "C47_removed"
   ],
   "note": "at.isclose is modelled from its documentation; graphs are terms over arbitrary ops."
  },
  {
   "property": "C48",
   "status": "proved",
   "theorems": [
    "C48_unambiguous",
    "C48_enough"
   ],
   "note": "Variables with a user-given name are assumed to be variables of the printed graph."
  },
  {
   "property": "C49",
   "status": "proved",
   "theorems": [
    "C49_kept"
   ],
   "note": "For every positive width; lines are lists of entries, the joining separators are not modelled."
  },
  {
   "property": "C50",
   "status": "partial",
   "theorems": [
    "C50_reversed_partial",
    "C50_exactly_partial",
    "C50_advanced_partial",
    "C50_advanced_exactly_partial",
    "C50_order_refuted",
    "C50_lost_refuted"
   ],
   "note": "Characterised exactly: inputs are printed reversed (Subtensor) and half of them are lost (AdvancedSubtensor); refuted with two indices. Right for at most one input."
  },
  {
   "property": "C51",
   "status": "partial",
   "theorems": [
    "C51_density",
    "C51_raises_partial",
    "C51_lower",
    "C51_asymmetric_refuted"
   ],
   "note": "Any dimension; the Cholesky factorisation and the triangular solver are modelled. Proved: exact log-density for every positive definite covariance, Raise for every symmetric matrix that is not. Refuted: matrices that are not symmetric are scored by their lower triangle."
  },
  {
   "property": "C52",
   "status": "partial",
   "theorems": [
    "C52_multinomial",
    "C52_multinomial_neg",
    "C52_multinomial_total",
    "C52_multinomial_fraction_refuted",
    "C52_dirichlet_partial",
    "C52_dirichlet_outside",
    "C52_dirichlet_raises",
    "C52_dirichlet_sum_refuted"
   ],
   "note": "Multinomial: mass at every count vector, total one, -inf at negative entries; fractions get a finite value (refuted). Dirichlet: density at positive vectors, -inf outside [0,1], raises on bad alpha; vectors not totalling one get a finite value (refuted)."
  },
  {
   "property": "C53",
   "status": "proved",
   "theorems": [
    "C53_mvnormal"
   ],
   "note": "Any n, iterated improper Riemann integrals; combines the Cholesky model with the Gaussian integral."
  },
  {
   "property": "C54",
   "status": "proved",
   "theorems": [
    "C54_dirichlet"
   ],
   "note": "Any number of categories, iterated improper integrals with the Beta integral."
  },
  {
   "property": "C55",
   "status": "partial",
   "theorems": [
    "C55_accepted",
    "C55_single_source",
    "C55_density_partial",
    "C55_injective",
    "C55_sound",
    "C55_exact",
    "C55_unsigned_refuted"
   ],
   "note": "Acceptance characterised exactly, density at every regular point, injectivity; at all other points the code never returns a density (C55_sound, C55_exact). Refuted: reciprocals of negative numbers get no density (C15_recip_negative_refuted); unsigned and boolean variables pass the discrete guard."
  },
  {
   "property": "C56",
   "status": "partial",
   "theorems": [
    "C56_elements_partial",
    "C56_broadcast_refuted"
   ],
   "note": "Proved for variables with the expression's shape, any rank. Refuted for a variable broadcast by the expression."
  },
  {
   "property": "C57",
   "status": "partial",
   "theorems": [
    "C57_vector_partial",
    "C57_vector_refuted",
    "C57_scalar_scale_partial"
   ],
   "note": "Exact value computed for every length: the base log-density is counted once per element; correct for length one only. Refuted for longer vectors (X + 0) and for a single scale."
  },
  {
   "property": "C58",
   "status": "partial",
   "theorems": [
    "C58_sound_partial",
    "C58_attained_partial",
    "C58_given_sound_partial",
    "C58_accepted",
    "C58_joint_partial",
    "C58_shared_refuted",
    "C58_given_partial",
    "C58_fresh_refuted"
   ],
   "note": "Acceptance characterised exactly on graphs; joint density equal to the product of the draw densities over the full Jacobian determinant for every acyclic scalar graph; with parameters depending on unrequested draws it is the density given those draws. At points that are not smooth (factors zero, reciprocals of negative numbers) or not attained no density is returned (C58_sound_partial, C58_attained_partial). Arrays of univariate variables are in C91. Refuted: two requested variables sharing one unrequested draw; a draw used both by a requested variable and by the parameters of another (scored at a fresh draw)."
  },
  {
   "property": "C59",
   "status": "partial",
   "theorems": [
    "C59_transforms",
    "C59_inside_partial",
    "C59_atom_refuted",
    "C59_round_refused",
    "C59_clip_derived_refused",
    "C59_rounding",
    "C59_discrete_refused"
   ],
   "note": "Value characterised for every chain over a clip; right density between the bounds; rounded variables have the right probabilities; discrete variables are neither rounded nor transformed; rounded bases and censored derived variables always raise. Refuted: at the atoms, where the Jacobian is applied to a probability (2*clip(X,0,1) at 2 gets half the mass)."
  },
  {
   "property": "C60",
   "status": "partial",
   "theorems": [
    "C60_expression_partial",
    "C60_mixture_partial",
    "C60_bound_refuted",
    "C60_index_refuted"
   ],
   "note": "Proved when the bounds of clips and the index have no unvalued random variables; nothing is assumed about the other operands of transforms. Refuted: bounds of a clip and indices of a mixture may be unvalued draws, on which the result then depends."
  },
  {
   "property": "C61",
   "status": "partial",
   "theorems": [
    "C61_sound_partial",
    "C61_given_sound_partial",
    "C61_accepted",
    "C61_joint_partial",
    "C61_equal_refuted",
    "C61_dependent_refuted",
    "C61_given_partial"
   ],
   "note": "Acceptance characterised exactly; joint density right for every model in which nothing requested is computed from an element of a stack, whatever the other draws are, and given the unrequested draws on which parameters depend. Refuted: equal elements (stack([X,X])) and elements on which others depend (stack([X,Y]), Y ~ N(X,1)). Variables computed from the stack: C88. A result that denotes a density is the right one at all points (C61_sound_partial). Missing: arrays (see C95)."
  },
  {
   "property": "C62",
   "status": "partial",
   "theorems": [
    "C62_slices",
    "C62_positions",
    "C62_covered_partial",
    "C62_joint_partial",
    "C62_twice",
    "C62_uninitialised_refuted"
   ],
   "note": "The padded value is characterised position by position; it is independent of the uninitialised memory exactly when the slice covers every step; for any number of outputs requested by slices (of any step) that cover every step the log-probability is that of the series. Refuted: other slices, such as out[-1], are scored with uninitialised memory. Missing: indices along other axes."
  },
  {
   "property": "C63",
   "status": "partial",
   "theorems": [
    "C63_random_partial",
    "C63_series",
    "C63_computed_partial",
    "C63_unvalued",
    "C63_no_random",
    "C63_computed_refuted",
    "C63_values_refuted"
   ],
   "note": "Holds when all outputs are random; scans with an unvalued output or without random outputs are refused. With computed outputs (with or without taps of their own, in any order) the exact result is characterised: the computed series come first, initial values included, and are added to the log-density of the random outputs. Refuted: labels, joint and values are wrong. Missing: non-symmetric taps."
  },
  {
   "property": "C64",
   "status": "partial",
   "theorems": [
    "C64_vector_partial",
    "C64_scalars",
    "C64_hmm_partial",
    "C64_hmm_late_partial",
    "C64_axes_refuted",
    "C64_rectangular_refuted",
    "C64_hmm_varying_refuted"
   ],
   "note": "Proved for scalar and vector components and for hidden Markov models with one transition matrix. Refuted for components with two axes: the index ranges are paired, so that the diagonal is scored. With matrices varying over time the chain is scored with every matrix one step late (C64_hmm_late_partial), which is wrong (C64_hmm_varying_refuted). Missing: components of different shapes."
  },
  {
   "property": "C65",
   "status": "partial",
   "theorems": [
    "C65_dirichlet",
    "C65_dirichlet_raises",
    "C65_multinomial",
    "C65_categorical_partial",
    "C65_categorical_axis",
    "C65_categorical_refuted"
   ],
   "note": "Proved for Dirichlet and multinomial batches with any broadcasting, with the exact failure condition for Dirichlet; categorical entries proved for every rank. Refuted: a categorical batch whose value has no more axes than the batch of weights gets an additional leading axis of length one."
  },
  {
   "property": "C66",
   "status": "partial",
   "theorems": [
    "C66_elementwise",
    "C66_total",
    "C66_simplex",
    "C66_scales",
    "C66_determined",
    "C66_scale_once",
    "C66_refuted",
    "C66_simplex_scale",
    "C66_before_simplex",
    "C66_before_simplex_refuted"
   ],
   "note": "Proved for element-wise chains without ScaleTransform, for the simplex followed by such a chain, for chains of scales. Refuted for a scale mixed with other links: the scale's term is counted once, not once per coordinate (C66_scale_once, C66_simplex_scale say by how much it is off); and for element-wise links on the constrained side of the simplex: the term of the last, dependent coordinate is counted too (C66_before_simplex)."
  },
  {
   "property": "C67",
   "status": "proved",
   "theorems": [
    "C67_defined",
    "C67_spaces",
    "C67_texts",
    "C67_succeeds"
   ],
   "note": "For all acyclic graphs. Aesara's choice of printer per operation and the texts of deterministic operations are given (DESIGN section 1)."
  },
  {
   "property": "C68",
   "status": "partial",
   "theorems": [
    "C68_exactly_partial",
    "C68_space",
    "C68_space_latex",
    "C68_name_refuted",
    "C68_percent_refuted"
   ],
   "note": "Proved exactly for which names and shapes the line is right (C68_exactly_partial). Refuted for names with a space (characters of the space's text are lost) and for names with a percent sign when the length of an axis is unknown (printing raises)."
  },
  {
   "property": "C69",
   "status": "partial",
   "theorems": [
    "C69_expand_partial",
    "C69_resize",
    "C69_tags",
    "C69_batched_refuted"
   ],
   "note": "Resizing and tags in full; expansion for scalar draws, for variables with a size, and for parameters without batch dimensions. For vector-valued variables with batched parameters and no size the claim is refuted: the batch dimensions are dropped."
  },
  {
   "property": "C70",
   "status": "partial",
   "theorems": [
    "C70_unmasked",
    "C70_masked_partial",
    "C70_succeeds",
    "C70_refuses",
    "C70_known_refuted"
   ],
   "note": "Proved for all expressions whose indices have positive-step slices and whose written values are unknown; refuted for known values written into the data, which are masked and lost."
  },
  {
   "property": "C71",
   "status": "partial",
   "theorems": [
    "C71_logprob",
    "C71_frozen",
    "C71_new",
    "C71_default",
    "C71_factor_partial",
    "C71_factor",
    "C71_subclass_refuted",
    "C71_name",
    "C71_name_refuted"
   ],
   "note": "Proved for all reachable registries. Refuted: the default transform of a subclass with its own log-probability uses the base class's density; an op whose class inherits its name gets no suffix."
  },
  {
   "property": "C72",
   "status": "proved",
   "theorems": [
    "C72_total"
   ],
   "note": "Transformed variables are requested before those depending on them (otherwise C14_request_order_refuted); Pareto, half-Cauchy and von Mises without transform (C11). One scalar per variable, no realized variables, negative binomial with n up to 1e10."
  },
  {
   "property": "C73",
   "status": "partial",
   "theorems": [
    "C73_law_partial"
   ],
   "note": "Proved wherever reciprocals are taken of positive numbers only; for negative ones the code yields NaN (C15_recip_negative_refuted). Scalars."
  },
  {
   "property": "C74",
   "status": "partial",
   "theorems": [
    "C74_guard",
    "C74_defined",
    "C74_scan_partial",
    "C74_accepted",
    "C74_rewrites_only_refuse",
    "C74_integers",
    "C74_transformed_refuted",
    "C74_entries",
    "C74_entries_exist",
    "C74_order",
    "C74_order_ends"
   ],
   "note": "The guard on the body as it is (C74_guard) and the order of the log-probabilities are proved for all bodies; the density for bodies whose outputs are all random, and tap sets that are their own mirror image (others are refuted by C44). The body is rewritten before the guard: which scans are then accepted is characterised exactly (C74_accepted; with entries of random variables, such as normal(mu, sigma)[s_t], C74_entries, the density being C74_scan_partial of the body with the entries as random variables). The result does not depend on the order of the rewrites (C74_order, C74_order_ends). Refuted: when the body computes a transform, clip, rounding or stack of a draw, such as exp(y_t), the scan is refused although all random variables are outputs (C74_transformed_refuted). Missing in C74_entries: canonicalization, transpositions and mixtures in bodies. Computed outputs: C63."
  },
  {
   "property": "C75",
   "status": "proved",
   "theorems": [
    "C75_bound",
    "C75_extends",
    "C75_agree",
    "C75_stable",
    "C75_value",
    "C75_form",
    "C75_logprob"
   ],
   "note": "Expressions are trees; a shared variable is equal subtrees. Mixture, scan and subtensor rewrites and the limit on the number of rewrites are outside this model."
  },
  {
   "property": "C76",
   "status": "partial",
   "theorems": [
    "C76_density_partial",
    "C76_raises",
    "C76_rank",
    "C76_vector_axis",
    "C76_rank_refuted",
    "C76_vector_axis_refuted"
   ],
   "note": "Proved for batches with at most one axis. Batches with two or more axes are refused (C76_rank, refuted), and a value broadcast along the vector axis gets the constant of one dimension (C76_vector_axis, refuted)."
  },
  {
   "property": "C77",
   "status": "proved",
   "theorems": [
    "C77_law",
    "C77_raises"
   ],
   "note": "The law of the sampled array, as a product of chain probabilities, for all shapes."
  },
  {
   "property": "C78",
   "status": "partial",
   "theorems": [
    "C78_default_partial",
    "C78_default_draws",
    "C78_draws_partial",
    "C78_vector",
    "C78_scalar",
    "C78_single",
    "C78_raises",
    "C78_default_refuted",
    "C78_vector_refuted",
    "C78_flag"
   ],
   "note": "Proved for vector-valued variables with the default term, for independent draws with the package's element-wise transforms, for scalars. Refuted: independent draws with the default term (counted once per draw), vector-valued variables with element-wise transforms (the log-density is counted once per coordinate); arrays with more axes are refused (C78_raises)."
  },
  {
   "property": "C79",
   "status": "partial",
   "theorems": [
    "C79_values",
    "C79_entries",
    "C79_raises_partial",
    "C79_shapes",
    "C79_joint_partial",
    "C79_normal_partial",
    "C79_empty_refuted"
   ],
   "note": "Proved for all shapes without empty axes (values and shapes also with empty axes). With an empty axis a check still reads the parameter that has entries, so it raises although there is no element (C79_empty, refuted)."
  },
  {
   "property": "C80",
   "status": "partial",
   "theorems": [
    "C80_parse",
    "C80_parse_untagged",
    "C80_valid",
    "C80_distinct_partial",
    "C80_distinct_refuted",
    "C80_styles_partial",
    "C80_styles_refuted",
    "C80_describe_long",
    "C80_describe",
    "C80_checkout",
    "C80_release",
    "C80_untagged",
    "C80_checkout_refuted"
   ],
   "note": "Parsing, validity and the git-describe styles are proved in full. Distinctness fails for tags with a local part (C80_distinct_refuted), the styles pre, post and old fail after post-release tags (C80_styles_refuted), and after a tag without the prefix the version is \"unknown\", which is no PEP 440 version (C80_checkout_refuted)."
  },
  {
   "property": "C81",
   "status": "partial",
   "theorems": [
    "C81_file",
    "C81_file_unknown_partial",
    "C81_file_other",
    "C81_file_template",
    "C81_chained",
    "C81_date",
    "C81_date_line",
    "C81_comment_refuted",
    "C81_empty_date_refuted",
    "C81_least",
    "C81_final",
    "C81_unknown_partial",
    "C81_unknown_refuted",
    "C81_newest_refuted",
    "C81_keywords_first",
    "C81_directory"
   ],
   "note": "Proved for tags. Without any tag, a branch whose name starts with the prefix and has a digit is taken for a release (C81_unknown_refuted); of two releases on one commit the older one can be reported (C81_newest_refuted). The keywords read from the text of a version file by setup.py are proved for assignments, chained ones included (C81_chained), without a quote behind them; files that git has not expanded are left to the next method (C81_file_template); a comment with quotes is read as part of the value (C81_comment_refuted), an empty date raises an IndexError (C81_empty_date_refuted)."
  },
  {
   "property": "C82",
   "status": "proved",
   "theorems": [
    "C82_total"
   ],
   "note": "The value variable has the shape of the variable, without empty axes (otherwise C79_empty_refuted); transformed variables are requested before those depending on them (otherwise C14_request_order_refuted); Pareto, half-Cauchy and von Mises without transform (C11). No realized variables, negative binomial with n up to 1e10."
  },
  {
   "property": "C83",
   "status": "proved",
   "theorems": [
    "C83_transform",
    "C83_forward_backward",
    "C83_backward_forward",
    "C83_no_axes",
    "C83_dirichlet"
   ],
   "note": "Arrays without axes raise (C83_no_axes)."
  },
  {
   "property": "C84",
   "status": "proved",
   "theorems": [
    "C84_total"
   ],
   "note": "Taps whose set is its own mirror image (otherwise C44_lags_refuted); scalar outputs that are RandomVariables of the body (deterministic outputs: C63). Which scans are accepted: C74_accepted, C74_entries."
  },
  {
   "property": "C85",
   "status": "partial",
   "theorems": [
    "C85_logprobs",
    "C85_values_partial",
    "C85_transformed_refuted",
    "C85_logprob_name",
    "C85_kinds",
    "C85_logprob_defined",
    "C85_scan_refuted"
   ],
   "note": "Value variables of transformed variables all get the name val_clone-trans (C85_transformed_refuted), contrary to the documented A_vv-trans. Variables whose node is rewritten to a RandomVariable of another name (mixtures) are not modelled. Calling logprob on a scan with a named value raises an AttributeError (C85_scan_refuted)."
  },
  {
   "property": "C86",
   "status": "partial",
   "theorems": [
    "C86_backward",
    "C86_inverse",
    "C86_circular",
    "C86_determinant_partial",
    "C86_determinant_refuted",
    "C86_limits",
    "C86_retraced"
   ],
   "note": "The log-determinant of the two-sided interval transform is NaN at minus infinity, where its limit is minus infinity (C86_determinant_refuted). Circular transforms have no limit and give NaN (C86_circular), chains are covered for the inverse (C86_limits, which also names the limits) and its undoing (C86_retraced) and not for the determinant, and the reciprocal is followed to plus infinity only for the inverse and the determinant (the model has a single zero, and the logarithm of a negative value is NaN, see C15_recip_negative_refuted)."
  },
  {
   "property": "C87",
   "status": "partial",
   "theorems": [
    "C87_undefined_partial",
    "C87_undefined_refuted",
    "C87_nan",
    "C87_infinite",
    "C87_minus_infinite",
    "C87_infinite_refuted",
    "C87_cdf_normal",
    "C87_cdf_uniform",
    "C87_cdf_poisson",
    "C87_cdf_geometric",
    "C87_quantile_normal",
    "C87_quantile_refuted"
   ],
   "note": "Exact: which laws keep NaN and which score it as impossible; which laws give minus infinity at plus and minus infinity. Refuted: the log-CDF of a uniform variable at NaN is that of probability one; gamma (shape >= 1), chi-square, Weibull, Wald, Poisson (rate >= 1), negative binomial at plus infinity and Gumbel, logistic at minus infinity give NaN; the inverse CDF of a geometric variable accepts negative probabilities. The cast of an infinite quantile of a geometric variable to an integer is not modelled."
  },
  {
   "property": "C88",
   "status": "partial",
   "theorems": [
    "C88_joint_partial",
    "C88_accepted",
    "C88_shared_refuted",
    "C88_range_refuted",
    "C88_sound_partial"
   ],
   "note": "Acceptance characterised exactly; joint density right for every scalar model in which selected components and stacked variables are used only through the mixture or stack, with indices computed from requested variables and in range. Refuted: a component that others use as well (its value is not put into their parameters); an index out of range (every value gets positive density). A result that denotes a density is the right one at all points (C88_sound_partial). Missing: arrays; mixtures of mixtures are in C97, other expressions of mixtures are refused by the code (C97_expression_refuted)."
  },
  {
   "property": "C89",
   "status": "partial",
   "theorems": [
    "C89_average_partial",
    "C89_realized",
    "C89_posterior_refuted",
    "C89_omitted_refuted",
    "C89_conditional_refuted"
   ],
   "note": "Average over the draws proved equal to the marginal density for every model whose omitted variables have their own generators and whose realized values are inputs, whenever the average exists; joint with realized values proved equal to the joint of all variables. Refuted: three sentences of the docstrings (with realized values the result is the posterior density; with an omitted variable it is the joint density with it; the factor of a variable is its density given the others). Missing: realized values that are expressions, arrays, existence of the average."
  },
  {
   "property": "C90",
   "status": "partial",
   "theorems": [
    "C90_undo_partial",
    "C90_valued_kept_partial",
    "C90_no_copies",
    "C90_nested_refuted",
    "C90_lifted_refuted"
   ],
   "note": "Proved for every sequence of rewrites that can be undone in its order (each stand-in computes the old value, or no other undone variable is computed from the old one), with all transforms of unconverted variables. Refuted without that condition: nested mixtures leave a MixtureRV that cannot be evaluated; a subtensor lift below another rewrite leaves two different draws where there was one. Not modelled: canonicalization, Ops with several outputs."
  },
  {
   "property": "C91",
   "status": "partial",
   "theorems": [
    "C91_elements",
    "C91_spelled_out",
    "C91_accepted",
    "C91_density_partial",
    "C91_sound_partial",
    "C91_attained_partial"
   ],
   "note": "Equality with the scalar model proved for every well-shaped acyclic graph without empty arrays, and every such graph shown to have a scalar counterpart; acceptance and density follow from C58. A result that denotes a density is the right one at all points, and only attained values get one. The density claim misses vector-valued distributions (stacks, joins, transpositions, cumulative sums and indexing: C95, C98); it is false when broadcasting makes elements share a draw (C56_broadcast_refuted)."
  },
  {
   "property": "C92",
   "status": "partial",
   "theorems": [
    "C92_joint_partial",
    "C92_sound_partial",
    "C92_no_jacobian_partial",
    "C92_order_refuted",
    "C92_turns"
   ],
   "note": "Proved (C92_joint_partial, C92_sound_partial, C92_no_jacobian_partial) for requests in which every transformed variable comes before those computed from it; false otherwise (C92_order_refuted). Missing: transforms of expressions that depend on operands (arrays: C93); reciprocals at negative points denote nothing (C92_sound_partial). Values given by the circular transform count up to full turns (C92_turns)."
  },
  {
   "property": "C93",
   "status": "partial",
   "theorems": [
    "C93_elements",
    "C93_density_partial",
    "C93_sound_partial",
    "C93_chain_refuted",
    "C93_turns"
   ],
   "note": "Proved (C93_elements, C93_density_partial, C93_sound_partial) for chains whose links have determinants with equally many axes; false otherwise, the determinant summed over the elements being added to each of them (C93_chain_refuted). The density holds for requests in which every transformed array comes before those computed from it (C92_order_refuted). Values given by the circular transform count up to full turns (C93_turns). Missing: the simplex transform (C66), vector-valued distributions, empty arrays."
  },
  {
   "property": "C94",
   "status": "partial",
   "theorems": [
    "C94_expectation_partial",
    "C94_total_partial",
    "C94_zero_mass_refuted"
   ],
   "note": "Proved (C94_expectation_partial, C94_total_partial) for clips of continuous and discrete variables, roundings of continuous ones, and variables computed from continuous ones by exp, log, reciprocals, sums, differences, products and quotients with other variables. Missing: variables computed from clipped, rounded or discrete ones, mixtures (C96) and stacks, value transforms, arrays. Excluded: rounded variables whose distribution function is somewhere 0, as their joint log-probability is NaN there and nothing can be integrated (C94_zero_mass_refuted); discrete variables clipped at bounds that are no integers (C18_noninteger_bound_refuted); reciprocals of numbers that may be negative and factors that may be 0 (see C15_recip_negative_refuted and C59_atom_refuted)."
  },
  {
   "property": "C95",
   "status": "partial",
   "theorems": [
    "C95_discrete",
    "C95_cumsum_value",
    "C95_elements_partial",
    "C95_spelled_out",
    "C95_density_partial",
    "C95_mixed_join_refuted"
   ],
   "note": "Equality with the model of the elements whenever a joint is returned, the density of that joint, and the existence of the model of the elements for every well-shaped acyclic graph. Missing: models in which parts of requested views are used elsewhere (wrong by C61_dependent_refuted), views that are broadcast, cumulative sums of views or inside other expressions, indexing of anything but a random variable or an indexed one, vector-valued distributions; false for element-wise functions of joins with discrete parts (C95_mixed_join_refuted). Integer arrays, however indexed, transposed, stacked or summed, are refused under elementwise operations (C95_discrete); the cumulative sum of an array with a value is the running total of the value (C95_cumsum_value)."
  },
  {
   "property": "C96",
   "status": "partial",
   "theorems": [
    "C96_expectation_partial",
    "C96_total_partial"
   ],
   "note": "Proved (C96_expectation_partial, C96_total_partial) for mixtures whose components are unrequested, unshared random variables, all continuous or all discrete, beside clipped, rounded and computed variables as in C94. Missing: components computed from other variables, mixtures inside other expressions, arrays, stacks, value transforms; indices out of range and shared components are excluded because the claim is false there (C88_range_refuted, C88_shared_refuted, C24_beyond_refuted)."
  },
  {
   "property": "C97",
   "status": "partial",
   "theorems": [
    "C97_joint_partial",
    "C97_accepted",
    "C97_sound_partial",
    "C97_expression_refuted"
   ],
   "note": "Acceptance characterised exactly (C97_accepted) and the joint density proved right (C97_joint_partial) for scalar mixtures nested to any depth under the conditions of C88 (indices in range and known, selected variables used only through the mixtures). Refuted: the exponential of a mixture is refused although the mixture is accepted (C97_expression_refuted). Missing: arrays, components under scans, and what is excluded in C88 because it is false there. A result that denotes a density is the right one at all points (C97_sound_partial)."
  },
  {
   "property": "C98",
   "status": "partial",
   "theorems": [
    "C98_density_partial",
    "C98_basic",
    "C98_apart",
    "C98_repeated_refuted"
   ],
   "note": "The joint density of indexed random variables (also indexed repeatedly, and transposed afterwards) proved for every index that reads no element twice (C98_density_partial, C98_apart), which indices without arrays never do (C98_basic). Aesara's local_subtensor_rv_lift, registered by aeppl at rewriting.py:179, is not in /repo and is modelled by its contract: the parameters are broadcast to the variable's shape and indexed alike. Refuted: an index array with repeated positions is accepted and scored as independent draws (C98_repeated_refuted). Missing: indices depending on unrequested draws, indexing of transposed arrays (refused in the model), canonicalization before the lift, vector-valued distributions."
  },
  {
   "property": "C99",
   "status": "proved",
   "theorems": [
    "C99_bound",
    "C99_extends",
    "C99_agree",
    "C99_stable",
    "C99_joint"
   ],
   "note": "Every run has at most one rewrite per node (C99_bound), can be completed (C99_extends), never records a form that a complete run does not have (C99_stable), all complete runs agree (C99_agree), and their joint log-probability is the one of C91, C95 and C98 (C99_joint). Simplified: the two rewrites of a difference or a quotient are one step; the values of operands are those before the run; the limit on the number of rewrites is not modelled; mixtures are found in a separate pass and not included. no_empty excludes stacks and concatenations of nothing, which Aesara does not build."
  },
  {
   "property": "C100",
   "status": "partial",
   "theorems": [
    "C100_complete_partial",
    "C100_ignored",
    "C100_set_again",
    "C100_requested",
    "C100_two_values",
    "C100_other_use_refuted",
    "C100_density_partial"
   ],
   "note": "Proved for bases that are not used elsewhere; a base that is used elsewhere keeps an unvalued draw there (C100_other_use_refuted). Data are constants, requested variables or operations without a measurable rewrite on these. The Op is abstract: what set_subtensor computes for its indices is idempotent (C100_set_again proves it for np_set of C27); the reconstruction of the indices is C26, increments are C27_increment_refuted. With C95, C100_density_partial gives the density of the completed model."
  },
  {
   "property": "C101",
   "status": "partial",
   "theorems": [
    "C101_run",
    "C101_run_none",
    "C101_checkout",
    "C101_untagged",
    "C101_directory",
    "C101_archive",
    "C101_archive_unknown",
    "C101_foreign",
    "C101_total_partial",
    "C101_total_refuted",
    "C101_uncounted",
    "C101_next_refuted"
   ],
   "note": "All parts proved except that there is always a result: get_versions raises a TypeError or AttributeError when git fails to count the commits or to show the date (C101_total_refuted), otherwise there is one (C101_total_partial). A program that exists but cannot be run stops the search (C101_next_refuted). The processes are inputs of the model; int() reads digits only; lines of the date are separated by line feeds only. A count that is no number makes the import fail (C101_uncounted)."
  },
  {
   "property": "C102",
   "status": "partial",
   "theorems": [
    "C102_expressions",
    "C102_numbers",
    "C102_names_partial",
    "C102_names_refuted",
    "C102_normal",
    "C102_rounded_refuted"
   ],
   "note": "Proved: texts with any character that numbers lack stay (C102_expressions), decimal numbers are rounded (C102_numbers), a name stays exactly if it is not 'inf', 'infinity' or 'nan' in other letters (C102_names_partial), the definition of a normal variable (C102_normal). Refuted: variables named 'Infinity' and 'INF' are both shown as 'inf' (C102_names_refuted); the scale of a normal variable is squared before it is rounded, so it never is (C102_rounded_refuted). How a number is written with six digits is not modelled."
  }
 ]
}
