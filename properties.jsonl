{"id": "C01", "title": "Continuous log-densities equal the textbook densities", "statement": "For every supported univariate continuous distribution, `logprob(rv, v)` evaluates to the natural logarithm of that distribution's textbook density at v, whenever the parameters are valid and v lies in the (interior of the) support.", "quantifier": "all real parameter values satisfying the distribution's constraints and all real values in the support, for each of the 19 univariate continuous families", "why_tests_cant": "The tests compare a handful of literals per family with SciPy to a few decimals; the claim is about a continuum of parameters and values.", "anchors": ["aeppl/logprob.py:uniform_logprob", "aeppl/logprob.py:normal_logprob", "aeppl/logprob.py:halfnormal_logprob", "aeppl/logprob.py:beta_logprob", "aeppl/logprob.py:exponential_logprob", "aeppl/logprob.py:laplace_logprob", "aeppl/logprob.py:lognormal_logprob", "aeppl/logprob.py:pareto_logprob", "aeppl/logprob.py:cauchy_logprob", "aeppl/logprob.py:halfcauchy_logprob", "aeppl/logprob.py:gamma_logprob", "aeppl/logprob.py:invgamma_logprob", "aeppl/logprob.py:chisquare_logprob", "aeppl/logprob.py:wald_logprob", "aeppl/logprob.py:weibull_logprob", "aeppl/logprob.py:vonmises_logprob", "aeppl/logprob.py:triangular_logprob", "aeppl/logprob.py:gumbel_logprob", "aeppl/logprob.py:logistic_logprob", "aeppl/logprob.py:studentt_logprob"]}
{"id": "C02", "title": "Values outside the support get log-density -inf", "statement": "For every univariate family and valid parameters, `logprob(rv, v)` evaluates to exactly -inf (not NaN, not a finite number) at every real v outside the distribution's support.", "quantifier": "all valid parameters and all real v outside the support, per family", "why_tests_cant": "Tests only probe a couple of out-of-support points; NaN can arise on sets tests never hit because both branches of a switch are computed.", "anchors": ["aeppl/logprob.py:uniform_logprob", "aeppl/logprob.py:beta_logprob", "aeppl/logprob.py:gamma_logprob", "aeppl/logprob.py:triangular_logprob", "aeppl/logprob.py:binomial_logprob", "aeppl/logprob.py:poisson_logprob", "aeppl/logprob.py:geometric_logprob"]}
{"id": "C03", "title": "Invalid parameters raise instead of returning a number", "statement": "For every family whose parameters are constrained, evaluating `logprob` with any parameter element violating the documented constraint raises a ParameterValueError; no numeric result is produced, whatever the value is.", "quantifier": "all parameter arrays containing at least one element violating the documented constraint, all values", "why_tests_cant": "The violating set is infinite and the raise must survive enclosing switches (e.g. the Poisson branch inside the negative binomial).", "anchors": ["aeppl/logprob.py:CheckParameterValue", "aeppl/logprob.py:normal_logprob", "aeppl/logprob.py:nbinom_logprob", "aeppl/logprob.py:poisson_logprob", "aeppl/logprob.py:multinomial_logprob"]}
{"id": "C04", "title": "Continuous densities integrate to one", "statement": "exp(logprob(rv, v)) integrates to 1 over the real line for every supported univariate continuous family with valid parameters.", "quantifier": "all valid parameters of each family", "why_tests_cant": "Numerical quadrature on a few parameters cannot establish an exact improper integral for all parameters.", "anchors": ["aeppl/logprob.py:uniform_logprob", "aeppl/logprob.py:normal_logprob", "aeppl/logprob.py:exponential_logprob", "aeppl/logprob.py:laplace_logprob", "aeppl/logprob.py:cauchy_logprob", "aeppl/logprob.py:gamma_logprob", "aeppl/logprob.py:weibull_logprob", "aeppl/logprob.py:triangular_logprob", "aeppl/logprob.py:gumbel_logprob", "aeppl/logprob.py:logistic_logprob"]}
{"id": "C05", "title": "Discrete masses sum to one", "statement": "The masses exp(logprob(rv, k)) over the support sum to 1 for every supported discrete family (Bernoulli, binomial, beta-binomial, Poisson, negative binomial, geometric, hypergeometric, categorical) with valid parameters.", "quantifier": "all valid parameters of each family, including infinite supports and unbounded n", "why_tests_cant": "Infinite sums and unbounded trial counts cannot be enumerated.", "anchors": ["aeppl/logprob.py:bernoulli_logprob", "aeppl/logprob.py:binomial_logprob", "aeppl/logprob.py:betabinomial_logprob", "aeppl/logprob.py:poisson_logprob", "aeppl/logprob.py:nbinom_logprob", "aeppl/logprob.py:geometric_logprob", "aeppl/logprob.py:hypergeometric_logprob", "aeppl/logprob.py:categorical_logprob"]}
{"id": "C06", "title": "Discrete log-masses equal the textbook masses", "statement": "For every discrete family, `logprob(rv, k)` is the logarithm of the textbook probability mass function at every support point k (and -inf where that mass is 0, including degenerate parameters such as p=0, p=1, mu=0).", "quantifier": "all valid parameters, all integers k", "why_tests_cant": "The gammaln/xlogy0 rewriting of binomial coefficients must agree with factorial formulas for all n and k, not just the sampled ones.", "anchors": ["aeppl/logprob.py:binomln", "aeppl/logprob.py:betaln", "aeppl/logprob.py:xlogy0", "aeppl/logprob.py:binomial_logprob", "aeppl/logprob.py:poisson_logprob", "aeppl/logprob.py:nbinom_logprob", "aeppl/logprob.py:hypergeometric_logprob"]}
{"id": "C07", "title": "Log-CDFs agree with the densities/masses of the same variable", "statement": "exp(logcdf(rv, x)) equals the probability P(X <= x) under the distribution whose density/mass is exp(logprob), for uniform, normal, Poisson and geometric variables, for every real x.", "quantifier": "all valid parameters, all real x (integers and non-integers)", "why_tests_cant": "Two independently written formulas must agree on a continuum; tests compare each with SciPy on finitely many points.", "anchors": ["aeppl/logprob.py:uniform_logcdf", "aeppl/logprob.py:normal_logcdf", "aeppl/logprob.py:poisson_logcdf", "aeppl/logprob.py:geometric_logcdf"]}
{"id": "C08", "title": "Inverse CDFs are quantile functions", "statement": "icdf(rv, q) is the q-quantile: for the normal, CDF(icdf(q)) = q for all 0<q<1; for the geometric, icdf(q) is the least support point k with CDF(k) >= q.", "quantifier": "all valid parameters, all q in (0,1)", "why_tests_cant": "Needs a statement about every probability level, including those where ceil() sits on a boundary.", "anchors": ["aeppl/logprob.py:normal_icdf", "aeppl/logprob.py:geometric_icdf"]}
{"id": "C09", "title": "Value transforms are mutually inverse on the support", "statement": "For each RVTransform (loc, scale, log, exp, reciprocal, interval, logodds, simplex), backward(forward(x)) = x for every x in the constrained space and forward(backward(y)) = y for every y in the unconstrained space.", "quantifier": "all inputs in the respective spaces and all admissible transform arguments, any simplex dimension", "why_tests_cant": "Round-trip laws over a continuum and any dimension.", "anchors": ["aeppl/transforms.py:LocTransform", "aeppl/transforms.py:ScaleTransform", "aeppl/transforms.py:LogTransform", "aeppl/transforms.py:ExpTransform", "aeppl/transforms.py:ReciprocalTransform", "aeppl/transforms.py:IntervalTransform", "aeppl/transforms.py:LogOddsTransform", "aeppl/transforms.py:SimplexTransform"]}
{"id": "C10", "title": "log_jac_det is the log absolute derivative of backward", "statement": "For every scalar RVTransform, log_jac_det(y) = ln |d backward(y)/dy| at every y where backward is differentiable.", "quantifier": "all y in the domain of backward, all admissible arguments", "why_tests_cant": "A derivative identity on a continuum; the tests check it numerically at a few points and only for positive reciprocal arguments.", "anchors": ["aeppl/transforms.py:RVTransform.log_jac_det", "aeppl/transforms.py:ReciprocalTransform", "aeppl/transforms.py:IntervalTransform", "aeppl/transforms.py:LogOddsTransform"]}
{"id": "C11", "title": "Default transforms map the real line into the support", "statement": "For each distribution with a DEFAULT_TRANSFORM, backward(y) lies in the support of that distribution for every real y, and every interior support point is the image of some y; hence the transformed log-density is finite everywhere.", "quantifier": "all valid distribution parameters and all real y, for the 14 registered scalar default transforms", "why_tests_cant": "The claim ranges over all parameter combinations, including ones the tests never combine (e.g. alpha > m for Pareto, loc != 0 for half-Cauchy).", "anchors": ["aeppl/transforms.py:TransformedUniformRV", "aeppl/transforms.py:TransformedParetoRV", "aeppl/transforms.py:TransformedHalfCauchyRV", "aeppl/transforms.py:TransformedHalfNormalRV", "aeppl/transforms.py:TransformedBetaRV", "aeppl/transforms.py:TransformedVonMisesRV"]}
{"id": "C12", "title": "Chained transforms compose", "statement": "A ChainedTransform of any list of scalar transforms is inverted by its backward, and its log_jac_det is the log absolute derivative of the composed backward map.", "quantifier": "all lists of transforms of any length (nesting included) and all inputs in the composed domain", "why_tests_cant": "Unbounded chains; needs induction with the chain rule.", "anchors": ["aeppl/transforms.py:ChainedTransform"]}
{"id": "C13", "title": "Simplex transform lands in the simplex and has the stated Jacobian", "statement": "For any dimension n, SimplexTransform.backward maps R^n into the open n-simplex (positive coordinates summing to one), inverts forward, and log_jac_det equals the log absolute determinant of the Jacobian matrix of the first n coordinates of backward.", "quantifier": "all dimensions n >= 1 and all vectors in R^n", "why_tests_cant": "Determinants in unbounded dimension cannot be tested exhaustively.", "anchors": ["aeppl/transforms.py:SimplexTransform"]}
{"id": "C14", "title": "Transforming values changes variables in the joint density", "statement": "joint_logprob with TransformValuesRewrite evaluates, at any transformed values, to the untransformed joint log-density at the back-transformed values plus the sum of the log-Jacobian terms (and without the Jacobian terms when use_jacobian=False); every other factor sees the back-transformed value.", "quantifier": "all models (any number of variables, any dependency structure among earlier variables), all subsets of variables transformed, all value points", "why_tests_cant": "Quantifies over all model graphs and all subsets of transformed variables.", "anchors": ["aeppl/transforms.py:transform_values", "aeppl/transforms.py:TransformValuesRewrite", "aeppl/transforms.py:_create_transformed_rv_op"]}
{"id": "C15", "title": "Density of a measurable elementwise function is the push-forward density", "statement": "The log-probability derived for Y = X + c, c * X, exp(X), log(X), 1/X, X/c, c/X, X - c, c - X equals the log-density of the push-forward law: ln f_X(g^-1(y)) + ln|dg^-1/dy| on the image and -inf outside the image.", "quantifier": "all base densities, all real y, all admissible constants c", "why_tests_cant": "Ranges over every base density and every point, including points outside the image and negative reciprocals.", "anchors": ["aeppl/transforms.py:measurable_elemwise_logprob", "aeppl/transforms.py:measurable_exp", "aeppl/transforms.py:measurable_reciprocal", "aeppl/transforms.py:measurable_true_divide", "aeppl/transforms.py:measurable_sub"]}
{"id": "C16", "title": "Elementwise densities are only derived from a single stochastic source", "statement": "A density is derived for an elementwise expression only when exactly one input is an un-valued random quantity and no other input depends on an un-valued random quantity; in particular X + X, X * Y(X) and functions of two unobserved variables are refused.", "quantifier": "all expression graphs of any shape and depth", "why_tests_cant": "Quantifies over all graphs feeding the elementwise node.", "anchors": ["aeppl/transforms.py:construct_elemwise_transform"]}
{"id": "C17", "title": "Clipping a continuous variable moves mass correctly", "statement": "The log-probability derived for clip(X, a, b) with a < b is ln P(X<=a) at a, ln P(X>=b) at b, the log-density of X strictly between, and -inf outside [a, b]; atoms and density add to total probability 1; one-sided clips behave alike.", "quantifier": "all base laws with continuous CDF, all bounds, all values", "why_tests_cant": "Quantifies over all base distributions and bounds.", "anchors": ["aeppl/censoring.py:clip_logprob", "aeppl/censoring.py:find_measurable_clips"]}
{"id": "C18", "title": "Clipping a discrete variable moves mass correctly", "statement": "The log-probability derived for clip(K, a, b) of an integer variable gives each integer in [a,b] its exact clipped mass and the masses sum to 1; values outside get -inf; when a = b all mass sits on that point.", "quantifier": "all base mass functions on the integers, all integer bounds a <= b, all values", "why_tests_cant": "Quantifies over all base mass functions and bounds including the degenerate a = b.", "anchors": ["aeppl/censoring.py:clip_logprob"]}
{"id": "C19", "title": "Rounding a continuous variable gives a probability mass function", "statement": "For round/floor/ceil of a continuous variable the derived log-probability at every integer k is ln P(round(X) = k) (the mass of the real numbers mapped to k), and the masses over all integers sum to 1.", "quantifier": "all base laws with continuous CDF and all integers", "why_tests_cant": "Infinite sum over integers, every base law.", "anchors": ["aeppl/censoring.py:round_logprob", "aeppl/logprob.py:logdiffexp"]}
{"id": "C20", "title": "Rounded variables have no mass off the integers", "statement": "For round/floor/ceil of a continuous variable the derived log-probability is -inf at every non-integer value and at every integer whose pre-image has probability 0 (never NaN), as documented.", "quantifier": "all base laws, all real values", "why_tests_cant": "Needs all non-integers and all zero-probability cells.", "anchors": ["aeppl/censoring.py:round_logprob"]}
{"id": "C21", "title": "Index expansion preserves NumPy indexing semantics", "statement": "For any index tuple mixing integers, integer arrays, slices and newaxis, expand_indices returns one integer array per array dimension, all of the result's shape, such that element o of A[indices] is A[adv_0[o], ..., adv_{n-1}[o]].", "quantifier": "all array shapes, all index tuples of any length over ints, integer arrays of any rank, positive-step slices and newaxis, all output positions", "why_tests_cant": "Unbounded rank and index combinations; the tests list about twenty.", "anchors": ["aeppl/mixture.py:expand_indices"]}
{"id": "C22", "title": "Index expansion handles negative-step slices", "statement": "expand_indices agrees with NumPy indexing also for slices with negative step (the selected elements come in reversed order).", "quantifier": "all shapes and all slices with negative step", "why_tests_cant": "Not covered by any test.", "anchors": ["aeppl/mixture.py:expand_indices"]}
{"id": "C23", "title": "Mixture log-probability selects the indexed component", "statement": "The log-probability of stack(components)[i] at v is the log-probability of component i at v, for scalar i and, elementwise, for arrays of indices; it is never contaminated by the other components' values (not even by their -inf or NaN).", "quantifier": "any number of components, any component densities, all in-range indices and values", "why_tests_cant": "Any number of components with arbitrary densities.", "anchors": ["aeppl/mixture.py:logprob_MixtureRV", "aeppl/mixture.py:mixture_replace"]}
{"id": "C24", "title": "Mixtures with out-of-range or negative indices", "statement": "A scalar mixture index i outside 0..n-1 never yields a spurious log-probability: negative indices mean components counted from the end as in the sampled expression, other values are an error or -inf.", "quantifier": "all integer indices outside 0..n-1", "why_tests_cant": "No test uses such an index.", "anchors": ["aeppl/mixture.py:logprob_MixtureRV"]}
{"id": "C25", "title": "switch mixtures follow the condition", "statement": "The log-probability of switch(cond, A, B) at v is A's log-probability when cond is true (non-zero) and B's when cond is false (zero).", "quantifier": "all conditions, components and values", "why_tests_cant": "The one existing test pins a single value of the condition.", "anchors": ["aeppl/mixture.py:switch_mixture_replace"]}
{"id": "C26", "title": "Symbolic indices are reconstructed faithfully", "statement": "Reconstructing an index tuple from a Subtensor node's index specification and its flattened inputs yields the original index tuple.", "quantifier": "all index tuples with any number of entries, integer or slice, any mix of constant and symbolic parts", "why_tests_cant": "Unbounded number of entries; existing tests only use one symbolic entry.", "anchors": ["aeppl/utils.py:convert_indices", "aeppl/utils.py:indices_from_subtensor"]}
{"id": "C27", "title": "Partially overwritten variables are scored with the data filled in", "statement": "The log-probability of Y[idx] = data (set_subtensor) at value y is the log-probability of Y at y with the positions idx replaced by data; increments (Y[idx] += data) are not scored as assignments.", "quantifier": "all base variables, index sets, data and values", "why_tests_cant": "Quantifies over all index sets and over set/inc.", "anchors": ["aeppl/rewriting.py:incsubtensor_rv_replace"]}
{"id": "C28", "title": "Dimension shuffles permute the log-probabilities", "statement": "For a univariate variable X of any rank and any dimshuffle (permutation, dropped length-one axes, inserted axes), the log-probability array of dimshuffle(X) at value y is the dimshuffle of the log-probability array of X at the un-shuffled value, and un-shuffling recovers x from dimshuffle(x).", "quantifier": "all ranks, shapes, dimshuffle patterns and values", "why_tests_cant": "Unbounded rank and patterns.", "anchors": ["aeppl/tensor.py:logprob_dimshuffle", "aeppl/tensor.py:find_measurable_dimshuffles"]}
{"id": "C29", "title": "Stacks and joins score each part with its own variable", "statement": "The log-probability of stack/concatenate of variables at a value is the stack/concatenation (same axis, same order) of the parts' log-probabilities at the corresponding slices of the value; mixing different support ranks raises ValueError.", "quantifier": "any number of parts, any sizes along the join axis, any axis", "why_tests_cant": "Unbounded number and sizes of parts.", "anchors": ["aeppl/tensor.py:logprob_make_vector", "aeppl/tensor.py:logprob_join"]}
{"id": "C30", "title": "Stacked parts must be distinct variables", "statement": "A joint density is never derived for a stack/concatenation that contains the same random variable twice (the result has no density).", "quantifier": "all stacks of variables", "why_tests_cant": "Not covered by tests; it is about all ways of repeating a variable.", "anchors": ["aeppl/tensor.py:find_measurable_stacks"]}
{"id": "C31", "title": "Cumulative sums are scored through first differences", "statement": "The log-probability of cumsum(X) along an axis at value y is the log-probability of X at the unique x with cumsum(x) = y, and the change of variables has unit Jacobian determinant.", "quantifier": "all array lengths >= 1 and all values", "why_tests_cant": "Unbounded length.", "anchors": ["aeppl/cumsum.py:logprob_cumsum", "aeppl/cumsum.py:find_measurable_cumsums"]}
{"id": "C32", "title": "Requested variables are exactly the keys of the result", "statement": "conditional_logprob returns a mapping whose keys are exactly the requested random variables together with the realized ones, each once, or raises.", "quantifier": "all lists of requested variables (with repetitions), all realized maps, all graphs", "why_tests_cant": "Quantifies over all request lists and graphs including multi-output nodes.", "anchors": ["aeppl/joint_logprob.py:conditional_logprob"]}
{"id": "C33", "title": "Value variables come back in request order", "statement": "The returned value variables correspond one-to-one, in the order of the request, to the requested random variables that were not realized.", "quantifier": "all request orders, all realized maps, all graphs including nodes with several measurable outputs", "why_tests_cant": "The order must hold for every permutation of the request; tests pass one order.", "anchors": ["aeppl/joint_logprob.py:conditional_logprob"]}
{"id": "C34", "title": "Values are paired with the right variables", "statement": "Each random variable's log-probability is evaluated at the value associated with that variable, whatever order the variables were requested in.", "quantifier": "all request orders, including permutations of the outputs of one multi-output node", "why_tests_cant": "Order-dependence only shows on permutations no test tries.", "anchors": ["aeppl/joint_logprob.py:conditional_logprob", "aeppl/scan.py:logprob_ScanRV"]}
{"id": "C35", "title": "Joint log-probability factorises along the model graph", "statement": "For every directed model, joint_logprob at a point is the sum over requested variables of the log-density of that variable at its value, with its parameters computed from the values of the requested variables it depends on (directly or through deterministic expressions).", "quantifier": "all model graphs of any size and depth, all value points", "why_tests_cant": "Quantifies over all graphs.", "anchors": ["aeppl/joint_logprob.py:joint_logprob", "aeppl/joint_logprob.py:conditional_logprob", "aeppl/rewriting.py:construct_ir_fgraph"]}
{"id": "C36", "title": "Valued variables never leak as random draws", "statement": "No random variable that has been given a value occurs as a random draw in the resulting log-probability expressions; un-valued ancestors remain random, and nothing else is resampled.", "quantifier": "all model graphs", "why_tests_cant": "Quantifies over all graphs.", "anchors": ["aeppl/rewriting.py:construct_ir_fgraph", "aeppl/rewriting.py:remove_ValuedVariable"]}
{"id": "C37", "title": "Failure to derive a density is reported", "statement": "conditional_logprob raises (DensityNotFound, ValueError or AssertionError) whenever some requested variable has no measurable form or several values are bound to one measurable output; it never silently omits a factor.", "quantifier": "all requests over all graphs", "why_tests_cant": "Quantifies over all requests.", "anchors": ["aeppl/joint_logprob.py:conditional_logprob", "aeppl/joint_logprob.py:DensityNotFound"]}
{"id": "C38", "title": "Reduction of factors in joint_logprob", "statement": "joint_logprob sums all entries of all factors, in any number and of any shapes; the result is -inf if some entry is -inf and none is NaN or +inf, and it does not depend on the order of the factors.", "quantifier": "any number of factors of any shapes with extended-real entries", "why_tests_cant": "Unbounded number of factors and extended-real corner cases.", "anchors": ["aeppl/joint_logprob.py:joint_logprob"]}
{"id": "C39", "title": "rvs_to_value_vars replaces every requested variable", "statement": "After rvs_to_value_vars no variable given in initial_replacements is reachable from the resulting graphs without passing an un-replaced random variable, also when replacement values are themselves graphs over other replaced variables; all other sub-expressions are unchanged.", "quantifier": "all graphs, all replacement maps, all insertion orders of the map", "why_tests_cant": "Order-dependence of sequential replacement shows only for particular map orders.", "anchors": ["aeppl/utils.py:replace_rvs_in_graphs", "aeppl/utils.py:rvs_to_value_vars"]}
{"id": "C40", "title": "walk_model visits exactly the reachable part", "statement": "walk_model yields exactly the variables reachable from the given graphs without passing through a random variable (or through stop variables), each once.", "quantifier": "all graphs, all stop sets, both modes", "why_tests_cant": "Quantifies over all graphs.", "anchors": ["aeppl/utils.py:walk_model"]}
{"id": "C41", "title": "Marking nodes unmeasurable is idempotent and conflict-free", "statement": "Over any history of assign_custom_measurable_outputs calls, re-marking an already marked node with the same dispatch returns it unchanged, with a different dispatch raises ValueError, and no call changes the measurable outputs of previously created nodes.", "quantifier": "all finite histories of calls", "why_tests_cant": "History property of a global registry.", "anchors": ["aeppl/abstract.py:assign_custom_measurable_outputs", "aeppl/abstract.py:UnmeasurableMeta"]}
{"id": "C42", "title": "Sums and differences of independent normals", "statement": "The normal variable substituted for X1 + ... + Xn (or X1 - X2) of independent normals has the law of that sum: mean the sum (difference) of means and variance the sum of variances, and its density is the convolution of the densities.", "quantifier": "any number of terms, all means and positive standard deviations", "why_tests_cant": "Convolution identity for all parameters and unbounded number of terms.", "anchors": ["aeppl/convolutions.py:add_independent_normals"]}
{"id": "C43", "title": "The normal-sum rewrite only fires on independent terms", "statement": "The sum-of-normals rewrite is applied only when the summands are distinct and mutually independent; for X + X or X + Y with Y depending on X it is not applied.", "quantifier": "all graphs", "why_tests_cant": "No test uses dependent summands.", "anchors": ["aeppl/convolutions.py:add_independent_normals"]}
{"id": "C44", "title": "Scan log-probabilities read the right lags", "statement": "In the log-probability scan built from a scan with output taps, step t reads the current value at position t + L and, for each tap -k, the value at position t + L - k, where L is the largest lag.", "quantifier": "all tap sets, all sequence lengths, all steps", "why_tests_cant": "Tests use tap sets {-1} and {-1,-2} only.", "anchors": ["aeppl/scan.py:convert_outer_out_to_in"]}
{"id": "C45", "title": "Scan joint density is the product of step densities", "statement": "The sum of the scan's per-step log-probabilities is the log of the product over steps of the conditional density of the step's value given the previous values selected by the taps.", "quantifier": "all sequence lengths, all step kernels, contiguous taps", "why_tests_cant": "Unbounded number of steps.", "anchors": ["aeppl/scan.py:logprob_ScanRV", "aeppl/scan.py:convert_outer_out_to_in"]}
{"id": "C46", "title": "Discrete Markov chain log-likelihood matches the sampled chain", "statement": "exp of the summed log-likelihood of a state sequence equals the probability that the sampler of the same variable (hidden initial state from gamma_0, then step t draws from row state[t-1] of Gammas[t], t = 0..N-1) produces that sequence, and these probabilities sum to one over all sequences of a given length.", "quantifier": "all numbers of states, all sequence lengths, all (time-varying) transition matrices", "why_tests_cant": "Sum over exponentially many sequences, unbounded length; tests reuse the implementation's own formula.", "anchors": ["aeppl/logprob.py:discrete_mc_logp", "aeppl/dists.py:create_discrete_mc_op"]}
{"id": "C47", "title": "Dirac delta scoring", "statement": "The log-probability of a Dirac delta at c is 0 for values within atol + rtol*|c| of c and -inf otherwise; unary operations commute with the delta.", "quantifier": "all values, constants and tolerances", "why_tests_cant": "Continuum of values.", "anchors": ["aeppl/logprob.py:diracdelta_logprob", "aeppl/rewriting.py:local_lift_DiracDelta"]}
{"id": "C48", "title": "Printed names are unambiguous", "statement": "When a graph is pretty-printed, distinct un-named variables get pairwise distinct names that also differ from every user-given name, as long as single-letter names remain.", "quantifier": "all graphs and all sets of user-given names", "why_tests_cant": "Quantifies over all graphs and visiting orders.", "anchors": ["aeppl/printing.py:VariableWithShapePrinter.process_variable_name"]}
{"id": "C49", "title": "Printed preamble loses nothing", "statement": "The preamble line-breaking keeps every entry exactly once and in order, and starts no empty line.", "quantifier": "all lists of preamble strings of any lengths", "why_tests_cant": "All lists of strings.", "anchors": ["aeppl/printing.py:PreamblePPrinter.__call__"]}
{"id": "C50", "title": "Printed indices appear in source order", "statement": "The printed form of x[i0, i1, ...] lists the indices (and slice bounds) in the order in which they index x.", "quantifier": "all index tuples", "why_tests_cant": "Existing tests pin the implementation's output for a few cases.", "anchors": ["aeppl/printing.py:GenericSubtensorPrinter"]}
{"id": "C51", "title": "Multivariate normal log-density", "statement": "For any dimension, mean and covariance with a positive-diagonal Cholesky factor, mvnormal logprob is -n/2 ln(2 pi) - 1/2 (x-mu)' Sigma^-1 (x-mu) - 1/2 ln det Sigma, and otherwise raises.", "quantifier": "all dimensions, means, positive definite covariances and values", "why_tests_cant": "Unbounded dimension.", "anchors": ["aeppl/logprob.py:mvnormal_logprob"]}
{"id": "C52", "title": "Dirichlet and multinomial log-probabilities", "statement": "For any number of categories, the multinomial log-mass equals the textbook mass and sums to one over all count vectors; the Dirichlet log-density equals the textbook density for positive vectors and is -inf for vectors leaving [0,1] and for vectors not summing to one.", "quantifier": "all numbers of categories, all parameters, all values", "why_tests_cant": "Unbounded number of categories.", "anchors": ["aeppl/logprob.py:dirichlet_logprob", "aeppl/logprob.py:multinomial_logprob"]}
{"id": "C53", "title": "Multivariate normal density integrates to one", "statement": "For every dimension n, mean vector and symmetric positive definite covariance, the function denoted by the multivariate normal log-density integrates to one over R^n (iterated improper integral).", "quantifier": "all dimensions, means, positive definite covariances", "why_tests_cant": "An integral over unboundedly many real coordinates cannot be checked by sampling.", "anchors": ["aeppl/logprob.py:mvnormal_logprob"]}
{"id": "C54", "title": "Dirichlet density integrates to one", "statement": "For every number of categories and positive concentration parameters, the function denoted by the Dirichlet log-density integrates to one over the simplex.", "quantifier": "all numbers of categories, all positive concentrations", "why_tests_cant": "Integral over a simplex of arbitrary dimension.", "anchors": ["aeppl/logprob.py:dirichlet_logprob"]}
{"id": "C55", "title": "Measurable expressions of any depth", "statement": "An expression built from +, -, *, /, exp, log, reciprocal and arbitrary other functions is given a derived log-probability exactly when it is a chain of measurable operations over a single occurrence of one non-integer random variable with no other random variable in it; the derived value denotes the density of the expression at every regular point, whatever the nesting depth; the draw is determined by the expression's value.", "quantifier": "all expressions (any depth, any number of operands), all points, all base densities", "why_tests_cant": "Tests nest two or three operations; the claim is about every expression tree.", "anchors": ["aeppl/transforms.py:construct_elemwise_transform", "aeppl/transforms.py:measurable_elemwise_logprob", "aeppl/transforms.py:measurable_true_divide", "aeppl/transforms.py:measurable_sub"]}
{"id": "C56", "title": "Element-wise expressions of arrays", "statement": "For a univariate variable of the expression's shape and an operand that broadcasts to it, the derived log-probability has the expression's shape, each element is the density of that element of the expression, and the term entering the joint log-probability is their product. Variables that are broadcast by the expression must not be scored as independent elements.", "quantifier": "all ranks and shapes, all operands, all values", "why_tests_cant": "Shapes and ranks are unbounded.", "anchors": ["aeppl/transforms.py:measurable_elemwise_logprob", "aeppl/transforms.py:LocTransform", "aeppl/transforms.py:ScaleTransform"]}
{"id": "C57", "title": "Element-wise expressions of multivariate variables", "statement": "For a variable with a vector support, the derived term denotes the density of the transformed vector: the base density divided by the product of the absolute derivatives of the coordinates.", "quantifier": "all vector lengths, operands, values and base densities", "why_tests_cant": "The error grows with the length of the vector and needs the exact density of the transformed vector.", "anchors": ["aeppl/transforms.py:measurable_elemwise_logprob", "aeppl/transforms.py:construct_elemwise_transform"]}
{"id": "C58", "title": "Joint log-probability of models with derived variables", "statement": "For a model in which each requested variable is computed by invertible operations from a draw of its own, its other operands being functions of requested variables, the joint log-probability denotes the joint density of the requested variables: the product of the densities of the draws, given their parameters, divided by the absolute determinant of the Jacobian of the requested variables with respect to the draws. Requested variables that share one unrequested draw must not be scored as independent.", "quantifier": "all acyclic graphs of any size, all orders of the requested variables, all values", "why_tests_cant": "Graphs are unbounded and the Jacobian of a whole model is not visible in any single rewrite; tests cover one or two derived variables.", "anchors": ["aeppl/rewriting.py:construct_ir_fgraph", "aeppl/joint_logprob.py:conditional_logprob", "aeppl/joint_logprob.py:joint_logprob", "aeppl/transforms.py:construct_elemwise_transform"]}
{"id": "C59", "title": "Transforms of censored variables, censoring of transformed ones", "statement": "A chain of invertible operations over a clipped continuous variable is scored with the density of the chain between the images of the bounds and with the probability of the atom at the images of the bounds. Transforms of rounded variables, and clipping or rounding anything but a random variable, either give the right log-probability or are refused.", "quantifier": "all distributions with a density and a distribution function, all bounds, all chains of operations, all values", "why_tests_cant": "Rewrites compose without bound, and the existing tests check each construction on its own.", "anchors": ["aeppl/transforms.py:measurable_elemwise_logprob", "aeppl/censoring.py:find_measurable_clips", "aeppl/censoring.py:clip_logprob", "aeppl/censoring.py:construct_measurable_rounding", "aeppl/transforms.py:construct_elemwise_transform"]}
{"id": "C60", "title": "Derived log-probabilities do not depend on unvalued draws", "statement": "The derived log-probability of an expression of transforms, clips and roundings, or of a mixture of such expressions, at a value does not depend on fresh draws of random variables without value, when the parameters of the base variables do not.", "quantifier": "all expressions, all mixtures of any number of components, all pairs of draws, all values", "why_tests_cant": "A test would have to find an operand position that the guards overlook; the expressions are unbounded.", "anchors": ["aeppl/transforms.py:construct_elemwise_transform", "aeppl/censoring.py:find_measurable_clips", "aeppl/mixture.py:mixture_replace", "aeppl/mixture.py:switch_mixture_replace"]}
{"id": "C61", "title": "Joint log-probability of requested stacks", "statement": "When a stack of scalar variables is requested with a vector value, possibly with other variables, the sum of its log-probability vector and of the other log-probabilities denotes the joint density of the other variables and of all elements of the stack.", "quantifier": "all acyclic graphs, all lists of requested variables and stacks of any lengths, all values", "why_tests_cant": "Elements of a stack may share draws or depend on each other in unboundedly many ways; tests stack two independent variables.", "anchors": ["aeppl/tensor.py:find_measurable_stacks", "aeppl/tensor.py:logprob_make_vector", "aeppl/rewriting.py:construct_ir_fgraph", "aeppl/joint_logprob.py:joint_logprob"]}
{"id": "C62", "title": "Values of sliced scan outputs", "statement": "When a slice of a scan output is requested, the value used for the whole output consists of the initial values and the given values, so that the log-probability is the one of the series and depends on nothing else.", "quantifier": "all scans with any number of outputs, taps, steps and initial values, all unit-step slices and integer indices, all contents of uninitialised memory", "why_tests_cant": "Uninitialised memory usually holds zeros or old values, so a test of a partial slice may pass by accident; tests only use the slices that aesara.scan itself returns.", "anchors": ["aeppl/scan.py:update_scan_value_vars", "aeppl/scan.py:logprob_ScanRV"]}
{"id": "C63", "title": "Scans with outputs that are not random", "statement": "In a scan with random and computed outputs, every random output gets the log-probability of its own series and the joint log-probability is the one of the random outputs.", "quantifier": "all scans with any number of random and computed outputs, steps and taps, all given values", "why_tests_cant": "The existing tests only use scans all of whose valued outputs are random; a computed output changes the positions of all entries silently.", "anchors": ["aeppl/scan.py:get_random_outer_outputs", "aeppl/scan.py:logprob_ScanRV", "aeppl/scan.py:_get_measurable_outputs_MeasurableScan", "aeppl/joint_logprob.py:conditional_logprob"]}
{"id": "C64", "title": "Switching processes and hidden Markov models", "statement": "A switching process takes, at every position, the component named by the state at that position; with states from a discrete Markov chain the joint log-probability is that of the hidden Markov model.", "quantifier": "all numbers of components, state sequences, emission densities, transition matrices, component shapes", "why_tests_cant": "Tests use one-dimensional components; the pairing of the index ranges only shows with two or more axes, and sequences are unbounded.", "anchors": ["aeppl/dists.py:switching_process", "aeppl/mixture.py:logprob_MixtureRV", "aeppl/logprob.py:discrete_mc_logp"]}
{"id": "C65", "title": "Batches of vector-valued variables", "statement": "The log-probability of a batch of Dirichlet, multinomial or categorical variables has the broadcast batch shape, and every position holds the log-probability of its own vector under its own parameters; the parameter check fails exactly when some vector of the batch is not admissible.", "quantifier": "all batch shapes and ranks of every parameter and value, all numbers of categories, all vectors", "why_tests_cant": "Tests compare a few literal batch shapes with SciPy after reshaping; ranks, broadcast combinations and the additional axis of categorical batches vary without bound.", "anchors": ["aeppl/logprob.py:categorical_logprob", "aeppl/logprob.py:dirichlet_logprob", "aeppl/logprob.py:multinomial_logprob"]}
{"id": "C66", "title": "Chains of transforms on vectors", "statement": "For a ChainedTransform applied to a vector, log_jac_det is the log-determinant of the chain's backward map: one number per coordinate for element-wise chains, one number when the simplex transform is in the chain.", "quantifier": "all chains, all vectors of any length in the unconstrained space", "why_tests_cant": "Tests check a few chains at single points by automatic differentiation; the reduction over the smallest number of axes only shows when links of different rank are mixed.", "anchors": ["aeppl/transforms.py:ChainedTransform", "aeppl/transforms.py:SimplexTransform", "aeppl/transforms.py:ScaleTransform"]}
{"id": "C67", "title": "Printed models define every variable once and in order", "statement": "In the print-out of any graph, every random variable that occurs is defined exactly once, after the random variables its definition mentions; every other named variable has its space stated exactly once; a variable has one text wherever it occurs, letters stand for one variable each; printing succeeds while letters last and names have no percent signs.", "quantifier": "all acyclic graphs with any sharing and depth, all names, any number of outputs", "why_tests_cant": "Tests print a handful of graphs with at most two random variables; sharing and nesting are unbounded, and the parameters are printed twice.", "anchors": ["aeppl/printing.py:RandomVariablePrinter", "aeppl/printing.py:VariableWithShapePrinter", "aeppl/printing.py:PreamblePPrinter"]}
{"id": "C68", "title": "The line of a random variable in the preamble", "statement": "The preamble line of a random variable reads 'name ~ distribution(parameters) in space', the space with the lengths of all axes; in LaTeX likewise.", "quantifier": "all names, distribution names, parameter texts, kinds, shapes", "why_tests_cant": "Tests use names without spaces or percent signs; lstrip removes characters, not a prefix, and the shape text becomes part of a format string.", "anchors": ["aeppl/printing.py:RandomVariablePrinter", "aeppl/printing.py:process_shape_info"]}
{"id": "C69", "title": "Resizing and expanding random variables", "statement": "change_rv_size with expand puts the new dimensions in front of the variable's dimensions, and each copy has the same parameters as the original; without expand the variable has exactly the new dimensions. Name and tags are kept.", "quantifier": "all random variable ops, parameter shapes and values, sizes, new sizes", "why_tests_cant": "Tests expand a few small variables; shapes and ranks are unbounded, and batched parameters of vector-valued variables are not tried.", "anchors": ["aeppl/utils.py:change_rv_size"]}
{"id": "C70", "title": "Observed data with missing entries", "statement": "extract_obs_data returns the data and a mask which is true exactly at the entries whose value depends on the unknown values written into the data; all other entries have the returned value. Expressions not made of data are refused.", "quantifier": "all nestings of set and increment operations, index tuples, shapes, written values", "why_tests_cant": "Tests use one index array on a small vector.", "anchors": ["aeppl/utils.py:extract_obs_data"]}
{"id": "C71", "title": "Transformed operations and their registries", "statement": "Making a transformed op gives a new class whose log-probability is the original op's density at the back-transformed value plus the transform's Jacobian term, leaves every existing op's log-probability, name and transform as they were, and changes default transforms exactly where asked; the default transform of an op yields the op's own density plus the Jacobian term.", "quantifier": "all class hierarchies, all sequences of calls including transforms of transformed ops, all ops and values", "why_tests_cant": "Tests transform single ops in one process and never compare the registries before and after.", "anchors": ["aeppl/transforms.py:_create_transformed_rv_op", "aeppl/transforms.py:_default_transformed_rv", "aeppl/transforms.py:transform_values"]}
{"id": "C72", "title": "Joint log-probabilities are those of probability laws", "statement": "For every model over aeppl's scalar distributions, every requested set of variables and every choice of default transforms that map onto the support (all but Pareto, half-Cauchy and von Mises), with transformed variables requested before those depending on them, conditional_logprob succeeds and the exponential of its joint log-probability, integrated over the continuous and summed over the discrete value variables, is one.", "quantifier": "all model graphs of any size, all parameter functions with proper values, all requested sets and default transforms, all draws of the other variables", "why_tests_cant": "Tests compare single joint log-probabilities with SciPy at chosen points; total mass of a hierarchical model is an iterated improper integral.", "anchors": ["aeppl/joint_logprob.py:conditional_logprob", "aeppl/joint_logprob.py:joint_logprob", "aeppl/transforms.py:transform_values", "aeppl/transforms.py:_create_transformed_rv_op"]}
{"id": "C73", "title": "Measurable expressions of any depth get the right law", "statement": "When the rewrites accept an expression over a continuous variable, then for every interval of draws on which it is defined, the values it takes form an interval and the exponential of the derived log-probability integrates over it to the probability of those draws.", "quantifier": "all expressions of any depth accepted by the rewrites, all continuous densities, all intervals (also unbounded) of draws", "why_tests_cant": "Tests compare the derived log-probability with SciPy at sampled points for a few fixed expressions.", "anchors": ["aeppl/transforms.py:measurable_elemwise_logprob", "aeppl/transforms.py:construct_elemwise_transform", "aeppl/transforms.py:measurable_true_divide", "aeppl/transforms.py:measurable_sub"]}
{"id": "C74", "title": "Scans whose body is a model", "statement": "A scan is made measurable exactly when every random variable its outputs depend on is itself an output. Its log-probability is then the log of the product, over steps and outputs, of the densities of the body's random variables at the given values, with the parameters that the body computes from the values at the taps, the values of the other outputs at the same step and the step's sequences; it depends on no draw.", "quantifier": "all bodies (model graphs of any size), all outputs, taps, values, sequences, numbers of steps", "why_tests_cant": "Tests build a handful of fixed loops, mostly with one output, and compare with one unrolled computation.", "anchors": ["aeppl/scan.py:find_measurable_scans", "aeppl/scan.py:logprob_ScanRV", "aeppl/scan.py:get_random_outer_outputs", "aeppl/scan.py:convert_outer_out_to_in"]}
{"id": "C75", "title": "Order of the measurable rewrites", "statement": "The rewrites for element-wise transforms, subtractions, divisions, clips and roundings can be applied to the nodes of an expression in any order: every run is finite, can be completed, and all complete runs end with the same measurable form of the requested variable (or none); a form found at some moment is the final one. The graph computes the value of the expression at every moment, also when rewrites are undone, and so does the measurable form.", "quantifier": "all expressions of any size, all dtypes, all draws, all orders of rewriting", "why_tests_cant": "A test observes the single order that the equilibrium rewriter happens to use for its graph.", "anchors": ["aeppl/rewriting.py:construct_ir_fgraph", "aeppl/transforms.py:construct_elemwise_transform", "aeppl/transforms.py:measurable_sub", "aeppl/transforms.py:measurable_true_divide", "aeppl/censoring.py:find_measurable_clips", "aeppl/censoring.py:construct_measurable_rounding", "aeppl/rewriting.py:MeasurableConversionTracker"]}
{"id": "C76", "title": "Batches of multivariate normal variables", "statement": "The log-probability of a batch of multivariate normal variables has the broadcast batch shape, and every position holds the log-density of its own vector about its own mean; a covariance that is not positive definite makes the batch fail.", "quantifier": "all dimensions, all batch shapes and ranks of means and values, all symmetric covariance matrices", "why_tests_cant": "Tests use a few shapes and one covariance and compare with SciPy.", "anchors": ["aeppl/logprob.py:mvnormal_logprob"]}
{"id": "C77", "title": "Batches of discrete Markov chains are independent chains", "statement": "A discrete Markov chain variable with batched transition matrices and initial probabilities and any size draws, at every position of the size and the broadcast batch, a chain with the matrices and probabilities of that position; the chains are independent and the array has the size, the batch and the time axis, in that order. Arguments without the needed axes or with incompatible batches are refused.", "quantifier": "all batch shapes and ranks, all sizes, all numbers of states and steps, all state arrays", "why_tests_cant": "Tests draw samples of a few shapes with (nearly) deterministic matrices; the transposes and index grids matter for every rank.", "anchors": ["aeppl/dists.py:create_discrete_mc_op", "aeppl/dists.py:discrete_markov_chain"]}
{"id": "C78", "title": "Value transforms of vectors and the default Jacobian term", "statement": "When the values of a vector (one vector-valued variable, or independent draws) are given on a transformed scale, the joint log-probability is the log-density at the back-transformed vector plus the logarithm of the absolute Jacobian determinant of the back-transformation, also for user-defined transforms that inherit the default Jacobian term.", "quantifier": "all transforms (any differentiable back-transformation, all chains of the package's element-wise transforms), all base log-probabilities, all lengths", "why_tests_cant": "Tests compare the Jacobian terms of a few transforms with automatic differentiation on scalars; vectors of several lengths and inherited terms are not combined with joint log-probabilities.", "anchors": ["aeppl/transforms.py:RVTransform.log_jac_det", "aeppl/transforms.py:_create_transformed_rv_op"]}
{"id": "C79", "title": "Arrays of univariate variables", "statement": "For every univariate family, the log-probability (log-CDF, inverse CDF) graph evaluated on arrays has the broadcast shape of the parameters and the value, every entry is the scalar result for the entries that broadcasting brings together there, the graph raises exactly when one of these elements has invalid parameters, and the sum of its entries is the log of the product of the densities.", "quantifier": "all 27 families with a log-probability, 4 log-CDFs and 2 inverse CDFs; all shapes and ranks of parameters and values; all entries", "why_tests_cant": "Tests use one or two shapes per family, and never mixed ranks, several invalid elements or empty arrays.", "anchors": ["aeppl/logprob.py:normal_logprob", "aeppl/logprob.py:nbinom_logprob", "aeppl/logprob.py:hypergeometric_logprob", "aeppl/logprob.py:uniform_logcdf", "aeppl/joint_logprob.py:joint_logprob"]}
{"id": "C80", "title": "Version strings of a checkout", "statement": "From the output of git describe the version code reads back the tag, the distance, the commit and the state of the tree, also for tags with hyphens; the version it renders is a PEP 440 version whenever the tag is one, is the version in the tag on the tag itself, and tells different states of the repository apart.", "quantifier": "all tags, distances, commits and tree states; all six rendering styles", "why_tests_cant": "The repository has no tests of its version code, and a test would look at a few tags only, not at tags with hyphens, local parts or post-releases.", "anchors": ["aeppl/_version.py:git_pieces_from_vcs", "aeppl/_version.py:render_pep440", "aeppl/_version.py:render_pep440_pre", "aeppl/_version.py:render_pep440_post", "aeppl/_version.py:render_pep440_old", "aeppl/_version.py:render_git_describe_long", "aeppl/_version.py:plus_or_dot"]}
{"id": "C81", "title": "Version strings of archives and unpacked sources", "statement": "In an archive the version is that of the first tag with the prefix in the order of code points, a final release before its own pre-releases, and 0+unknown without such a tag; the expanded keyword is used before git, and outside of a checkout the name of one of the three directories above the package is used; setup.py, which reads the version file as text, finds the same keywords, the commit and the date in ISO 8601, and goes on to the next method when the file sets no keyword.", "quantifier": "all lists of refs, tags and prefixes; all paths; all texts of version files", "why_tests_cant": "The keyword is expanded by git archive only, so no test of the repository can see it, and a test would list a few refs only.", "anchors": ["aeppl/_version.py:git_versions_from_keywords", "aeppl/_version.py:versions_from_parentdir", "aeppl/_version.py:get_versions", "aeppl/_version.py:git_get_keywords"]}
{"id": "C82", "title": "Models of array variables form probability laws", "statement": "For every model over aeppl's univariate distributions whose variables are arrays of any shapes, with parameters that broadcast to them, every requested set of variables and every choice of default transforms, conditional_logprob succeeds and the exponential of its joint log-probability, integrated or summed over all entries of all value variables, is one.", "quantifier": "all model graphs of any size, all ranks and shapes, all parameter arrays with proper entries, all requested sets and default transforms, all inputs and draws of the other variables", "why_tests_cant": "Tests compare joint log-probabilities of one or two shapes with SciPy at chosen points; total mass is an iterated improper integral over all entries.", "anchors": ["aeppl/joint_logprob.py:conditional_logprob", "aeppl/joint_logprob.py:joint_logprob", "aeppl/transforms.py:transform_values", "aeppl/transforms.py:_create_transformed_rv_op"]}
{"id": "C83", "title": "Simplex transform on batches", "statement": "On an array of any rank SimplexTransform acts on each vector along the last axis: backward and forward have the leading axes of their argument and are mutually inverse, log_jac_det has the leading axes as its shape and holds the log-determinant of each vector's Jacobian; a batch of Dirichlet variables with the default transform has at every position the density of its own vector times its own Jacobian determinant, with broadcasting between concentrations and values.", "quantifier": "all ranks, batch shapes and dimensions (zero included), all real values and positive concentrations, all broadcasts", "why_tests_cant": "Tests use one or two shapes; the keepdims reductions, the concatenation along the last axis and the final sum decide every shape, and a wrong axis often gives the right numbers for square or single batches.", "anchors": ["aeppl/transforms.py:SimplexTransform", "aeppl/transforms.py:_create_transformed_rv_op", "aeppl/logprob.py:dirichlet_logprob"]}
{"id": "C84", "title": "Loops form probability laws", "statement": "For every scan whose body is a model over aeppl's univariate distributions all of whose random variables are outputs, every number of steps, all initial values and sequences: the exponential of the scan's joint log-probability, integrated or summed over the values of all outputs at all steps, is one.", "quantifier": "all bodies of any size, all numbers of outputs and steps, all contiguous (symmetric) taps, all initial values and sequences at which the laws are proper, all draws", "why_tests_cant": "Tests compare the log-probability of a few scans with those of unrolled loops at drawn values; total mass is an iterated improper integral over all steps.", "anchors": ["aeppl/scan.py:convert_outer_out_to_in", "aeppl/scan.py:logprob_ScanRV", "aeppl/scan.py:find_measurable_scans", "aeppl/scan.py:get_random_outer_outputs"]}
{"id": "C85", "title": "Results are named after their variables", "statement": "For every request of distinctly named variables, the returned log-probabilities and value variables have pairwise different names, each formed from the name of its variable (name_logprob, name_vv, and name_vv-trans for a transformed variable); logprob names its result after the last named value.", "quantifier": "all lists of requested and realized variables, all names, all choices of transforms", "why_tests_cant": "Tests check one or two names; collisions need several transformed variables, and the docstring output is not checked.", "anchors": ["aeppl/joint_logprob.py:conditional_logprob", "aeppl/rewriting.py:construct_ir_fgraph", "aeppl/transforms.py:transform_values", "aeppl/logprob.py:logprob", "aeppl/logprob.py:logcdf", "aeppl/logprob.py:icdf"]}
{"id": "C86", "title": "Transforms continue their limits at infinite values", "statement": "At an infinite value of the unconstrained space, every scalar transform's backward method and log-determinant return the limit of the values they return at finite points, and forward maps that limit back to the infinite value.", "quantifier": "all scalar transforms with all admissible parameters, both infinities the unconstrained space reaches", "why_tests_cant": "Tests evaluate transforms at finite points only; NaN at an infinite point appears only when a sampler diverges.", "anchors": ["aeppl/transforms.py:IntervalTransform", "aeppl/transforms.py:LogOddsTransform", "aeppl/transforms.py:LogTransform", "aeppl/transforms.py:ExpTransform", "aeppl/transforms.py:ReciprocalTransform", "aeppl/transforms.py:LocTransform", "aeppl/transforms.py:ScaleTransform"]}
{"id": "C87", "title": "Infinite and undefined values are never likely", "statement": "A NaN parameter, value or probability never gives a number; an infinite value has log-density minus infinity under every univariate law; log-CDFs run from probability zero at minus infinity to one at plus infinity; numbers outside [0, 1] have no quantile.", "quantifier": "all univariate families, all parameters (valid ones for infinite values), all other inputs", "why_tests_cant": "Tests evaluate finite values inside and just outside the support; NaN and infinities appear with missing data and diverging samplers.", "anchors": ["aeppl/logprob.py:gamma_logprob", "aeppl/logprob.py:uniform_logcdf", "aeppl/logprob.py:normal_logcdf", "aeppl/logprob.py:geometric_icdf", "aeppl/logprob.py:normal_icdf", "aeppl/logprob.py:weibull_logprob"]}
{"id": "C88", "title": "Mixtures and stacks inside whole models", "statement": "When mixtures (a stack of variables at an index computed from other variables) and stacks are among the requested variables, and other variables are computed from them or from their entries, the joint log-probability denotes the joint density of the requested variables: at every point where the indices select components, the change of variables formula for the map from the draws of the selected components and the other draws to the requested variables.", "quantifier": "all acyclic models, all sets of requested variables, mixtures and stacks, all index expressions, all points at which the chains of operations are differentiable", "why_tests_cant": "Tests compare a handful of mixtures of two or three normals with scipy; they do not combine mixtures with each other, with stacks and with variables computed from them.", "anchors": ["aeppl/mixture.py:logprob_MixtureRV", "aeppl/mixture.py:find_measurable_index_mixture", "aeppl/mixture.py:get_stack_mixture_vars", "aeppl/tensor.py:logprob_make_vector", "aeppl/joint_logprob.py:factorized_joint_logprob", "aeppl/joint_logprob.py:joint_logprob"]}
{"id": "C89", "title": "Omitted variables are drawn and average to the marginal density; realized ones are conditioned on", "statement": "A variable of the model that is neither requested nor realized is drawn when the joint log-probability is evaluated. The mean over these draws of the density it gives is the marginal density of the requested and realized variables. With realized values it is the joint density of all variables at those values (the posterior density times the density of the realized values).", "quantifier": "all acyclic models over the scalar distributions, all splits into requested, realized and omitted variables, all default transforms, all values", "why_tests_cant": "A test evaluates the compiled graph at single draws or compares with the prior factors; the mean over all draws and the integral over all values of the omitted variables are out of reach of tests.", "anchors": ["aeppl/joint_logprob.py:conditional_logprob", "aeppl/joint_logprob.py:joint_logprob", "aeppl/joint_logprob.py:factorized_joint_logprob"]}
{"id": "C90", "title": "Measurable forms of unrequested variables are taken back without a change of the model", "statement": "construct_ir_fgraph replaces sub-graphs by measurable stand-ins and afterwards undoes the replacements of variables that have no value. When it returns, every parameter of a requested variable has the value it had before the replacements, each output still carries its value, and the stand-ins of the requested variables themselves are kept; transforms of the values applied in between do not change this.", "quantifier": "all graphs, all sequences of measurable rewrites and of value transforms, all meanings of the operations, all values", "why_tests_cant": "One test checks that a single stand-in class no longer occurs in one graph; no test evaluates the graph that is left, and none has nested stand-ins or a transform applied between the replacement and its undoing.", "anchors": ["aeppl/rewriting.py:construct_ir_fgraph", "aeppl/rewriting.py:MeasurableConversionTracker", "aeppl/transforms.py:transform_values", "aeppl/mixture.py:MixtureRV"]}
{"id": "C91", "title": "Joint log-probabilities of models of arrays are those of the models of their elements", "statement": "For a model whose variables are arrays of univariate random variables and element-wise expressions of them, with broadcasting of operands and parameters, the joint log-probability equals that of the scalar model with one node per array element: it is refused in the same cases, raises in the same cases and has the same value. Hence, when each element of the requested arrays has a draw of its own, it is the log-density of all elements, with the full Jacobian determinant.", "quantifier": "all acyclic graphs, array ranks and shapes without empty axes, requested sets, values (infinite and NaN included), distributions and further operations", "why_tests_cant": "Tests compare a few fixed small arrays with SciPy for one transform at a time; they never combine several derived arrays that depend on each other, and no test relates an array graph to its scalar counterpart.", "anchors": ["aeppl/joint_logprob.py:joint_logprob", "aeppl/transforms.py:construct_elemwise_transform", "aeppl/transforms.py:measurable_elemwise_logprob", "aeppl/rewriting.py:construct_ir_fgraph"]}
{"id": "C92", "title": "Value transforms of models with derived variables give the density of the transformed values", "statement": "When requested variables -- random variables or measurable expressions of them -- are given value transforms, which may depend on the (possibly requested and transformed) parameters of a random variable, the joint log-probability at values in the transformed space is the log-density of the transformed values: the densities of the draws divided by the absolute determinant of the Jacobian of the transformed values with respect to the draws, whatever the order of the requested variables. With use_jacobian=False it is the log-density of the untransformed variables at the back-transformed values.", "quantifier": "all acyclic graphs of scalar nodes, requested sets in any order, transforms and nested chains of transforms, values, distributions and further operations", "why_tests_cant": "The tests transform single random variables or one hierarchical pair with fixed values; no test gives a transform to a derived variable together with transforms of other variables that depend on it, and none varies the order of the request.", "anchors": ["aeppl/transforms.py:transform_values", "aeppl/transforms.py:_create_transformed_rv_op", "aeppl/transforms.py:measurable_elemwise_logprob", "aeppl/joint_logprob.py:conditional_logprob"]}
{"id": "C93", "title": "Value transforms of models of arrays act element by element", "statement": "When requested arrays of any shape -- random variables or measurable expressions of them -- are given value transforms whose parameters are arrays, possibly computed from requested and transformed variables, the joint log-probability at values in the transformed space is that of the model of the single elements with the transform of each element: same refusals, same errors, same number, with and without Jacobian terms. It is the log-density of all transformed elements.", "quantifier": "all acyclic graphs of array nodes of any shapes without empty axes, requested sets in any order, transforms and nested chains of transforms with array parameters, values (infinite and NaN included), distributions and further operations", "why_tests_cant": "The tests transform scalars or vectors of independent draws with scalar parameters; broadcasting between parameters and values, chains of transforms on arrays and shapes of higher rank are sampled at a few fixed points at most.", "anchors": ["aeppl/transforms.py:transform_values", "aeppl/transforms.py:ChainedTransform", "aeppl/transforms.py:ScaleTransform", "aeppl/transforms.py:IntervalTransform", "aeppl/transforms.py:transformed_logprob"]}
{"id": "C94", "title": "Expectations computed from the joint log-probability of models with clipped, rounded and computed variables are those of the sampled model", "statement": "In a model whose requested variables are random variables, clips or roundings of them, or computed from them by exp, log, reciprocals, sums, differences, products and quotients, with parameters, bounds and other operands computed from other requested variables, integrating a function of the requested variables against the joint log-probability -- with unit atoms at the finite bounds of clipped variables, over the integers for rounded ones -- gives the expectation of that function when the model is sampled variable after variable, and no other number. In particular the total mass is 1.", "quantifier": "all acyclic graphs, requested sets in any order, functions of the requested variables with an expectation, distributions with correct densities and distribution functions, bounds and parameters given by any deterministic expressions, finite, infinite or missing bounds, the three rounding operations", "why_tests_cant": "The tests compare single log-probabilities of one clipped or rounded variable with SciPy or with frequencies of samples; they never integrate a joint density with atoms, nor chain censored variables into the parameters or bounds of others.", "anchors": ["aeppl/censoring.py:clip_logprob", "aeppl/censoring.py:round_logprob", "aeppl/censoring.py:find_measurable_clips", "aeppl/joint_logprob.py:joint_logprob", "aeppl/joint_logprob.py:conditional_logprob"]}
{"id": "C95", "title": "Stacks, joins, transpositions and cumulative sums of random arrays inside whole models get the joint density of their elements", "statement": "When the joint log-probability of a model of arrays containing stacks, joins, dimension shuffles and cumulative sums of random arrays is computed, it is the joint log-probability of the model of the elements, in which an element of a stack, join or shuffle is the element of the part it comes from and an element of a cumulative sum is the previous element plus one more. When every requested element has a draw of its own it denotes the product of the densities of the draws over the absolute value of the determinant of the full Jacobian.", "quantifier": "all acyclic graphs of arrays of any rank, all axes and dimension orders, any number of parts, views nested in views and under element-wise operations, requested sets in any order, any values (infinite and NaN included)", "why_tests_cant": "The tests cover one stack or join of two or three variables with fixed shapes, one dimension shuffle or one cumulative sum at a time; they do not compose them with each other or with element-wise operations over models of arbitrary shape.", "anchors": ["aeppl/tensor.py:logprob_make_vector", "aeppl/tensor.py:logprob_join", "aeppl/tensor.py:find_measurable_stacks", "aeppl/tensor.py:logprob_dimshuffle", "aeppl/tensor.py:find_measurable_dimshuffles", "aeppl/cumsum.py:logprob_cumsum", "aeppl/cumsum.py:find_measurable_cumsums", "aeppl/transforms.py:construct_elemwise_transform"]}
{"id": "C96", "title": "Expectations computed from the joint log-probability of models with mixtures are those of the sampled model", "statement": "In a model whose requested variables may also be mixtures at.stack(comps)[idx] of random variables, integrating a function of the requested variables against the joint log-probability gives the expectation of that function when all random variables, the components of the mixtures included, are sampled one after the other; no other number is obtained. In particular the total mass is 1 when every index selects a component.", "quantifier": "all acyclic graphs, requested sets in any order, functions of the requested variables with an expectation, any number of mixtures with any number of components, indices and parameters given by any deterministic expressions of other requested variables, distributions with correct densities", "why_tests_cant": "The tests compare log-probabilities of single mixtures at a few values with SciPy; that the unselected components do not influence the law of the requested variables, in models where mixtures parameterise other variables, is a statement about integrals over all values.", "anchors": ["aeppl/mixture.py:logprob_MixtureRV", "aeppl/mixture.py:mixture_replace", "aeppl/joint_logprob.py:joint_logprob", "aeppl/joint_logprob.py:conditional_logprob"]}
{"id": "C97", "title": "Mixtures of mixtures in whole models get the joint density", "statement": "In a model whose requested variables include mixtures at.stack(comps)[idx] whose components are again mixtures, to any depth, the joint log-probability denotes the joint density of the requested variables: the change of variables formula for the draws of the variables that the nested indices select. A requested variable gets a log-probability exactly when it is an invertible chain from one draw or a mixture of such variables and mixtures without values.", "quantifier": "all acyclic graphs, any nesting depth, any number of mixtures and components at every level, indices computed by any deterministic expressions of requested variables, values and draws, requested sets and stacks", "why_tests_cant": "The tests have only mixtures of random variables, one level deep, at a few values; that the rewriter, applied until nothing changes, gives nested mixtures the right density in every model is a statement about all graphs.", "anchors": ["aeppl/mixture.py:mixture_replace", "aeppl/mixture.py:get_stack_mixture_vars", "aeppl/mixture.py:logprob_MixtureRV", "aeppl/rewriting.py:construct_ir_fgraph", "aeppl/joint_logprob.py:joint_logprob"]}
{"id": "C98", "title": "Indexed random arrays get the density of the elements read", "statement": "When a requested array is X[ix] for a random variable X without a value, its log-probability is that of the elements of X that NumPy's indexing rules read, each at its value and with its own parameters, and the joint log-probability denotes the joint density of the elements read.", "quantifier": "all acyclic models of arrays of any rank, all index tuples of integers, slices, newaxes and integer arrays, all values and parameters", "why_tests_cant": "The tests index one random matrix with one pair of index arrays and compare numbers; they cannot cover every combination of index kinds and shapes, and never index the same element twice.", "anchors": ["aeppl/rewriting.py:construct_ir_fgraph", "aeppl/joint_logprob.py:conditional_logprob", "aeppl/joint_logprob.py:joint_logprob", "aeppl/logprob.py:logprob"]}
{"id": "C99", "title": "The order of the rewrites does not matter in whole models of arrays", "statement": "Applying the measurable rewrites (elementwise transforms, stacks, concatenations, transposes, cumulative sums and indexed random arrays) to the nodes of a model one at a time, in any order and until none applies, takes at most one rewrite per node, marks the same nodes as measurable with the same forms whatever the order, and gives the same joint log-probability.", "quantifier": "all acyclic models of arrays, all requested nodes and values, all orders in which the rewrites are applied, all moments of a run", "why_tests_cant": "The tests run the rewriter in the one order that Aesara's scheduler happens to choose for a handful of graphs; no test varies the order.", "anchors": ["aeppl/rewriting.py:construct_ir_fgraph", "aeppl/transforms.py:construct_elemwise_transform", "aeppl/tensor.py:find_measurable_stacks", "aeppl/tensor.py:find_measurable_dimshuffles", "aeppl/cumsum.py:find_measurable_cumsums", "aeppl/joint_logprob.py:joint_logprob"]}
{"id": "C100", "title": "Missing data in whole models of arrays", "statement": "When partially observed arrays set_subtensor(X[idx], data) are requested in a model of arrays, the joint log-probability is that of the completed model: X is requested instead, at the given values with the data filled in, and everything that depends on the partially observed array sees the data. The values given for the observed entries do not matter; a request that also gives X a value, or two partial observations of one X, is refused.", "quantifier": "all acyclic model graphs of any size with the nodes of C95, any number of partially observed arrays, all assignment operations that are idempotent, all values and data", "why_tests_cant": "The tests check one or two models with a single partially observed vector that nothing depends on; that later factors see the data and not the given values needs other graphs.", "anchors": ["aeppl/rewriting.py:incsubtensor_rv_replace", "aeppl/rewriting.py:construct_ir_fgraph", "aeppl/joint_logprob.py:conditional_logprob"]}
{"id": "C101", "title": "Version information from git falls back, and is complete, whichever git program answers", "statement": "run_command returns the stripped output of the first of the given programs that exists, exactly when it ends with return code 0. Inside a checkout with unexpanded keywords get_versions returns a PEP 440 version together with the full revision, the dirty flag and the commit's date in ISO 8601 (the tag's own version at the tag; 0+untagged with the number of commits without a tag); when git is absent, the directory is no checkout or there is no commit, the version is that of the unpacked directory; in every case there is a result.", "quantifier": "all lists of programs, all outcomes of every call (absent, not runnable, any return code and any output), all tags, commits, dates preceded by any lines, all paths", "why_tests_cant": "Tests run with one installed git and one repository; the combinations of failing calls and of the texts that git prints are unbounded.", "anchors": ["aeppl/_version.py:run_command", "aeppl/_version.py:git_pieces_from_vcs", "aeppl/_version.py:render", "aeppl/_version.py:get_versions"]}
{"id": "C102", "title": "Parameters in printed definitions keep their meaning", "statement": "In the printed definition of a random variable the parameters are shown as they read elsewhere: names and expressions keep their text, decimal numbers are rounded; a normal variable states its mean and the square of its scale.", "quantifier": "all names, all texts of expressions, all decimal numbers, any shapes, plain text and LaTeX", "why_tests_cant": "Tests print single letters and small numbers; the code asks Python's float whether a text is a number, and float also reads words such as 'Infinity' in any case, underscores and blanks.", "anchors": ["aeppl/printing.py:RandomVariablePrinter.process", "aeppl/printing.py:NormalRVPrinter.process_param"]}
