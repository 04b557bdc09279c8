# Design: a machine-checked model of aeppl (Rocq/Coq 8.16.1)

## 1. What is modelled

aeppl is a symbolic library: its functions build Aesara graphs that are later
evaluated.  The model is *shallow* for the numeric parts (a function that
builds an expression is modelled as the function the expression denotes, with
every `switch`, `CheckParameterValue` and arithmetic operation kept, in the
code's order) and *structural* for the graph parts (small graph languages with
random variables, deterministic operations and values; the passes of aeppl are
Gallina functions on them).

Values are extended reals `xr = Fin r | PInf | NInf | NaN` with IEEE-754
propagation rules over exact reals (`0 * inf = NaN`, `inf - inf = NaN`,
`ln 0 = -inf`, `ln` of a negative `= NaN`, comparisons with NaN false).
Evaluation results are `Val x | Raise`, `switch` is strict in both branches
(an assertion failing in the branch not taken still raises), `ifelse` is lazy.

### Modelled, per source file (paths under /repo/aeppl)

| source | model |
|--------|-------|
| logprob.py: uniform ... studentt logprob, logcdf, icdf (128-544), betaln, binomln, logdiffexp, xlogy0 (38-53), CheckParameterValue (18-35) | ModelDist, ModelArr (arrays of any shape) |
| logprob.py: categorical, multinomial, dirichlet, discrete_mc_logp | ModelVec (one vector), ModelBatch (batches) |
| logprob.py: mvnormal_logprob with Cholesky and the triangular solve; batches | ModelMvn, ModelMvnB |
| logprob.py: diracdelta_logprob; dists.py: DiracDelta; rewriting.py: lift/remove DiracDelta | ModelDirac |
| dists.py: create_discrete_mc_op, discrete_markov_chain (sampler); switching_process | ModelChain, ModelChainB (batches), ModelSwitch |
| transforms.py: RVTransform classes, default transforms, chains, TransformedRV logprob | ModelTrans, ModelSimplex, ModelVTrans (chains on vectors), ModelDefJac (RVTransform.log_jac_det) |
| transforms.py: measurable_* rewrites, construct_elemwise_transform, measurable_elemwise_logprob | ModelTrans (one operation), ModelNest (expressions of any depth), ModelElem (arrays), ModelEls (whole models of arrays), ModelWalk (the guard on graphs), ModelSys (whole scalar graphs with values substituted and the joint), ModelGuard (transforms, clip, round and mixtures nested in each other) |
| transforms.py: transform_values, TransformValuesMapping/Rewrite; rewriting.py: construct_ir_fgraph (conditioning on values); joint_logprob.py: conditional_logprob | ModelGraph, ModelJoint, ModelSysT (models with measurable expressions), ModelElsT (models of arrays) |
| rewriting.py: MeasurableConversionTracker, construct_ir_fgraph (undoing of conversions); transforms.py: transform_values (order of the replacements) | ModelUndo |
| joint_logprob.py: joint_logprob reduction | ModelJoint |
| logprob.py: logprob, logcdf, icdf (56-85); names given by conditional_logprob, construct_ir_fgraph and transform_values | ModelNames |
| censoring.py: clip_logprob, round_logprob | ModelCens, ModelCensSys (whole models with clipped and rounded variables) |
| mixture.py: expand_indices; mixture_replace, get_stack_mixture_vars, switch_mixture_replace, logprob_MixtureRV | ModelIdx, ModelMix, ModelMixSys, ModelMixTree, ModelMixCens (mixtures and mixtures of mixtures inside whole models) |
| tensor.py: make_vector, join, dimshuffle log-probabilities, find_measurable_stacks; cumsum.py | ModelTen, ModelStack (stacks of scalars within whole models), ModelElsV (arrays within whole models) |
| rewriting.py: incsubtensor_rv_replace; utils.py: convert_indices, indices_from_subtensor | ModelSub, ModelElsMiss |
| convolutions.py: add_independent_normals | ModelConv, ModelWalk (guards) |
| scan.py: convert_outer_out_to_in, get_random_outer_outputs, logprob_ScanRV, find_measurable_scans, add_opts_to_inner_graphs, _get_measurable_outputs_MeasurableScan, update_scan_value_vars | ModelScan, ModelScanDet, ModelScanVal, ModelScanBody, ModelScanOpts, ModelScanLift, ModelScanOrder |
| abstract.py: MeasurableVariable, UnmeasurableVariable, assign_custom_measurable_outputs, ValuedVariable | ModelReg |
| utils.py: change_rv_size, extract_obs_data | ModelUtil |
| utils.py: walk_model, replace_rvs_in_graphs, rvs_to_value_vars | ModelWalk, ModelRepl |
| printing.py: name generation, subtensor printing, preamble assembly | ModelPrint |
| printing.py: RandomVariablePrinter, VariableWithShapePrinter, shape texts, definitions of whole graphs | ModelPrint2 |
| printing.py: NormalRVPrinter, rounding of parameters | ModelPrintNum |
| _version.py: git_pieces_from_vcs, the renderers, git_versions_from_keywords, versions_from_parentdir, get_versions, git_get_keywords, run_command | ModelVersion, ModelKeywords, ModelGitRun |

### Not modelled
* floating-point rounding, overflow and signed zero (the numbers are exact reals);
* dtypes other than the integer/unsigned/float distinction where the code branches on it;
* Aesara itself: canonicalisation, merging of equal nodes, shape inference,
  compilation, random generation.  The canonicalisation passes run by
  `construct_ir_fgraph` are assumed meaning preserving; the measurable rewrites
  of expressions of one variable (transforms, clips, roundings) are modelled as
  an equilibrium run (C75), those of whole models of arrays as runs of single
  rewrites in any order (C99), the other families (mixtures, scans) one at a time;
* printing: Aesara's choice of printer for an operation, the texts of deterministic operations and of constants, how a number is written with six digits;
* _version.py: the processes themselves (their outcomes are inputs of the model), line separators other than the line feed, messages.

Each model file's header and the comment on each definition cite the lines
and name the simplifications.

## 2. Trusted base
* the Coq 8.16.1 kernel (and coqchk);
* the standard library's axioms, as printed by `Print Assumptions` below each
  theorem in the `Prop*.v` files; section 6 lists them per theorem
  (`ClassicalDedekindReals.sig_forall_dec`, `sig_not_dec`,
  `FunctionalExtensionality.functional_extensionality_dep`,
  `Classical_Prop.classic`, and
  `ClassicalEpsilon.constructive_indefinite_description` for the theorems that
  use Mathematical Components' determinants over the reals);
* the transcription from Python to Gallina: every definition cites file and lines;
* the specifications (`Spec*.v`), which do not use the model's algorithms (they
  share its data types: shapes, expression trees, extended reals).

Special functions (`Special.v`: gamma, incomplete gamma, erf, Bessel) are
defined by their integrals or series, not assumed.  No axioms, parameters,
admitted proofs or functors are added.

## 3. Layout of /verif/rocq/theories
* `XR.v` extended reals and results; `XTac.v` tactics for them;
* `Special.v` special functions defined through Coquelicot integrals;
* `RMx.v` the real numbers as a field of Mathematical Components (determinants);
* `Model*.v` the model, function by function, with citations;
* `Spec*.v` independent specifications;
* `Lem*.v` lemmas;
* `Prop*.v` the property theorems (closed by `exact` or a few steps),
  `Print Assumptions` and non-vacuity examples.

Mutation tests of the model are recorded in /verif/seeded/LOG.jsonl.

## 4. Plan per property
| id | modelled | method |
|----|----------|--------|
| C01 | scalar logprob functions over `xr` | unfold, logarithm algebra against densities written with `exp`, powers, `Gamma` |
| C02 | same | case analysis on the support test |
| C03 | checks as values, lifted to arrays | "exists failing element -> Raise" |
| C04 | same | improper integrals (antiderivatives; Gaussian integral; Gamma integral); families whose constant needs the Beta integral are done last |
| C05 | discrete logprobs | binomial theorem, exponential/negative-binomial/geometric series, Vandermonde |
| C06 | same | Gamma(n+1)=n! |
| C07 | logcdf functions | derivative/integral of the density; partial sums of the masses (gammaincc recurrence for Poisson) |
| C08 | icdf functions | monotonicity, continuity, inverse erfc by definition as a root |
| C09 C10 C12 | RVTransform classes as records of functions | algebra, `is_derive`, induction on chains |
| C11 | default transform table | per entry; expected refutations for Pareto and HalfCauchy; von Mises integrated over the turns of the circle |
| C13 | simplex on lists/vectors | matrix determinant lemma by induction |
| C14 | graph model with value transforms | induction over models |
| C15 | measurable_* rewrites composed with logprob | change of variables; expected refutations off the image and for negative reciprocals |
| C16 | construct_elemwise_transform's guard on graphs | reachability |
| C17 C18 | clip_logprob over an abstract (cdf, density) | case analysis, telescoping sums; refutation for a=b |
| C19 C20 | round_logprob | telescoping; refutations |
| C21 C22 | expand_indices on shape/index lists | induction over the index list against a NumPy-semantics specification |
| C23-C25 | MixtureRV logprob | induction over components; refutations |
| C26 | convert_indices / indices_from_subtensor | list induction, refutation beyond one entry |
| C27 | incsubtensor_rv_replace | array update lemmas, refutation for inc |
| C28-C31 | arrays as functions on multi-indices | permutation and list lemmas |
| C32-C37 | conditional_logprob over node/output tables | list/dict induction, refutations for permuted multi-output nodes |
| C38 | sums over `xr` | permutation invariance |
| C39 C40 | graph walk and sequential replacement | induction over graphs, refutation |
| C41 | registry state machine | invariant over histories |
| C42 C43 | add_independent_normals | Gaussian convolution by completing the square |
| C44 C45 | tap slices | arithmetic over tap lists, refutation for asymmetric taps |
| C46 | discrete_mc_logp | sums over state sequences by induction, refutation for time-varying chains |
| C47 | diracdelta | direct |
| C48-C50 | printing functions on strings | state invariant / list lemmas |
| C51 | Cholesky-based logprob | matrix algebra (mathcomp) |
| C52 | multinomial, Dirichlet | induction on categories |
| C53 | mvnormal_logprob | triangular change of variables, iterated Gaussian integrals, induction on the dimension |
| C54 | dirichlet_logprob | iterated Beta integrals, induction on the categories |
| C55 | construct_elemwise_transform and the measurable_* rewrites on expression trees | induction over expressions, change of variables along the chain; values that are not regular give NaN or minus infinity along the chain; refutation for unsigned types |
| C56 | measurable_elemwise_logprob on arrays | broadcasting lemmas, product over positions; refutation for broadcast variables |
| C57 | same, vector support | exact value for every length; refutation |
| C58 | graphs of scalar nodes: replacement of requested variables (rewriting.py 240-271), transform rewrites, joint | unfolding preserves values; dependence order of requested variables; determinant of a matrix triangular for a ranking; unrequested draws in parameters by turning them into constants; bad points make the sum NaN; refutations for shared draws and fresh draws |
| C59 | expressions mixing transforms, clip and round, with the guards of the rewrites and the nested _logprob calls | embedding of the transform model, chain rule of C57, clip density of C11; refutation by the scaled atom |
| C60 | ModelGuard with an environment of draws | independence by induction over the accepted expressions; two refutations |
| C61 | requested stacks over the graphs of C58: the elements are not replaced by their values | equality with the joint of individually requested elements when no element is needed by another, then C58 (also given unrequested draws); two refutations |
| C62 | update_scan_value_vars on series: at.empty, set_subtensor at the slice and at the initial values, the replacements dictionary | position-wise characterisation of the two assignments, composition with C45; refutation by a random walk requested at its last step |
| C63 | get_random_outer_outputs, the value zip and the output order of logprob_ScanRV, all outputs counted as measurable in conditional_logprob | inner inputs of the random outputs as in C45; computed outputs as recurrences with existence and uniqueness of their series; refutations by a volatility model and by a leading computed output |
| C64 | switching_process's index tuple on the mixtures of C23, discrete_mc_logp of C46, their sum | the index tuple's NumPy meaning by the rules of SpecIdx, then C23 and C46; refutation by a 2x2 component |
| C65 | the three functions on arrays: element-wise operations with broadcasting, reductions over the last axis, shape_padleft, dimshuffle and take_along_axis by NumPy's contract | broadcasting lemmas (associativity, alignment through an intermediate shape, padding), rows of element-wise results, then C06 and C52 row by row |
| C66 | ChainedTransform.backward/log_jac_det with the rank of each term and the sum over the last axis | per coordinate from C12, the simplex from C13, determinant of a matrix with scaled rows and columns; uniqueness of the determinant for the refutations |
| C67 | RandomVariablePrinter.process and VariableWithShapePrinter.process on graphs with sharing, with the memo, the names and the two preamble lists | invariant over the traversal with the set of random variables in progress; the j-th unnamed variable gets the j-th free letter; totality by counting letters |
| C68 | dist_format, str.lstrip and the % operator on strings of characters; process_shape_info | characterisation by induction on strings; the length of the line shows that it is wrong in the other cases |
| C69 | change_rv_size with the op's shape inference, the parameters as arrays | broadcasting lemmas: a shape that broadcasts to B broadcasts to d ++ B, and alignment reads trailing indices only |
| C70 | extract_obs_data on nested AdvancedIncSubtensor expressions; values by NumPy's rules as a relation (last write wins is left open, increments add up) | induction on the expression; with all unknowns equal to c every entry is a + k c, and k > 0 exactly where masked |
| C71 | classes, instances, both singledispatch registries and the closures over rv_op; state after any sequence of calls | invariant of reachable registries (bases and closures point to older classes), fuel independence, dispatch unchanged on old classes |
| C72 | conditional_logprob on model graphs (ModelGraph) with the log-densities of ModelDist and the default transforms of ModelTrans; mass as an iterated integral and sum with dependent domains | induction over the variables in graph order: values depend only on earlier variables, each factor integrates to one (C04, C05, C11), the joint is the sum of the factors (C14); uniqueness of the mass |
| C73 | the nested rewrites of ModelNest and the log-probability at every level; laws as improper integrals over the interval of values | induction over the links: each maps intervals onto intervals monotonically, and substitution in the improper integral |
| C74 | the body as a model graph, the guard, the new inner inputs and the inner conditional_logprob; the meaning of a step as the value of the resulting graph | completeness of the traversal; the order of the dictionary of log-probabilities; soundness of the pipeline (C35) at every step; the product over steps (C45); acceptance after the rewrites of the body: measurability by induction over the graph, copies followed along dependencies (ModelScanOpts, LemScanOpts) |
| C75 | a step relation: one rewrite at one node, on what the rewrite sees at that moment; undoing rewrites | a stage differs from the bottom-up evaluation only in forms not found yet; a rewrite that applies early gives the final form because the walk of the other inputs finds no random variable; progress; the number of operations decreases; values against a separate evaluator (SpecOrder), by annotations that compute the value of their expression |
| C76 | arrays with broadcasting, transposition of all axes, a column-wise triangular solve restricted to vectors and matrices, the reduction over the last axis | each row of the transposed solution is the solution for its own row; then C51 for every row |
| C77 | arrays with broadcasting; draws as finite distributions of arrays; index grid, transposes and stacking as in the code | expectations of products over positions factor; induction over the steps with the states of all positions |
| C78 | the Jacobian as an array of partial derivatives, atleast_2d, the determinant, addition with broadcasting, the sum of the factor | determinants of C66's specification; substitution in integrals for scalars |
| C79 | the graphs of element-wise operations that each function builds, evaluated operation by operation on arrays with NumPy's broadcasting; checks read the condition's own array | induction on the graph: an array result is element by element the scalar result, and every entry of a condition is reached from some position of the common shape; the scalar functions are those of C01-C08 |
| C80 | strings as lists of characters, the greedy regular expression of git_pieces_from_vcs, all six renderers and the dispatch in get_versions; the outputs of git are inputs | the grammar of PEP 440 and the format of git describe as inductive predicates; decimal numerals shown to be unique and re-read; the regular expression shown to split at the last two hyphens |
| C81 | strip, split, sorted and the choice of tags in git_versions_from_keywords, the loop over parent directories, the order of the methods in get_versions; git_get_keywords on the lines of a version file, the pattern search and the dates | stripping and splitting the decorated list gives the refs back; insertion sort gives a list sorted by code points, whose first entry with the prefix is the least; the pattern search skips to the first equals sign and takes the text up to the last quote |
| C82 | conditional_logprob on model graphs (ModelGraph) interpreted by arrays: the log-probability graphs of ModelUniv, the graphs of the default transforms and their Jacobian terms, the sums of at.sum; mass as an iterated integral and sum over all entries with dependent domains | the arrays are entry by entry the scalar results (C79); induction over the entries in graph order: entries depend only on earlier variables, each factor integrates to one (C04, C05, C11), the joint is the sum of all entries of all factors; uniqueness of the mass |
| C83 | SimplexTransform on arrays: keepdims reductions, concatenation on axis -1, broadcasting element-wise operations, at.logsumexp; the transformed Dirichlet log-probability | rows of reductions, concatenations and element-wise operations; every row is the vector case (C13), then the batch case of the Dirichlet density (C65) |
| C84 | the scan of C74 with the distributions of ModelLaw in its body; mass as an iterated integral and sum over steps and outputs with dependent domains | the law of an output depends only on earlier steps and earlier nodes of the body; chain rule for entries with dependent laws; the scan's value is the product of the densities (C74); uniqueness of the mass |
| C85 | the assignments of names along conditional_logprob, construct_ir_fgraph and transform_values as functions on optional strings | injectivity of appending a suffix; a witness of two transformed variables |
| C86 | backward, forward and log_jac_det of ModelTrans at PInf and NInf | limits of real functions (Coquelicot is_lim), one case per transform; a witness for the two-sided interval |
| C87 | the scalar functions of ModelDist at PInf, NInf and NaN | evaluation with rules for NaN and the infinities, one case per family; witnesses |
| C88 | the graphs of C61 with nodes for at.stack(comps)[idx] and at.stack(l)[i] | the graph in which every use of a mixture or entry is redirected to the selected component or stacked variable has the same factors, then C58 for that graph; exact acceptance; two refutations |
| C89 | mean over draws and marginal density as iterated integrals and sums; the semantics of the returned graphs of C35 with the laws of C72 | at each value of the draws the joint of all variables is the joint of the requested ones times the densities of the draws, then induction over the omitted variables; three refutations |
| C90 | heap of nodes in which pruned nodes keep their inputs, FunctionGraph.replace on the live nodes, the conversion tracker, transform_values and the undoing; independent evaluation semantics of a graph | an assignment of values to all nodes kept as an invariant through the rewrites, the transforms and the undoing; two refutations |
| C91 | graphs of array nodes, the measurable rewrites and log-probabilities on arrays with broadcasting, sums of all factors; specification: a scalar graph with one node per element | a relation between array annotations and families of scalar annotations kept by every rewrite; equality of the joint sums by associativity of extended addition; construction of the scalar graph; C58 applied to it |
| C92 | back-transformed values computed node by node, the factors of ModelSys at them plus the Jacobian terms, the walk's choice of the transformed copy by the order of the request; specification: transformed values as functions of the draws, their partial derivatives | the back-transformed values are the values of the nodes (induction along the graph); the Jacobian of the transformed values is triangular for the node order; each factor by C58's factor and the derivative of the backward map (C10) |
| C93 | transforms with array parameters and NumPy broadcasting, chains with the sum over the last axis of determinants of higher rank, models of ModelEls with values in the transformed space; specification: the transform of one element, the elements of a model (SpecEls), transformed values as functions of the draws (SpecSysT) | backward maps and determinants of an array are those of the elements (induction on the transform); back-transformed values node by node; the elements' request keeps the order; composed with C92 |
| C94 | whole models with clip, round, floor and ceil nodes (ModelCensSys over the rewrites of ModelGuard); specification: values of nodes from draws, iterated expectations over the draws, iterated integrals against measures with atoms | values of known nodes depend on the requested variables only; conditional log-probabilities denote the censored densities (C17, C19); antiderivatives over the line give the push-forward of clip and round, splitting series that of clipped discrete variables; chains of element-wise operations are strictly monotone with the Jacobians the rewrites compute, and substitution gives the push-forward of computed variables; induction over the requested variables, the expectation of the rest depending only on the observed values; integrals are unique |
| C95 | graphs of arrays with MakeVector, Join, DimShuffle, CumOp and Subtensor nodes besides those of C91 (ModelElsV); specification: each element of a view is an element of a part, own elements are nodes of a scalar graph (SpecElsV) | simulation of the array rewrites and log-probabilities by the scalar ones, element by element, along an acyclic graph (LemElsV, LemElsV2); the scalar graph is built by following each element to its origin (LemElsV3); density from C58; integer arrays and running totals by induction (SpecElsTypes, LemElsTypes) |
| C96 | whole models with mixtures (ModelMixCens over ModelCensSys and ModelGuard.derived_mix); specification: draws of all random variables of the original graph, against integrals over the requested values | the merged model, in which a mixture is a random variable with the distribution of the selected component, has the same log-probabilities and lawful distributions; drawing the unselected components integrates to 1 and influences nothing; C94 applied to the merged model |
| C97 | nested mixtures in whole models (ModelMixTree over ModelMixSys); specification: membership of nested components and the density of the selected draws | the model in which each component of a requested mixture is replaced by the variable that it selects has the same values near the point, the same log-probability, and no nested mixtures, so C88 applies; acceptance by induction on the depth |
| C98 | the VTake nodes of ModelElsV, with the positions read; specification: NumPy's indexing relation (SpecIdx) and that no element is read twice (SpecTake) | each element of an indexed array is an element of the random variable, so the elements requested are distinct draws and C95 gives the product of their densities; distinctness for basic indices by induction on the index tuple |
| C99 | ModelElsOrder: a relation of single rewrites over partial assignments of measurable forms to nodes, its runs and complete runs; the joint log-probability of a complete run | each rewrite is monotone in what is already measurable, a form once found is the final one, the number of nodes that are not measurable decreases |
| C100 | ModelElsMiss: incsubtensor_rv_replace at the requested variables of ModelElsV, the new value also where the variable is an input, the check for two values of one node | by induction over the depth the unfolding equals that of the completed model away from the bases; the log-probability depends on the parameters only |
| C101 | ModelGitRun: run_command over outcomes of processes, the five calls of git_pieces_from_vcs with their exceptions, the dictionaries of get_versions | the loop over programs by induction; stripping shown to be the removal of white space at both ends; then the parsing and dates of C80 and C81 |
| C102 | Which texts Python's float reads, the rounding of parameters, the square of the scale and the line of a normal variable (ModelPrintNum.v) | The characters of everything that is read as a number; the words in small and capital letters; C68 for the line (LemPrintNum.v, PropPrintNum.v) |

## 5. Refuted claims (each with a witness in a `_refuted` theorem)
| theorem | what happens |
|----|----|
| C01_gamma_boundary_refuted | density unbounded at 0, yet the log-density there is -inf |
| C01_triangular_mode_refuted | at the mode when it equals an end point the code does not give the density |
| C01_weibull_boundary_refuted | Boundary points excluded above: the code's value there is not the logarithm of the density. |
| C02_discrete_noninteger_refuted | No family checks integrality: a non-integer inside the range gets a finite log-mass. |
| C03_binomial_n_refuted | a negative number of trials is accepted |
| C03_categorical_refuted | all weights negative, yet normalised to valid probabilities |
| C03_gamma_scale_zero_refuted | a zero scale gives NaN instead of an error |
| C03_hypergeometric_refuted | a negative count of good items is accepted |
| C03_multinomial_refuted | a negative probability is accepted |
| C03_nbinom_p_zero_refuted | success probability zero is accepted |
| C03_studentt_df_refuted | negative degrees of freedom are accepted |
| C03_uniform_refuted | an upper bound below the lower bound is accepted |
| C06_categorical_range_refuted | Values from the number of categories on, and values below minus that number, have mass zero, but the code fails on them instead of giving -inf. |
| C06_nbinom_large_n_refuted | above the threshold the code switches to the Poisson mass, which differs |
| C06_nbinom_p_one_refuted | success probability one, a valid parameter, is refused |
| C07_geometric_noninteger_refuted | between integers the value is not the mass up to the argument |
| C08_geometric_p_one_refuted | with p = 1 the quantile is 0, where no mass has accumulated |
| C100_other_use_refuted | A base variable that is used elsewhere keeps a draw of its own there: with V ~ normal(X, 1) instead of normal(Y, 1) the factor of V does not use the values of Y. |
| C101_next_refuted | A program that is there but cannot be run hides the others. |
| C101_total_refuted | When git cannot count the commits (the option --count is of 2010), or cannot show the date, importing the package fails: the other failures of git are passed over. |
| C102_names_refuted | Two different variables may be shown as the same parameter. |
| C102_rounded_refuted | Hence numbers are not rounded everywhere: the scale keeps all its digits where another parameter with the same text does not. |
| C10_reciprocal_refuted | the Jacobian term is NaN at negative points although the derivative exists |
| C11_halfcauchy_refuted | the default transform maps to points below the location, outside the support |
| C11_pareto_onto_refuted | points of the support are not reached by the default transform |
| C11_pareto_refuted | the default transform maps to points below the scale, outside the support |
| C11_vonmises_refuted | so it is no density over the real line, unlike those of C11_normalised |
| C14_realized_refuted | a transform for a realized variable: its value is ignored, and the factor depends on a free variable that is not returned |
| C14_request_order_refuted | requested in the order y, x, w, the Jacobian term of x is lost: its factor is 0 and not 1 when densities are 0 and Jacobian terms 1 |
| C15_exp_off_image_refuted | values outside the image give NaN instead of -inf |
| C15_recip_negative_refuted | negative values of a reciprocal give NaN |
| C18_equal_bounds_refuted | clipping to a single point: the mass given to it is below one |
| C18_noninteger_bound_refuted | clipping a discrete variable at a bound that is no integer: the bound gets more than the mass clipped to it, since [poisson_logprob] is not -inf there |
| C20_noninteger_refuted | a value that is not an integer gets a positive mass |
| C20_zero_mass_refuted | an integer outside the support gives NaN instead of -inf |
| C22_negative_step_refuted | C22 is false of the code: the reversal flag of the canonical slice is dropped, so [A[::-1]] is expanded to [0, 1, 2] instead of [2, 1, 0]. |
| C23_constant_entry_refuted | a constant index entry after the mixing index: wrong shape |
| C23_join_axis_refuted | components joined along another axis than the first: the wrong component is used |
| C23_slice_refuted | a slice as the mixing index: wrong shape |
| C24_array_refuted | a negative mixing index in an array selects no component |
| C24_beyond_refuted | index 7 into two components: neither an error nor -inf |
| C24_negative_refuted | a negative scalar index gives log-probability 0 instead of that of a component |
| C25_switch_refuted | a switch with a scalar condition: both components are swapped |
| C26_two_symbolic_refuted | [Y[i, j]] is reconstructed as [Y[i, i]]. |
| C27_increment_refuted | an increment is scored as if the data were assigned |
| C27_two_symbolic_refuted | with two symbolic indices the wrong positions are overwritten |
| C29_join_multivariate_refuted | multivariate variables joined along a batch axis: wrong shape |
| C29_join_negative_axis_refuted | Axis counted from the end with one batch and one support axis: an error. |
| C30_repeated_refuted | the same variable stacked twice is scored at two different values |
| C33_interleaved_refuted | In general the order is not kept: y0, x, y1 come back as y0, y1, x. |
| C33_realized_refuted | Requesting y1 with y0 realized returns the realized value as the value variable of y1. |
| C34_permuted_refuted | In general false: requesting y1 before y0 evaluates y0 at the value of y1. |
| C36_realized_expression_refuted | a realized value that is an expression of a requested variable brings back its draw |
| C36_request_order_refuted | with transforms in the wrong order, the draw of a requested variable is in the result |
| C37_kind_refuted | two values on output y0 of the two-output node: a KeyError, outside the documented kinds |
| C37_short_dispatch_refuted | a dispatch that returns fewer log-probabilities than outputs loses a factor without any error |
| C39_in_place_refuted | the caller's own graph is changed: with {A: a, B: b} and B a function of A, the node of B reads [a] afterwards |
| C39_order_refuted | with {B: b, A: f(B)} the variable B is still in the result |
| C39_self_refuted | with {A: A + 1} the variable A is still in the result |
| C41_collision_refuted | hashes decide: with any hash of finitely many values there are histories that change the outputs of an earlier node |
| C42_broadcast_refuted | a term that is broadcast is one variable in the sum, but the elements of the new variable are independent: for X of shape (2,) and Y of shape (1,) the density of (X0 + Y, X1 + Y) is not the product of the elements' |
| C42_shape_refuted | parameters of shape (2, 3) without size plus size (3,): no valid shape |
| C43_dependent_refuted | x + y where y is computed from x |
| C43_same_refuted | x + x |
| C44_lags_refuted | taps -3 and -1: step 0 reads position 1 for tap -1, not 2 |
| C44_steps_refuted | taps -5, -4 and -3: two steps are lost |
| C46_time_varying_refuted | a sequence that the time-varying chain cannot produce gets mass one |
| C50_lost_refuted | x[i, j] with index arrays is printed as x[j] |
| C50_order_refuted | x[i, j:k] is printed as x[k, j:i] |
| C51_asymmetric_refuted | A matrix that is neither symmetric nor positive definite is scored. |
| C52_dirichlet_sum_refuted | a vector that does not total one gets a finite log-density |
| C52_multinomial_fraction_refuted | Vectors with fractions have mass zero, but get a finite log-probability. |
| C55_unsigned_refuted | Only signed integer types count as discrete (transforms.py:548): 2 * X for a Bernoulli variable of an unsigned type is accepted, and the mass of the value 2 comes out as half of the mass of X = 1. |
| C56_broadcast_refuted | normal(0, 1, size=(1,)) + c for a vector [c]: the elements of the value are scored as independent, with a positive density at a value at distance 1 or more from every possible draw. |
| C57_vector_refuted | X + 0 for a bivariate standard normal X: the density at [x] differs from that of X. |
| C58_fresh_refuted | Z = exp X and Y ~ N(X, 1), requested without X: the values determine both draws, so there is a joint density, but Y is scored at a fresh draw of X: the result changes with it (rewriting.py:246-254, 269-274: only requested variables are replaced by their values). |
| C58_shared_refuted | X + 1 and exp X, both requested with X itself not requested, are scored as if they came from two independent draws: X + 1 = 1 and exp X = 3 is given positive density although no draw of X attains it. |
| C59_atom_refuted | 2 * clip(X, 0, 1) takes the value 2 exactly when X >= 1, so with probability 1 - F(1); the derived value is half of it, because the Jacobian of the scaling is applied to the atom (transforms.py:383, with no check that the base variable has a density). |
| C60_bound_refuted | The bounds of a [clip] are not examined (censoring.py:47-58): with a lower bound L that has no value and no upper bound, the log-probability of the clipped X at 1/2 depends on a fresh draw of L. |
| C60_index_refuted | The index of a mixture is not examined either (mixture.py:267): with an index I that has no value, the log-probability of stack([X, /Y/])[I] at -1 depends on a fresh draw of I instead of summing over I. |
| C61_dependent_refuted | stack([X, Y]) with Y ~ N(X, 1): the value of X is not put into the parameters of Y, which are evaluated at another draw of X; the result is not the joint density (tensor.py:31-33, rewriting.py:266-271). |
| C61_equal_refuted | stack([X, X]) with two different values gets positive density although no draw attains it (tensor.py:31-33, 105-107). |
| C62_uninitialised_refuted | The walk requested as [out\[-1\]]: the density returned for the last value depends on the contents of the uninitialised memory that stands for the first step (scan.py:445-454). |
| C63_computed_refuted | The volatility model with the series of zeros and s_0 = 8 (so that s_1 = 4, s_2 = 2), all valued: the entry of the random output is the series 8, 4, 2 and not its log-density, and the joint is e^14 times the density (scan.py:528-531 against 239-252, 273). |
| C63_values_refuted |  |
| C64_axes_refuted | The documentation promises the selection "along all the other axes". For 2x2 components and 2x2 states the index ranges are paired: element (0, 1) is scored as element (1, 1) of the component (dists.py:97). |
| C64_hmm_varying_refuted | a series of states that cannot be drawn gets the density of its emissions |
| C64_rectangular_refuted | With 2x3 components and 2x3 states an exception is raised. |
| C65_categorical_refuted | "The log-probability of a batch of categorical variables has the shape of the batch" is false: for two weight vectors and two values the result is a 1 x 2 array. |
| C66_before_simplex_refuted | ChainedTransform([LogTransform(), SimplexTransform()]): the log-determinant is wrong at every point. |
| C66_refuted | ChainedTransform([ScaleTransform(2), LogTransform()]) on two coordinates: the log-determinant is neither that of the map nor the logarithm of the derivative along each coordinate. |
| C68_name_refuted | a random variable named "weight in kg": the line ends in "R" instead of "in R" |
| C68_percent_refuted | a vector named "50%" of unknown length: printing raises |
| C69_batched_refuted | Two normal vectors, of length 3, from a 2x3 array of means and no size: expanding by 4 gives size 4, to which the batch of two means does not broadcast (instead of 4x2 vectors). |
| C70_known_refuted | Writing the known values 9 over entries of the data: the entries are masked and their extracted values are the old ones. |
| C71_name_refuted | An op whose class inherits its name: the transformed op has the same name as the op it was made from, without the transform's name. |
| C71_subclass_refuted | A subclass with a density of its own: its default transform uses the density of the base class (here 7*2+3 instead of 8*2+3), for a subclass of any op with a default transform. |
| C74_transformed_refuted | y_t ~ N(y_{t-1}, 1), x_t ~ N(a_t x_{t-1}, exp(y_t)), both output: the rewrites of the body (scan.py:491-526) turn exp(y_t) into a measurable variable that is not an output, and the scan is refused (scan.py:341-351). |
| C76_rank_refuted | Values with two batch axes, which the variable itself has for a size of two axes, have no log-probability: the call raises, also for a positive definite covariance. |
| C76_vector_axis_refuted | A value that is broadcast along the vector axis does not get the density of the broadcast vector. |
| C78_default_refuted | two exponential draws with log-scale values and the default Jacobian term: the term is counted twice |
| C78_vector_refuted | LocTransform on a normal vector of two coordinates: the log-density is counted twice |
| C79_empty_refuted | A check is made even where there is no element: an empty value with an invalid standard deviation raises, although no element of the variable has a log-probability that raises. |
| C80_checkout_refuted | After a tag without "v" the version is "unknown", which is no version. |
| C80_distinct_refuted | A tag with a local part can be the version of commits after another tag. |
| C80_styles_refuted | After the tag of a post-release they do not. |
| C81_comment_refuted | A comment with quotes behind an assignment is read as part of the value, other than by Python. |
| C81_empty_date_refuted | An empty date raises an IndexError instead of giving no date. |
| C81_newest_refuted | Of two releases on the same commit the older one is reported. |
| C81_unknown_refuted | A branch "v2-dev" is taken for a release "2-dev", which is no version. |
| C85_scan_refuted | The log-probability of a scan with one output at a value "y" raises an AttributeError: the list that the scan returns is given the name. |
| C85_transformed_refuted | The value variables of two variables A and B with transforms have the same name, [val_clone-trans], and not [A_vv-trans] as documented (transforms.py:299): the new value variable is named after the internal clone of the value variable, which has lost its name (transforms.py:221-222, rewriting.py:250). |
| C86_determinant_refuted | the log-determinant of the two-sided interval transform tends to minus infinity at minus infinity, where the code computes NaN |
| C87_infinite_refuted | A gamma variable with shape 2 has NaN, not minus infinity, at plus infinity (logprob.py:287-293); so have, by the two theorems before, Wald, Weibull, chi-square, Poisson, negative binomial, Gumbel and logistic variables. |
| C87_quantile_refuted | The inverse CDF of a geometric variable accepts a negative probability (logprob.py:505-508). |
| C87_undefined_refuted | The log-CDF of a uniform variable at NaN is 0, the logarithm of probability one: both comparisons are false (logprob.py:141-147). |
| C88_range_refuted | An index out of range: with K ~ Poisson(1) and Z = stack([X, Y])[K], K = 2 gives every value of Z a positive density although Z has no value then (mixture.py:399-407). |
| C88_shared_refuted | A component that is used outside the mixture as well: with Z = stack([X, Y])[I] and W ~ N(X, 1), the value of Z with index 0 is not put into the parameters of W, which are evaluated at another draw of X; the result is not the joint density (mixture.py:399-407, rewriting.py:266-271). |
| C89_conditional_refuted | conditional_logprob's documentation (joint_logprob.py:58-62) says that the factor of sigma2 is the log of P(sigma2 = s / Y). For a variable [k] with values 0 and 1 the factor at 0 is not the joint density at 0 over the sum of those at 0 and 1. |
| C89_omitted_refuted | It also says (joint_logprob.py:267-271) that when sigma2 is omitted the result is the log of the joint density P(Y, sigma2) at the draw of sigma2. It is the log of P(Y / sigma2). |
| C89_posterior_refuted | joint_logprob's documentation (joint_logprob.py:281-285) says that with realized {Y: y} the result is the log of the density P(sigma2 / Y = y). It is not: in a proper model its total mass over all values of the requested variable is not one. |
| C90_lifted_refuted | Z is normal with mean exp(X[1]) and scale X[1], and only Z is requested. X[1] becomes a random variable of its own (subtensor_lift), exp of that a MeasurableElemwiseTransform of a copy. Afterwards the scale is the draw X[1] again, but the mean is exp of a draw of the other random variable: the two parameters, functions of one draw before, are now functions of two different ones. |
| C90_nested_refuted | Z is normal around switch(j, switch(i, A, B), C), and only Z is requested. Both switches become MixtureRVs. The outer one holds a copy of the inner one, so the inner one is not in the graph when it is to be replaced; taking the outer one back brings it in again. Z's mean then cannot be computed, though it could before. |
| C92_order_refuted | Z = exp X on the log scale and Y ~ N(Z, 1): requested as (Y, Z) instead of (Z, Y), the Jacobian term of Z is lost and another density is denoted. |
| C93_chain_refuted | X ~ N(0, 1) of shape (2,) with the chain of a scalar scale and a logarithm: the determinant of the logarithm, summed over the elements because the one of the scale has no axis, is added to the log-probability of every element, and the density is not the one of the elements. |
| C94_zero_mass_refuted | With U ~ uniform(0, 1) and R = floor(U), which is 0 with probability 1, the joint log-probability is NaN at negative values: no total mass can be computed from it. |
| C95_mixed_join_refuted | exp(concatenate([K, X])) with K ~ Poisson(1), X ~ N(0, 1): the join has a float dtype, so the discrete part is transformed with a Jacobian term; at K = 1, X = 0 the result is the mass of K times the density of exp(X), divided by exp(1) (tensor.py:77-116, transforms.py:548). |
| C97_expression_refuted | The exponential of a mixture is refused although the mixture itself is accepted and the exponential of every accepted variable that is not a mixture is: mixtures become measurable when the rewrites for other operations are over (rewriting.py:162-184, mixture.py:411-419). |
| C98_repeated_refuted | In every outcome the two elements of Y = X[[0, 0]] are equal, so Y has no density and no value with y0 <> y1 is possible; the code gives every such value the density of two independent draws (rewriting.py:179, Aesara's local_subtensor_rv_lift, logprob.py:58-90). |

## 6. Axioms per theorem (output of `Print Assumptions`)

**closed under the global context** (184 theorems):
C100_set_again, C101_archive, C101_archive_unknown, C101_checkout, C101_directory, C101_foreign, C101_next_refuted, C101_run, C101_run_none, C101_total_partial, C101_total_refuted, C101_uncounted, C101_untagged, C102_expressions, C102_names_partial, C102_names_refuted, C102_normal, C102_numbers, C102_rounded_refuted, C14_defined_partial, C14_factors_partial, C14_realized_refuted, C14_request_order_refuted, C16_single_source, C16_sub, C16_true_divide, C16_two_sources, C18_event, C21_expand_indices, C22_negative_step_refuted, C22_reversed_partial, C23_array_partial, C23_array_scalars, C23_constant_entry_refuted, C23_slice_refuted, C24_array_refuted, C26_exact_partial, C26_one_symbolic_partial, C26_two_symbolic_refuted, C27_advanced_partial, C27_basic_partial, C28_dimshuffle_op, C28_logprob, C28_unshuffle, C29_join_multivariate_partial, C29_join_univariate, C29_make_vector, C29_mixed_ranks, C30_accepts_iff, C31_axis, C32_keys, C33_interleaved_refuted, C33_order_partial, C33_realized_refuted, C33_request_order, C34_in_order_partial, C34_permuted_refuted, C35_defined, C35_factors, C36_draws, C36_draws_transformed_partial, C36_realized_expression_refuted, C36_request_order_refuted, C37_defined, C37_kind_partial, C37_kind_refuted, C37_no_omission, C37_no_owner, C37_short_dispatch_refuted, C39_in_place_refuted, C39_order_refuted, C39_replaced_partial, C39_self_refuted, C40_walk, C40_walk_extra, C41_collision_refuted, C41_marked_outputs_partial, C41_outputs_kept_partial, C41_remark_partial, C43_dependent_refuted, C43_guard_partial, C43_same_refuted, C44_contiguous_partial, C44_exactly_partial, C44_lags_refuted, C44_steps_refuted, C44_symmetric_partial, C47_kept, C47_lift, C47_lift_end, C47_removed, C47_value, C48_enough, C48_unambiguous, C49_kept, C50_advanced_exactly_partial, C50_advanced_partial, C50_exactly_partial, C50_lost_refuted, C50_order_refuted, C50_reversed_partial, C62_covered_partial, C62_positions, C62_slices, C62_twice, C63_no_random, C63_series, C63_unvalued, C64_rectangular_refuted, C64_scalars, C64_vector_partial, C67_defined, C67_spaces, C67_succeeds, C67_texts, C68_exactly_partial, C68_name_refuted, C68_percent_refuted, C68_space, C68_space_latex, C69_expand_partial, C69_resize, C69_tags, C70_refuses, C71_default, C71_name, C71_name_refuted, C71_new, C74_accepted, C74_defined, C74_entries, C74_entries_exist, C74_guard, C74_integers, C74_order, C74_order_ends, C74_rewrites_only_refuse, C74_transformed_refuted, C79_entries, C80_checkout, C80_checkout_refuted, C80_describe, C80_describe_long, C80_distinct_partial, C80_distinct_refuted, C80_parse, C80_parse_untagged, C80_release, C80_styles_partial, C80_styles_refuted, C80_untagged, C80_valid, C81_chained, C81_comment_refuted, C81_date, C81_date_line, C81_directory, C81_empty_date_refuted, C81_file, C81_file_other, C81_file_template, C81_file_unknown_partial, C81_final, C81_keywords_first, C81_least, C81_newest_refuted, C81_unknown_partial, C81_unknown_refuted, C85_kinds, C85_logprob_defined, C85_logprob_name, C85_logprobs, C85_scan_refuted, C85_transformed_refuted, C85_values_partial, C90_lifted_refuted, C90_nested_refuted, C90_no_copies, C90_undo_partial, C90_valued_kept_partial, C91_spelled_out, C95_spelled_out, C98_apart, C98_basic

**`sig_forall_dec`** (10 theorems):
C29_join_multivariate_refuted, C29_join_negative_axis_refuted, C69_batched_refuted, C70_unmasked, C71_factor, C71_factor_partial, C71_frozen, C71_logprob, C77_raises, C78_flag

**`functional_extensionality_dep`, `sig_forall_dec`** (29 theorems):
C14_joint_partial, C17_event, C18_total, C19_preimage, C19_rounding_function, C19_total, C23_join_axis_refuted, C23_scalar, C24_out_of_range_zero, C25_false_takes_first, C25_other_zero, C25_true_takes_second, C30_repeated_refuted, C31_logprob, C35_joint, C38_all_entries, C38_minus_inf, C38_nan, C38_order, C38_real, C46_sampler, C46_sampler_total, C47_score, C64_axes_refuted, C70_known_refuted, C70_masked_partial, C70_succeeds, C71_subclass_refuted, C77_law

**`classic`, `functional_extensionality_dep`, `sig_forall_dec`** (1 theorems):
C17_law

**`functional_extensionality_dep`, `sig_forall_dec`, `sig_not_dec`** (9 theorems):
C42_parameters, C42_shape_partial, C42_shape_refuted, C45_steps, C62_joint_partial, C63_computed_partial, C63_random_partial, C74_scan_partial, C87_quantile_normal

**`classic`, `functional_extensionality_dep`, `sig_forall_dec`, `sig_not_dec`** (326 theorems):
C01_beta, C01_cauchy, C01_chisquare, C01_exponential, C01_gamma, C01_gamma_boundary_refuted, C01_gumbel, C01_halfcauchy, C01_halfnormal, C01_invgamma, C01_laplace, C01_logistic, C01_lognormal, C01_normal, C01_pareto, C01_studentt, C01_triangular, C01_triangular_mode_refuted, C01_uniform, C01_vonmises, C01_wald, C01_weibull, C01_weibull_boundary_refuted, C02_bernoulli_partial, C02_beta, C02_betabinomial_partial, C02_binomial_partial, C02_chisquare, C02_discrete_exactly_partial, C02_discrete_noninteger_refuted, C02_exponential, C02_gamma, C02_geometric_partial, C02_halfcauchy, C02_halfnormal, C02_hypergeometric_partial, C02_invgamma, C02_lognormal, C02_nbinom_partial, C02_pareto, C02_poisson_partial, C02_triangular, C02_uniform, C02_vonmises, C02_wald, C02_weibull, C03_bernoulli, C03_beta, C03_betabinomial, C03_binomial_n_refuted, C03_binomial_partial, C03_categorical_refuted, C03_cauchy, C03_chisquare, C03_exponential, C03_gamma_partial, C03_gamma_scale_zero_refuted, C03_geometric, C03_geometric_logcdf, C03_gumbel, C03_halfcauchy, C03_halfnormal, C03_hypergeometric_refuted, C03_invgamma, C03_laplace, C03_logistic, C03_lognormal, C03_multinomial_refuted, C03_nbinom_p_zero_refuted, C03_nbinom_partial, C03_normal, C03_normal_logcdf, C03_pareto, C03_poisson, C03_poisson_logcdf, C03_studentt_df_refuted, C03_studentt_partial, C03_triangular, C03_uniform_logcdf, C03_uniform_refuted, C03_vonmises, C03_wald, C03_weibull, C04_beta, C04_cauchy, C04_chisquare, C04_exponential, C04_gamma, C04_gumbel, C04_halfcauchy, C04_halfnormal, C04_invgamma, C04_laplace, C04_logistic, C04_lognormal, C04_normal, C04_pareto, C04_studentt, C04_triangular, C04_uniform, C04_vonmises, C04_wald, C04_weibull, C05_bernoulli, C05_betabinomial, C05_binomial, C05_categorical, C05_geometric, C05_hypergeometric, C05_nbinom_partial, C05_poisson, C06_bernoulli, C06_bernoulli_neg, C06_betabinomial, C06_betabinomial_neg, C06_binomial, C06_binomial_neg, C06_categorical, C06_categorical_neg_partial, C06_categorical_raises, C06_categorical_range_refuted, C06_geometric, C06_geometric_neg, C06_hypergeometric, C06_hypergeometric_neg, C06_nbinom_large_n_refuted, C06_nbinom_p_one_refuted, C06_nbinom_partial, C06_poisson, C06_poisson_neg, C07_geometric_between, C07_geometric_exactly_partial, C07_geometric_neg, C07_geometric_noninteger_refuted, C07_geometric_partial, C07_normal, C07_poisson, C07_uniform, C08_geometric_p_one, C08_geometric_p_one_refuted, C08_geometric_partial, C08_normal, C08_normal_unique, C09_forward_backward, C09_unconstrained, C100_complete_partial, C100_ignored, C100_other_use_refuted, C100_requested, C100_two_values, C10_circular, C10_log_jac_det_partial, C10_reciprocal_refuted, C11_finite_partial, C11_halfcauchy_refuted, C11_into_support_partial, C11_normalised, C11_onto_interior_partial, C11_pareto_onto_refuted, C11_pareto_refuted, C11_vonmises_infinite, C11_vonmises_refuted, C11_vonmises_turn, C12_chain_composes, C12_chain_inverse, C12_chain_jacobian_partial, C13_backward_forward, C13_forward, C13_forward_backward, C15_exp_off_image_refuted, C15_pushforward_partial, C15_recip_negative_refuted, C17_bad_bounds, C17_clip, C17_one_sided, C17_total, C18_clip_partial, C18_equal_bounds_refuted, C18_noninteger_bound_refuted, C18_outside, C19_round_partial, C20_noninteger_refuted, C20_zero_mass_partial, C20_zero_mass_refuted, C24_beyond_refuted, C24_negative_refuted, C25_switch_refuted, C27_increment_refuted, C27_two_symbolic_refuted, C42_broadcast_refuted, C42_difference, C42_sum, C46_homogeneous_partial, C46_late_partial, C46_time_varying_refuted, C46_total, C51_lower, C51_raises_partial, C52_dirichlet_outside, C52_dirichlet_partial, C52_dirichlet_raises, C52_dirichlet_sum_refuted, C52_multinomial, C52_multinomial_fraction_refuted, C52_multinomial_neg, C52_multinomial_total, C53_mvnormal, C54_dirichlet, C55_accepted, C55_density_partial, C55_exact, C55_injective, C55_single_source, C55_sound, C55_unsigned_refuted, C56_broadcast_refuted, C56_elements_partial, C57_scalar_scale_partial, C57_vector_partial, C58_accepted, C58_attained_partial, C58_fresh_refuted, C58_shared_refuted, C59_atom_refuted, C59_clip_derived_refused, C59_discrete_refused, C59_inside_partial, C59_round_refused, C59_rounding, C59_transforms, C60_bound_refuted, C60_expression_partial, C60_index_refuted, C60_mixture_partial, C61_accepted, C61_dependent_refuted, C61_equal_refuted, C62_uninitialised_refuted, C63_computed_refuted, C63_values_refuted, C64_hmm_late_partial, C64_hmm_partial, C64_hmm_varying_refuted, C65_categorical_axis, C65_categorical_partial, C65_categorical_refuted, C65_dirichlet, C65_dirichlet_raises, C65_multinomial, C66_elementwise, C66_scale_once, C66_scales, C72_total, C73_law_partial, C75_agree, C75_bound, C75_extends, C75_form, C75_logprob, C75_stable, C75_value, C76_raises, C76_rank, C76_rank_refuted, C79_empty_refuted, C79_joint_partial, C79_normal_partial, C79_raises_partial, C79_shapes, C79_values, C82_total, C83_backward_forward, C83_forward_backward, C83_no_axes, C84_total, C86_backward, C86_circular, C86_determinant_partial, C86_determinant_refuted, C86_inverse, C86_limits, C86_retraced, C87_cdf_geometric, C87_cdf_normal, C87_cdf_poisson, C87_cdf_uniform, C87_infinite, C87_infinite_refuted, C87_minus_infinite, C87_nan, C87_quantile_refuted, C87_undefined_partial, C87_undefined_refuted, C88_accepted, C88_range_refuted, C88_shared_refuted, C89_average_partial, C89_conditional_refuted, C89_omitted_refuted, C89_posterior_refuted, C89_realized, C91_accepted, C91_attained_partial, C91_elements, C92_order_refuted, C92_turns, C93_chain_refuted, C93_elements, C93_turns, C94_expectation_partial, C94_total_partial, C94_zero_mass_refuted, C95_cumsum_value, C95_discrete, C95_elements_partial, C95_mixed_join_refuted, C96_expectation_partial, C96_total_partial, C97_accepted, C97_expression_refuted, C98_repeated_refuted, C99_agree, C99_bound, C99_extends, C99_joint, C99_stable

**`classic`, `constructive_indefinite_description`, `functional_extensionality_dep`, `sig_forall_dec`, `sig_not_dec`** (48 theorems):
C100_density_partial, C13_simplex, C31_unit_jacobian, C51_asymmetric_refuted, C51_density, C57_vector_refuted, C58_given_partial, C58_given_sound_partial, C58_joint_partial, C58_sound_partial, C61_given_partial, C61_given_sound_partial, C61_joint_partial, C61_sound_partial, C66_before_simplex, C66_before_simplex_refuted, C66_determined, C66_refuted, C66_simplex, C66_simplex_scale, C66_total, C76_density_partial, C76_vector_axis, C76_vector_axis_refuted, C78_default_draws, C78_default_partial, C78_default_refuted, C78_draws_partial, C78_raises, C78_scalar, C78_single, C78_vector, C78_vector_refuted, C83_dirichlet, C83_transform, C88_joint_partial, C88_sound_partial, C91_density_partial, C91_sound_partial, C92_joint_partial, C92_no_jacobian_partial, C92_sound_partial, C93_density_partial, C93_sound_partial, C95_density_partial, C97_joint_partial, C97_sound_partial, C98_density_partial
