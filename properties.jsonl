{"id": "C01", "title": "Configuration with-blocks restore the options they name", "statement": "After a `with probnum.config(...)` block ends, every option named in the call has the value it had before the block, whatever the block did: nested blocks, assignments to the option inside the block, or an exception that leaves it. At the start of the block exactly the named options are changed; options not named are affected only by the body's own assignments. Programs that change options through with-blocks only leave every option unchanged. Naming an unknown option raises.", "quantifier": "all configurations, all finite option lists, all nested programs of assignments / with-blocks / raises", "why_tests_cant": "Tests run a few nesting shapes; the claim ranges over all programs and all exit points.", "anchors": ["src/probnum/_config.py: Configuration.__call__, __setattr__, register"]}
{"id": "C02", "title": "Stopping criteria compose as a Boolean algebra", "statement": "A criterion built from basic criteria with &, | and ~ stops exactly when the Boolean formula over the basic decisions is true, for every nesting, and the composition is insensitive to re-association.", "quantifier": "all criterion expressions, all inputs passed to the criterion", "why_tests_cant": "Expression trees are unbounded.", "anchors": ["src/probnum/_pnmethod/_stopping_criterion.py: StoppingCriterion.__and__, __or__, __invert__, LambdaStoppingCriterion"]}
{"id": "C03", "title": "ODE solver time grid is increasing and ends at tmax", "statement": "Whatever step-size rule and solver are used, the times reported by solve() start at t0 and are strictly increasing; if the first step is not longer than the integration interval they never exceed tmax and the last one is tmax.", "quantifier": "all step rules, all error estimates, all initial value problems, all numbers of steps and rejections", "why_tests_cant": "The grid depends on an unbounded sequence of error estimates and rejections.", "anchors": ["src/probnum/diffeq/_odesolver.py: ODESolver.solve, solution_generator, perform_full_step, _adjust_time_step"]}
{"id": "C04", "title": "stop_at locations are hit exactly", "statement": "Every location of a strictly increasing stop_at list after t0 that lies before or at tmax is one of the reported times when the solve finishes, and no reported time jumps over a requested location that has not been reported.", "quantifier": "all finite sorted lists of locations, all step rules and error sequences", "why_tests_cant": "Interaction of location list and step control has unboundedly many orderings.", "anchors": ["src/probnum/diffeq/_odesolver.py: ODESolver._process_event_inputs, _adjust_time_step"]}
{"id": "C05", "title": "Adaptive step control stays within its limits", "statement": "The step suggested after a step is the previous step times a factor within the configured limits, larger errors never give larger suggestions, a step is accepted exactly when its scaled error is smaller than one, an error is raised exactly when the suggestion leaves the configured step-size window, between the limits the suggestion is the proportional controller, and a step meeting the mixed tolerance in every component is accepted.", "quantifier": "all previous steps, scaled errors, local convergence rates and limit parameters", "why_tests_cant": "Real-valued inputs; boundary cases are a measure-zero set that sampling misses.", "anchors": ["src/probnum/diffeq/stepsize/_steprule.py: AdaptiveSteps.suggest, is_accepted, errorest_to_norm"]}
{"id": "C06", "title": "Rejected steps of the ODE loop leave no trace", "statement": "If rejected attempts do not modify the solver object (as for the ODE filters), a rejected attempt influences nothing but the next step size: the accepted state is that of a single attempt with the accepted step size from the original state.", "quantifier": "all sequences of rejected step sizes before an accepted one, all vector fields and methods", "why_tests_cant": "Retries are history dependent; a test fixes one rejection pattern.", "anchors": ["src/probnum/diffeq/_odesolver.py: perform_full_step", "src/probnum/diffeq/odefilter/_odefilter.py: attempt_step"]}
{"id": "C07", "title": "Constant-step solves terminate with the expected number of steps", "statement": "With ConstantSteps(h), h > 0, solve() terminates and takes ceil((tmax - t0)/h) steps; with adaptive steps it terminates whenever accepted step sizes are bounded below.", "quantifier": "all h > 0, all t0 < tmax", "why_tests_cant": "Termination for every input cannot be observed by a finite run.", "anchors": ["src/probnum/diffeq/_odesolver.py: solution_generator", "src/probnum/diffeq/stepsize/_steprule.py: ConstantSteps"]}
{"id": "C08", "title": "Kalman filter returns the exact conditional law", "statement": "For linear Gaussian state-space models (one measurement model per datum, transitions that may depend on the step length but not on absolute time) the filtering random variable at every location is the exact conditional distribution of the state given all data up to that location: mean an affine function of the data whose error is uncorrelated with every observation, covariance the covariance of that error. With non-degenerate measurement noise filtering never fails.", "quantifier": "all state/observation dimensions, all models, all data, all numbers of time steps", "why_tests_cant": "Number of steps and dimensions unbounded; tests compare with a few precomputed examples.", "anchors": ["src/probnum/filtsmooth/gaussian/_kalman.py: Kalman.filter_generator", "src/probnum/randprocs/markov/discrete/_linear_gaussian.py: LinearGaussian._forward_rv_classic, _backward_rv_classic"]}
{"id": "C09", "title": "Kalman smoother returns the exact smoothing law", "statement": "For linear Gaussian models as in the filtering property the smoothing random variable at every location is the exact conditional distribution of the state given all data, past and future. With non-degenerate noises smoothing never fails.", "quantifier": "all dimensions, all models, all data, all numbers of time steps", "why_tests_cant": "As for the filter; the backward recursion is an unbounded induction.", "anchors": ["src/probnum/filtsmooth/gaussian/_kalman.py: Kalman.smooth", "src/probnum/randprocs/markov/_transition.py: Transition.smooth_list", "src/probnum/randprocs/markov/discrete/_linear_gaussian.py: _backward_rv_classic"]}
{"id": "C10", "title": "Square-root and classic transition implementations agree", "statement": "For every linear Gaussian transition whose output dimension does not exceed its input dimension the forward result of the square-root implementation has the mean, covariance and gain of the classic one; the backward results agree for exact data in every dimension, for given gains, and otherwise whenever the forward results do. Joseph updates agree with the classic ones. Hence filter and smoother runs with square-root transitions equal those with classic transitions.", "quantifier": "all transitions, all random variables, all valid QR factorisations", "why_tests_cant": "QR is only determined up to signs; equality must hold for every admissible factor.", "anchors": ["src/probnum/randprocs/markov/discrete/_linear_gaussian.py: _forward_rv_sqrt, _backward_rv_sqrt", "src/probnum/utils/linalg/_cholesky_updates.py: cholesky_update"]}
{"id": "C11", "title": "Covariances returned by filter and smoother are symmetric positive semidefinite", "statement": "If the prior and noise covariances are symmetric positive semidefinite, so is every covariance returned by forward and backward transitions and hence at every time of a filter or smoother run; filtering never increases the covariance.", "quantifier": "all dimensions, models, data and run lengths", "why_tests_cant": "Preservation must hold at each of unboundedly many steps.", "anchors": ["src/probnum/randprocs/markov/discrete/_linear_gaussian.py"]}
{"id": "C12", "title": "Integrated Wiener process discretisation is a consistent semigroup", "statement": "The discretised integrated Wiener process satisfies the Chapman-Kolmogorov equations: for positive steps, stepping h1 then h2 has the same transition matrix, process noise covariance and effect on normal states as stepping h1 + h2, for every number of derivatives and dimension.", "quantifier": "all num_derivatives, wiener_process_dimension, all step sizes in any real field", "why_tests_cant": "Infinite family of matrices with real-valued step.", "anchors": ["src/probnum/randprocs/markov/integrator/_iwp.py: IntegratedWienerTransition.discretise, equivalent_discretisation_preconditioned"]}
{"id": "C13", "title": "Preconditioning does not change the transition", "statement": "Applying the preconditioned transition between preconditioner and its inverse gives the same forward result, cross-covariance, gain and, if no gain is passed, backward result as the un-preconditioned discretisation, for all implementations.", "quantifier": "all num_derivatives, step sizes h != 0, random variables", "why_tests_cant": "Infinite family; reported gain never compared in tests.", "anchors": ["src/probnum/randprocs/markov/integrator/_iwp.py: forward_rv, backward_rv", "src/probnum/randprocs/markov/integrator/_preconditioner.py: NordsieckLikeCoordinates"]}
{"id": "C14", "title": "cholesky_update returns a valid factor of the sum", "statement": "cholesky_update(S1) for every S1, and cholesky_update(S1, S2) for every S1 with at least as many columns as rows, return a lower-triangular square matrix with non-negative diagonal whose Gram matrix is S1 S1^T (+ S2 S2^T); tril_to_positive_tril changes only column signs.", "quantifier": "all matrices, all valid QR factorisations", "why_tests_cant": "Real-valued matrices of any size and every sign choice of the QR routine.", "anchors": ["src/probnum/utils/linalg/_cholesky_updates.py: cholesky_update, tril_to_positive_tril"]}
{"id": "C15", "title": "Gram-Schmidt orthogonalisation is exact", "statement": "For a family of vectors that is orthogonal with non-zero squared norms with respect to the given inner product (Euclidean, given by any matrix, or a callable that is linear in its second argument), gram_schmidt, modified_gram_schmidt and double_gram_schmidt (with either variant) all return the same vector: the only one orthogonal to every basis vector that differs from the input by an element of their span. With normalize they return it divided by its norm, if that is positive.", "quantifier": "all dimensions, all bases, vectors and inner product matrices", "why_tests_cant": "Unbounded basis length and real-valued data.", "anchors": ["src/probnum/utils/linalg/_orthogonalize.py: gram_schmidt, modified_gram_schmidt, double_gram_schmidt"]}
{"id": "C16", "title": "Posterior containers stay sorted and answer at their locations", "statement": "A posterior built by any sequence of appends and freezes has strictly increasing locations aligned with its states, and they are exactly the appends that did not raise; an append raises exactly if the posterior is frozen or the location is not later than all stored ones, and then changes nothing. Evaluating a filtering or smoothing posterior at a stored location returns the stored state; between and after the locations the neighbouring ones are used; to the left it raises; an array is evaluated entry by entry and must be sorted.", "quantifier": "all append sequences, all evaluation points", "why_tests_cant": "History-dependent invariant.", "anchors": ["src/probnum/filtsmooth/_timeseriesposterior.py: TimeSeriesPosterior", "src/probnum/filtsmooth/gaussian/_kalmanposterior.py: interpolate"]}
{"id": "C17", "title": "Particle filter weights are a probability distribution", "statement": "Every filtering state yielded by the particle filter has as many support points as particles and positive event weights summing to one, and its effective number of events lies between one and the number of particles.", "quantifier": "all models with positive likelihoods, all random draws, all numbers of steps", "why_tests_cant": "Quantifies over random draws and histories.", "anchors": ["src/probnum/filtsmooth/particle/_particle_filter.py: ParticleFilter.filter_generator, effective_number_of_events", "src/probnum/randvars/_categorical.py: Categorical.resample"]}
{"id": "C18", "title": "Resampling is effective", "statement": "Once the effective number of particles falls below the threshold, subsequent filtering uses the resampled particles.", "quantifier": "all particle histories, all categorical random variables, duplicates included", "why_tests_cant": "History dependence; duplicates in the support appear only after resampling.", "anchors": ["src/probnum/filtsmooth/particle/_particle_filter.py: filter_generator"]}
{"id": "C19", "title": "Merging regression problems loses no data", "statement": "Merging two regression problems with distinct locations each raises exactly if a location is shared or array shapes differ. Otherwise the new locations are strictly increasing and each observation occurs with its location and measurement model (and solution, if both problems have one) exactly as often as in the two problems, and nothing else.", "quantifier": "all pairs of regression problems, all interleavings of locations", "why_tests_cant": "Interleavings are unbounded.", "anchors": ["src/probnum/filtsmooth/utils/_merge_regression_problems.py: merge_regression_problems"]}
{"id": "C20", "title": "Linear-operator arithmetic denotes matrix arithmetic", "statement": "Every well-shaped expression built from linear operators (Matrix, LambdaLinearOperator, Identity, Scaling, Zero, Selection, Embedding, Symmetrize, Kronecker, IdentityKronecker, SymmetricKronecker, BlockDiagonalMatrix) with +, -, unary -, scalar *, @, .T and inv() of invertible operands evaluates to an operator with the shape, the dense form and the action on vectors of the matrix expression; only an inverse can raise. LambdaLinearOperators occur outside Kronecker factors only.", "quantifier": "all operator expressions of any depth and any shapes", "why_tests_cant": "Dispatch table times unbounded expression trees.", "anchors": ["src/probnum/linops/_arithmetic.py: _apply, add, sub, mul, matmul registries", "src/probnum/linops/_arithmetic_fallbacks.py", "src/probnum/linops/_scaling.py", "src/probnum/linops/_linear_operator.py"]}
{"id": "C21", "title": "Structure flags are never wrong when True", "statement": "If an operator computed by such an expression (with square blocks in block diagonal operators, and truthful flags on the given matrices) reports is_symmetric, is_lower_triangular, is_upper_triangular or is_positive_definite as True, its dense matrix has the property.", "quantifier": "all operator expressions, all matrices", "why_tests_cant": "Flag propagation rules over unbounded expression trees.", "anchors": ["src/probnum/linops/_linear_operator.py: is_symmetric..., TransposedLinearOperator", "src/probnum/linops/_kronecker.py", "src/probnum/linops/_block.py", "src/probnum/linops/_arithmetic_fallbacks.py"]}
{"id": "C22", "title": "Structure flags are write-once", "statement": "A known flag of a linear operator keeps its value through every sequence of assignments; an assignment raises exactly if it contradicts the known value, asserts symmetry of a non-square operator, or asserts positive definiteness of an operator not known to be symmetric, and then changes nothing; otherwise it changes that flag only. No sequence of assignments makes an operator positive definite but not symmetric, or symmetric but not square.", "quantifier": "all sequences of flag reads, writes and transpositions", "why_tests_cant": "History-dependent.", "anchors": ["src/probnum/linops/_linear_operator.py: is_symmetric setters, T, _set_property"]}
{"id": "C23", "title": "Kronecker products implement Kronecker algebra", "statement": "Matrix product with a Kronecker linear operator equals the product with the dense Kronecker matrix; products, transposes, inverses, traces, determinants of Kronecker operators equal those of the dense matrix.", "quantifier": "all factor shapes and matrices", "why_tests_cant": "Infinite family of shapes; index arithmetic.", "anchors": ["src/probnum/linops/_kronecker.py: Kronecker._matmul, T, inv, det, trace; _arithmetic.py: _matmul_kronecker"]}
{"id": "C24", "title": "Block-diagonal operators act blockwise", "statement": "A block diagonal linear operator applied to stacked vectors applies each block to its part; its dense form, transpose, trace, determinant and inverse are composed of those of the blocks.", "quantifier": "all finite block lists with any shapes", "why_tests_cant": "Unbounded number of blocks.", "anchors": ["src/probnum/linops/_block.py: BlockDiagonalMatrix"]}
{"id": "C25", "title": "Selection and embedding are mutually transposed", "statement": "For indices without repetition, a Selection picks the given entries, the Embedding puts them back and fills the rest with zeros, both are transposes of each other in dense form and action, Selection @ Embedding is the identity and Embedding @ Selection the projection, also after the library's simplification.", "quantifier": "all tuples of distinct indices, shapes and vectors", "why_tests_cant": "Index tuples unbounded; duplicates and permutations rarely tested.", "anchors": ["src/probnum/linops/_linear_operator.py: Selection, Embedding", "src/probnum/linops/_arithmetic.py: _matmul_selection_embedding"]}
{"id": "C26", "title": "Gaussian arithmetic gives the law of the transformed variable", "statement": "Sums and differences of independent normal random variables and constants, negation, scaling with and division by constants with one element, and matrix products with constant vectors and matrices from either side return the random variable with the mean and covariance of the transformed quantity, broadcast as NumPy does; a stored Cholesky factor stays a square root of the covariance. Matrix products with matching shapes do not raise, except for vectors times random variables of shape (n, 1).", "quantifier": "all shapes, means, covariances and constants", "why_tests_cant": "Real-valued matrices of any size.", "anchors": ["src/probnum/randvars/_arithmetic.py", "src/probnum/randvars/_normal.py: __init__, __neg__, _add_normal, _sub_normal"]}
{"id": "C27", "title": "Indexing, reshaping and transposing random variables", "statement": "For normal and constant random variables, rv[key] with one entry of the key per axis (integers of either sign, slices, index arrays, None), reshape (except to a scalar) and transpose (without axes, or with non-negative axes) are defined and have the mean and covariance of the selected, reshaped or transposed quantity. Samples of reshaped generic random variables are the reshaped samples, for every sample size.", "quantifier": "all shapes, keys, axes, means, covariances, sample sizes", "why_tests_cant": "Shape combinations are unbounded.", "anchors": ["src/probnum/randvars/_normal.py: __getitem__, reshape, transpose", "src/probnum/randvars/_constant.py: __getitem__, reshape, transpose", "src/probnum/randvars/_random_variable.py: reshape"]}
{"id": "C28", "title": "Function algebra is pointwise", "statement": "Evaluating any nesting of sums, differences, scalings and negations of probnum functions with equal shapes gives what the operations give on the values of the functions, raising exactly if that raises, and the result has the same shapes. Adding or subtracting functions of different shapes raises, unless one of them is the zero function.", "quantifier": "all function expressions, shapes, inputs and batches", "why_tests_cant": "Expression trees are unbounded.", "anchors": ["src/probnum/functions/_algebra.py, _algebra_fallbacks.py"]}
{"id": "C29", "title": "Covariance-function algebra is pointwise and matrices are consistent", "statement": "Calling any nesting of sums, products and scalings of covariance functions with equal shapes returns, over the broadcast batch, the sum, product or multiple of the values of the parts at the respective points, with the documented shape; a missing second argument stands for the first. matrix contains the values at all pairs of points, ordered as documented, and linop is the same matrix. Calls with inputs of other shapes raise; so do sums and products of covariance functions with different shapes.", "quantifier": "all expressions, shapes and batches of inputs", "why_tests_cant": "Expression trees and shapes are unbounded.", "anchors": ["src/probnum/randprocs/covfuncs/_arithmetic_fallbacks.py", "src/probnum/randprocs/covfuncs/_covariance_function.py: _evaluate_matrix"]}
{"id": "C30", "title": "Half-integer Matern evaluation equals the Matern polynomial", "statement": "half_integer_coefficients returns the documented coefficients, the degree-(p-i) coefficient being (p!/(2p)!)\u00b7((p+i)!/(i!(p\u2212i)!))\u00b72^{p\u2212i}, and evaluating a half-integer Mat\u00e9rn kernel by Horner's method gives the documented polynomial times the exponential.", "quantifier": "all p, all distances", "why_tests_cant": "Infinite family in p.", "anchors": ["src/probnum/randprocs/covfuncs/_matern.py: half_integer_coefficients, _evaluate"]}
{"id": "C31", "title": "The linear solver's residual always belongs to the current belief", "statement": "At every state yielded by a probabilistic linear solver run and inside every policy, information operator, belief update and stopping criterion called by it, reading the solver state's residual returns b - A x for the current belief's mean, however often and whenever it is read; the recorded actions and observations are those of the steps taken.", "quantifier": "all policies, updates, numbers of iterations and read patterns", "why_tests_cant": "Cache invalidation is history-dependent.", "anchors": ["src/probnum/linalg/solvers/_state.py: LinearSolverState.residual, next_step", "src/probnum/linalg/solvers/_probabilistic_linear_solver.py: solve_iterator"]}
{"id": "C32", "title": "The linear solver stops", "statement": "With a maximum-iterations criterion the solver yields at most that many updates, and it yields fewer exactly if another criterion was met; the returned belief is the last one.", "quantifier": "all policies, all criteria, all problems", "why_tests_cant": "Termination for every input.", "anchors": ["src/probnum/linalg/solvers/_probabilistic_linear_solver.py: solve", "src/probnum/linalg/solvers/stopping_criteria/_maxiter.py"]}
{"id": "C33", "title": "Solution-based belief updates satisfy all observed projections", "statement": "For square systems and arbitrary policies, stopping criteria and actions of the ProbabilisticLinearSolver with noise-free projected-residual observations: if the prior covariance S is symmetric positive semidefinite and x* - x0 lies in its range for a solution x*, then after any number of steps every observed projection s_j^T (b - A x) = 0 holds, the covariance annihilates A^T s_j and stays symmetric positive semidefinite and below S, and with spanning actions A x = b. For any noise variance the covariance never grows, and the belief is the conditional law of a solution with the prior's law given the noisy projections.", "quantifier": "all square matrices, right-hand sides, action sequences, priors, noise variances and stopping criteria", "why_tests_cant": "Induction over arbitrary action sequences.", "anchors": ["src/probnum/linalg/solvers/belief_updates/solution_based/_projected_residual_belief_update.py"]}
{"id": "C34", "title": "Conjugate-gradient policy produces conjugate actions and finite termination", "statement": "With the conjugate gradient policy, noise-free projected-residual updates and a positive definite prior covariance S, as long as no residual vanished the residuals are mutually orthogonal, the actions are conjugate in A S A^T, at most n steps were made, and after n steps the solution is exact. Reorthogonalising residuals or actions by any of the library's functions does not change this (if neither stopping criterion nor consumer writes the solver's cache).", "quantifier": "all dimensions n, all nonsingular A, all priors with positive definite covariance, all b", "why_tests_cant": "Induction over iterations for arbitrary n.", "anchors": ["src/probnum/linalg/solvers/policies/_conjugate_gradient.py", "src/probnum/linalg/solvers/belief_updates/solution_based/_projected_residual_belief_update.py"]}
{"id": "C35", "title": "Matrix-based belief updates satisfy all secant equations", "statement": "After any matrix-based or symmetric matrix-based updates with observations A s of an invertible (symmetric) A and positive definite prior covariance factors, the posterior mean for A maps every past action to its observation, the mean for the inverse maps it back, and the covariance factors annihilate past actions, even if actions are dependent; if the actions span the space both means and the induced solution are exact. Whatever is observed, covariance factors stay positive semidefinite and never grow and the symmetric update preserves symmetry. The beliefs are the conditional laws of a Gaussian random matrix with (symmetric) Kronecker covariance given its products with the actions.", "quantifier": "all sizes, action sequences and priors", "why_tests_cant": "Induction over steps.", "anchors": ["src/probnum/linalg/solvers/belief_updates/matrix_based/"]}
{"id": "C36", "title": "The symmetric matrix-based solver is consistent", "statement": "When the matrix-based problinsolve solver (no calibration) is run once on a symmetric matrix with symmetric priors: the reported residual norm is that of the returned solution; the reported stopping criterion holds for what is returned, is the first one met, and iterations never exceed maxiter. As long as the solution is finite, the search directions are A-conjugate and the residual is orthogonal to them, the returned means of A and its inverse are symmetric and satisfy all secant equations, and the covariance factors annihilate actions and observations. There are at most n finite iterations, and after n of them solution, matrix and inverse are exact with zero factors. Factors stay positive semidefinite. Unless exactly one iteration was made, returned covariances belong to the returned means and trace_sol_cov is the trace of the returned covariance.", "quantifier": "all sizes, symmetric systems (not only definite ones), symmetric priors, tolerances and iteration limits", "why_tests_cant": "Induction over iterations for arbitrary n.", "anchors": ["src/probnum/linalg/solvers/matrixbased.py: SymmetricMatrixBasedSolver.solve, _get_output_randvars"]}
{"id": "C37", "title": "Prior means built from an initial guess are consistent", "statement": "When a prior is constructed from a guess x0 with b^T x0 > 0, the prior mean of the inverse maps b to x0, is symmetric positive definite and is the inverse of the prior mean of A. For b^T x0 < 0 the same holds with -x0, for b^T x0 = 0 and b^T A b > 0 with (b^T b / b^T A b) b; b = 0 gives non-finite numbers.", "quantifier": "all n, A, b and x0", "why_tests_cant": "Real-valued vectors of any size.", "anchors": ["src/probnum/linalg/solvers/matrixbased.py: _construct_symmetric_matrix_prior_means"]}
{"id": "C38", "title": "Random unit vector policy samples rows without repetition", "statement": "Successive calls of the random unit vector policy with the same solver state return standard unit vectors. With replacement, each index is drawn with the initial probability, which is 1/n or proportional to the squared norm of the column of A. Without replacement and with positive initial probabilities, the first n calls return every unit vector exactly once, each index not drawn before having its conditional probability; further calls raise.", "quantifier": "all matrices, all sequences of uniform draws", "why_tests_cant": "Quantifies over random draws.", "anchors": ["src/probnum/linalg/solvers/policies/_random_unit_vector.py"]}
{"id": "C39", "title": "Bayesian quadrature posterior does not depend on batching", "statement": "For a symmetric kernel, adding nodes in any sequence of non-empty batches gives the same Gram matrix, factor, kernel means, scale, mean and variance as adding them all at once, and fails in the same cases.", "quantifier": "all node sets, all partitions into batches, all symmetric kernels", "why_tests_cant": "Partitions are unbounded.", "anchors": ["src/probnum/quad/solvers/belief_updates/_standard_update.py: BQStandardBeliefUpdate"]}
{"id": "C40", "title": "Bayesian quadrature variance is non-negative and never grows", "statement": "The variance of the integral and of every predicted value is non-negative and at most the prior variance times the scale. Without scale estimation, adding nodes never increases it. With zero jitter the conditioned process interpolates: at a node it predicts the evaluation with zero variance.", "quantifier": "all positive semidefinite kernels with embeddings, non-negative jitters, batches", "why_tests_cant": "Real-valued matrices of any size.", "anchors": ["src/probnum/quad/solvers/belief_updates/_standard_update.py", "src/probnum/quad/solvers/acquisition_functions/"]}
{"id": "C41", "title": "The variance-reduction acquisition predicts the actual reduction", "statement": "The value of the integral-variance-reduction acquisition function lies in [0,1]. With zero jitter and without scale estimation it equals the relative decrease of the variance when the point is added; with jitter it is at least that.", "quantifier": "all positive semidefinite kernels, node sets, candidate points and function values", "why_tests_cant": "Real-valued, any number of nodes.", "anchors": ["src/probnum/quad/solvers/acquisition_functions/_integral_variance_reduction.py"]}
{"id": "C42", "title": "The Bayesian quadrature loop respects its evaluation budget", "statement": "The reported number of evaluations is the number of stored evaluations, it overshoots the budget by less than one batch, evaluations are never discarded and the loop stops as soon as some criterion holds.", "quantifier": "all policies, integrands, batch sizes and criteria", "why_tests_cant": "Loop over arbitrary policies.", "anchors": ["src/probnum/quad/solvers/_bayesian_quadrature.py: bq_iterator, integrate", "src/probnum/quad/solvers/_bq_state.py", "src/probnum/quad/solvers/stopping_criteria/"]}
{"id": "C43", "title": "Van der Corput nodes are distinct, interior and batch-independent", "statement": "Van der Corput values are the bit-reversal radical inverses, lie strictly inside the domain, are pairwise distinct, and requesting them in batches yields the same sequence as at once.", "quantifier": "all positive integers, all batch sizes, all finite domains", "why_tests_cant": "Infinite sequence.", "anchors": ["src/probnum/quad/solvers/policies/_van_der_corput_policy.py"]}
{"id": "C44", "title": "Integration domains are validated", "statement": "as_domain accepts exactly the arguments that describe a box (two bounds, each a scalar broadcast to a given positive input_dim or a vector of that length) with every lower bound strictly below its upper bound, and returns the two bound vectors of length input_dim; it raises otherwise.", "quantifier": "all inputs", "why_tests_cant": "All shape combinations.", "anchors": ["src/probnum/quad/_utils.py: as_domain"]}
{"id": "C45", "title": "Matern-Lebesgue kernel embeddings are the true integrals", "statement": "For the Matern kernel in one variable and for ProductMatern, with smoothness 1/2, 3/2, 5/2, 7/2 in every coordinate, kernel_mean(x) for x in the domain is the integral of the covariance function in its first argument with respect to the (normalised or unnormalised) Lebesgue measure on the box, and kernel_variance() is the integral in both arguments. Every other smoothness, and a Matern kernel in several variables, raises.", "quantifier": "all dimensions, boxes, length scales, points of the domain", "why_tests_cant": "Real-valued closed forms; tests compare with numerical quadrature for a few parameters.", "anchors": ["src/probnum/quad/kernel_embeddings/_matern_lebesgue.py", "src/probnum/quad/integration_measures/_lebesgue_measure.py"]}
{"id": "C46", "title": "Multilevel quadrature adds independent levels", "statement": "multilevel_bayesquad_from_data returns the normal variable whose mean and variance are the sums over the levels of what bayesquad_from_data returns; one node set is shared by all levels; it fails exactly if the numbers of levels differ or a level fails.", "quantifier": "all numbers of levels", "why_tests_cant": "Unbounded number of levels.", "anchors": ["src/probnum/quad/_bayesquad.py: multilevel_bayesquad_from_data"]}
{"id": "C47", "title": "Unscented Kalman filter matches moments", "statement": "Sigma points and weights have the mean of the input and the covariance L L^T of its Cholesky factor, and their images under an affine function have the transformed moments. The prediction of the linearised model has the mean of the transformed points; without the regularisation of the linear system it has their covariance and cross-covariance, so it is exact for affine models. With regularisation eps, the covariance of an affine model is predicted up to -eps G G^T, where G is the matrix of the linearised model.", "quantifier": "all dimensions d >= 1, means, covariances, transition functions and noises", "why_tests_cant": "Any dimension.", "anchors": ["src/probnum/filtsmooth/gaussian/approx/_unscentedkalman.py: _spherical_cubature_unit_params, _linearize_via_cubature, _linearization_system_matrices"]}
{"id": "C48", "title": "Linearisation is exact for affine models", "statement": "An extended Kalman transition of an affine model is the linear Gaussian transition, wherever it is linearised; for any model the linearisation has value and Jacobian of the model at the given state's mean and keeps the noise. EK1 is exact for affine ODEs, EK0 for constant vector fields; for differentiable vector fields, the error of EK1's linear model of the residual is small of first order.", "quantifier": "all affine models and linearisation points", "why_tests_cant": "Any dimension.", "anchors": ["src/probnum/filtsmooth/gaussian/approx/_extendedkalman.py", "src/probnum/diffeq/odefilter/approx_strategies/_ek.py"]}
{"id": "C49", "title": "A constant diffusion is the mean of the local estimates", "statement": "After any number of updates ConstantDiffusion returns the mean of all local estimates.", "quantifier": "all sequences of estimates and query times", "why_tests_cant": "History dependent.", "anchors": ["src/probnum/randprocs/markov/continuous/_diffusions.py"]}
{"id": "C50", "title": "Posterior samples have the joint smoothing law", "statement": "Transforming independent standard normal draws backward through a smoothing posterior gives trajectories with the exact joint conditional law of the states at all locations given all data: means, covariances and cross-covariances over time.", "quantifier": "all chain lengths, dimensions and models", "why_tests_cant": "Joint law over unboundedly many steps.", "anchors": ["src/probnum/randprocs/markov/_transition.py: jointly_transform_base_measure_realization_list_forward/backward"]}
{"id": "C51", "title": "Shape arguments are normalised", "statement": "For arguments that can be iterated repeatedly, as_shape accepts exactly integers and iterables of integers (with the requested number of entries when ndim is given) and returns the tuple of the same integers; it raises otherwise.", "quantifier": "all inputs", "why_tests_cant": "All shapes.", "anchors": ["src/probnum/utils/argutils.py: as_shape"]}
{"id": "C52", "title": "LTI SDE discretisation is the variation-of-constants solution", "statement": "Discretising a linear time-invariant SDE with matrix fraction decomposition yields the transition matrix expm(dt F) and the process noise covariance (the integral of expm(u F) L L^T expm(u F)^T over [0, dt]) of the exact solution; without force, in dimension one, and for forces that read the same in reverse, also the shift (the integral of expm(u F) f).", "quantifier": "all drift and dispersion matrices, all step sizes", "why_tests_cant": "Real-valued matrices of any size.", "anchors": ["src/probnum/randprocs/markov/continuous/_lti_sde.py: discretise", "src/probnum/randprocs/markov/continuous/_mfd.py"]}
{"id": "C53", "title": "Perturbed-step dense output uses the scale of its own step", "statement": "Dense output of the perturbed step solver within a piece uses the scale factor drawn for that piece, so that the interpolant is evaluated on exactly its own interval, at its end points at the end points of the piece.", "quantifier": "all perturbation draws and rejection patterns", "why_tests_cant": "Depends on history of rejections.", "anchors": ["src/probnum/diffeq/perturbed/step/_perturbedstepsolver.py", "src/probnum/diffeq/perturbed/step/_perturbedstepsolution.py"]}
{"id": "C54", "title": "ODE filter calibration is consistent", "statement": "With a constant diffusion, the filtering states returned by the Gaussian ODE filter (autonomous ODE) are the laws, given that all linearised residuals so far vanish, under the prior whose initial covariance and diffusion are scaled by the final diffusion estimate; that is the mean of the local quasi maximum likelihood estimates of all steps after the first (of the first if there is only one).", "quantifier": "all step sequences and models", "why_tests_cant": "History dependent.", "anchors": ["src/probnum/diffeq/odefilter/_odefilter.py: postprocess"]}
{"id": "C55", "title": "A failing configuration call changes nothing", "statement": "A configuration call naming an unknown option raises and leaves every option as it was.", "quantifier": "all configurations, all finite option lists", "why_tests_cant": "Depends on the position of the unknown option among all named ones.", "anchors": ["src/probnum/_config.py: Configuration.__call__"]}
{"id": "C56", "title": "solve() never integrates past tmax", "statement": "Whatever first step and step rule are chosen, no reported time exceeds tmax.", "quantifier": "all step rules including constant steps longer than the interval", "why_tests_cant": "Ranges over all first steps.", "anchors": ["src/probnum/diffeq/_odesolver.py: solution_generator"]}
{"id": "C57", "title": "stop_at tolerates early and repeated locations", "statement": "Locations at or before t0 or repeated locations in stop_at do not make the solver step backwards or take steps of size zero.", "quantifier": "all sorted location lists", "why_tests_cant": "Depends on several locations falling before the current time.", "anchors": ["src/probnum/diffeq/_odesolver.py: _adjust_time_step"]}
{"id": "C58", "title": "Rejected Runge-Kutta steps leave no trace", "statement": "Each state reported by the wrapped SciPy Runge-Kutta solver is the Runge-Kutta step of the accepted size from its predecessor, however many attempts were rejected before.", "quantifier": "all tableaus, vector fields, step rules, rejection patterns", "why_tests_cant": "Rejection patterns are unbounded and history dependent.", "anchors": ["src/probnum/diffeq/perturbed/scipy_wrapper/_wrapped_scipy_solver.py: attempt_step"]}
{"id": "C59", "title": "Step perturbation functions respect their laws", "statement": "Uniformly perturbed steps stay within noise_scale * step^(order+1/2) of the step (and positive for noise_scale < 1); log-normally perturbed steps are positive with log-space parameters whose mean is exactly the step.", "quantifier": "all steps, orders, noise scales and draws", "why_tests_cant": "Draws are continuous.", "anchors": ["src/probnum/diffeq/perturbed/step/_perturbation_functions.py"]}
{"id": "C60", "title": "as_colvec makes columns", "statement": "as_colvec turns one-dimensional arrays and random variables into columns and leaves others unchanged.", "quantifier": "all arrays and random variables", "why_tests_cant": "All shapes.", "anchors": ["src/probnum/utils/arrayutils.py: as_colvec"]}
{"id": "C61", "title": "The residual follows an assigned belief", "statement": "After assigning a new belief to a linear solver state, reading its residual returns b - A x for the new belief.", "quantifier": "all states and beliefs", "why_tests_cant": "History dependent caching.", "anchors": ["src/probnum/linalg/solvers/_state.py: LinearSolverState.belief"]}
{"id": "C62", "title": "Integration domains have positive dimension", "statement": "The input dimension returned by as_domain is at least one.", "quantifier": "all inputs", "why_tests_cant": "All shape combinations.", "anchors": ["src/probnum/quad/_utils.py: as_domain"]}
{"id": "C63", "title": "as_shape accepts any iterable", "statement": "as_shape returns the tuple of the integers produced by its argument for every iterable, including one-shot iterators.", "quantifier": "all iterables", "why_tests_cant": "Statefulness of the argument.", "anchors": ["src/probnum/utils/argutils.py: as_shape"]}
{"id": "C64", "title": "A constant quadrature estimate meets every relative tolerance", "statement": "With a relative tolerance as only stopping criterion the quadrature loop stops once the estimated integral no longer changes.", "quantifier": "all integrands and policies", "why_tests_cant": "Needs infinitely many iterations.", "anchors": ["src/probnum/quad/solvers/stopping_criteria/_rel_mean_change.py"]}
{"id": "C65", "title": "Filtering with time-dependent transitions is exact", "statement": "For linear Gaussian models whose transition depends on absolute time (documented as the start of the step) the filtering random variables are the exact conditional distributions.", "quantifier": "all time-dependent models", "why_tests_cant": "Depends on the time argument passed at every step.", "anchors": ["src/probnum/filtsmooth/gaussian/_kalman.py: filter_generator", "src/probnum/randprocs/markov/discrete/_linear_gaussian.py: forward_rv"]}
{"id": "C66", "title": "Filtering with time-dependent measurement models is exact", "statement": "For measurement models that depend on time the filtering random variables are the exact conditional distributions given data observed through the model at the datum's location.", "quantifier": "all time-dependent measurement models", "why_tests_cant": "Depends on the time argument passed at every step.", "anchors": ["src/probnum/filtsmooth/gaussian/_kalman.py: filter_generator"]}
{"id": "C67", "title": "cholesky_update accepts square roots of any shape", "statement": "cholesky_update(S1, S2) returns a Cholesky factor of S1 S1^T + S2 S2^T also when S1 has fewer columns than rows.", "quantifier": "all shapes", "why_tests_cant": "All shapes of both arguments.", "anchors": ["src/probnum/utils/linalg/_cholesky_updates.py: cholesky_update"]}
{"id": "C68", "title": "Square-root forward transitions to higher dimensions", "statement": "The square-root forward transition agrees with the classic one also when the output dimension exceeds the input dimension.", "quantifier": "all dimensions", "why_tests_cant": "All shapes.", "anchors": ["src/probnum/randprocs/markov/discrete/_linear_gaussian.py: _forward_rv_sqrt"]}
{"id": "C69", "title": "Prior samples have the joint law of the Markov chain", "statement": "Transforming independent standard normal draws forward through a Markov process gives trajectories whose joint mean and covariance over all times are those of the chain.", "quantifier": "all linear Gaussian transitions, initial laws and time grids", "why_tests_cant": "A statement about joint laws; sampling tests are statistical and check marginals.", "anchors": ["src/probnum/randprocs/markov/_transition.py: jointly_transform_base_measure_realization_list_forward", "src/probnum/randprocs/markov/_markov_process.py: _sample_at_input"]}
{"id": "C70", "title": "Prior samples respect the initial time", "statement": "Prior samples at arguments that start after the initial argument of the process have the law of the process at those arguments.", "quantifier": "all processes and arguments", "why_tests_cant": "Needs the law, not only the shape, of samples.", "anchors": ["src/probnum/randprocs/markov/_markov_process.py: _sample_at_input"]}
{"id": "C71", "title": "Dense filtering output and extrapolation are exact", "statement": "Evaluating a filtering posterior between two locations gives the exact conditional law of the state at that time given the data up to the left location; evaluating a filtering or smoothing posterior after the last location gives the exact conditional law given all data.", "quantifier": "all models, data, times", "why_tests_cant": "All times between grid points and all data.", "anchors": ["src/probnum/filtsmooth/gaussian/_kalmanposterior.py: FilteringPosterior.interpolate", "src/probnum/filtsmooth/gaussian/_kalmanposterior.py: SmoothingPosterior.interpolate"]}
{"id": "C72", "title": "Dense smoothing output is exact", "statement": "Evaluating a smoothing posterior between two locations gives the exact conditional law of the state at that time given all data.", "quantifier": "all models, data, times", "why_tests_cant": "All times between grid points and all data.", "anchors": ["src/probnum/filtsmooth/gaussian/_kalmanposterior.py: SmoothingPosterior.interpolate"]}
{"id": "C73", "title": "Merging keeps repeated observations", "statement": "Merging regression problems with disjoint locations keeps all observations also if one problem has several observations at one location.", "quantifier": "all problems", "why_tests_cant": "Depends on repetitions inside one problem.", "anchors": ["src/probnum/filtsmooth/utils/_merge_regression_problems.py: merge_regression_problems"]}
{"id": "C74", "title": "Categorical probability mass functions", "statement": "For a categorical random variable with distinct scalar events the pmf returns the given probabilities, is zero for other values, sums to one and is maximal at the mode.", "quantifier": "all categorical variables with distinct scalar events", "why_tests_cant": "All supports.", "anchors": ["src/probnum/randvars/_categorical.py: Categorical"]}
{"id": "C75", "title": "The pmf of a resampled categorical variable sums to one", "statement": "Resampling a categorical random variable yields a categorical random variable whose pmf sums to one over its distinct events.", "quantifier": "all categorical variables and draws", "why_tests_cant": "Repetitions depend on the draws.", "anchors": ["src/probnum/randvars/_categorical.py: resample"]}
{"id": "C76", "title": "The pmf of vector-valued categorical variables", "statement": "For a categorical random variable with distinct vector-valued events the pmf returns the given probability of each event and zero for other vectors.", "quantifier": "all vector-valued categorical variables", "why_tests_cant": "Depends on coincidences of single components.", "anchors": ["src/probnum/randvars/_categorical.py: Categorical"]}
{"id": "C77", "title": "Particle weights are importance weights", "statement": "Without resampling the weight of a particle is proportional to the product, over all steps, of the likelihood and the ratio of dynamics and proposal density along its path.", "quantifier": "all models, proposals and data", "why_tests_cant": "Involves all past steps.", "anchors": ["src/probnum/filtsmooth/particle/_importance_distributions.py: log_correction_factor", "src/probnum/filtsmooth/particle/_particle_filter.py: filter_generator"]}
{"id": "C78", "title": "Derived quantities of operator expressions", "statement": "Trace and diagonal of every square operator expression are those of its dense matrix. Determinant and inverse are, too, unless they raise, which happens only for products of non-square operators. A Cholesky factor that is returned is triangular with positive diagonal and its product with its transpose is the dense matrix.", "quantifier": "all operator expressions of any depth and any shapes", "why_tests_cant": "Recursive formulas over unbounded expression trees.", "anchors": ["src/probnum/linops/_linear_operator.py: trace, diagonal, det, inv, cholesky", "src/probnum/linops/_kronecker.py", "src/probnum/linops/_block.py", "src/probnum/linops/_arithmetic_fallbacks.py", "src/probnum/linops/_scaling.py"]}
{"id": "C79", "title": "Ill-shaped operator arithmetic raises", "statement": "Sums and differences of operators with different shapes and products with mismatching inner dimensions raise.", "quantifier": "all operator expressions and shapes", "why_tests_cant": "Each simplification rule must check shapes.", "anchors": ["src/probnum/linops/_arithmetic.py: _apply", "src/probnum/linops/_arithmetic.py: _matmul_selection_embedding"]}
{"id": "C80", "title": "Arithmetic with LambdaLinearOperators inside Kronecker factors", "statement": "Sums of Kronecker products whose factors are LambdaLinearOperators denote the sums of the matrices.", "quantifier": "all factors", "why_tests_cant": "Depends on equality tests between different classes.", "anchors": ["src/probnum/linops/_linear_operator.py: Identity.__eq__, Matrix.__eq__, _is_type_shape_dtype_equal", "src/probnum/linops/_arithmetic.py: _add_or_sub_kronecker"]}
{"id": "C81", "title": "Structure flags are never wrong when False, and block diagonal flags", "statement": "If a derived operator reports a structure flag as False its dense matrix lacks the property; flags of block diagonal operators with rectangular blocks are right.", "quantifier": "all operator expressions", "why_tests_cant": "Flag propagation over unbounded expression trees.", "anchors": ["src/probnum/linops/_arithmetic_fallbacks.py: ScaledLinearOperator", "src/probnum/linops/_block.py: BlockDiagonalMatrix"]}
{"id": "C82", "title": "Transposition works after any truthful flag assignments", "statement": "The property T of a linear operator never raises, whatever truthful flags have been assigned to it or to its operands before.", "quantifier": "all operators and sequences of assignments", "why_tests_cant": "History-dependent.", "anchors": ["src/probnum/linops/_linear_operator.py: T, _set_property"]}
{"id": "C83", "title": "The Cholesky factorisation of positive definite operators succeeds", "statement": "cholesky() returns a factor for every operator that is flagged symmetric and is positive definite.", "quantifier": "all operators", "why_tests_cant": "Depends on the structure of the operator.", "anchors": ["src/probnum/linops/_linear_operator.py: cholesky, TransposedLinearOperator._cholesky", "src/probnum/linops/_kronecker.py: _cholesky"]}
{"id": "C84", "title": "Determinant and inverse of square products", "statement": "det() and inv() of an invertible product of linear operators do not raise.", "quantifier": "all products", "why_tests_cant": "Needs rectangular factors.", "anchors": ["src/probnum/linops/_arithmetic_fallbacks.py: ProductLinearOperator"]}
{"id": "C85", "title": "Embeddings with take indices or fill value, selections with repeated indices", "statement": "Dense form, action and transpose agree also for Embeddings with explicit take_indices or fill_value and for Selections with repeated indices.", "quantifier": "all index tuples and fill values", "why_tests_cant": "Index tuples unbounded; options rarely combined in tests.", "anchors": ["src/probnum/linops/_linear_operator.py: Selection, Embedding"]}
{"id": "C86", "title": "The discretised integrated Wiener process solves its stochastic differential equation", "statement": "For positive steps the transition matrix is the exponential series of the drift matrix, the process noise covariance is the integral of exp(Fs) L L' exp(Fs)', it is positive definite and the stored factor is its Cholesky factor.", "quantifier": "all numbers of derivatives, dimensions and positive steps", "why_tests_cant": "Infinite families of matrices with a real step.", "anchors": ["src/probnum/randprocs/markov/integrator/_iwp.py: discretise, equivalent_discretisation_preconditioned, _drift_matrix_iwp, _dispersion_matrix_iwp"]}
{"id": "C87", "title": "The gain of a forward step can be reused in the backward step", "statement": "Passing the gain and forwarded state of a forward transition to backward_rv of an integrated Wiener process gives the same result as computing them anew.", "quantifier": "all processes, steps and states", "why_tests_cant": "The result is only slightly wrong for unit steps.", "anchors": ["src/probnum/randprocs/markov/integrator/_iwp.py: backward_rv"]}
{"id": "C88", "title": "A zero step of an integrated Wiener process is the identity", "statement": "discretise(0) is the identity with zero noise and forward_rv with dt=0 returns the state.", "quantifier": "all processes and states", "why_tests_cant": "Boundary case.", "anchors": ["src/probnum/randprocs/markov/integrator/_iwp.py: discretise", "src/probnum/randprocs/markov/integrator/_preconditioner.py: inverse"]}
{"id": "C89", "title": "discretise keeps the chosen implementations", "statement": "The discrete transition returned by discretise() uses the forward and backward implementations of the process.", "quantifier": "all choices of implementations", "why_tests_cant": "All results agree numerically in well-conditioned cases.", "anchors": ["src/probnum/randprocs/markov/integrator/_iwp.py: discretise"]}
{"id": "C90", "title": "Projections between orderings of derivatives", "statement": "proj2coord(q) extracts the q-th derivative of every component; the conversion matrices between coordinate-wise and derivative-wise order permute every state accordingly.", "quantifier": "all dimensions, numbers of derivatives, coordinates and states", "why_tests_cant": "Unbounded dimensions.", "anchors": ["src/probnum/randprocs/markov/integrator/_integrator.py: proj2coord, _derivwise2coordwise_projmat, _coordwise2derivwise_projmat"]}
{"id": "C91", "title": "Damping inflates covariances by exactly the configured amount", "statement": "With covariance_inversion_damping delta, forward_rv of an integrated Wiener process returns the exact transition of the state with delta I added to its covariance if that had no factor; the classic implementation adds delta P P' to the result, with P the preconditioner.", "quantifier": "all processes, steps, states and dampings", "why_tests_cant": "Invisible at test tolerances.", "anchors": ["src/probnum/randprocs/markov/integrator/_preconditioner.py: apply_precon", "src/probnum/randvars/_normal.py: cov_cholesky"]}
{"id": "C92", "title": "Callbacks modify the reported states one after the other", "statement": "Discrete callbacks given to an ODE solver are applied after every accepted step in the given order, each exactly if its condition holds for the state left by the earlier ones; the modified state is reported and the next step starts from it; the solve ends when the reported state is not before the end of its own problem.", "quantifier": "all solvers, callbacks, step rules and stop locations", "why_tests_cant": "Arbitrary callback chains.", "anchors": ["src/probnum/diffeq/_odesolver.py: solution_generator", "src/probnum/diffeq/callbacks/_discrete_callback.py"]}
{"id": "C93", "title": "Orthogonalisation against an empty basis", "statement": "Orthogonalising against an empty basis returns the vector unchanged.", "quantifier": "all vectors and inner products", "why_tests_cant": "Boundary case.", "anchors": ["src/probnum/utils/linalg/_orthogonalize.py: gram_schmidt, modified_gram_schmidt, double_gram_schmidt"]}
{"id": "C94", "title": "The solver's belief about the inverse becomes the inverse", "statement": "After actions that span the space, the mean of the belief about the inverse returned by a solution-based solver is the inverse of A.", "quantifier": "all systems, priors and spanning actions", "why_tests_cant": "Test systems use the inverse as prior covariance or do not look at the inverse.", "anchors": ["src/probnum/linalg/solvers/belief_updates/solution_based/_projected_residual_belief_update.py: __call__"]}
{"id": "C95", "title": "The default BayesCG solver returns an accurate finite solution", "statement": "With the default stopping criterion (maximum iterations or residual norm, atol >= 0), a nonsingular A and a positive definite prior covariance, solve terminates after at most n steps with finite numbers, and the residual norm of its solution is at most atol or at most rtol times the norm of b.", "quantifier": "all dimensions, systems, priors, tolerances, with or without reorthogonalisation", "why_tests_cant": "Induction over iterations for arbitrary n.", "anchors": ["src/probnum/linalg/solvers/_probabilistic_linear_solver.py: BayesCG, solve", "src/probnum/linalg/solvers/policies/_conjugate_gradient.py", "src/probnum/linalg/solvers/stopping_criteria/_residual_norm.py"]}
{"id": "C96", "title": "Iterations beyond convergence keep the solution", "statement": "If a stopping criterion lets the conjugate gradient solver iterate on after the residual became zero, the solution stays exact.", "quantifier": "all systems and numbers of further iterations", "why_tests_cant": "Exact convergence is rare in floating point.", "anchors": ["src/probnum/linalg/solvers/policies/_conjugate_gradient.py: __call__"]}
{"id": "C97", "title": "PiecewiseConstantDiffusion returns the documented estimates", "statement": "Called at t, a PiecewiseConstantDiffusion returns the estimate of the interval that contains t, intervals being closed on the left, the first one before t0 and the last one beyond the last location.", "quantifier": "all increasing locations, estimates and times", "why_tests_cant": "Off-by-one at interval boundaries.", "anchors": ["src/probnum/randprocs/markov/continuous/_diffusions.py: PiecewiseConstantDiffusion.__call__, update_in_place"]}
{"id": "C98", "title": "Steps of the Gaussian ODE filter condition on a vanishing residual", "statement": "For autonomous ODEs: the error estimate of an attempted step is the standard deviation of the residual at the predicted mean if the last state was exact, times the root of the estimated diffusion; a rejected step changes nothing; every state reached by any sequence of accepted and rejected steps is the conditional law given zero linearised residuals under the prior with the diffusion estimates of the steps (dynamic) or unit diffusion (constant), and its factor is a Cholesky factor of its covariance.", "quantifier": "all priors, vector fields, linearisations, step size sequences and acceptance rules", "why_tests_cant": "Induction over steps; QR-based updates.", "anchors": ["src/probnum/diffeq/odefilter/_odefilter.py: attempt_step", "src/probnum/randprocs/markov/continuous/_diffusions.py: estimate_locally", "src/probnum/filtsmooth/gaussian/approx/_extendedkalman.py", "src/probnum/diffeq/odefilter/approx_strategies/_ek.py", "src/probnum/diffeq/odefilter/information_operators/_ode_residual.py"]}
{"id": "C99", "title": "Smoothing with a constant diffusion uses the calibrated model", "statement": "With smoothing and a constant diffusion, the last smoothed state is the last (calibrated) filtering state.", "quantifier": "all runs", "why_tests_cant": "Scaling errors of covariances only.", "anchors": ["src/probnum/diffeq/odefilter/_odefilter.py: postprocess"]}
{"id": "C100", "title": "Smoothing with a dynamic diffusion uses the diffusion of each interval", "statement": "With smoothing and a dynamic diffusion, every interval is smoothed with the diffusion that was estimated for it.", "quantifier": "all runs", "why_tests_cant": "Neighbouring estimates are often similar.", "anchors": ["src/probnum/diffeq/odefilter/_odefilter.py: postprocess, attempt_step", "src/probnum/randprocs/markov/continuous/_diffusions.py: PiecewiseConstantDiffusion"]}
{"id": "C101", "title": "Time-dependent vector fields are evaluated at the new time", "statement": "A step of the Gaussian ODE filter evaluates the vector field at the new time only, so that for a vector field that depends on time alone the derivative of the new mean is the vector field at the new time.", "quantifier": "all vector fields, times and steps", "why_tests_cant": "Test problems are autonomous.", "anchors": ["src/probnum/diffeq/odefilter/_odefilter.py: attempt_step"]}
{"id": "C102", "title": "Exact states with zero residual can be continued", "statement": "With a dynamic diffusion, a step from an exact state whose predicted mean satisfies the ODE returns finite numbers.", "quantifier": "all problems", "why_tests_cant": "Boundary case.", "anchors": ["src/probnum/diffeq/odefilter/_odefilter.py: attempt_step", "src/probnum/randprocs/markov/continuous/_diffusions.py: _compute_local_quasi_mle"]}
{"id": "C103", "title": "Quadrature beliefs are conditional laws", "statement": "After any sequence of updates, the belief about the integral and the prediction at any point are the conditional laws of the integral and of the function value given the evaluations, for a centred Gaussian process with covariance scale times kernel, observed with noise of variance scale times jitter.", "quantifier": "all symmetric kernels, jitters, scale estimations, batches", "why_tests_cant": "Real-valued matrices of any size.", "anchors": ["src/probnum/quad/solvers/belief_updates/_standard_update.py"]}
{"id": "C104", "title": "The quadrature state keeps every earlier belief", "statement": "After n updates, previous_integral_beliefs holds n beliefs: the beliefs after 0, 1, ..., n-1 updates.", "quantifier": "all runs", "why_tests_cant": "Unbounded histories.", "anchors": ["src/probnum/quad/solvers/_bq_state.py", "src/probnum/quad/solvers/belief_updates/_standard_update.py"]}
{"id": "C105", "title": "Acquisition functions are finite", "statement": "After any updates with scale estimation, the weighted predictive variance is a finite number at every point.", "quantifier": "all data", "why_tests_cant": "Needs data that are exactly zero.", "anchors": ["src/probnum/quad/solvers/acquisition_functions/_predictive_variance.py"]}
{"id": "C106", "title": "The variance never grows with scale estimation", "statement": "With scale estimation (mle), adding nodes never increases the variance of the integral.", "quantifier": "all kernels and data", "why_tests_cant": "Depends on the data.", "anchors": ["src/probnum/quad/solvers/belief_updates/_standard_update.py: _estimate_scale"]}
{"id": "C107", "title": "The acquisition value is the relative variance decrease for every jitter", "statement": "The integral-variance-reduction value at x equals the relative variance decrease obtained when x is added, for every non-negative jitter.", "quantifier": "all jitters", "why_tests_cant": "The default jitter is tiny.", "anchors": ["src/probnum/quad/solvers/acquisition_functions/_integral_variance_reduction.py"]}
{"id": "C108", "title": "The covariance returned after one iteration is the posterior one", "statement": "If problinsolve stops after exactly one iteration, the returned covariance factors annihilate the action and the observation, and trace_sol_cov is the trace of the returned covariance.", "quantifier": "all systems", "why_tests_cant": "Tests look at converged runs.", "anchors": ["src/probnum/linalg/solvers/matrixbased.py: _get_output_randvars"]}
{"id": "C109", "title": "The solution belief is induced by the inverse belief", "statement": "The mean of the solution returned by problinsolve equals the returned mean of the inverse applied to b.", "quantifier": "all systems and iteration counts", "why_tests_cant": "Tests look at converged runs, where both are exact.", "anchors": ["src/probnum/linalg/solvers/matrixbased.py: solve, _get_output_randvars"]}
{"id": "C110", "title": "The default solver does not break down on definite systems", "statement": "For every symmetric positive definite system, problinsolve with default arguments returns finite numbers.", "quantifier": "all symmetric positive definite systems", "why_tests_cant": "Random systems avoid the breakdown.", "anchors": ["src/probnum/linalg/solvers/matrixbased.py: solve"]}
{"id": "C111", "title": "A second call of solve keeps what was learned", "statement": "After calling solve of the matrix-based solver twice, the covariance factor of the inverse annihilates the observations of both calls.", "quantifier": "all systems", "why_tests_cant": "Tests call solve once.", "anchors": ["src/probnum/linalg/solvers/matrixbased.py: solve"]}
{"id": "C112", "title": "The initial solution agrees with the prior of the inverse for every guess", "statement": "When a prior is constructed from a guess x0, the mean of the inverse maps b to the initial solution.", "quantifier": "all guesses", "why_tests_cant": "Needs a guess with b^T x0 < 0.", "anchors": ["src/probnum/linalg/solvers/matrixbased.py: _construct_symmetric_matrix_prior_means, __init__"]}
{"id": "C113", "title": "Zero functions take part in shape checks", "statement": "Adding or subtracting functions with different input or output shapes raises, also if one of them is the zero function.", "quantifier": "all shapes", "why_tests_cant": "Tests combine functions of equal shapes.", "anchors": ["src/probnum/functions/_algebra.py"]}
{"id": "C114", "title": "The kernels compute their documented formulas, vectorised", "statement": "Linear, Polynomial, WhiteNoise, ExpQuad, RatQuad, half-integer Matern and ProductMatern return, at every broadcast pair of points, the documented function of the pair, the length scales dividing coordinate-wise; without second argument, its value at equal points.", "quantifier": "all parameters, batches and inputs", "why_tests_cant": "Tests compare with a second implementation at a few points and batch shapes.", "anchors": ["src/probnum/randprocs/covfuncs/_matern.py", "src/probnum/randprocs/covfuncs/_exponentiated_quadratic.py", "src/probnum/randprocs/covfuncs/_rational_quadratic.py", "src/probnum/randprocs/covfuncs/_linear.py", "src/probnum/randprocs/covfuncs/_polynomial.py", "src/probnum/randprocs/covfuncs/_white_noise.py", "src/probnum/randprocs/covfuncs/_product_matern.py"]}
{"id": "C115", "title": "Covariance matrices are positive semi-definite", "statement": "matrix(x) of any nesting of sums, products and non-negative multiples of positive semi-definite covariance functions is symmetric positive semi-definite; Linear and Polynomial with non-negative constants and WhiteNoise are positive semi-definite.", "quantifier": "all expressions, kernels and inputs", "why_tests_cant": "Tests check a few matrices numerically.", "anchors": ["src/probnum/randprocs/covfuncs/_arithmetic_fallbacks.py", "src/probnum/randprocs/covfuncs/_covariance_function.py: matrix"]}
{"id": "C116", "title": "Scaling with a negative number raises", "statement": "Multiplying a covariance function with a negative number raises: the class is documented for positive scalars only.", "quantifier": "all scalars", "why_tests_cant": "Tests scale with positive numbers.", "anchors": ["src/probnum/randprocs/covfuncs/_arithmetic_fallbacks.py: ScaledCovarianceFunction"]}
{"id": "C117", "title": "The Mat\u00e9rn kernel uses the documented norm", "statement": "The norm in the Mat\u00e9rn kernel is the documented one, which divides the squared differences by the length scales.", "quantifier": "all length scales and inputs", "why_tests_cant": "Tests use the same convention as the code.", "anchors": ["src/probnum/randprocs/covfuncs/_matern.py: Matern, _scale_factors"]}
{"id": "C118", "title": "Kernels can be evaluated for all input shapes they accept", "statement": "Linear and WhiteNoise can be evaluated for every input_shape that their constructors accept.", "quantifier": "all shapes", "why_tests_cant": "Tests use shapes with at most one axis.", "anchors": ["src/probnum/randprocs/covfuncs/_linear.py", "src/probnum/randprocs/covfuncs/_white_noise.py: _evaluate", "src/probnum/randprocs/covfuncs/_covariance_function.py: _euclidean_inner_products"]}
{"id": "C119", "title": "matrix works for cross-covariance functions", "statement": "For a covariance function with different input_shape_0 and input_shape_1, matrix(x0, x1) returns the pairwise covariances, and the function can be scaled and added.", "quantifier": "all cross-covariance functions", "why_tests_cant": "No test has different input shapes.", "anchors": ["src/probnum/randprocs/covfuncs/_covariance_function.py: _preprocess_linop_input, input_shape", "src/probnum/randprocs/covfuncs/_arithmetic_fallbacks.py"]}
{"id": "C120", "title": "Kernels accept integer inputs", "statement": "For arrays of integers, kernels return the same values as for the arrays of equal floats.", "quantifier": "all inputs", "why_tests_cant": "Tests use floats.", "anchors": ["src/probnum/randprocs/covfuncs/_white_noise.py: _evaluate", "src/probnum/randprocs/covfuncs/_covariance_function.py: _squared_euclidean_distances"]}
{"id": "C121", "title": "The option 'rownorm' uses row norms", "statement": "With probabilities='rownorm', the random unit vector policy draws an index with probability proportional to the squared norm of the row.", "quantifier": "all matrices", "why_tests_cant": "Tests use symmetric matrices and look at the norm of the action only.", "anchors": ["src/probnum/linalg/solvers/policies/_random_unit_vector.py: __call__"]}
{"id": "C122", "title": "The unscented Kalman filter is exact for affine models", "statement": "For an affine model, the prediction of the linearised model has the mean and the covariance of the exact prediction.", "quantifier": "all affine models and inputs", "why_tests_cant": "The tests compare with tolerances.", "anchors": ["src/probnum/filtsmooth/gaussian/approx/_unscentedkalman.py: _linearization_system_matrices"]}
{"id": "C123", "title": "A vector times a normal random variable of shape (n, 1)", "statement": "c @ rv for a constant vector c of length n and a normal random variable of shape (n, 1) is a random variable of shape (1,).", "quantifier": "all such vectors and random variables", "why_tests_cant": "Tests multiply with matrices or vector-valued random variables.", "anchors": ["src/probnum/randvars/_arithmetic.py: _matmul_constant_normal"]}
{"id": "C124", "title": "Scalar random variables times one-element arrays", "statement": "Multiplying a scalar normal random variable with an array of shape (1,) gives a random variable of shape (1,).", "quantifier": "all one-element arrays", "why_tests_cant": "Tests multiply with Python scalars.", "anchors": ["src/probnum/randvars/_arithmetic.py: _mul_normal_constant"]}
{"id": "C125", "title": "Stored factors of results are Cholesky factors", "statement": "The cov_cholesky that a result of arithmetic takes over has a non-negative diagonal and the shape of the covariance.", "quantifier": "all operations", "why_tests_cant": "Tests compare L L^T with the covariance.", "anchors": ["src/probnum/randvars/_arithmetic.py: _mul_normal_constant, _matmul_normal_constant"]}
{"id": "C126", "title": "cov_cholesky is a square root of the covariance", "statement": "With the default configuration, cov_cholesky L of a normal random variable satisfies L L^T = cov, for dense and Kronecker covariances alike.", "quantifier": "all covariances", "why_tests_cant": "Tests compare with tolerances.", "anchors": ["src/probnum/randvars/_normal.py: cov_cholesky, dense_cov_cholesky, _univariate_cov_cholesky, _kronecker_cov_cholesky"]}
{"id": "C127", "title": "Accessing cov_cholesky has no influence on later arithmetic", "statement": "Adding a constant to a normal random variable gives the same result whether or not cov_cholesky was accessed before.", "quantifier": "all types of covariances", "why_tests_cant": "Needs an operator covariance and a particular order of calls.", "anchors": ["src/probnum/randvars/_normal.py: __init__, _dense_cov_cholesky_as_linop", "src/probnum/randvars/_arithmetic.py: _add_normal_constant"]}
{"id": "C128", "title": "Keys with fewer entries than axes", "statement": "rv[0] for a matrix-valued normal random variable is the first row, with its marginal covariance.", "quantifier": "all matrix-valued normal random variables", "why_tests_cant": "Tests look at means and at shapes of results of a few keys.", "anchors": ["src/probnum/randvars/_normal.py: __getitem__"]}
{"id": "C129", "title": "Keys with an Ellipsis", "statement": "Normal random variables can be indexed with keys that contain an Ellipsis, as all modes of indexing of NumPy are documented to work.", "quantifier": "all keys with an Ellipsis", "why_tests_cant": "Tests use no Ellipsis.", "anchors": ["src/probnum/randvars/_normal.py: __getitem__"]}
{"id": "C130", "title": "Transposing with axes of different signs", "statement": "transpose(*axes) with negative and non-negative axes has the mean and the covariance of the transposed quantity.", "quantifier": "all axes", "why_tests_cant": "Tests use no negative axes.", "anchors": ["src/probnum/randvars/_normal.py: transpose"]}
{"id": "C131", "title": "Reshaping to a scalar", "statement": "A normal random variable of size one can be reshaped to the shape ().", "quantifier": "all normal random variables of size one", "why_tests_cant": "Tests reshape to non-empty shapes.", "anchors": ["src/probnum/randvars/_normal.py: reshape, __init__"]}
{"id": "C132", "title": "Samples of views of generic random variables", "statement": "n samples of rv[key] and of rv.transpose(axes) for a generic random variable are the samples of rv with each sample transformed.", "quantifier": "all keys, axes, sample sizes", "why_tests_cant": "Tests draw samples of normal random variables, which do not use this code.", "anchors": ["src/probnum/randvars/_random_variable.py: __getitem__, transpose"]}
{"id": "C133", "title": "Samples of results of generic arithmetic", "statement": "Samples of the result of generic arithmetic are the operation applied to a sample of each operand, broadcast as for a single sample.", "quantifier": "all shapes and sample sizes", "why_tests_cant": "Tests use operands of equal shapes.", "anchors": ["src/probnum/randvars/_arithmetic.py: _generic_rv_add and others", "src/probnum/randvars/_constant.py: _sample"]}
{"id": "C134", "title": "Shapes of samples of normal random variables", "statement": "sample(size) of a normal random variable has the shape size + shape, with one draw per index of size.", "quantifier": "all sizes and shapes", "why_tests_cant": "Tests use a few sizes.", "anchors": ["src/probnum/randvars/_normal.py: _dense_sample"]}
{"id": "C135", "title": "The shift of a discretised SDE comes from the force", "statement": "For every force vector f, the noise mean of the discretised SDE is the integral of expm(u F) f over [0, dt].", "quantifier": "all drift matrices, forces and step sizes", "why_tests_cant": "No test compares the shift of a discretised model with a reference.", "anchors": ["src/probnum/randprocs/markov/continuous/_lti_sde.py: discretise"]}
{"id": "C136", "title": "Moment equations of linear SDEs describe transitions and smoothing", "statement": "The mean and covariance that a discretised SDE forwards solve, as functions of dt, the forward moment equations of LinearSDE. For time-varying linear SDEs, the Rauch-Tung-Striebel moments given final moments solve the backward moment equations and take the final values.", "quantifier": "all drift matrices, dispersions, diffusions, means, covariances; forces as in C52", "why_tests_cant": "Tests compare numerical solutions with tolerances.", "anchors": ["src/probnum/randprocs/markov/continuous/_linear_sde.py: _setup_vectorized_mde_forward_classic, _setup_vectorized_mde_backward"]}
{"id": "C137", "title": "Square-root moment equations describe the covariance", "statement": "The derivative of the Cholesky factor S in the square-root moment equations makes S S^T follow the forward moment equation of the covariance.", "quantifier": "all drift matrices, dispersions and Cholesky factors", "why_tests_cant": "Tests use SDEs whose covariances grow.", "anchors": ["src/probnum/randprocs/markov/continuous/_linear_sde.py: _setup_vectorized_mde_forward_sqrt"]}
{"id": "C138", "title": "ExpQuad-Lebesgue kernel embeddings are the true integrals", "statement": "For ExpQuad with a scalar length scale and the (normalised or unnormalised) Lebesgue measure on a box, kernel_mean(x) is the integral of the covariance function in its first argument, for every point x, and kernel_variance() the integral in both arguments.", "quantifier": "all dimensions, boxes, length scales, points", "why_tests_cant": "Tests compare with numerical quadrature for a few parameters.", "anchors": ["src/probnum/quad/kernel_embeddings/_expquad_lebesgue.py"]}
{"id": "C139", "title": "ExpQuad-Gauss kernel embeddings are the true integrals", "statement": "For ExpQuad with a scalar length scale and a Gaussian measure with positive definite covariance, diagonal or not, kernel_mean(x) is the integral of the covariance function in its first argument with respect to the normal distribution, and kernel_variance() the integral in both arguments.", "quantifier": "all dimensions, means, covariances, length scales, points", "why_tests_cant": "Improper integrals; tests compare with numerical quadrature for a few parameters.", "anchors": ["src/probnum/quad/kernel_embeddings/_expquad_gauss.py", "src/probnum/quad/integration_measures/_gaussian_measure.py"]}
{"id": "C140", "title": "Matern kernel means outside of the domain", "statement": "kernel_mean(x) of a Matern kernel is the integral over the domain also for points x outside of the domain.", "quantifier": "all points", "why_tests_cant": "Tests use points drawn from the domain.", "anchors": ["src/probnum/quad/kernel_embeddings/_matern_lebesgue.py: _kernel_mean_matern_1d_lebesgue"]}
{"id": "C141", "title": "Embeddings for length scales given as an array", "statement": "A kernel embedding that is listed as available can be evaluated for every covariance function of the listed class.", "quantifier": "all length scales that the class accepts", "why_tests_cant": "Tests use scalar length scales.", "anchors": ["src/probnum/randprocs/covfuncs/_exponentiated_quadratic.py: lengthscale", "src/probnum/quad/kernel_embeddings/_kernel_embedding.py"]}
{"id": "C142", "title": "The kernels of the library are positive semi-definite", "statement": "Covariance matrices made of one set of points by sums, products and non-negative multiples of Linear, Polynomial, WhiteNoise, ExpQuad, RatQuad, Matern (half-integer smoothness) and ProductMatern kernels are symmetric and positive semi-definite.", "quantifier": "all point sets, expressions, length scales, smoothness p + 1/2, admissible parameters", "why_tests_cant": "Over infinitely many point sets; tests look at Cholesky factorisations of a few matrices with jitter.", "anchors": ["src/probnum/randprocs/covfuncs/_exponentiated_quadratic.py", "src/probnum/randprocs/covfuncs/_rational_quadratic.py", "src/probnum/randprocs/covfuncs/_matern.py", "src/probnum/randprocs/covfuncs/_product_matern.py"]}
{"id": "C143", "title": "The predictive variance acquisition function", "statement": "WeightedPredictiveVariance returns at x the variance of predict_integrand(x) times the squared density of the measure, divided by the squared kernel scale: between 0 and k(x,x) p(x)^2, ordered as Var(f(x)) p(x)^2, and zero at the nodes without jitter.", "quantifier": "all kernels, data, points, densities, non-zero scales", "why_tests_cant": "Tests check the shape of the values and a few orderings.", "anchors": ["src/probnum/quad/solvers/acquisition_functions/_predictive_variance.py"]}
{"id": "C144", "title": "Solutions of the Genz functions", "statement": "genz_continuous, genz_discontinuous, genz_gaussian, genz_oscillatory, genz_cornerpeak and genz_productpeak return a problem whose integrand is the Genz function on the unit box, raises outside of it, and whose stored solution is the integral of the function over the unit box.", "quantifier": "all dimensions, u in [0,1]^d, a without zero entries (corner peak: positive denominators)", "why_tests_cant": "Tests compare with Monte Carlo estimates for a few parameters.", "anchors": ["src/probnum/problems/zoo/quad/_quadproblems_uniform.py"]}
{"id": "C145", "title": "Solutions of the other uniform test integrands", "statement": "bratley1992, roos_arnold, gfunction, morokoff_caflisch_1 and morokoff_caflisch_2 have the documented integrands and their stored solutions are the integrals over the unit box.", "quantifier": "all dimensions", "why_tests_cant": "Tests compare with Monte Carlo estimates for a few dimensions.", "anchors": ["src/probnum/problems/zoo/quad/_quadproblems_uniform.py: bratley1992, roos_arnold, gfunction, morokoff_caflisch_1, morokoff_caflisch_2"]}
{"id": "C146", "title": "Transformation of a uniform problem to a Gaussian one", "statement": "uniform_to_gaussian_quadprob(p, mean, std), with mean and std both floats or both arrays, returns a problem on the normal distribution N(mean, diag(std^2)) with integrand f(cdf((x - mean) / std)), and the unchanged solution is its integral.", "quantifier": "all dimensions, means, positive standard deviations, integrands whose iterated integrals over the unit box are continuous", "why_tests_cant": "Improper integrals; tests compare with Monte Carlo estimates.", "anchors": ["src/probnum/problems/zoo/quad/_quadproblems_gaussian.py: uniform_to_gaussian_quadprob"]}
{"id": "C147", "title": "Floats together with arrays in uniform_to_gaussian_quadprob", "statement": "mean and std may each be a float or an array of the dimension of the problem.", "quantifier": "all combinations of documented types", "why_tests_cant": "Tests use the same type for both.", "anchors": ["src/probnum/problems/zoo/quad/_quadproblems_gaussian.py: uniform_to_gaussian_quadprob"]}
{"id": "C148", "title": "sum_polynomials with variance one", "statement": "sum_polynomials(dim, a, b, var=1.0) has the integrand sum_j prod_i a[j,i] x_i^b[j,i], the standard normal distribution, and its stored solution is the integral.", "quantifier": "all dimensions, coefficients, exponents", "why_tests_cant": "Improper integrals for all exponents; tests use a few polynomials.", "anchors": ["src/probnum/problems/zoo/quad/_quadproblems_gaussian.py: sum_polynomials"]}
{"id": "C149", "title": "Integer variances in sum_polynomials", "statement": "sum_polynomials accepts every FloatLike variance.", "quantifier": "all positive numbers", "why_tests_cant": "Tests use floats.", "anchors": ["src/probnum/problems/zoo/quad/_quadproblems_gaussian.py: sum_polynomials"]}
{"id": "C150", "title": "Shape of the values of the zoo integrands", "statement": "The integrand of a QuadratureProblem maps points of shape (n_eval, input_dim) to values of shape (n_eval,).", "quantifier": "all test problems", "why_tests_cant": "Tests squeeze or average the values.", "anchors": ["src/probnum/problems/_problems.py: QuadratureProblem", "src/probnum/problems/zoo/quad/_quadproblems_uniform.py"]}
{"id": "C151", "title": "Solutions for parameters with zero entries", "statement": "The Genz problems have finite correct solutions for every accepted parameter a.", "quantifier": "all a and u that do not raise", "why_tests_cant": "Tests use non-zero parameters.", "anchors": ["src/probnum/problems/zoo/quad/_quadproblems_uniform.py: genz_continuous"]}
{"id": "C152", "title": "sum_polynomials with other variances", "statement": "The stored solution of sum_polynomials is the integral with respect to N(0, var I) for every positive var.", "quantifier": "all positive var", "why_tests_cant": "The tests only use the default variance, or powers that hide the difference.", "anchors": ["src/probnum/problems/zoo/quad/_quadproblems_gaussian.py: sum_polynomials"]}
{"id": "C153", "title": "The documented corner peak function", "statement": "genz_cornerpeak has the documented integrand (1 + sum_i a_i x_i)^(-d+1).", "quantifier": "all dimensions, parameters, points", "why_tests_cant": "Tests compare the solution with estimates of the implemented function.", "anchors": ["src/probnum/problems/zoo/quad/_quadproblems_uniform.py: genz_cornerpeak"]}
{"id": "C154", "title": "Forward transitions of IOUP and Matern processes", "statement": "IntegratedOrnsteinUhlenbeckTransition and MaternTransition have the drift of the process equation (each entry of the state is the derivative of the previous one; the last derivative has the drift -speed times itself, or -sum_j binom(nu+1,j) rate^(nu+1-j) times derivative j, with rate sqrt(2 nu + 1) / lengthscale), and forward_rv returns the exact law of the solution of this stochastic differential equation after dt, with info[\"crosscov\"] the exact cross-covariance and info[\"gain\"] the exact smoothing gain.", "quantifier": "all numbers of derivatives, dimensions, speeds, length scales, positive dt, diffusions, states, both forward implementations", "why_tests_cant": "Matrix exponentials and integrals for all orders; tests compare shapes or a few numbers.", "anchors": ["src/probnum/randprocs/markov/integrator/_ioup.py", "src/probnum/randprocs/markov/integrator/_matern.py"]}
{"id": "C155", "title": "Backward transitions of IOUP and Matern processes", "statement": "backward_rv of the two transitions, called without a gain, returns the exact smoothing distribution of the process, with a consistent Cholesky factor.", "quantifier": "all numbers of derivatives, dimensions, speeds, length scales, positive dt, states, implementations", "why_tests_cant": "Tests compare shapes or a few numbers.", "anchors": ["src/probnum/randprocs/markov/integrator/_ioup.py: backward_rv", "src/probnum/randprocs/markov/integrator/_matern.py: backward_rv"]}
{"id": "C156", "title": "Gains passed to backward_rv of IOUP and Matern transitions", "statement": "Passing the gain that forward_rv returned to backward_rv does not change the result.", "quantifier": "all states, steps", "why_tests_cant": "Tests do not pass gains.", "anchors": ["src/probnum/randprocs/markov/integrator/_ioup.py: backward_rv", "src/probnum/randprocs/markov/integrator/_matern.py: backward_rv"]}
{"id": "C157", "title": "Jacobians of the initial value problems of the zoo", "statement": "df of vanderpol, rigidbody, logistic, fitzhughnagumo, lotkavolterra, seir and lorenz63 returns the matrix of partial derivatives of f, row by row, and ddf of logistic the derivative of df.", "quantifier": "all parameters and points", "why_tests_cant": "Derivatives at all points; tests compare with finite differences at one point.", "anchors": ["src/probnum/problems/zoo/diffeq/_ivp_examples.py"]}
{"id": "C158", "title": "Conserved quantities of the initial value problems", "statement": "Solutions of rigidbody conserve b y1^2 - a y2^2 and c y1^2 - a y3^2, those of seir the population count, positive solutions of lotkavolterra d y1 - c ln y1 + b y2 - a ln y2, and those of threebody the Jacobi integral.", "quantifier": "all parameters and solutions", "why_tests_cant": "Statements on all solutions of differential equations.", "anchors": ["src/probnum/problems/zoo/diffeq/_ivp_examples.py: rigidbody, seir, lotkavolterra, threebody"]}
{"id": "C159", "title": "The Lorenz96 system", "statement": "f of lorenz96 returns (y_{i+1} - y_{i-2}) y_{i-1} - y_i + F with indices modulo the number of variables; fewer than four variables raise; a given initial value is kept.", "quantifier": "all dimensions, forcings, points", "why_tests_cant": "For all dimensions; tests use the default.", "anchors": ["src/probnum/problems/zoo/diffeq/_ivp_examples.py: lorenz96"]}
{"id": "C160", "title": "Documented defaults of the initial value problems", "statement": "The default initial value of lorenz96 is [1/F, ..., 1/F] and the default parameter of vanderpol 0.1.", "quantifier": "all forcings and numbers of variables", "why_tests_cant": "Tests do not compare defaults with the documentation.", "anchors": ["src/probnum/problems/zoo/diffeq/_ivp_examples.py: lorenz96, vanderpol"]}
{"id": "C161", "title": "The closed form solution of the logistic equation", "statement": "solution of logistic has the value y0 at time 0, and satisfies the differential equation at all times at which it is finite, which are all times for 0 <= y0 <= b.", "quantifier": "all parameters with b non-zero, initial values, times", "why_tests_cant": "A derivative at all times.", "anchors": ["src/probnum/problems/zoo/diffeq/_ivp_examples.py: logistic"]}
{"id": "C162", "title": "The solution of the logistic equation and the initial time", "statement": "solution(t0) equals y0 for every t0.", "quantifier": "all t0", "why_tests_cant": "Tests use t0 = 0.", "anchors": ["src/probnum/problems/zoo/diffeq/_ivp_examples.py: logistic"]}
{"id": "C163", "title": "Measurements of car_tracking", "statement": "The measurement model of car_tracking measures the two coordinates of the position of the car.", "quantifier": "all num_prior_derivatives, states", "why_tests_cant": "Tests only check shapes.", "anchors": ["src/probnum/problems/zoo/filtsmooth/_filtsmooth_problems.py: car_tracking", "src/probnum/randprocs/markov/integrator/_iwp.py"]}
{"id": "C164", "title": "process_diffusion in car_tracking and ornstein_uhlenbeck", "statement": "The argument process_diffusion is the diffusion constant of the dynamics.", "quantifier": "all diffusions", "why_tests_cant": "Tests use the defaults.", "anchors": ["src/probnum/problems/zoo/filtsmooth/_filtsmooth_problems.py: car_tracking, ornstein_uhlenbeck"]}
{"id": "C165", "title": "The drift of ornstein_uhlenbeck", "statement": "ornstein_uhlenbeck models dx = driftspeed * x dt + dw.", "quantifier": "all speeds", "why_tests_cant": "Tests only check shapes.", "anchors": ["src/probnum/problems/zoo/filtsmooth/_filtsmooth_problems.py: ornstein_uhlenbeck"]}
{"id": "C166", "title": "Jacobians and noise of the nonlinear state space models", "statement": "In pendulum, the Jacobians of dynamics and measurement are the matrices of partial derivatives, and the noise covariance [[h^3/3, h^2/2], [h^2/2, h]] is positive definite for positive steps; in benes_daum the Jacobian is the derivative of the drift.", "quantifier": "all points and steps", "why_tests_cant": "Derivatives at all points.", "anchors": ["src/probnum/problems/zoo/filtsmooth/_filtsmooth_problems.py: pendulum, benes_daum"]}
{"id": "C167", "title": "The initial random variable of logistic_ode", "statement": "Without initrv, the prior process of logistic_ode starts at the initial value y0 of the problem, and has the dimension of the prior of the given order.", "quantifier": "all y0 and orders", "why_tests_cant": "Tests use the defaults.", "anchors": ["src/probnum/problems/zoo/filtsmooth/_filtsmooth_problems.py: logistic_ode"]}
{"id": "C168", "title": "Random positive definite matrices", "statement": "random_spd_matrix returns a symmetric positive definite matrix with exactly the given eigenvalues, or those drawn, and raises if one is not positive or their number is wrong; random_sparse_spd_matrix returns a symmetric positive definite matrix L L^T with L unit lower triangular and its other non-zero entries between chol_entry_min and chol_entry_max, and raises iff the density is not in [0, 1].", "quantifier": "all dimensions, spectra, draws", "why_tests_cant": "All random draws; tests look at a few.", "anchors": ["src/probnum/problems/zoo/linalg/_random_spd_matrix.py"]}
{"id": "C169", "title": "ivp_to_regression_problem: matrix and lists", "statement": "The measurement matrix for the initial condition reads off the zeroth derivative of every component of the state, and for N >= 1 locations there are N zero observations and N measurement models: the initial condition first unless it is excluded, then the differential equation.", "quantifier": "all dimensions, numbers of derivatives, locations", "why_tests_cant": "Two reshapes with different orders, for all shapes.", "anchors": ["src/probnum/diffeq/odefilter/utils/_problem_utils.py"]}
{"id": "C170", "title": "ivp_to_regression_problem: measured quantities", "statement": "Without measurement variance the models measure y - y0 and y' - f(t, y) without noise; with variance v > 0 the first measures y - y0 with noise covariance v I, and the noise of the second has covariance v I.", "quantifier": "all equations, states, times, variances", "why_tests_cant": "Tests check types and shapes.", "anchors": ["src/probnum/diffeq/odefilter/utils/_problem_utils.py"]}
{"id": "C171", "title": "ivp_to_regression_problem: mean of the noise of the differential equation", "statement": "With positive ode_measurement_variance, the measurement of the differential equation at a state that satisfies it has mean zero, like the observations.", "quantifier": "all equations and initial values", "why_tests_cant": "Tests check types and shapes.", "anchors": ["src/probnum/diffeq/odefilter/utils/_problem_utils.py: _construct_measurement_models_gaussian_likelihood"]}
{"id": "C172", "title": "Initialisation by stacking", "statement": "Stack (with at least one derivative) and StackWithJacobian (with at least two) return the state with y0, f(t0, y0) and df(t0, y0) f(t0, y0) as first derivatives of every component, with standard deviation zero, and mean zero and standard deviation scale_cholesky for the higher ones, uncorrelated, with a consistent Cholesky factor.", "quantifier": "all dimensions, numbers of derivatives, problems", "why_tests_cant": "For all shapes; tests use one problem.", "anchors": ["src/probnum/diffeq/odefilter/init_routines/_stack.py"]}
{"id": "C173", "title": "Initialisation by stacking: dimension", "statement": "The initial state returned by Stack and StackWithJacobian has the dimension of the prior.", "quantifier": "all numbers of derivatives", "why_tests_cant": "Tests use enough derivatives.", "anchors": ["src/probnum/diffeq/odefilter/init_routines/_stack.py"]}
{"id": "C174", "title": "States of the solution of the ODE filter", "statement": "states, derivatives and interpolated values of ODEFilterSolution are the marginals of the filter state: the entries of mean and covariance that belong to the zeroth or first derivatives, with a lower Cholesky factor.", "quantifier": "all dimensions, numbers of derivatives, filter states with consistent factors", "why_tests_cant": "For all shapes.", "anchors": ["src/probnum/diffeq/odefilter/_odefilter_solution.py"]}
{"id": "C175", "title": "StackWithJacobian and second derivatives", "statement": "The third entry of the state of StackWithJacobian, whose standard deviation is zero, is the second derivative of the solution at the initial time.", "quantifier": "all problems", "why_tests_cant": "Tests only use autonomous equations.", "anchors": ["src/probnum/diffeq/odefilter/init_routines/_stack.py: StackWithJacobian"]}
{"id": "C176", "title": "Mutual information as acquisition function", "statement": "MutualInformation is non-negative, infinite exactly if the relative variance reduction is one, ranks points as IntegralVarianceReduction does, and, without jitter and scale estimation, is the decrease of the entropy of the integral belief when the point is added, whatever the function value.", "quantifier": "all positive semi-definite embedded kernels, data, points", "why_tests_cant": "A statement on all data sets.", "anchors": ["src/probnum/quad/solvers/acquisition_functions/_mutual_information.py"]}
{"id": "C177", "title": "Posterior contraction stopping criterion", "statement": "PosteriorContractionStoppingCriterion returns True iff sqrt(tr(Cov(q))) <= max(atol, rtol ||b||).", "quantifier": "all positive semi-definite covariances, right-hand sides, non-negative tolerances", "why_tests_cant": "Equivalence for all inputs.", "anchors": ["src/probnum/linalg/solvers/stopping_criteria/_posterior_contraction.py"]}
{"id": "C178", "title": "Random linear systems", "statement": "random_linear_system returns the given matrix and a right-hand side for which the returned solution, the sample of solution_rv if that is given, solves the system; it raises iff the length of solution_rv is not the number of columns.", "quantifier": "all shapes, matrices, samples", "why_tests_cant": "All random draws.", "anchors": ["src/probnum/problems/zoo/linalg/_random_linear_system.py"]}
