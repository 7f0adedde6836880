# Formal model of probnum (Rocq/Coq 8.16.1)

Source: `/repo/src/probnum` (read as text, never run).  Paths below are
relative to it.  Properties: `properties.jsonl`; status: `MANIFEST.json`;
wrong-program tests: `seeded/LOG.jsonl`.

## Layout

Every area has three kinds of files in `rocq/theories/`:

* `M_<Area>.v`  model: definitions only, each citing file and lines.
* `L_<Area>.v`  lemmas and proofs.
* `P_<Area>.v`  the property theorems, each closed by `exact`, followed by
  `Print Assumptions`, and the `Example`s showing that hypotheses can be met.

## Modelling rules

* Exceptions are values (`Err`/`None`); loops are structural recursion, or
  recursion on fuel with a distinct out-of-fuel value which the statements
  exclude.
* Floating point is replaced by exact arithmetic: `Q`, `R` (stdlib) or an
  arbitrary mathcomp `fieldType` / `realFieldType` / `rcfType`.  Rounding,
  overflow and NaN are outside the model unless a definition says so
  explicitly (then NaN is an explicit value).
* LAPACK/SciPy routines (QR, Cholesky, solve) are function arguments of the
  model; the specification they are assumed to meet is a hypothesis that is
  visible in the theorem.
* Random number generators are replaced by universally quantified draws.
  Gaussian laws are represented by mean and covariance; "random vector" means
  affine function of finitely many independent standard normals.
* If the faithful model violates a claim, a theorem `..._refuted` exhibits the
  witness and the part which does hold is proved under the exact guard.

## Trusted base

Coq's kernel; the reading of `/repo` recorded in the citations; the list of
axioms printed by `Print Assumptions` for each theorem (table at the end).
mathcomp-only files are closed under the global context.  Files using stdlib
`Reals`/Coquelicot depend on the stdlib axioms of the classical reals only; files that
use them as a mathcomp field (`L_RStruct.v`) also on the stdlib's `epsilon_statement`.
No axiom, `Variable` outside sections, functor or unsafe flag is used.

## Per property plan

| id | modelled | proof idea |
|----|----------|-----------|
| C01 | `Configuration.__call__`, registry, programs of set/with/raise | structural induction over programs; refutation for unknown option after known ones |
| C02 | criteria as decision functions, combinators | induction over expressions |
| C03 C04 C07 | `solve`/`solution_generator`/`perform_full_step`/`_adjust_time_step` with step rule and solver as oracles | invariants over the loop, fuel; refutations for `firststep` and several close `stop_at` locations |
| C05 | `AdaptiveSteps` | real arithmetic |
| C06 | `perform_full_step` with stateful solver; FSAL wrapper | invariants; refutation for the SciPy wrapper |
| C08 C09 C11 | `LinearGaussian` classic forward/backward, `filter_generator`, `smooth_list` | orthogonality characterisation of the conditional law, induction over time |
| C10 | square-root implementations | QR specification, block matrices |
| C12 C13 | IWP matrices, preconditioner | binomial theorem, polynomial integrals |
| C14 C15 | `utils/linalg` | matrix algebra |
| C16 | `TimeSeriesPosterior` | invariant over append sequences |
| C17 C18 | particle filter, categorical | sums over lists, refutations |
| C19 | `merge_regression_problems` | list induction |
| C20-C25 | linops AST, flags, Kronecker, blocks, selection | denotational semantics, induction |
| C26 | arithmetic of normal random variables | matrix algebra, refutations |
| C28 C29 C30 | functions, covfuncs | induction over expressions; Matern coefficients closed form |
| C31 C32 | `LinearSolverState`, solve loop | state machine with cache invariant |
| C33 C34 C35 | belief updates, CG policy | induction over steps, Krylov argument; random matrices as affine functions of normals |
| C36 C37 | `SymmetricMatrixBasedSolver` | induction over iterations |
| C38 | random unit vector policy | list induction over draws |
| C39 C40 C41 C42 | BQ update, acquisition, loop | block matrices, Schur complement, loop invariant |
| C43 C44 | van der Corput, `as_domain` | arithmetic |
| C45 | Matern-Lebesgue embeddings | fundamental theorem of calculus (Coquelicot) |
| C46 C47 C48 C49 | multilevel, unscented, extended Kalman, diffusions | algebra, list induction |
| C50 | sampling recursion | law of affine maps of independent normals |
| C51 | `as_shape`, `as_colvec` | case analysis |
| C53 C54 | perturbed-step output, ODE filter postprocessing | list induction, refutations |
| C55-C64 | violated or separate clauses of C01-C07, C31, C42, C44, C51, C53 | split off as refutations with exact partial results |
| C65 C66 | Kalman filter with time-dependent models | refutations: times passed to transitions |
| C67 C68 | square roots of other shapes | refutations: shapes of QR factors |
| C69-C72 | sampling and dense output of Markov processes and posteriors | law of affine maps, cond. law; refutations |
| C73-C77 | merging, categorical variables, importance weights | list induction, refutations |
| C78-C85 | det, inv, trace, eigenvalues, Cholesky of operators; shapes, flags | induction over expressions, refutations |
| C86-C91 | integrated Wiener processes | matrix exponential as finite series, polynomial integrals |
| C92 | callbacks in the ODE loop | invariant of the loop |
| C93-C96 | Gram-Schmidt boundary, solution-based solvers | induction over steps, refutations |
| C97-C102 | diffusion models, ODE filter steps and postprocessing | runs as chains of steps, reduced to the Kalman filter; refutations by concrete runs |
| C103-C107 | Bayesian quadrature beliefs, history, acquisition | quadratic forms of bordered matrices, conditional laws; refutations with a linear kernel |
| C108-C112 | matrix-based solver (problinsolve): outputs, breakdown, second call, guesses | refutations by concrete runs |
| C113 | function algebra with `Zero` | refutation |
| C114 | kernels on arrays with broadcasting | contracts of the array operations |
| C115 | covariance matrices | Schur product theorem by induction (Schur complements) |
| C116-C120 | covfuncs: negative scalars, documented norm, shapes, cross-covariances, integers | refutations |
| C121 | random unit vector policy, option `rownorm` | refutation |
| C122 | unscented Kalman filter on affine models | refutation (regularisation) |
| C123-C127 | normal random variables: shapes of products, Cholesky factors, damping, types | refutations |
| C27 | indexing, reshaping, transposing normal and constant random variables | for all keys with one entry per axis, shapes, axes: defined, with the law of the view |
| C128-C134 | short keys, Ellipsis, mixed axes, scalars, samples of views, of generic arithmetic, of size one | refutations; sample theorems for the cases that hold |
| C138-C141 | kernel embeddings (Matern and ExpQuad kernels, Lebesgue and Gaussian measures) | iterated integrals over the reals (Coquelicot), Gaussian integral, completing the square; refutations outside the domain and for length scales |
| C142 | positive semi-definite kernels | mixtures of Gaussians: exponential series, integrals over scale parameters (Coquelicot), reverse Bessel polynomials; C115 for sums and products |
| C143 | predictive variance acquisition | C40 and C103 |
| C144-C153 | quadrature test problems (`problems/zoo/quad`, without Emukit's) | iterated integrals over the reals (Coquelicot): antiderivatives at the corners of the box, products, moments of normals, substitution by the cdf; refutations |
| C154-C156 | IOUP and Matern transitions | C52 and the preconditioning lemmas of C12-C13 over the reals; positive definite noise of companion systems (derivatives of exponentials); refutation for given gains |
| C157-C168 | other test problems (`problems/zoo/diffeq`, `filtsmooth`, `linalg` without SuiteSparse) | derivatives over the reals (Coquelicot), conserved quantities, index computations, characteristic polynomials; refutations |
| C169-C175 | initial value problems as regression problems, stacking initialisation, projected solution states (`diffeq/odefilter/utils`, `init_routines/_stack.py`, `_odefilter_solution.py`) | index computations for the two orders of `reshape`; QR factors as in C03; chain rule over the reals; refutations |
| C176 | `MutualInformation` | real logarithm on top of C41 |
| C177, C178 | posterior contraction criterion, random linear systems | square roots in a real closed field |
| C52 C135-C137 | discretisation and moment equations of linear SDEs | real analysis: matrix exponential as a series, derivatives, integrals; refutations |

## Modelled and not modelled

Modelled (files in `src/probnum`, see the citations in `M_*.v` for lines):
`_config.py`; `_stopping_criterion.py`; `diffeq/_odesolver.py`, `diffeq/stepsize`,
`diffeq/callbacks`, `diffeq/perturbed/scipy_wrapper` and `diffeq/perturbed/step`;
`diffeq/odefilter/_odefilter.py` with EK0/EK1 and ODE residuals, `_odefilter_solution.py`, `utils/_problem_utils.py`, `init_routines/_stack.py`;
`randprocs/markov` (discrete linear and nonlinear Gaussian transitions, integrators (Wiener, Ornstein-Uhlenbeck and Matern), discretisation of
LTI SDEs, moment equations of linear SDEs,
diffusions, smoothing and sampling); `filtsmooth/gaussian` (Kalman filter, posterior,
extended and unscented Kalman for discrete models), `filtsmooth/particle`, `filtsmooth/_timeseriesposterior.py`;
`problems` with the quadrature test problems (`problems/zoo/quad`, exact reals; without `_emukit_problems.py`), vector fields, Jacobians, solutions and defaults of `problems/zoo/diffeq/_ivp_examples.py`, models of `problems/zoo/filtsmooth` and random matrices of `problems/zoo/linalg`; `randvars/_categorical.py`,
`randvars/_normal.py`, `_constant.py` and `_arithmetic.py` (means, covariances, factors, views, shapes of samples; dense); `linops` (arithmetic,
flags, Kronecker, block diagonal, selection/embedding, scaling); `linalg/solvers`
(solve loop, solution-based and matrix-based updates, conjugate gradients, stopping criteria,
random unit vectors, the symmetric solver in `matrixbased.py` without calibration);
`functions` (algebra and shape checks); `randprocs/covfuncs` (without KeOps and non-half-integer Matérn);
`quad/solvers/_bayesian_quadrature.py` (loop), belief updates, two acquisition
functions, `quad/kernel_embeddings` and the measures of `quad/integration_measures` (densities over exact reals; SciPy's Cholesky factorisation is an argument), `quad/_bayesquad.py` (from data, multilevel), stopping criteria, `quad/_utils.py`,
`utils/argutils`, `utils/linalg`, `randprocs`/`quad` van der Corput design.

Not modelled: floating point rounding, dtypes, plotting, SuiteSparse and JAX problems, warnings, SciPy's
and LAPACK's code, JAX backends, random number generators, matrix-free Gaussian
arithmetic, initialisation routines of ODE filters other than stacking, SDE transitions other than those listed.
Simplifications are stated at each definition.

## Axioms

`Print Assumptions` of every theorem in `MANIFEST.json`, grouped. All other theorems
are closed under the global context.

| axioms (Coq standard library) | theorems |
|---|---|
| `ClassicalDedekindReals.sig_forall_dec` | C159_lorenz96, C159_problem, C159_raises |
| `ClassicalDedekindReals.sig_forall_dec`, `FunctionalExtensionality.functional_extensionality_dep` | C03_never_exceeds_tmax_refuted, C03_time_grid, C03_time_grid_increasing, C04_duplicate_location_refuted, C04_no_backward_steps_refuted, C04_stops_hit, C05_accepted_iff, C06_rejection_changes_step_refuted, C06_rejections_leave_no_trace, C06_runge_kutta_chain_partial, C07_constant_steps, C160_lorenz96_refuted, C160_lorenz96_witness, C160_vanderpol_refuted, C167_order_refuted, C53_scales_aligned_partial, C53_scales_aligned_refuted, C92_callbacks |
| `ClassicalDedekindReals.sig_forall_dec`, `ClassicalDedekindReals.sig_not_dec`, `FunctionalExtensionality.functional_extensionality_dep` | C05_tolerance_met_accepts, C05_tolerance_violated_rejects, C161_logistic_domain, C53_uniform_band |
| `ClassicalDedekindReals.sig_forall_dec`, `Epsilon.epsilon_statement`, `FunctionalExtensionality.functional_extensionality_dep` | C136_terminal, C149_integer_refuted, C153_exponent_refuted, C167_initial_refuted |
| `ClassicalDedekindReals.sig_forall_dec`, `ClassicalDedekindReals.sig_not_dec`, `Classical_Prop.classic`, `FunctionalExtensionality.functional_extensionality_dep` | C05_factor_limits, C05_monotone, C05_proportional_control, C05_raises_iff_outside_window, C05_rejection_shrinks, C07_adaptive_terminates, C157_fitzhughnagumo, C157_logistic, C157_lorenz63, C157_lotkavolterra, C157_rigidbody, C157_seir, C157_vanderpol, C158_lotkavolterra, C158_rigidbody, C158_seir, C158_threebody, C161_logistic, C162_initial_time_refuted, C166_benes, C166_pendulum, C53_lognormal |
| `ClassicalDedekindReals.sig_forall_dec`, `ClassicalDedekindReals.sig_not_dec`, `Epsilon.epsilon_statement`, `FunctionalExtensionality.functional_extensionality_dep` | C136_backward, C137_decay_refuted, C137_sqrt, C142_exp_quad, C147_mixed_refuted, C150_shape_refuted, C154_drift, C164_ou_refuted, C165_drift_refuted, C166_noise, C175_autonomous |
| `ClassicalDedekindReals.sig_forall_dec`, `ClassicalDedekindReals.sig_not_dec`, `Classical_Prop.classic`, `Epsilon.epsilon_statement`, `FunctionalExtensionality.functional_extensionality_dep` | C135_force_refuted, C136_forward, C138_mean, C138_variance, C139_mean, C139_variance, C140_outside_refuted, C141_lengthscales_refuted, C142_matern, C142_matrix, C142_product_matern, C142_rat_quad, C144_continuous, C144_cornerpeak, C144_discontinuous, C144_gaussian, C144_oscillatory, C144_productpeak, C145_bratley, C145_gfunction, C145_morokoff_caflisch_1, C145_morokoff_caflisch_2, C145_roos_arnold, C146_transform, C148_unit_variance, C151_zero_refuted, C152_variance_refuted, C154_forward, C154_noise, C155_backward, C156_given_gain, C156_given_gain_refuted, C175_time_refuted, C176_information, C176_order, C176_range, C45_mean, C45_unsupported, C45_variance, C52_discretise, C52_reversed |
