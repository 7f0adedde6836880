{
 "claims": [
  {
   "property": "C01",
   "status": "proved",
   "theorems": [
    "C01_with_restores",
    "C01_scoped_programs_change_nothing",
    "C01_unknown_option_raises"
   ],
   "note": "All programs of assignments, registrations, with-blocks, raises and handlers."
  },
  {
   "property": "C02",
   "status": "proved",
   "theorems": [
    "C02_decision",
    "C02_calls",
    "C02_and_reassociate",
    "C02_or_reassociate",
    "C02_de_morgan",
    "C02_no_new_exceptions"
   ],
   "note": "All criterion expressions; basic criteria may raise and keep state."
  },
  {
   "property": "C03",
   "status": "proved",
   "theorems": [
    "C03_time_grid",
    "C03_time_grid_increasing"
   ],
   "note": "All step rules, solvers, callbacks that keep the time, and stop locations."
  },
  {
   "property": "C04",
   "status": "proved",
   "theorems": [
    "C04_stops_hit"
   ],
   "note": ""
  },
  {
   "property": "C05",
   "status": "proved",
   "theorems": [
    "C05_factor_limits",
    "C05_monotone",
    "C05_raises_iff_outside_window",
    "C05_proportional_control",
    "C05_rejection_shrinks",
    "C05_accepted_iff",
    "C05_tolerance_met_accepts",
    "C05_tolerance_violated_rejects"
   ],
   "note": "Exact reals; scalar tolerances."
  },
  {
   "property": "C06",
   "status": "proved",
   "theorems": [
    "C06_rejections_leave_no_trace"
   ],
   "note": ""
  },
  {
   "property": "C07",
   "status": "proved",
   "theorems": [
    "C07_constant_steps",
    "C07_adaptive_terminates"
   ],
   "note": ""
  },
  {
   "property": "C08",
   "status": "proved",
   "theorems": [
    "C08_filter_is_conditional_law",
    "C08_conditional_law_unique",
    "C08_filter_succeeds"
   ],
   "note": "All dimensions, models, data and run lengths over any ordered field; jointly Gaussian families are spanned by finitely many standard normals."
  },
  {
   "property": "C09",
   "status": "proved",
   "theorems": [
    "C09_smoother_is_conditional_law",
    "C09_smoother_succeeds"
   ],
   "note": ""
  },
  {
   "property": "C10",
   "status": "proved",
   "theorems": [
    "C10_forward_agrees",
    "C10_backward_agrees",
    "C10_joseph_agrees",
    "C10_runs_agree"
   ],
   "note": "Any QR routine satisfying its specification; existence of such routines is proved over real closed fields."
  },
  {
   "property": "C11",
   "status": "proved",
   "theorems": [
    "C11_transitions_keep_psd",
    "C11_runs_keep_psd"
   ],
   "note": ""
  },
  {
   "property": "C12",
   "status": "proved",
   "theorems": [
    "C12_semigroup"
   ],
   "note": "Zero step: C88."
  },
  {
   "property": "C13",
   "status": "proved",
   "theorems": [
    "C13_forward",
    "C13_backward"
   ],
   "note": "Exact arithmetic, damping 0 (C91 for others); gain passed in: C87."
  },
  {
   "property": "C14",
   "status": "proved",
   "theorems": [
    "C14_cholesky_update",
    "C14_cholesky_single",
    "C14_positive_tril"
   ],
   "note": ""
  },
  {
   "property": "C15",
   "status": "proved",
   "theorems": [
    "C15_orthogonal_part",
    "C15_normalised"
   ],
   "note": "Single vectors; stacks are treated vector by vector by the code."
  },
  {
   "property": "C16",
   "status": "proved",
   "theorems": [
    "C16_appends_keep_order",
    "C16_append_raises_iff",
    "C16_stored_locations",
    "C16_neighbours",
    "C16_arrays"
   ],
   "note": "Locations in an ordered field (no NaN)."
  },
  {
   "property": "C17",
   "status": "proved",
   "theorems": [
    "C17_weights_are_a_distribution"
   ],
   "note": "Densities are exact positive reals (no underflow to 0/0)."
  },
  {
   "property": "C18",
   "status": "partial",
   "theorems": [
    "C18_resampling_effective_refuted",
    "C18_resampling_is_not_propagated"
   ],
   "note": "False of the code: the resampled state is yielded but never used again (witness). Characterised for all runs."
  },
  {
   "property": "C19",
   "status": "proved",
   "theorems": [
    "C19_merge_keeps_observations",
    "C19_constructor"
   ],
   "note": ""
  },
  {
   "property": "C20",
   "status": "proved",
   "theorems": [
    "C20_operator_arithmetic"
   ],
   "note": "Dense Matrix only, one dtype; [same] (object identity) is any relation implying equality, the lazy-matmul option is arbitrary. Shape errors: C79; Lambda factors: C80; failing inverses: C84."
  },
  {
   "property": "C21",
   "status": "proved",
   "theorems": [
    "C21_true_flags"
   ],
   "note": ""
  },
  {
   "property": "C22",
   "status": "proved",
   "theorems": [
    "C22_write_once",
    "C22_reachable_flags"
   ],
   "note": ""
  },
  {
   "property": "C23",
   "status": "proved",
   "theorems": [
    "C23_kronecker"
   ],
   "note": "det and inv may raise only if a factor contains a product of non-square operators (C84)."
  },
  {
   "property": "C24",
   "status": "proved",
   "theorems": [
    "C24_block_diagonal"
   ],
   "note": "Cholesky: C78."
  },
  {
   "property": "C25",
   "status": "proved",
   "theorems": [
    "C25_selection_embedding"
   ],
   "note": "Non-negative indices."
  },
  {
   "property": "C26",
   "status": "proved",
   "theorems": [
    "C26_add",
    "C26_sub",
    "C26_neg",
    "C26_mul",
    "C26_div",
    "C26_matmul_nc",
    "C26_matmul_cn",
    "C26_matmul_nc_defined",
    "C26_matmul_cn_defined",
    "C26_cholesky_update"
   ],
   "note": "Exact arithmetic, dense means and covariances. Products with a zero array that has more axes than the random variable are excluded (C124)."
  },
  {
   "property": "C27",
   "status": "proved",
   "theorems": [
    "C27_getitem",
    "C27_reshape",
    "C27_transpose",
    "C27_constant_getitem",
    "C27_constant_reshape",
    "C27_constant_transpose",
    "C27_sample_reshape"
   ],
   "note": "Exact arithmetic, dense covariances, results with at most two axes. A stored Cholesky factor is dropped by the code. Keys with at most one index array."
  },
  {
   "property": "C28",
   "status": "proved",
   "theorems": [
    "C28_pointwise",
    "C28_raises"
   ],
   "note": "Exact arithmetic; scalars are elements of a commutative ring."
  },
  {
   "property": "C29",
   "status": "proved",
   "theorems": [
    "C29_call",
    "C29_single",
    "C29_call_raises",
    "C29_raises",
    "C29_matrix",
    "C29_linop"
   ],
   "note": "Exact arithmetic, without KeOps. User-defined covariance functions are assumed to compute their function pointwise; matrix and linop for non-empty input shapes."
  },
  {
   "property": "C30",
   "status": "proved",
   "theorems": [
    "C30_coefficients",
    "C30_matern"
   ],
   "note": "Exact arithmetic; the exponential function is a parameter."
  },
  {
   "property": "C31",
   "status": "proved",
   "theorems": [
    "C31_refines_uncached_solver",
    "C31_residual_current",
    "C31_history_aligned"
   ],
   "note": ""
  },
  {
   "property": "C32",
   "status": "proved",
   "theorems": [
    "C32_stops",
    "C32_max_iterations_bounds",
    "C32_early_stop_is_other_criterion"
   ],
   "note": ""
  },
  {
   "property": "C33",
   "status": "proved",
   "theorems": [
    "C33_projections",
    "C33_never_grows",
    "C33_posterior"
   ],
   "note": "Square systems with one right-hand side, exact arithmetic."
  },
  {
   "property": "C34",
   "status": "proved",
   "theorems": [
    "C34_conjugate_gradients"
   ],
   "note": "Square systems with one right-hand side, exact arithmetic."
  },
  {
   "property": "C35",
   "status": "proved",
   "theorems": [
    "C35_secant",
    "C35_secant_symmetric",
    "C35_exact",
    "C35_exact_symmetric",
    "C35_factor",
    "C35_factor_symmetric",
    "C35_symmetric",
    "C35_law",
    "C35_law_symmetric"
   ],
   "note": "Exact arithmetic. For singular prior factors the update may ignore data (Example C35_singular)."
  },
  {
   "property": "C36",
   "status": "proved",
   "theorems": [
    "C36_residual",
    "C36_criterion",
    "C36_first",
    "C36_secant",
    "C36_exact",
    "C36_factors",
    "C36_returned"
   ],
   "note": "Exact arithmetic, one right-hand side, no calibration. The case of exactly one iteration is C108."
  },
  {
   "property": "C37",
   "status": "proved",
   "theorems": [
    "C37_guess",
    "C37_otherwise"
   ],
   "note": "Exact arithmetic."
  },
  {
   "property": "C38",
   "status": "proved",
   "theorems": [
    "C38_without_replacement",
    "C38_conditional",
    "C38_with_replacement",
    "C38_initial",
    "C38_choice"
   ],
   "note": "Exact arithmetic, dense matrices; NumPy's choice is modelled as inversion of the cumulated probabilities."
  },
  {
   "property": "C39",
   "status": "proved",
   "theorems": [
    "C39_batching"
   ],
   "note": "Exact arithmetic."
  },
  {
   "property": "C40",
   "status": "proved",
   "theorems": [
    "C40_variance",
    "C40_predict",
    "C40_variance_decreases",
    "C40_interpolates"
   ],
   "note": "Exact arithmetic; the kernel embedding is a hypothesis."
  },
  {
   "property": "C41",
   "status": "proved",
   "theorems": [
    "C41_range",
    "C41_reduction",
    "C41_overestimates"
   ],
   "note": "Exact arithmetic."
  },
  {
   "property": "C42",
   "status": "proved",
   "theorems": [
    "C42_counts_and_keeps_evaluations",
    "C42_starts_from_given_data",
    "C42_stops_when_first_met",
    "C42_budget",
    "C42_criterion_selection"
   ],
   "note": "Policies that return batch_size nodes."
  },
  {
   "property": "C43",
   "status": "proved",
   "theorems": [
    "C43_radical_inverse",
    "C43_batch_independent",
    "C43_interior",
    "C43_distinct",
    "C43_equidistributed"
   ],
   "note": "Exact rationals (all values are dyadic)."
  },
  {
   "property": "C44",
   "status": "proved",
   "theorems": [
    "C44_as_domain_spec",
    "C44_dimensions"
   ],
   "note": ""
  },
  {
   "property": "C45",
   "status": "proved",
   "theorems": [
    "C45_mean",
    "C45_variance",
    "C45_unsupported"
   ],
   "note": "Real numbers; iterated Riemann integrals. Points outside of the domain: C140."
  },
  {
   "property": "C46",
   "status": "proved",
   "theorems": [
    "C46_multilevel"
   ],
   "note": "Exact arithmetic."
  },
  {
   "property": "C47",
   "status": "proved",
   "theorems": [
    "C47_moments",
    "C47_affine",
    "C47_linearisation",
    "C47_exact",
    "C47_exact0"
   ],
   "note": "Exact arithmetic; the Cholesky factor is an argument, exactness needs P = L L^T."
  },
  {
   "property": "C48",
   "status": "proved",
   "theorems": [
    "C48_affine_exact",
    "C48_first_order",
    "C48_ek_exact",
    "C48_ek_derivative"
   ],
   "note": "Jacobians are given functions."
  },
  {
   "property": "C49",
   "status": "partial",
   "theorems": [
    "C49_constant_mean_refuted",
    "C49_constant_mean_partial"
   ],
   "note": "False of the code: the first estimate is dropped when the second arrives; what is returned is the mean of all but the first."
  },
  {
   "property": "C50",
   "status": "proved",
   "theorems": [
    "C50_posterior_samples_joint_law"
   ],
   "note": "All dimensions, models, data and run lengths; Cholesky factors exact (damping zero), existence proved over real closed fields."
  },
  {
   "property": "C51",
   "status": "proved",
   "theorems": [
    "C51_as_shape_spec"
   ],
   "note": ""
  },
  {
   "property": "C52",
   "status": "proved",
   "theorems": [
    "C52_discretise",
    "C52_reversed"
   ],
   "note": "Real numbers; scipy.linalg.expm is the exponential series. Integrals are Riemann integrals, entry by entry. Other forces: C135."
  },
  {
   "property": "C53",
   "status": "partial",
   "theorems": [
    "C53_scales_aligned_partial",
    "C53_scales_aligned_refuted"
   ],
   "note": "False of the code after a rejection (scales of rejected attempts are kept; witness). Proved when nothing is rejected."
  },
  {
   "property": "C54",
   "status": "proved",
   "theorems": [
    "C54_calibrated"
   ],
   "note": "Exact arithmetic; autonomous ODEs, noise-free information operator."
  },
  {
   "property": "C55",
   "status": "partial",
   "theorems": [
    "C01_unknown_option_unchanged_partial",
    "C01_unknown_option_unchanged_refuted"
   ],
   "note": "False of the code: options named before the unknown one stay changed for good (witness). Proved when the unknown option is named first."
  },
  {
   "property": "C56",
   "status": "partial",
   "theorems": [
    "C03_never_exceeds_tmax_refuted",
    "C03_time_grid"
   ],
   "note": "False of the code: the first step is not clipped to tmax (witness). Holds when the first step fits (C03_time_grid)."
  },
  {
   "property": "C57",
   "status": "partial",
   "theorems": [
    "C04_no_backward_steps_refuted",
    "C04_duplicate_location_refuted"
   ],
   "note": "False of the code; both witnesses are runs of the model."
  },
  {
   "property": "C58",
   "status": "partial",
   "theorems": [
    "C06_runge_kutta_chain_partial",
    "C06_rejection_changes_step_refuted"
   ],
   "note": "False of the code after a rejection (FSAL derivative of the rejected point is reused; witness with RK23). Proved for all tableaus when nothing is rejected."
  },
  {
   "property": "C59",
   "status": "proved",
   "theorems": [
    "C53_uniform_band",
    "C53_lognormal"
   ],
   "note": ""
  },
  {
   "property": "C60",
   "status": "partial",
   "theorems": [
    "C60_as_colvec_array",
    "C60_as_colvec_randvar_refuted"
   ],
   "note": "Proved for arrays. False of the code for random variables, which are returned unchanged."
  },
  {
   "property": "C61",
   "status": "partial",
   "theorems": [
    "C61_assigned_belief_residual_refuted",
    "C61_assigned_belief_residual_partial"
   ],
   "note": "False of the code: the setter keeps a cached residual (witness). Proved from the next step on."
  },
  {
   "property": "C62",
   "status": "partial",
   "theorems": [
    "C62_dimension_positive_partial",
    "C62_dimension_positive_refuted"
   ],
   "note": "False of the code when input_dim is None and the bounds are empty. Proved when input_dim is given."
  },
  {
   "property": "C63",
   "status": "partial",
   "theorems": [
    "C63_iterator_refuted",
    "C51_as_shape_spec"
   ],
   "note": "False of the code: the validation consumes the iterator and () is returned. Holds for re-iterable arguments."
  },
  {
   "property": "C64",
   "status": "partial",
   "theorems": [
    "C64_relative_tolerance_refuted",
    "C64_relative_tolerance_partial"
   ],
   "note": "False of the code for a zero estimate (0/0 is NaN). The documented inequality is proved for a non-zero estimate."
  },
  {
   "property": "C65",
   "status": "partial",
   "theorems": [
    "C65_time_dependent_transition_refuted",
    "C08_filter_is_conditional_law"
   ],
   "note": "False of the code: the transition is evaluated at the end of the step (witness). Holds for transitions that do not depend on absolute time."
  },
  {
   "property": "C66",
   "status": "partial",
   "theorems": [
    "C66_measurement_time_refuted",
    "C08_filter_is_conditional_law"
   ],
   "note": "False of the code: no time is passed to the measurement model (witness). Holds for time-invariant measurement models."
  },
  {
   "property": "C67",
   "status": "partial",
   "theorems": [
    "C67_tall_update_refuted",
    "C14_cholesky_update"
   ],
   "note": "False of the code for every tall S1 and every S2. Proved for the other shapes (C14)."
  },
  {
   "property": "C68",
   "status": "partial",
   "theorems": [
    "C68_forward_high_dimensional_refuted",
    "C10_forward_agrees"
   ],
   "note": "False of the code (raises); proved for the other dimensions."
  },
  {
   "property": "C69",
   "status": "partial",
   "theorems": [
    "C69_forward_samples_partial",
    "C69_forward_samples_refuted"
   ],
   "note": "False of the code: the first base draw is used for the initial state and again for the first step, so the two are correlated (witness: random walk). Proved for deterministic initial states, where the reuse has no effect."
  },
  {
   "property": "C70",
   "status": "partial",
   "theorems": [
    "C70_first_argument_refuted"
   ],
   "note": "False of the code: the initial law is used at the first argument wherever it lies (witness)."
  },
  {
   "property": "C71",
   "status": "proved",
   "theorems": [
    "C71_dense_filter_output",
    "C71_extrapolation_right"
   ],
   "note": ""
  },
  {
   "property": "C72",
   "status": "partial",
   "theorems": [
    "C72_dense_smoothing_refuted"
   ],
   "note": "False of the code: interpolation starts from the smoothed instead of the filtered left state (witness: Brownian motion, covariance 1690/2023 instead of 6/7)."
  },
  {
   "property": "C73",
   "status": "partial",
   "theorems": [
    "C73_repeated_locations_refuted",
    "C19_merge_keeps_observations"
   ],
   "note": "False of the code: an observation is overwritten and a zero row with the integer 0 as measurement model appears (witness). Proved for distinct locations (C19)."
  },
  {
   "property": "C74",
   "status": "proved",
   "theorems": [
    "C74_pmf"
   ],
   "note": ""
  },
  {
   "property": "C75",
   "status": "partial",
   "theorems": [
    "C75_repeated_events_refuted",
    "C74_pmf"
   ],
   "note": "False of the code: only the first of repeated events counts (witness). Proved for distinct events (C74)."
  },
  {
   "property": "C76",
   "status": "partial",
   "theorems": [
    "C76_vector_events_refuted"
   ],
   "note": "False of the code: events match if one component does (witness)."
  },
  {
   "property": "C77",
   "status": "partial",
   "theorems": [
    "C77_importance_weights_partial",
    "C77_default_correction",
    "C77_bootstrap_weights_refuted"
   ],
   "note": "False of the code for the bootstrap filter, which ignores old weights (witness). Proved for correction factors of the documented form; the summand 1e-14 in the default one is taken to be zero."
  },
  {
   "property": "C78",
   "status": "proved",
   "theorems": [
    "C78_derived_quantities"
   ],
   "note": ""
  },
  {
   "property": "C79",
   "status": "partial",
   "theorems": [
    "C79_ill_shaped_partial",
    "C79_ill_shaped_refuted"
   ],
   "note": "False of the code: numpy broadcasting for Matrix and Scaling operands, no shape check in Selection @ Embedding (witnesses). Proved for operands without single-row or single-column Matrix/Scaling parts and without Embeddings."
  },
  {
   "property": "C80",
   "status": "partial",
   "theorems": [
    "C80_lambda_factor_refuted"
   ],
   "note": "False of the code: Identity == LambdaLinearOperator whenever shapes agree, giving wrong sums; Matrix == LambdaLinearOperator raises (witnesses). Proved without Lambda factors (C20)."
  },
  {
   "property": "C81",
   "status": "partial",
   "theorems": [
    "C81_false_flags_refuted",
    "C21_true_flags"
   ],
   "note": "False of the code: 0 * A keeps False flags; rectangular blocks give wrong flags (witnesses). True flags are right (C21)."
  },
  {
   "property": "C82",
   "status": "partial",
   "theorems": [
    "C82_transpose_raises_refuted",
    "C20_operator_arithmetic"
   ],
   "note": "False of the code (two witnesses). For expressions whose flags are assigned before use T never raises (C20)."
  },
  {
   "property": "C83",
   "status": "partial",
   "theorems": [
    "C83_cholesky_exists_partial",
    "C83_cholesky_exists_refuted"
   ],
   "note": "False of the code: Kronecker products of negative definite factors, transposed operators (witnesses). Proved if all factors and blocks are positive definite and flagged symmetric."
  },
  {
   "property": "C84",
   "status": "partial",
   "theorems": [
    "C84_rectangular_product_refuted",
    "C78_derived_quantities"
   ],
   "note": "False of the code (witness); holds if all products have square factors (C78)."
  },
  {
   "property": "C85",
   "status": "partial",
   "theorems": [
    "C85_embedding_options_refuted",
    "C25_selection_embedding"
   ],
   "note": "False of the code (witnesses); holds for distinct indices and default options (C25)."
  },
  {
   "property": "C86",
   "status": "proved",
   "theorems": [
    "C86_solves_sde"
   ],
   "note": ""
  },
  {
   "property": "C87",
   "status": "partial",
   "theorems": [
    "C87_given_gain_refuted",
    "C13_backward"
   ],
   "note": "False of the code (witness: scalar Wiener process, dt = 4). Holds if no gain is passed (C13)."
  },
  {
   "property": "C88",
   "status": "partial",
   "theorems": [
    "C88_zero_step_refuted",
    "C88_negative_step"
   ],
   "note": "False of the code: the preconditioner cannot be inverted."
  },
  {
   "property": "C89",
   "status": "partial",
   "theorems": [
    "C89_implementations_refuted",
    "C89_implementations_partial"
   ],
   "note": "False of the code: the backward implementation is replaced by the forward one."
  },
  {
   "property": "C90",
   "status": "proved",
   "theorems": [
    "C90_orderings"
   ],
   "note": ""
  },
  {
   "property": "C91",
   "status": "proved",
   "theorems": [
    "C91_damping"
   ],
   "note": ""
  },
  {
   "property": "C92",
   "status": "proved",
   "theorems": [
    "C92_callbacks"
   ],
   "note": ""
  },
  {
   "property": "C93",
   "status": "partial",
   "theorems": [
    "C93_empty_basis_refuted",
    "C93_empty_basis_partial"
   ],
   "note": "False of the code for an empty list (np.atleast_2d makes it one vector without entries); holds for an array without rows."
  },
  {
   "property": "C94",
   "status": "partial",
   "theorems": [
    "C94_inverse_refuted",
    "C94_inverse_partial"
   ],
   "note": "False of the code: the mean grows by the decrease of the covariance of the solution, so it converges to the prior mean plus the prior covariance. Exact if that sum is the inverse."
  },
  {
   "property": "C95",
   "status": "proved",
   "theorems": [
    "C95_default_solver"
   ],
   "note": "Exact arithmetic."
  },
  {
   "property": "C96",
   "status": "partial",
   "theorems": [
    "C96_extra_iterations_refuted",
    "C96_extra_iterations_partial"
   ],
   "note": "False of the code: the second iteration after convergence divides zero by zero. The first one is harmless."
  },
  {
   "property": "C97",
   "status": "partial",
   "theorems": [
    "C97_piecewise_refuted",
    "C97_piecewise_partial"
   ],
   "note": "False of the code: intervals are closed on the right, and at t0 the last estimate is returned. Exact values otherwise."
  },
  {
   "property": "C98",
   "status": "proved",
   "theorems": [
    "C98_step",
    "C98_posterior"
   ],
   "note": "Exact arithmetic; autonomous ODEs, noise-free information operator; QR as documented."
  },
  {
   "property": "C99",
   "status": "partial",
   "theorems": [
    "C99_smoothing_refuted",
    "C99_smoothing_partial"
   ],
   "note": "False of the code: the uncalibrated states are smoothed, with the calibrated diffusion (witness)."
  },
  {
   "property": "C100",
   "status": "partial",
   "theorems": [
    "C100_smoothing_refuted",
    "C100_smoothing_partial"
   ],
   "note": "False of the code: every interval but the last is smoothed with the estimate of the next one (witness)."
  },
  {
   "property": "C101",
   "status": "partial",
   "theorems": [
    "C101_time_refuted",
    "C98_step"
   ],
   "note": "False of the code: the update is made without passing a time (witness). Holds for autonomous ODEs (C98)."
  },
  {
   "property": "C102",
   "status": "partial",
   "theorems": [
    "C102_exact_refuted",
    "C98_step"
   ],
   "note": "False of the code: the estimated diffusion is zero, and the gain divides by it."
  },
  {
   "property": "C103",
   "status": "proved",
   "theorems": [
    "C103_integral",
    "C103_value"
   ],
   "note": "Exact arithmetic."
  },
  {
   "property": "C104",
   "status": "proved",
   "theorems": [
    "C104_history"
   ],
   "note": ""
  },
  {
   "property": "C105",
   "status": "partial",
   "theorems": [
    "C105_finite_refuted",
    "C105_zero_data"
   ],
   "note": "False of the code: if all evaluations are zero the estimated scale is zero and is divided by."
  },
  {
   "property": "C106",
   "status": "partial",
   "theorems": [
    "C106_mle_growth_refuted",
    "C40_variance_decreases"
   ],
   "note": "False (witness); holds without scale estimation (C40)."
  },
  {
   "property": "C107",
   "status": "partial",
   "theorems": [
    "C107_jitter_refuted",
    "C41_reduction",
    "C41_overestimates"
   ],
   "note": "False (witness with jitter 1); exact for zero jitter, an upper bound otherwise."
  },
  {
   "property": "C108",
   "status": "partial",
   "theorems": [
    "C108_one_iteration_refuted",
    "C36_returned"
   ],
   "note": "False (witness): prior factors are returned; holds for every other number of iterations."
  },
  {
   "property": "C109",
   "status": "partial",
   "theorems": [
    "C109_solution_mean_refuted",
    "C36_exact"
   ],
   "note": "False (witness with one iteration); both are exact after n iterations."
  },
  {
   "property": "C110",
   "status": "partial",
   "theorems": [
    "C110_breakdown_refuted",
    "C36_exact"
   ],
   "note": "False (witness: 2x2 system, zero search direction in the second iteration, NaN until maxiter)."
  },
  {
   "property": "C111",
   "status": "partial",
   "theorems": [
    "C111_second_call_refuted",
    "C36_secant"
   ],
   "note": "False (witness); holds for the first call."
  },
  {
   "property": "C112",
   "status": "partial",
   "theorems": [
    "C112_guess_refuted",
    "C37_guess",
    "C37_otherwise"
   ],
   "note": "False (witness with b.x0 < 0); holds for b.x0 > 0."
  },
  {
   "property": "C113",
   "status": "partial",
   "theorems": [
    "C113_zero_refuted",
    "C28_raises"
   ],
   "note": "False (witness); holds if neither is a zero function."
  },
  {
   "property": "C114",
   "status": "proved",
   "theorems": [
    "C114_linear",
    "C114_polynomial",
    "C114_white_noise",
    "C114_exp_quad",
    "C114_rat_quad",
    "C114_matern",
    "C114_product_matern"
   ],
   "note": "Exact arithmetic; the exponential function and real powers are parameters. Linear, Polynomial and WhiteNoise for points with at most one axis (C118). Lengths: squared differences are divided by squared length scales (C117)."
  },
  {
   "property": "C115",
   "status": "proved",
   "theorems": [
    "C115_matrix",
    "C115_linear",
    "C115_polynomial",
    "C115_white_noise"
   ],
   "note": "Exact arithmetic. Positive semi-definiteness of ExpQuad, RatQuad and Matern is a hypothesis here; C142 proves it."
  },
  {
   "property": "C116",
   "status": "partial",
   "theorems": [
    "C116_negative_refuted",
    "C115_matrix"
   ],
   "note": "False (witness)."
  },
  {
   "property": "C117",
   "status": "partial",
   "theorems": [
    "C117_norm_refuted",
    "C114_matern"
   ],
   "note": "False (witness): the code divides by squared length scales."
  },
  {
   "property": "C118",
   "status": "partial",
   "theorems": [
    "C118_axes_refuted",
    "C114_linear",
    "C114_white_noise"
   ],
   "note": "False: every call with two inputs raises for shapes with two axes; holds for at most one axis."
  },
  {
   "property": "C119",
   "status": "partial",
   "theorems": [
    "C119_cross_refuted",
    "C29_matrix"
   ],
   "note": "False for all such functions; holds for equal input shapes."
  },
  {
   "property": "C120",
   "status": "partial",
   "theorems": [
    "C120_white_noise_refuted",
    "C120_exp_quad_refuted",
    "C114_white_noise",
    "C114_exp_quad"
   ],
   "note": "False (WhiteNoise without second argument truncates, ExpQuad raises); holds for floats."
  },
  {
   "property": "C121",
   "status": "partial",
   "theorems": [
    "C121_rownorm_refuted",
    "C38_initial"
   ],
   "note": "False (witness): column norms are used; the same for symmetric matrices."
  },
  {
   "property": "C122",
   "status": "partial",
   "theorems": [
    "C122_refuted",
    "C47_exact"
   ],
   "note": "False (scalar witness) because 1e-12 I is added to the covariance; the mean is exact and the error of the covariance is eps G G^T."
  },
  {
   "property": "C123",
   "status": "partial",
   "theorems": [
    "C123_vector_refuted",
    "C26_matmul_cn_defined"
   ],
   "note": "False: always raises; holds for all other shapes."
  },
  {
   "property": "C124",
   "status": "partial",
   "theorems": [
    "C124_scalar_refuted",
    "C26_mul"
   ],
   "note": "False: raises for every non-zero array of this shape and gives shape () for a zero array."
  },
  {
   "property": "C125",
   "status": "partial",
   "theorems": [
    "C125_factor_refuted",
    "C26_mul",
    "C26_matmul_nc"
   ],
   "note": "False (scaling with -1; products with vectors); it always is a square root."
  },
  {
   "property": "C126",
   "status": "partial",
   "theorems": [
    "C126_damping_refuted",
    "C126_representation_refuted"
   ],
   "note": "False for every positive damping, the default being 1e-12; the square is cov + damping for scalars."
  },
  {
   "property": "C127",
   "status": "partial",
   "theorems": [
    "C127_access_refuted"
   ],
   "note": "False exactly for IdentityKronecker, SymmetricKronecker with different factors and operators without own factorisation: raises TypeError after access. Model of types only."
  },
  {
   "property": "C128",
   "status": "partial",
   "theorems": [
    "C128_short_key_refuted",
    "C128_not_square_refuted",
    "C27_getitem"
   ],
   "note": "False: wrong covariance for shape (2, 2) (witness Example ex_row), raises for all non-square matrices; holds for keys with one entry per axis."
  },
  {
   "property": "C129",
   "status": "partial",
   "theorems": [
    "C129_ellipsis_refuted",
    "C27_getitem"
   ],
   "note": "False: every such key raises."
  },
  {
   "property": "C130",
   "status": "partial",
   "theorems": [
    "C130_mixed_axes_refuted",
    "C27_transpose"
   ],
   "note": "False (Example ex_mixed); holds for non-negative axes."
  },
  {
   "property": "C131",
   "status": "partial",
   "theorems": [
    "C131_scalar_refuted",
    "C27_reshape"
   ],
   "note": "False: always raises."
  },
  {
   "property": "C132",
   "status": "partial",
   "theorems": [
    "C132_getitem_refuted",
    "C132_transpose_refuted",
    "C27_sample_reshape"
   ],
   "note": "False for sample sizes other than (): the view is applied to the axes of the sample size too. Holds for reshape."
  },
  {
   "property": "C133",
   "status": "partial",
   "theorems": [
    "C133_axes_refuted",
    "C133_raises_refuted",
    "C133_sample"
   ],
   "note": "False for a scalar and a vector; holds for operands with equally many axes. Elementwise operations."
  },
  {
   "property": "C134",
   "status": "partial",
   "theorems": [
    "C134_size_one_refuted",
    "C134_shape_one_refuted",
    "C134_sample"
   ],
   "note": "False for size (1,) and for shape (1,); holds if neither has axes of length one. SciPy's multivariate_normal.rvs is modelled by its draws followed by squeeze."
  },
  {
   "property": "C135",
   "status": "partial",
   "theorems": [
    "C135_force_refuted",
    "C52_reversed"
   ],
   "note": "False (Example ex_force): the entries of the force are reversed, because proj_rev flips all columns; C52_reversed says what is computed."
  },
  {
   "property": "C136",
   "status": "proved",
   "theorems": [
    "C136_forward",
    "C136_backward",
    "C136_terminal"
   ],
   "note": "Real numbers; derivatives entry by entry. scipy's solve_ivp is not modelled, only the vector fields given to it."
  },
  {
   "property": "C137",
   "status": "partial",
   "theorems": [
    "C137_decay_refuted",
    "C137_sqrt"
   ],
   "note": "False (scalar dx = - x dt): tril_to_positive_tril is applied to the derivative, so the factor grows; holds if the derivative has a non-negative diagonal."
  },
  {
   "property": "C138",
   "status": "proved",
   "theorems": [
    "C138_mean",
    "C138_variance"
   ],
   "note": "Real numbers; iterated Riemann integrals; erf is defined by its integral. Scalar length scales (C141)."
  },
  {
   "property": "C139",
   "status": "proved",
   "theorems": [
    "C139_mean",
    "C139_variance"
   ],
   "note": "Real numbers; iterated improper Riemann integrals; SciPy's Cholesky factorisation is a parameter that returns a Cholesky factor. Singular covariances have no density and are not covered."
  },
  {
   "property": "C140",
   "status": "partial",
   "theorems": [
    "C140_outside_refuted",
    "C45_mean"
   ],
   "note": "False (witness): the value is negative although the kernel is positive; holds inside the domain."
  },
  {
   "property": "C141",
   "status": "partial",
   "theorems": [
    "C141_lengthscales_refuted",
    "C138_mean"
   ],
   "note": "False (ExpQuad with a one-element array of length scales): evaluating raises; holds for scalar length scales."
  },
  {
   "property": "C142",
   "status": "proved",
   "theorems": [
    "C142_matrix",
    "C142_exp_quad",
    "C142_rat_quad",
    "C142_matern",
    "C142_product_matern"
   ],
   "note": "Real numbers with the exponential function and powers of the standard library. Matern with other smoothness (Bessel functions) is not modelled."
  },
  {
   "property": "C143",
   "status": "proved",
   "theorems": [
    "C143_value",
    "C143_order",
    "C143_nodes"
   ],
   "note": "Exact arithmetic; the density is an arbitrary function. With scale zero the value is nan (see C105)."
  },
  {
   "property": "C144",
   "status": "proved",
   "theorems": [
    "C144_continuous",
    "C144_discontinuous",
    "C144_gaussian",
    "C144_oscillatory",
    "C144_cornerpeak",
    "C144_productpeak"
   ],
   "note": "Real numbers; iterated Riemann integrals. Zero entries of a: C151; the documented corner peak: C153; the shape: C150."
  },
  {
   "property": "C145",
   "status": "proved",
   "theorems": [
    "C145_bratley",
    "C145_roos_arnold",
    "C145_gfunction",
    "C145_morokoff_caflisch_1",
    "C145_morokoff_caflisch_2"
   ],
   "note": "Real numbers; iterated Riemann integrals."
  },
  {
   "property": "C146",
   "status": "proved",
   "theorems": [
    "C146_transform"
   ],
   "note": "Real numbers; iterated improper Riemann integrals; normal_cdf is defined by its integral. Mixed types: C147."
  },
  {
   "property": "C147",
   "status": "partial",
   "theorems": [
    "C147_mixed_refuted",
    "C146_transform"
   ],
   "note": "False in several dimensions: the constructor of GaussianMeasure raises; holds for equal types."
  },
  {
   "property": "C148",
   "status": "proved",
   "theorems": [
    "C148_unit_variance"
   ],
   "note": "Real numbers; iterated improper Riemann integrals. Other variances: C152."
  },
  {
   "property": "C149",
   "status": "partial",
   "theorems": [
    "C149_integer_refuted",
    "C148_unit_variance"
   ],
   "note": "False: an integer variance makes the mean an array, and GaussianMeasure raises for a scalar covariance in several dimensions."
  },
  {
   "property": "C150",
   "status": "partial",
   "theorems": [
    "C150_shape_refuted",
    "C144_continuous"
   ],
   "note": "False: the shape is (n_eval, 1); the entries are right."
  },
  {
   "property": "C151",
   "status": "partial",
   "theorems": [
    "C151_zero_refuted",
    "C144_continuous"
   ],
   "note": "False (a = 0): the solution is nan although the integral is one; holds without zero entries."
  },
  {
   "property": "C152",
   "status": "partial",
   "theorems": [
    "C152_variance_refuted",
    "C148_unit_variance"
   ],
   "note": "False (x^2 with variance 4): the stored solution is 16, the integral 4; holds for variance one."
  },
  {
   "property": "C153",
   "status": "partial",
   "theorems": [
    "C153_exponent_refuted",
    "C144_cornerpeak"
   ],
   "note": "False: the implemented exponent is -d-1; C144 holds for it."
  },
  {
   "property": "C154",
   "status": "proved",
   "theorems": [
    "C154_drift",
    "C154_forward",
    "C154_noise"
   ],
   "note": "Real numbers; scipy.linalg.expm is the exponential series; numpy's Cholesky and QR are parameters with their defining properties; damping 0. With the classic forward implementation the diffusion is positive. dt = 0 as in C88."
  },
  {
   "property": "C155",
   "status": "proved",
   "theorems": [
    "C155_backward"
   ],
   "note": "As C154. With the classic backward implementation the smoothed covariance is assumed positive definite, because it is factorised anew. Given gains: C156."
  },
  {
   "property": "C156",
   "status": "partial",
   "theorems": [
    "C156_given_gain_refuted",
    "C156_given_gain",
    "C155_backward"
   ],
   "note": "False (scalar Ornstein-Uhlenbeck process with step 4: the update is divided by 4): the gain is multiplied with the inverse preconditioner on both sides. C156_given_gain says what is computed with the square-root implementation."
  },
  {
   "property": "C157",
   "status": "proved",
   "theorems": [
    "C157_vanderpol",
    "C157_rigidbody",
    "C157_logistic",
    "C157_fitzhughnagumo",
    "C157_lotkavolterra",
    "C157_seir",
    "C157_lorenz63"
   ],
   "note": "Real numbers; partial derivatives. Division by zero parameters has Coq's value 1/0 in f and df alike."
  },
  {
   "property": "C158",
   "status": "proved",
   "theorems": [
    "C158_rigidbody",
    "C158_seir",
    "C158_lotkavolterra",
    "C158_threebody"
   ],
   "note": "Real numbers; solutions on any set of times, not necessarily existing."
  },
  {
   "property": "C159",
   "status": "proved",
   "theorems": [
    "C159_lorenz96",
    "C159_raises",
    "C159_problem"
   ],
   "note": "Real numbers."
  },
  {
   "property": "C160",
   "status": "partial",
   "theorems": [
    "C160_lorenz96_refuted",
    "C160_lorenz96_witness",
    "C160_vanderpol_refuted",
    "C159_problem"
   ],
   "note": "False: the default of lorenz96 is [F, ..., F], an equilibrium; the default of vanderpol is 10. Given values are kept."
  },
  {
   "property": "C161",
   "status": "proved",
   "theorems": [
    "C161_logistic",
    "C161_logistic_domain"
   ],
   "note": "Real numbers; one-dimensional arrays of length one. Other initial times: C162."
  },
  {
   "property": "C162",
   "status": "partial",
   "theorems": [
    "C162_initial_time_refuted",
    "C161_logistic"
   ],
   "note": "False for every t0 with a t0 non-zero and 0 < y0 < b: the initial time is ignored; holds for t0 = 0."
  },
  {
   "property": "C163",
   "status": "partial",
   "theorems": [
    "C163_measurement_refuted",
    "C163_witness",
    "C163_measurement_partial"
   ],
   "note": "False for at least one derivative (the default is one): position and velocity of the first coordinate are measured, because the state is ordered coordinate by coordinate; holds without derivatives."
  },
  {
   "property": "C164",
   "status": "partial",
   "theorems": [
    "C164_car_refuted",
    "C164_ou_refuted"
   ],
   "note": "False: the argument is ignored; the noise is that of diffusion one."
  },
  {
   "property": "C165",
   "status": "partial",
   "theorems": [
    "C165_drift_refuted"
   ],
   "note": "False for non-zero speeds: the drift is -driftspeed * x."
  },
  {
   "property": "C166",
   "status": "proved",
   "theorems": [
    "C166_pendulum",
    "C166_benes",
    "C166_noise"
   ],
   "note": "Real numbers; entries only (the Jacobian of benes_daum has the shape of x)."
  },
  {
   "property": "C167",
   "status": "partial",
   "theorems": [
    "C167_initial_refuted",
    "C167_order_refuted"
   ],
   "note": "False: the mean is [0.1, 0, 0, 0]; holds for y0 = 0.1 and order 3."
  },
  {
   "property": "C168",
   "status": "proved",
   "theorems": [
    "C168_spd",
    "C168_spd_gamma",
    "C168_sparse"
   ],
   "note": "Exact arithmetic; random draws are arguments: an orthogonal matrix, positive Gamma values, a mask and uniform values."
  },
  {
   "property": "C169",
   "status": "proved",
   "theorems": [
    "C169_matrix",
    "C169_lists"
   ],
   "note": "Exact arithmetic. For no locations the list still has the initial condition."
  },
  {
   "property": "C170",
   "status": "proved",
   "theorems": [
    "C170_dirac",
    "C170_gaussian"
   ],
   "note": "Exact arithmetic; the laws given the state, without the wrapping of an approximation strategy. The mean of the second model with noise: C171."
  },
  {
   "property": "C171",
   "status": "partial",
   "theorems": [
    "C171_bias_refuted",
    "C171_witness",
    "C171_shift"
   ],
   "note": "False for every y0 other than zero: the noise with mean -y0 is also used for the differential equation. C171_shift says what is measured."
  },
  {
   "property": "C172",
   "status": "proved",
   "theorems": [
    "C172_stack",
    "C172_jacobian"
   ],
   "note": "Exact arithmetic. Fewer derivatives: C173; the meaning of the third entry: C175."
  },
  {
   "property": "C173",
   "status": "partial",
   "theorems": [
    "C173_size_refuted",
    "C172_stack",
    "C172_jacobian"
   ],
   "note": "False for Stack without derivatives and StackWithJacobian with one derivative: the state is larger than that of the prior. Holds otherwise (first component of C172)."
  },
  {
   "property": "C174",
   "status": "proved",
   "theorems": [
    "C174_states"
   ],
   "note": "Exact arithmetic; np.linalg.qr is a parameter with its defining properties."
  },
  {
   "property": "C175",
   "status": "partial",
   "theorems": [
    "C175_time_refuted",
    "C175_autonomous"
   ],
   "note": "False for y' = t: the partial derivative with respect to time is missing. Holds for autonomous systems with differentiable f."
  },
  {
   "property": "C176",
   "status": "proved",
   "theorems": [
    "C176_range",
    "C176_information",
    "C176_order"
   ],
   "note": "Real numbers; a zero denominator gives no number, as in C41."
  },
  {
   "property": "C177",
   "status": "proved",
   "theorems": [
    "C177_contraction"
   ],
   "note": "Exact arithmetic."
  },
  {
   "property": "C178",
   "status": "proved",
   "theorems": [
    "C178_system"
   ],
   "note": "Exact arithmetic; the random draws are arguments."
  }
 ]
}