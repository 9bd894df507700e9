{
 "claims": [
  {
   "property": "C01",
   "status": "proved",
   "theorems": [
    "C01_top_is_product_of_factors",
    "C01_every_level_is_a_prefix_product",
    "C01_pop_restores"
   ],
   "note": "Proved for factors that fit the 16-bit column field and 32-bit offsets (hypothesis fits)."
  },
  {
   "property": "C02",
   "status": "proved",
   "theorems": [
    "C02_regions_aligned_disjoint_in_bounds",
    "C02_empty_stack_throws",
    "C02_wide_matrix_refuted"
   ],
   "note": "Proved within the field widths; C02_wide_matrix_refuted shows the behaviour beyond them."
  },
  {
   "property": "C03",
   "status": "proved",
   "theorems": [
    "C03_sparse_container_sums_over_paths",
    "C03_prescaled_container_sums_over_paths"
   ],
   "note": "Sparse container and prescaling wrapper."
  },
  {
   "property": "C04",
   "status": "proved",
   "theorems": [
    "C04_sparse_dense_agree"
   ],
   "note": "asDenseMatrix(colBlockIndices) against JacobianContainerDense."
  },
  {
   "property": "C05",
   "status": "proved",
   "theorems": [
    "C05_merge_adds",
    "C05_apply_chain_rule_premultiplies",
    "C05_rectangular_chain_refuted"
   ],
   "note": "Proved for square chain-rule matrices; C05_rectangular_chain_refuted records that a rectangular chain is refused."
  },
  {
   "property": "C06",
   "status": "proved",
   "theorems": [
    "C06_normal_equations",
    "C06_order_independent"
   ],
   "note": "Upper block triangle, right-hand side, order independence."
  },
  {
   "property": "C07",
   "status": "proved",
   "theorems": [
    "C07_ranges_cover_once",
    "C07_no_threads_refused_empty_range_no_job",
    "C07_range_beyond_int_refuted"
   ],
   "note": "Ranges up to 2^31-1 as stated in the property; C07_range_beyond_int_refuted shows the bound is needed."
  },
  {
   "property": "C08",
   "status": "proved",
   "theorems": [
    "C08_total_error",
    "C08_gradient",
    "C08_gradient_job",
    "C08_linear_system_error"
   ],
   "note": "Every interleaving of main thread and workers at the granularity of one index; exact arithmetic (commutative ring)."
  },
  {
   "property": "C09",
   "status": "proved",
   "theorems": [
    "C09_exception_of_lowest_job",
    "C09_ends_with_all_workers_ended"
   ],
   "note": "Every interleaving; failure of std::async itself is not modelled."
  },
  {
   "property": "C10",
   "status": "partial",
   "theorems": [
    "C10_ranges_cover_once_partial",
    "C10_no_error_terms_refuted"
   ],
   "note": "Proved for at least one error term. For zero error terms and two or more threads the code divides by zero (C10_no_error_terms_refuted), so the full statement is false for this code."
  },
  {
   "property": "C11",
   "status": "proved",
   "theorems": [
    "C11_contents_match_history",
    "C11_only_duplicates_throw"
   ],
   "note": "Every history without use of a freed term."
  },
  {
   "property": "C12",
   "status": "partial",
   "theorems": [
    "C12_remove_design_variable_partial",
    "C12_term_listing_variable_twice_refuted",
    "C12_nonsquared_terms_keep_reference_refuted"
   ],
   "note": "Squared terms fully; the full statement is false for this code: use after free when an owned term lists the variable twice (C12_term_listing_variable_twice_refuted), non-squared terms keep the reference (C12_nonsquared_terms_keep_reference_refuted)."
  },
  {
   "property": "C13",
   "status": "proved",
   "theorems": [
    "C13_layout_is_compact",
    "C13_columns_partition",
    "C13_initialize_idempotent",
    "C13_optimizer1_layout"
   ],
   "note": "ProblemManager/Optimizer2 and Optimizer version 1."
  },
  {
   "property": "C14",
   "status": "proved",
   "theorems": [
    "C14_state_update_slices",
    "C14_gradient_scaling"
   ],
   "note": "Including gradient scaling; a dx that is too short is read out of bounds (example)."
  },
  {
   "property": "C15",
   "status": "partial",
   "theorems": [
    "C15_revert_restores_partial",
    "C15_parameters_restore_value",
    "C15_save_restore_all",
    "C15_generic_vector_set_then_revert_refuted",
    "C15_generic_vector_fresh_revert_refuted",
    "C15_rotation_from_matrix_refuted"
   ],
   "note": "All classes over arbitrary arithmetic; false for DesignVariableGenericVector::setParameters and for its revert before any update (refuted)."
  },
  {
   "property": "C16",
   "status": "partial",
   "theorems": [
    "C16_functor_leaves_state_partial",
    "C16_repeated_variable_refuted",
    "C16_throwing_error_refuted"
   ],
   "note": "Proved for distinct variables and returning error terms; false with repeated variables or a throwing error term (refuted)."
  },
  {
   "property": "C17",
   "status": "partial",
   "theorems": [
    "C17_squared_error_is_quadratic_form",
    "C17_squared_error_from_square_root",
    "C17_weighted_error_norm",
    "C17_weighted_jacobian_is_derivative",
    "C17_expression_error_term_partial",
    "C17_expression_error_term_refuted"
   ],
   "note": "Proved for ErrorTermFs / ErrorTermDs; the weighted-Jacobian statement assumes the term's own evaluateJacobians is the derivative of its error (C51, C52). False for ExpressionErrorTerm with a square root that is not symmetric (refuted); LDLT-based roots are not."
  },
  {
   "property": "C18",
   "status": "proved",
   "theorems": [
    "C18_weight_positive",
    "C18_weight_nonincreasing",
    "C18_weight_is_derivative_of_loss",
    "C18_unit_at_zero_and_bounded",
    "C18_blake_zisserman_cut"
   ],
   "note": "All six estimators over R; derivative two-sided for every s >= 0."
  },
  {
   "property": "C19",
   "status": "proved",
   "theorems": [
    "C19_squared_term",
    "C19_nonsquared_term",
    "C19_gradient_is_derivative_of_cost",
    "C19_reported_weighted_error_refuted"
   ],
   "note": "Any terms whose evaluateJacobians is the derivative of the error, dense or sparse container, any interleaving, with design-variable scaling; with M-estimators the gradient belongs to the robust loss, not to the weighted squared error reported (C19_reported_weighted_error_refuted)."
  },
  {
   "property": "C20",
   "status": "partial",
   "theorems": [
    "C20_exponentials_are_normalised_partial",
    "C20_no_overflow",
    "C20_stored_weights_refuted"
   ],
   "note": "The values handed to setWeight are logarithms of the normalised weights: their exponentials are the softmax and sum to one; the stored weights themselves are negative (refuted)."
  },
  {
   "property": "C21",
   "status": "partial",
   "theorems": [
    "C21_never_worse_partial",
    "C21_nan_refuted"
   ],
   "note": "All environments and histories in double arithmetic, infinities included; excludes NaN costs, for which the claim is false (C21_nan_refuted)."
  },
  {
   "property": "C22",
   "status": "proved",
   "theorems": [
    "C22_state_is_reported"
   ],
   "note": "Every environment respecting the design variable contract of C15."
  },
  {
   "property": "C23",
   "status": "partial",
   "theorems": [
    "C23_kept_steps",
    "C23_kept_steps_bound",
    "C23_kept_steps_failed_solve_refuted",
    "C23_terminates",
    "C23_counts",
    "C23_unlimited_refuted",
    "C23_second_call_refuted"
   ],
   "note": "Termination, limits and counters for every environment. The 'unlimited' setting -1 performs zero iterations (refuted), and a second call continues the counters of the first, so it may do nothing (refuted). Independently of the limit, a reverting run without failed solves and with finite costs keeps at most JStart/convergenceDeltaError + 1 steps (C23_kept_steps, C23_kept_steps_bound, in doubles); after a failed solve that bound is lost (C23_kept_steps_failed_solve_refuted)."
  },
  {
   "property": "C24",
   "status": "partial",
   "theorems": [
    "C24_positive_partial",
    "C24_failure",
    "C24_consecutive_failures",
    "C24_success_partial",
    "C24_nan_refuted",
    "C24_jump_refuted"
   ],
   "note": "Over the reals. A 0/0 gain ratio turns the damping into NaN and a damping of at most 1e-16 jumps to 1e-15 (both refuted)."
  },
  {
   "property": "C25",
   "status": "partial",
   "theorems": [
    "C25_stale_step_refuted",
    "C25_inside_partial",
    "C25_path",
    "C25_gauss_newton",
    "C25_zero_gradient_refuted",
    "C25_failed_solve_refuted"
   ],
   "note": "Over the reals, for histories of successful solves of full-rank systems with non-zero gradient; false at a zero gradient and after a failed solve (refuted); after a rejected step the Gauss-Newton step of an older state may be proposed (C25_stale_step_refuted)."
  },
  {
   "property": "C26",
   "status": "partial",
   "theorems": [
    "C26_no_step_partial",
    "C26_flag_refuted",
    "C26_lm_gn",
    "C26_lm_fresh_partial",
    "C26_lm_stale_refuted",
    "C26_dogleg_refuted",
    "C26_linesearch_partial",
    "C26_linesearch_refuted"
   ],
   "note": "Loop: a failed solve never leads to a state update in that iteration; the flag is sticky (refuted for 'last solve'). LM and GN return this call's solve; dog-leg and line search return the failed solve's leftovers at the next call (refuted); LM may solve a stale system after a step with non-positive gain (refuted)."
  },
  {
   "property": "C27",
   "status": "partial",
   "theorems": [
    "C27_order",
    "C27_registered",
    "C27_removed",
    "C27_stop_refuted"
   ],
   "note": "Registry fully; no optimizer in the repository looks at the verdict, so callbacks cannot stop it (C27_stop_refuted)."
  },
  {
   "property": "C28",
   "status": "proved",
   "theorems": [
    "C28_criteria",
    "C28_disabled",
    "C28_options",
    "C28_success",
    "C28_optimizer2",
    "C28_optimizer2_nan"
   ],
   "note": "All doubles. Optimizer2 reports from a reset status; with a NaN cost it ends IN_PROGRESS (C28_optimizer2_nan)."
  },
  {
   "property": "C29",
   "status": "partial",
   "theorems": [
    "C29_terminates",
    "C29_best_state_partial",
    "C29_history",
    "C29_failed_solve_refuted",
    "C29_reported_cost_refuted",
    "C29_gauss_newton_refuted",
    "C29_stale_system_refuted",
    "C29_initial_lambda_partial",
    "C29_initial_lambda_refuted",
    "C29_initial_lambda_entry_refuted",
    "C29_damping_partial"
   ],
   "note": "Holds with damping on, no failed linear solve, finite positive predicted decreases and a last step that was kept; otherwise false: a failed solve undoes the last accepted step, the cost of an undone step is reported, Gauss-Newton keeps any step and never rebuilds its system after a failed solve, the estimated initial damping reads wrong or out-of-range entries (refuted). The complete account of every run is C29_history. The damping after a kept step, in doubles: C29_damping_partial (beta = 2)."
  },
  {
   "property": "C30",
   "status": "partial",
   "theorems": [
    "C30_wolfe1",
    "C30_wolfe1_computed",
    "C30_wolfe12_partial",
    "C30_outcomes",
    "C30_stationary",
    "C30_tiny_progress_refuted",
    "C30_sufficient_decrease_refuted"
   ],
   "note": "lineSearchWolfe1: full strong Wolfe conditions in exact arithmetic and as computed in doubles. lineSearchWolfe12 (used by BFGS): curvature, position and decrease; sufficient decrease is refuted because zoom uses the slope at the lower interval end. When each search throws or returns, for any arithmetic: C30_outcomes; at slope zero: C30_stationary; with default options the search throws after very small progress: C30_tiny_progress_refuted."
  },
  {
   "property": "C31",
   "status": "partial",
   "theorems": [
    "C31_steps_partial",
    "C31_trials_partial",
    "C31_lower_bound_refuted",
    "C31_best_end_partial",
    "C31_best_end_refuted"
   ],
   "note": "Steps are within the bounds, or 0, or NaN; the best point is at the first end when no trial decreases too little. C31_lower_bound_refuted and C31_best_end_refuted give the counterexamples to the full statement."
  },
  {
   "property": "C32",
   "status": "partial",
   "theorems": [
    "C32_can_go_back_partial",
    "C32_restores_refuted"
   ],
   "note": "The failed search leaves the design variables at the last trial (refuted); they are at start plus reported step, so step length 0 restores them."
  },
  {
   "property": "C33",
   "status": "partial",
   "theorems": [
    "C33_update",
    "C33_direction",
    "C33_run",
    "C33_descent_partial",
    "C33_curvature_needed_refuted"
   ],
   "note": "Exact arithmetic. Update: symmetric, secant, positive definite (proved for all n). Whole runs: symmetry and non-ascent unconditionally; positive definiteness and strict descent for c2 < 1 and non-negative accepted steps (c2 < 1 is not required by the option check)."
  },
  {
   "property": "C34",
   "status": "partial",
   "theorems": [
    "C34_steps_partial",
    "C34_bounds_refuted",
    "C34_magnitude_refuted",
    "C34_shrink_refuted"
   ],
   "note": "Double precision, all four rules, any number of iterations, for sane options (initialDelta within bounds, etaMinus <= 1 <= etaPlus, finite maxDelta). The option check is weaker (refutations); a reverted step has the size before shrinking (refutation)."
  },
  {
   "property": "C35",
   "status": "partial",
   "theorems": [
    "C35_balance",
    "C35_step",
    "C35_cache_partial",
    "C35_exception_refuted",
    "C35_nan_refuted"
   ],
   "note": "Detailed balance (exact arithmetic), one step and caching in every arithmetic and over all histories without exceptions. Refuted otherwise: an exception while evaluating the proposal leaves the proposal with a stale cached value (C35_exception_refuted); a NaN density is always accepted (C35_nan_refuted)."
  },
  {
   "property": "C36",
   "status": "proved",
   "theorems": [
    "C36_reversible",
    "C36_rejection",
    "C36_cache",
    "C36_balance",
    "C36_sigma_refuted"
   ],
   "note": "Reversibility for every gradient, step size, step count; rejection and exceptions restore; cached values valid over all histories; detailed balance for unit momentum. C36_sigma_refuted: with standardDeviationMomentum other than 1 the acceptance rule does not fit the sampled momenta. Exact arithmetic."
  },
  {
   "property": "C37",
   "status": "proved",
   "theorems": [
    "C37_counts",
    "C37_rate",
    "C37_mean"
   ],
   "note": "Counts for every virtual step and history; rate in double precision; running mean in exact arithmetic."
  },
  {
   "property": "C38",
   "status": "partial",
   "theorems": [
    "C38_access",
    "C38_calls",
    "C38_from_dense",
    "C38_nan_refuted",
    "C38_cholmod",
    "C38_cholmod_refuted"
   ],
   "note": "Proved for every history of constructor, init (empty object), clear+init, fromDense, fromCholmodSparse (sorted arrays whose nzmax entries are all in use), appendJacobians, push/pop/update calls; NaN entries given to fromDense are lost (refuted); CHOLMOD matrices with unused room are refused and the mark of an appended diagonal survives (refuted)."
  },
  {
   "property": "C39",
   "status": "partial",
   "theorems": [
    "C39_products_partial",
    "C39_diagonal_refuted"
   ],
   "note": "Products proved for every reachable matrix; while a diagonal is appended they are those of the matrix without it, so the claim as stated is refuted."
  },
  {
   "property": "C40",
   "status": "partial",
   "theorems": [
    "C40_push",
    "C40_pop",
    "C40_reset_partial",
    "C40_clear_refuted",
    "C40_init_refuted",
    "C40_from_dense_refuted",
    "C40_update_refuted"
   ],
   "note": "Push/pop/update proved for every history; clear followed by init proved; clear alone, init of a non-empty object, fromDense on a matrix with diagonal and update with a wrong size are refuted."
  },
  {
   "property": "C41",
   "status": "partial",
   "theorems": [
    "C41_builder_partial",
    "C41_disjoint"
   ],
   "note": "Any number of threads and any order of the writes; at least one error term and one design variable, at most 2^31-1 error terms, Jacobian containers sorted as JacobianContainerSparse keeps them and holding exactly the active design variables."
  },
  {
   "property": "C42",
   "status": "partial",
   "theorems": [
    "C42_access",
    "C42_transpose_partial",
    "C42_transpose_refuted",
    "C42_add",
    "C42_multiply_partial",
    "C42_multiply_refuted",
    "C42_vectors",
    "C42_pointer_refuted",
    "C42_scale_clear_clone",
    "C42_slice",
    "C42_slice_into"
   ],
   "note": "Element access, dense conversion, add, scale, clear, clone, slice, sliceInto and vector products proved for every layout and content; transpose and multiply proved for a new destination. Refuted for existing destinations: transpose keeps stale blocks, multiply and the pointer vector products accumulate."
  },
  {
   "property": "C43",
   "status": "proved",
   "theorems": [
    "C43_full",
    "C43_upper",
    "C43_layout"
   ],
   "note": "Full and upper-only permutation for every layout, content and permutation (non-empty square matrices); the code maps old block i to new block pinv[i], the header comment says the opposite."
  },
  {
   "property": "C44",
   "status": "partial",
   "theorems": [
    "C44_full",
    "C44_upper_partial",
    "C44_values",
    "C44_lower_refuted",
    "C44_triu_refuted",
    "C44_empty_refuted",
    "C44_structure"
   ],
   "note": "Full conversion, values-only refill and block structure proved for every matrix; upper-triangle versions proved for upper-only storage without empty blocks and refuted otherwise."
  },
  {
   "property": "C45",
   "status": "proved",
   "theorems": [
    "C45_elimination",
    "C45_coupled_refuted"
   ],
   "note": "For every layout, split point and symmetric matrix whose eliminated blocks are not coupled: the solutions of the full damped system are exactly the solutions of the reduced system with the back-substitution. Coupled eliminated blocks are ignored without notice (C45_coupled_refuted)."
  },
  {
   "property": "C46",
   "status": "partial",
   "theorems": [
    "C46_diagonal_blocks",
    "C46_requested_blocks",
    "C46_large_refuted"
   ],
   "note": "Diagonal and requested blocks equal the blocks of the inverse for every Cholesky factor and permutation with n*n below 2^31; missing: larger matrices, where the int index overflows (C46_large_refuted)."
  },
  {
   "property": "C47",
   "status": "partial",
   "theorems": [
    "C47_honest_residual",
    "C47_success_refuted",
    "C47_leftover_threshold_refuted",
    "C47_stale_index_refuted",
    "C47_converges",
    "C47_exact",
    "C47_truncated"
   ],
   "note": "The residual tested is the true preconditioned residual at every iteration and leaving through the tolerance test means it is below the threshold (every matrix with stored diagonal, right-hand side, tolerance, iteration limit). Over the reals, for symmetric positive definite matrices and a limit that is the default or at least the number of unknowns, the loop always ends within the threshold and with threshold 0 solves the system exactly, without dividing by zero; with any limit b.x = x.Sx. Refuted: success in general, since true is also returned at a smaller iteration limit, the threshold can be left over from an earlier solve and the block index can be stale."
  },
  {
   "property": "C48",
   "status": "partial",
   "theorems": [
    "C48_sparse_cholesky",
    "C48_sparse_qr",
    "C48_dense",
    "C48_block_partial",
    "C48_block_refuted",
    "C48_covariance_refuted"
   ],
   "note": "Sparse Cholesky, sparse QR and dense QR restore the system exactly. The block solver adds c^2 and takes away c: proved what each solve does to the stored diagonal, refuted that it is unchanged; an exception in the covariance query leaves the damped Hessian."
  },
  {
   "property": "C49",
   "status": "partial",
   "theorems": [
    "C49_block",
    "C49_sparse_cholesky",
    "C49_dense",
    "C49_sparse_qr_partial",
    "C49_scaling_refuted",
    "C49_sparse_qr_refuted",
    "C49_dense_flag_refuted"
   ],
   "note": "Proved for block Cholesky (with scaled columns), sparse Cholesky and dense QR (either flag value); sparse QR solves the undamped system. Refuted: scaling other than one makes the solvers disagree, sparse QR ignores the conditioner, dense QR reads an uninitialised flag."
  },
  {
   "property": "C50",
   "status": "partial",
   "theorems": [
    "C50_prior_partial",
    "C50_rank_refuted",
    "C50_restored",
    "C50_exception_refuted",
    "C50_top_rows_refuted",
    "C50_covariance",
    "C50_prior_jacobian"
   ],
   "note": "Proved for every world, QR oracle right on its Jacobian, and linearly independent removed columns: prior cost + const = min over the removed variables; indices restored on normal return. Refuted: rank-deficient removed columns lose information, exceptions leave indices changed, too large numTopRowsInCov reads out of range."
  },
  {
   "property": "C51",
   "status": "partial",
   "theorems": [
    "C51_scalar_partial",
    "C51_vector",
    "C51_generic_partial",
    "C51_generic_division_refuted",
    "C51_derivative_unique",
    "C51_acosSquared_series",
    "C51_power_zero_refuted"
   ],
   "note": "Proved for all scalar and vector expression trees at all points of the domain (real arithmetic), through the container. False for division of GenericScalarExpression (factors swapped), acosSquared closer than 2^-26 to one (series, error bound proved) and power 0 at 0 (0 * inf)."
  },
  {
   "property": "C52",
   "status": "partial",
   "theorems": [
    "C52_scalar_partial",
    "C52_vector_partial",
    "C52_rotation_partial",
    "C52_transformation_partial",
    "C52_homogeneous_partial"
   ],
   "note": "For every tree of scalar, vector, Euclidean, homogeneous, rotation and transformation nodes (and MatrixBasic factors) the container holds the exact first-order change in the left convention dC = - phi^x C, dt = rho + t^x phi. sm::kinematics is assumed to satisfy kinematics_ok (met by a concrete instance). Missing: acosSquared where it uses a series and power 0 at 0 (see C51), Jacobians taken before evaluating at the current state (see C53)."
  },
  {
   "property": "C53",
   "status": "partial",
   "theorems": [
    "C53_after_evaluation_partial",
    "C53_current_partial",
    "C53_stale_refuted",
    "C53_uninitialised_refuted"
   ],
   "note": "Proved: after an evaluation of the expression and no further change of the design variables the Jacobian calls are those of the current state, whatever happened before (C53_after_evaluation_partial); expressions whose caching nodes are only below nodes that evaluate again are always current (C53_current_partial). The general claim is refuted by a stale Jacobian (C53_stale_refuted) and by an uninitialised read (C53_uninitialised_refuted)."
  },
  {
   "property": "C54",
   "status": "partial",
   "theorems": [
    "C54_value_partial",
    "C54_jacobian_partial",
    "C54_contents",
    "C54_no_content_race",
    "C54_flag_race_refuted",
    "C54_no_deadlock",
    "C54_terminates",
    "C54_finishes",
    "C54_activity_refuted",
    "C54_piecewise_refuted",
    "C54_set_refuted"
   ],
   "note": "Values are transparent for every history and interleaving in which no piecewise expression is cached and no design variable is changed by set(); Jacobians if moreover variables whose activity changed are updated before the next Jacobian. Contents are race free, evaluation is deadlock free and terminates for all histories. Refuted: activity changes, piecewise expressions and set() leave stale caches; the validity flags race. Sequentially consistent memory assumed; expired cache nodes not modelled."
  },
  {
   "property": "C55",
   "status": "partial",
   "theorems": [
    "C55_jacobian_partial",
    "C55_scalar_partial",
    "C55_unary",
    "C55_binary",
    "C55_conversion_partial",
    "C55_columns",
    "C55_scalar_operand",
    "C55_vector_operand",
    "C55_conversion_refuted",
    "C55_exp_refuted",
    "C55_squaredNorm_refuted",
    "C55_entry_refuted",
    "C55_left_translated_refuted"
   ],
   "note": "Proved for every nesting of product, sum, difference, transpose, negation, scaling, inverse, cross product, quaternion product, conjugate, inverse, imaginary part, rotate, exp and log over vector and RIGHT_TRANSLATED unit quaternion design variables, constants and expressions of other kinds, below every differential. Refuted: conversion of a matrix composed with a further differential, squaredNorm of a composite vector and toScalarExpression inside larger expressions (undefined behaviour), LEFT_TRANSLATED unit quaternions. inverse() needs the operand to stay invertible nearby. sm::kinematics and Eigen's inverse are assumed correct (qkin_ok)."
  },
  {
   "property": "C56",
   "status": "partial",
   "theorems": [
    "C56_add",
    "C56_sub",
    "C56_neg",
    "C56_compare",
    "C56_mul",
    "C56_div",
    "C56_mul_long_partial",
    "C56_div_long_partial",
    "C56_mul_long_error_partial",
    "C56_div_long_error_partial",
    "C56_mul_long_refuted",
    "C56_overflow_refuted",
    "C56_convert_partial",
    "C56_convert_negative_refuted",
    "C56_double_partial",
    "C56_double_refuted",
    "C56_double_unit"
   ],
   "note": "Proved: sums, differences, negatives, comparisons; products and quotients of 1-, 2- and 4-byte numbers; 8-byte ones when the product of the numerators is below 2^64 (error below two units otherwise, refuted truncation C56_mul_long_refuted); conversion of non-negative numbers to another divider (negative: C56_convert_negative_refuted); conversion to double and back for representable numbers with numerator below 2^53 (C56_double_refuted above), at most one unit lost otherwise. Signed Integer types, x87 long double, gcc conversions. Results that do not fit: C56_overflow_refuted."
  },
  {
   "property": "C57",
   "status": "partial",
   "theorems": [
    "C57_velocity",
    "C57_angular",
    "C57_acceleration_partial",
    "C57_acceleration_no_coriolis_partial",
    "C57_acceleration_refuted"
   ],
   "note": "velocity, angular velocity and angular acceleration proved for every chain and motion; acceleration proved up to the missing second Coriolis term (exact formula), right where those terms vanish, refuted in general (slider on a turntable). The members caching built expressions are the subject of C85."
  },
  {
   "property": "C58",
   "status": "partial",
   "theorems": [
    "C58_sum",
    "C58_sum_jacobian",
    "C58_neg_cross_scale",
    "C58_sub_partial",
    "C58_sub_refuted",
    "C58_sub_constant_partial",
    "C58_sub_constant_refuted",
    "C58_elementwise_refuted",
    "C58_rotation",
    "C58_transformation",
    "C58_inverse",
    "C58_transform_point_partial",
    "C58_transform_empty_point_refuted",
    "C58_generic_partial",
    "C58_generic_refuted"
   ],
   "note": "sums, negation, cross product, scaling, rotations, transformations: proved for all handles; refuted: empty minus p gives +p, elementwise product and transformation of an empty point and generic scalar operators reach a null pointer. Stacking takes scalar expressions, which cannot be empty; dynamic-size empty vectors are not modelled."
  },
  {
   "property": "C59",
   "status": "proved",
   "theorems": [
    "C59_history",
    "C59_history_matrix",
    "C59_axis_update",
    "C59_expressions",
    "C59_unit_needed"
   ],
   "note": "Real arithmetic; sm::kinematics is external: qplus and quat2r are written out, axisAngle2quat and r2quat are assumed to return unit quaternions (shown for the exact formula of axisAngle2quat). C59_unit_needed shows that assigned quaternions have to be of unit norm."
  },
  {
   "property": "C60",
   "status": "partial",
   "theorems": [
    "C60_shrinks_partial",
    "C60_rejected_step_refuted"
   ],
   "note": "Holds when the gain ratio computed by the policy is not positive; in general false: the rejected cost is compared with the cost before the last accepted step (refuted)."
  },
  {
   "property": "C61",
   "status": "partial",
   "theorems": [
    "C61_sparse",
    "C61_dense",
    "C61_block_partial",
    "C61_block_refuted",
    "C61_rhs_sparse",
    "C61_rhs_dense",
    "C61_rhs_block"
   ],
   "note": "Proved for sparse Cholesky, sparse QR and dense QR, and that rhs is - J^T e in all of them and in the block solver; the block solver multiplies only the stored upper half: right without coupled design variables, refuted in general."
  },
  {
   "property": "C62",
   "status": "partial",
   "theorems": [
    "C62_scalar_partial",
    "C62_vector_partial",
    "C62_generic",
    "C62_geometric",
    "C62_scalar_reads",
    "C62_vector_reads",
    "C62_generic_reads",
    "C62_geometric_reads",
    "C62_piecewise_refuted",
    "C62_matrix_partial",
    "C62_matrix_reads",
    "C62_matrix_blocks",
    "C62_matrix_refuted"
   ],
   "note": "Proved for every expression tree in the state in which it is asked (matrix expressions: both directions without left-translated quaternions and null differential, C62_matrix_refuted otherwise). False over the lifetime of an error term for piecewise expressions (C62_piecewise_refuted)."
  },
  {
   "property": "C63",
   "status": "partial",
   "theorems": [
    "C63_utils_flatten",
    "C63_manager_flatten_partial",
    "C63_manager_general",
    "C63_manager_flatten_refuted",
    "C63_update_slices",
    "C63_update_moves",
    "C63_max_delta_partial"
   ],
   "note": "utils version, updates and maxDeltaX proved; the ProblemManager version is refuted for matrix parameters"
  },
  {
   "property": "C64",
   "status": "partial",
   "theorems": [
    "C64_contents_partial",
    "C64_no_double_delete_partial",
    "C64_double_ownership_refuted",
    "C64_safe_partial",
    "C64_clear_partial",
    "C64_clear_refuted"
   ],
   "note": "contents, safety and single deletion proved under stated conditions; clear() and double ownership refuted"
  },
  {
   "property": "C65",
   "status": "partial",
   "theorems": [
    "C65_best_state_partial",
    "C65_terminates_partial",
    "C65_completes_partial",
    "C65_terminates_refuted",
    "C65_marginalised_refuted",
    "C65_stationary_refuted",
    "C65_cauchy_refuted",
    "C65_gain_refuted",
    "C65_robust_solver_refuted"
   ],
   "note": "proved over the reals for runs that meet no NaN; marginalised variables, negative convergenceDeltaX, the Cauchy point and the predicted decrease are refuted"
  },
  {
   "property": "C66",
   "status": "partial",
   "theorems": [
    "C66_prior",
    "C66_motion",
    "C66_observation",
    "C66_l1_subgradient",
    "C66_l1_derivative",
    "C66_l1_reported_partial",
    "C66_l1_reference_refuted",
    "C66_l1_kink_refuted",
    "C66_transformation_partial",
    "C66_transformation_zero",
    "C66_transformation_weights",
    "C66_transformation_stale_refuted"
   ],
   "note": "Jacobians after evaluateError at the same state; refuted: stale error matrix of ErrorTermTransformation, vector of L1Regularizer changed by the caller, derivative of L1 at 0 (it is a subgradient there)"
  },
  {
   "property": "C67",
   "status": "partial",
   "theorems": [
    "C67_self_partial",
    "C67_update_partial",
    "C67_set_partial",
    "C67_zero_only_partial",
    "C67_jacobian_partial",
    "C67_expression_partial",
    "C67_wrong_size_partial",
    "C67_mapped_zero",
    "C67_mapped_reverted",
    "C67_mapped_refuted",
    "C67_mapped_jacobian_refuted",
    "C67_adapter_refuted"
   ],
   "note": "proved for the classes that own their value; refuted for the four mapped classes (they use the backup), DesignVariableAdapter writes nothing"
  },
  {
   "property": "C68",
   "status": "partial",
   "theorems": [
    "C68_cholmod_partial",
    "C68_qr_partial",
    "C68_dense_partial",
    "C68_dense_refuted",
    "C68_more_blocks_refuted",
    "C68_fewer_blocks_refuted",
    "C68_qr_more_blocks_refuted",
    "C68_empty_refuted",
    "C68_failed_analysis_refuted",
    "C68_failed_ordering_refuted"
   ],
   "note": "Proved for every history of calls that obeys the init() rule of linear_solver.h, any number ring, under contracts for CHOLMOD, SuiteSparseQR and Eigen; refuted: empty matrix, failed analysis or ordering (null pointer), dense solver on a singular system, pattern change without init."
  },
  {
   "property": "C69",
   "status": "partial",
   "theorems": [
    "C69_sessions_partial",
    "C69_new_coupling_refuted",
    "C69_qr_covariance_refuted"
   ],
   "note": "Proved for every disciplined history of calls, CHOLMOD and SuiteSparseQR; refuted: a coupling that appears after the first linearisation (memory error), covariances with SuiteSparseQR (always an exception); a second damped solve without rebuild is C48."
  },
  {
   "property": "C70",
   "status": "partial",
   "theorems": [
    "C70_adapter_partial",
    "C70_free_vector_refuted"
   ],
   "note": "Proved for every four-vector expression that stays a unit quaternion along the updates; refuted for a plain four-vector design variable."
  },
  {
   "property": "C71",
   "status": "partial",
   "theorems": [
    "C71_chain",
    "C71_plain_partial",
    "C71_shutter_refuted"
   ],
   "note": "Proved for the overload with a chain rule and, for projection and distortion, for the one without; refuted: the latter forgets an active shutter. A camera is any record whose Jacobians are its derivatives."
  },
  {
   "property": "C72",
   "status": "partial",
   "theorems": [
    "C72_block",
    "C72_sparse_cholesky_partial",
    "C72_dense_partial",
    "C72_sparse_qr_partial"
   ],
   "note": "Proved for the block solver with any scaling; sparse Cholesky and dense QR for scalings of one; sparse QR without damping (C49 refutes the rest)."
  },
  {
   "property": "C73",
   "status": "partial",
   "theorems": [
    "C73_block_partial",
    "C73_sparse_cholesky_partial",
    "C73_dense_partial"
   ],
   "note": "Proved for all histories of the policy, for the block, sparse Cholesky and dense QR solver models; missing: linear solves that fail, the limits of Optimizer2's loop, rounding. The hypothesis that the cost is linearised by the system holds for the cost Optimizer2 compares only without an M-estimator or with fixed weights (see C75)."
  },
  {
   "property": "C74",
   "status": "partial",
   "theorems": [
    "C74_block_partial",
    "C74_sparse_cholesky_partial",
    "C74_refuted"
   ],
   "note": "False in general (C74_refuted: lambda is used where lambda squared is the damping); proved: exact relation to the predicted decrease, correct for lambda = 1, correct sign for all lambda > 0."
  },
  {
   "property": "C75",
   "status": "partial",
   "theorems": [
    "C75_block_partial",
    "C75_sparse_cholesky_partial",
    "C75_dense_partial",
    "C75_rejected_for_ever_refuted",
    "C75_reports_order",
    "C75_reports_order_refuted"
   ],
   "note": "Proved for error terms linear in the step, for the block, sparse Cholesky and dense QR solver models: the step never raises the robust cost and lowers it unless it is stationary. Refuted: Optimizer2 compares the sum of weight times squared error, and with Huber it can take back every such step for ever. Missing: nonlinear error terms, rounding."
  },
  {
   "property": "C76",
   "status": "partial",
   "theorems": [
    "C76_dense",
    "C76_block",
    "C76_block_size",
    "C76_column_partial",
    "C76_appended_diagonal_refuted",
    "C76_negative_tolerance_refuted",
    "C76_in_place_dense",
    "C76_in_place_block",
    "C76_in_place_refuted"
   ],
   "note": "Proved for the dense and block implementations, and for the compressed column one without an appended diagonal; refuted with one, for negative tolerances and for products in place."
  },
  {
   "property": "C77",
   "status": "partial",
   "theorems": [
    "C77_constructed",
    "C77_view",
    "C77_view_partial",
    "C77_set_stale",
    "C77_set_refuted",
    "C77_write_stale",
    "C77_revert",
    "C77_revert_after",
    "C77_updateMap",
    "C77_revert_shared_refuted",
    "C77_transformation_partial",
    "C77_transformation_refuted"
   ],
   "note": "Proved for points, vectors and homogeneous points without conditions, for quaternions while only their own functions other than set write the array; reverting for arrays mapped once. Refuted: set of a quaternion, writes of the caller to a quaternion, reverting with a shared array."
  },
  {
   "property": "C78",
   "status": "partial",
   "theorems": [
    "C78_doubles",
    "C78_detects_sparse",
    "C78_detects_dense",
    "C78_sparse",
    "C78_sparse_missing",
    "C78_dense",
    "C78_loop",
    "C78_order_partial",
    "C78_order_refuted",
    "C78_overflow_refuted"
   ],
   "note": "Non-finite numbers are always noticed; exactness for one design variable. Refuted: the order of the set matters when the sparse container lacks a design variable; finite summands may overflow."
  },
  {
   "property": "C79",
   "status": "partial",
   "theorems": [
    "C79_cholesky",
    "C79_qr_partial",
    "C79_qr_defined",
    "C79_qr_refuted",
    "C79_block_cholesky_partial",
    "C79_block_cholesky_refuted",
    "C79_block_qr_partial",
    "C79_block_qr_quiet",
    "C79_block_qr_refuted",
    "C79_copy_refuted"
   ],
   "note": "The Cholesky solver keeps the balance for every history. QR solver: only while scaling and numeric factorisation succeed, and it follows a null result otherwise; block Cholesky: only if no failure but NOT_POSDEF; block QR: leaks a workspace per solve; a copied solver frees twice (refuted theorems show each)."
  },
  {
   "property": "C80",
   "status": "partial",
   "theorems": [
    "C80_text",
    "C80_readable",
    "C80_scalar_text",
    "C80_vector_text",
    "C80_operations",
    "C80_stacks",
    "C80_scalar_partial",
    "C80_refuted"
   ],
   "note": "Text, order of the arguments and readability are proved for every tree. Different expressions can share a text: differences, nodes without an accept of their own, and names that imitate the notation (C80_refuted)."
  },
  {
   "property": "C81",
   "status": "partial",
   "theorems": [
    "C81_problem_partial",
    "C81_well_formed",
    "C81_jacobians",
    "C81_truth",
    "C81_observable",
    "C81_arguments",
    "C81_zero_refuted",
    "C81_one_refuted",
    "C81_start_refuted"
   ],
   "note": "Problem, Jacobians, rank and uniqueness proved for every K (K >= 1, rank and uniqueness K >= 2) and all noise; refuted: K = 0 writes past the end of a vector, K = 1 leaves the wall unobserved, the first guess may divide by zero."
  },
  {
   "property": "C82",
   "status": "partial",
   "theorems": [
    "C82_dog_leg_partial",
    "C82_reach",
    "C82_dog_leg_refuted",
    "C82_minimum",
    "C82_gauss_newton",
    "C82_line_search",
    "C82_levenberg_marquardt",
    "C82_status_refuted"
   ],
   "note": "Proved over the real numbers for linear error terms with a full-rank Jacobian: the minimiser exists and is unique, one Gauss-Newton step reaches it, line search, Levenberg-Marquardt and the dog-leg policy (from any start that is not the minimum) converge to it. Refuted: that the returned status tells a solved problem apart, and that the dog-leg policy can be started at the minimum (0/0)."
  },
  {
   "property": "C83",
   "status": "partial",
   "theorems": [
    "C83_rprop",
    "C83_bfgs",
    "C83_hmc",
    "C83_unchecked_partial",
    "C83_optimizer2_partial",
    "C83_defaults",
    "C83_serialization",
    "C83_other_archive",
    "C83_bfgs_in_force",
    "C83_rprop_in_force",
    "C83_hmc_in_force",
    "C83_parts_partial",
    "C83_stays_valid_partial",
    "C83_setters_refuted",
    "C83_optimizer2_refuted",
    "C83_both_names_refuted",
    "C83_parts_refuted",
    "C83_ranges_refuted",
    "C83_counts_refuted",
    "C83_every_option_refuted"
   ],
   "note": "Real numbers. Proved for what the constructors and initialisations check; refuted: Optimizer2 and the setters do not check, both names of an option, parts set by setOptions, several ranges, negative counts, options without keys."
  },
  {
   "property": "C84",
   "status": "partial",
   "theorems": [
    "C84_kept_alive_partial",
    "C84_evaluate",
    "C84_alive_exactly_while_owned",
    "C84_drop",
    "C84_assign",
    "C84_end_of_variable",
    "C84_no_leak",
    "C84_usable_refuted",
    "C84_shared_refuted"
   ],
   "note": "An expression made from a plain pointer (toExpression()) does not keep its object alive: refuted; proved for all programs with the condition that these objects still exist."
  },
  {
   "property": "C85",
   "status": "partial",
   "theorems": [
    "C85_getters_partial",
    "C85_asking",
    "C85_motion_partial",
    "C85_assign_refuted",
    "C85_move_refuted",
    "C85_cycle_refuted"
   ],
   "note": "Proved for all programs that move no frame and assign only to frames that are nobody's parent; otherwise refuted (stale members, a frame that is its own parent, a moved-from parent). Evaluation order from left to right."
  },
  {
   "property": "C86",
   "status": "partial",
   "theorems": [
    "C86_dog_leg_partial",
    "C86_gauss_newton_partial",
    "C86_line_search_partial",
    "C86_levenberg_marquardt_partial",
    "C86_stationary_start",
    "C86_objective_refuted",
    "C86_damping_refuted"
   ],
   "note": "For the status DX, in real arithmetic and with exact solves: the gradient at the last state where a step was computed is bounded by the limit (Gauss-Newton), by the limit and the shortening of rejected steps (line search), by the limit and the last damping (Levenberg-Marquardt), by the limit unless the trust region itself is that small (dog-leg; after a rejected step the bound may be for an older state); stationary starts stay and report DX. False for the status DOBJECTIVE (C86_objective_refuted), and for Levenberg-Marquardt without the damping in the bound (C86_damping_refuted). Missing: rounding, M-estimators."
  },
  {
   "property": "C87",
   "status": "proved",
   "theorems": [
    "C87_converges",
    "C87_unique",
    "C87_line_search",
    "C87_bad_guess_refuted"
   ],
   "note": "Real arithmetic, vector parameters, no M-estimators. From a bad first guess the iteration may not converge (C87_bad_guess_refuted)."
  },
  {
   "property": "C88",
   "status": "partial",
   "theorems": [
    "C88_matrix_partial",
    "C88_size_refuted",
    "C88_at_refuted",
    "C88_isBlockSet_refuted",
    "C88_no_storage",
    "C88_callbacks_partial",
    "C88_add_refuted",
    "C88_verdict_refuted",
    "C88_property",
    "C88_isBurnIn_refuted",
    "C88_status_refuted"
   ],
   "note": "Matrix operations with blocks of the right size, callbacks with lists of events only, properties. Refuted: blocks of another size are accepted, isBlockSet tests no column, isBurnIn can neither be read nor written, a list with a wrong element is half registered, the result of a callback is dropped, MAX_ITERATIONS has no name. Conversion of arrays and the bindings that only name a C++ function are not modelled."
  },
  {
   "property": "C89",
   "status": "partial",
   "theorems": [
    "C89_reaches_partial",
    "C89_damping"
   ],
   "note": "Over the reals, for all problems whose Jacobian and curvature are bounded where the cost is at most the initial bound, odd pInit, gammaInit < 2 muInit and < 2 betaInit (the defaults): among any N + 1 successive states one is stationary up to eps unless the run ends; damping bounds, no failed solve, DX bounds the gradient by a factor known in advance. Missing: that the last state is the nearly stationary one (false for DOBJECTIVE, see C86), rounding, M-estimators."
  },
  {
   "property": "C90",
   "status": "proved",
   "theorems": [
    "C90_quadMin",
    "C90_cubicMin",
    "C90_dcstep",
    "C90_dcstep_exact",
    "C90_bracket",
    "C90_search"
   ],
   "note": "In exact arithmetic. The bracket is proved to stay valid for every call of dcstep; measured values and the best value along all searches. Not claimed: that the bracket of the tilted function used in the first stage of a search is one of the function itself."
  },
  {
   "property": "C91",
   "status": "proved",
   "theorems": [
    "C91_product",
    "C91_conjugate",
    "C91_imaginary",
    "C91_inverse",
    "C91_cross",
    "C91_rotate",
    "C91_rigid",
    "C91_compose",
    "C91_undo",
    "C91_direction"
   ],
   "note": "For the values of all quaternion nodes except exponential and logarithm, whose values come from another library."
  }
 ]
}