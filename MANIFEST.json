{
 "claims": [
  {
   "property": "C01",
   "status": "proved",
   "theorems": [
    "C01_real_matrix",
    "C01_matrix",
    "C01_diagonal",
    "C01_scalar_mult",
    "C01_identity",
    "C01_zero",
    "C01_flipud",
    "C01_sum",
    "C01_pad_zeros",
    "C01_symmetrize",
    "C01_cumsum",
    "C01_diff",
    "C01_dot_real",
    "C01_dot_complex"
   ],
   "note": "dot over complex data is an adjoint pair only for the real inner product, as documented"
  },
  {
   "property": "C02",
   "status": "proved",
   "theorems": [
    "C02_neg",
    "C02_scale",
    "C02_adjoint",
    "C02_transpose",
    "C02_power",
    "C02_partial_op",
    "C02_add",
    "C02_sub",
    "C02_compose",
    "C02_hcat",
    "C02_gram",
    "C02_frame",
    "C02_block_diag"
   ],
   "note": ""
  },
  {
   "property": "C03",
   "status": "proved",
   "theorems": [
    "C03_neg",
    "C03_scale",
    "C03_add",
    "C03_sub",
    "C03_compose",
    "C03_hcat",
    "C03_power_zero",
    "C03_power_succ",
    "C03_partial_op",
    "C03_block_diag",
    "C03_column",
    "C03_rejections"
   ],
   "note": ""
  },
  {
   "property": "C04",
   "status": "proved",
   "theorems": [
    "C04_adjoint_involution",
    "C04_gram_energy",
    "C04_frame_energy",
    "C04_psd_real",
    "C04_psd_complex"
   ],
   "note": ""
  },
  {
   "property": "C05",
   "status": "proved",
   "theorems": [
    "C05_diff_cumsum",
    "C05_cumsum_diff",
    "C05_diff_entries"
   ],
   "note": ""
  },
  {
   "property": "C06",
   "status": "partial",
   "theorems": [
    "C06_forward",
    "C06_backward",
    "C06_centered_partial",
    "C06_centered_refuted",
    "C06_second",
    "C06_second_short_refuted",
    "C06_first_entries",
    "C06_second_entries"
   ],
   "note": "false as stated for the centered scheme with dx != 1 (C06_centered_refuted) and second_derivative with n<3; everything else proved"
  },
  {
   "property": "C07",
   "status": "partial",
   "theorems": [
    "C07_tv",
    "C07_tv_entries",
    "C07_tv2D_refuted",
    "C07_tv2D_entries",
    "C07_tv2D_trans_entries"
   ],
   "note": "1-D kinds proved; tv2D is not an adjoint pair (C07_tv2D_refuted)"
  },
  {
   "property": "C08",
   "status": "partial",
   "theorems": [
    "C08_convolve_adjoint",
    "C08_convolve_entries",
    "C08_convolve_rejects",
    "C08_fir_filter_adjoint",
    "C08_fir_filter_entries",
    "C08_running_average_adjoint",
    "C08_running_average_entries",
    "C08_fir_filter_long_refuted",
    "C08_convolve2D_adjoint_partial",
    "C08_convolve2D_entries",
    "C08_convolve2D_complex_refuted",
    "C08_fir_filter_long"
   ],
   "note": "1-D proved; 2-D adjoint proved for real filters and refuted for complex ones; filters longer than the signal refuted"
  },
  {
   "property": "C09",
   "status": "partial",
   "theorems": [
    "C09_restriction_partial",
    "C09_restriction_entries",
    "C09_repeated_refuted",
    "C09_partial_op_repeated_refuted"
   ],
   "note": "proved for distinct indices, refuted for repeated ones"
  },
  {
   "property": "C10",
   "status": "proved",
   "theorems": [
    "C10_windowed",
    "C10_windowed_rejects"
   ],
   "note": ""
  },
  {
   "property": "C11",
   "status": "proved",
   "theorems": [
    "C11_fourier_matrix_entries",
    "C11_fourier_matrix_orthonormal",
    "C11_fourier_matrix_operator",
    "C11_fourier_basis_adjoint",
    "C11_fourier_basis_inverse",
    "C11_fourier_basis_isometry",
    "C11_fourier_basis_entries",
    "C11_dirac_fourier_adjoint"
   ],
   "note": "jnp.fft is modelled by the defining sums"
  },
  {
   "property": "C12",
   "status": "proved",
   "theorems": [
    "C12_dirac_hadamard_coherence",
    "C12_dirac_cosine_coherence",
    "C12_three_bases",
    "C12_three_bases_atoms",
    "C12_three_bases_distinct_refuted",
    "C12_hadamard_accepts",
    "C12_hadamard",
    "C12_hadamard_basis",
    "C12_walsh_accepts",
    "C12_walsh_basis",
    "C12_walsh_natural"
   ],
   "note": "real entries; int(math.log(n, 2)) is taken to be the exact logarithm; fwht (external package cr.nimble) is an argument, any symmetric transform with +1/-1 entries and orthogonal rows, which covers every ordering; refuted: the union of the standard, Hadamard and cosine bases repeats an atom for n = 2"
  },
  {
   "property": "C13",
   "status": "partial",
   "theorems": [
    "C13_dwt2D",
    "C13_dwt2D_swapped",
    "C13_dwt2D_basis",
    "C13_dwt2D_accepts",
    "C13_dwt2D_level_one",
    "C13_dwt2D_levels",
    "C13_dwt2D_axes_refuted",
    "C13_wavedec_waverec",
    "C13_dwt_adjoint",
    "C13_dwt_reconstruction",
    "C13_dwt_synthesis",
    "C13_dwt_basis",
    "C13_wavelet_basis",
    "C13_haar",
    "C13_level_zero_refuted"
   ],
   "note": "proved in one and two dimensions for every orthogonal one-level transform (an argument; the Haar filter bank is an instance): 1-D for level >= 1 (level = 0 refuted), 2-D for every level and axes (0, 1), or (1, 0) on square images; axes = (1, 0) on other images pads and crops the wrong axes (refuted)."
  },
  {
   "property": "C14",
   "status": "proved",
   "theorems": [
    "C14_to_matrix",
    "C14_to_adjoint_matrix",
    "C14_rejects_nonlinear"
   ],
   "note": ""
  },
  {
   "property": "C15",
   "status": "partial",
   "theorems": [
    "C15_adjoint_pair_linear",
    "C15_flags_unary_partial",
    "C15_flags_binary_partial",
    "C15_linear_flag_refuted",
    "C15_compose_matrix_safe_refuted",
    "C15_compose_jit_safe_refuted",
    "C15_block_diag_real_refuted",
    "C15_transpose_partial",
    "C15_transpose_refuted",
    "C15_linear_flag",
    "C15_linear_flag_checked",
    "C15_real_part_flag",
    "C15_windowed_flags_refuted"
   ],
   "note": "adjoint pairs are linear; flag propagation proved where it holds, refuted for neg(real), compose, block_diag, scalar_mult"
  },
  {
   "property": "C16",
   "status": "partial",
   "theorems": [
    "C16_dot_test_accepts",
    "C16_dot_test_sound_partial",
    "C16_dot_test_refuted",
    "C16_dot_test_complex_accepts",
    "C16_dot_test_complex_sound_partial"
   ],
   "note": "completeness proved; soundness proved when the inner products have a positive sum and refuted otherwise"
  },
  {
   "property": "C17",
   "status": "partial",
   "theorems": [
    "C17_normest_real",
    "C17_normest_complex",
    "C17_normest_terminates",
    "C17_normest_zero_iters_refuted",
    "C17_normest_zero_operator_refuted"
   ],
   "note": "proved for max_iters >= 1, tol < 2 when the iteration does not divide by zero; refuted for max_iters = 0 and the zero operator"
  },
  {
   "property": "C18",
   "status": "proved",
   "theorems": [
    "C18_zero",
    "C18_identity",
    "C18_singleton",
    "C18_affine",
    "C18_box",
    "C18_box_rejects",
    "C18_conic",
    "C18_l2_ball",
    "C18_l2_ball_accepts",
    "C18_project_to_ball",
    "C18_project_to_box",
    "C18_real_upper_limit"
   ],
   "note": "qr and the triangular solves of proj_affine are external, their contracts are premises"
  },
  {
   "property": "C19",
   "status": "proved",
   "theorems": [
    "C19_l1_ball",
    "C19_l1_ball_at",
    "C19_spgl1",
    "C19_spgl1_at",
    "C19_spgl1_complex"
   ],
   "note": ""
  },
  {
   "property": "C20",
   "status": "partial",
   "theorems": [
    "C20_l2_ball_at_refuted",
    "C20_l2_ball_at_outside_refuted",
    "C20_l2_ball_at_partial"
   ],
   "note": "false: the 1e-7 shrink moves points off the nearest point (and out of balls of radius < 5e-8); within 1e-7 of the projection proved"
  },
  {
   "property": "C21",
   "status": "proved",
   "theorems": [
    "C21_default_threshold",
    "C21_prox_l1",
    "C21_prox_l1_pos",
    "C21_prox_l2",
    "C21_shrink",
    "C21_soft_threshold",
    "C21_soft_threshold_complex"
   ],
   "note": "; the default thresholds of ista and fista are covered (C21_default_threshold)"
  },
  {
   "property": "C22",
   "status": "partial",
   "theorems": [
    "C22_zero",
    "C22_identity",
    "C22_singleton",
    "C22_affine",
    "C22_box",
    "C22_conic",
    "C22_l2_ball",
    "C22_project_to_ball",
    "C22_project_to_box",
    "C22_real_upper_limit",
    "C22_l1_ball",
    "C22_l1_ball_at",
    "C22_spgl1",
    "C22_spgl1_at",
    "C22_shrink",
    "C22_soft_threshold",
    "C22_prox_l1",
    "C22_prox_l1_pos",
    "C22_prox_l2",
    "C22_l2_ball_at_refuted"
   ],
   "note": "proved for every projector and proximal operator except the l2 ball with a centre, where it is refuted"
  },
  {
   "property": "C23",
   "status": "partial",
   "theorems": [
    "C23_prox_l1_refuted",
    "C23_prox_l1_partial",
    "C23_proximal_prox_l1_refuted"
   ],
   "note": "false at t*q = 0 with a zero entry; exact characterisation proved"
  },
  {
   "property": "C24",
   "status": "partial",
   "theorems": [
    "C24_prox_owl1_terminates_refuted",
    "C24_prox_owl1_partial",
    "C24_prox_owl1_order_partial",
    "C24_owl1_convex"
   ],
   "note": "termination refuted in exact arithmetic; a finished call is proved to return the unique minimiser in the order of |x|"
  },
  {
   "property": "C25",
   "status": "partial",
   "theorems": [
    "C25_value_refuted",
    "C25_gradient_of_value_refuted",
    "C25_value_partial",
    "C25_gradient_partial",
    "C25_grad_val"
   ],
   "note": "value wrong for mu != 1 (refuted), right for mu = 1; the gradient is that of the true envelope for every mu"
  },
  {
   "property": "C26",
   "status": "partial",
   "theorems": [
    "C26_zero",
    "C26_singleton",
    "C26_box",
    "C26_conic",
    "C26_l2_ball",
    "C26_l1_ball",
    "C26_l1_ball_at",
    "C26_l2_ball_at_partial",
    "C26_affine_partial",
    "C26_affine_refuted",
    "C26_l2_balls_accept",
    "C26_box_accepts",
    "C26_affine_l2_ball",
    "C26_affine_l1_ball"
   ],
   "note": "proved except affine (indicator tolerance) and centred l2 ball of radius < 5e-8"
  },
  {
   "property": "C27",
   "status": "partial",
   "theorems": [
    "C27_logdet_value",
    "C27_logdet_domain",
    "C27_logdet_convex",
    "C27_logdet_gradient",
    "C27_constant",
    "C27_linear",
    "C27_quad_matrix_partial",
    "C27_quad_matrix_refuted",
    "C27_quad_error",
    "C27_huber",
    "C27_entropy",
    "C27_entropy_domain",
    "C27_translate",
    "C27_grad_val",
    "C27_values"
   ],
   "note": "smooth_quad_matrix is wrong for non-symmetric P (refuted); all others proved, log det relative to the Cholesky factorisation and the inverse"
  },
  {
   "property": "C28",
   "status": "partial",
   "theorems": [
    "C28_exit",
    "C28_solve_exit",
    "C28_every_iterate",
    "C28_ends",
    "C28_indefinite_refuted"
   ],
   "note": "proved for every normal return; a symmetric indefinite system can divide by zero (C28_indefinite_refuted)"
  },
  {
   "property": "C29",
   "status": "proved",
   "theorems": [
    "C29_orthogonal",
    "C29_energy_decreases",
    "C29_krylov_optimal",
    "C29_solves_in_n_steps"
   ],
   "note": ""
  },
  {
   "property": "C30",
   "status": "proved",
   "theorems": [
    "C30_default_start",
    "C30_exit",
    "C30_ends",
    "C30_orthogonal",
    "C30_krylov_optimal",
    "C30_solves_in_n_steps"
   ],
   "note": "; the default start is covered (C30_default_start)"
  },
  {
   "property": "C31",
   "status": "proved",
   "theorems": [
    "C31_matrix_dictionary",
    "C31_operator_dictionary",
    "C31_every_iterate",
    "C31_energy",
    "C31_decay",
    "C31_terminates"
   ],
   "note": "Exact energy bookkeeping, linear decay and termination, for matrices and operators."
  },
  {
   "property": "C32",
   "status": "partial",
   "theorems": [
    "C32_tolerance_ignored",
    "C32_stops_and_reports_refuted"
   ],
   "note": "false: r_norm_sqr is never updated, so the tolerance is ignored (C32_tolerance_ignored) and the reported energy is wrong (refuted)"
  },
  {
   "property": "C33",
   "status": "partial",
   "theorems": [
    "C33_every_iterate",
    "C33_result",
    "C33_energy",
    "C33_breakdown",
    "C33_operator",
    "C33_operator_ends",
    "C33_operator_breakdown",
    "C33_single_atom_refuted",
    "C33_exact_signal_refuted",
    "C33_operator_energy_refuted"
   ],
   "note": "Proved for every produced iterate and result, including the Cholesky factor; the code has no result for K=1, for signals already represented by fewer than K atoms, and reports |y|^2 for one atom in the operator variant (refuted). Real data."
  },
  {
   "property": "C34",
   "status": "partial",
   "theorems": [
    "C34_matrix_partial",
    "C34_operator_partial",
    "C34_matrix_terminates",
    "C34_operator_terminates",
    "C34_distinct",
    "C34_aligned_refuted",
    "C34_sorted_refuted"
   ],
   "note": "K valid indices, consistent residual, energy, iteration bounds and termination proved; sorted distinct indices and aligned initial coefficients refuted"
  },
  {
   "property": "C35",
   "status": "proved",
   "theorems": [
    "C35_iht",
    "C35_htp",
    "C35_sp_matrix",
    "C35_sp_operator",
    "C35_terminates",
    "C35_sp_distinct",
    "C35_sp_distinct_refuted"
   ],
   "note": "lstsq is an argument assumed to be an exact least squares solver; one exists (exact_lstsq). Subspace pursuit may repeat an atom (refuted strengthening)."
  },
  {
   "property": "C36",
   "status": "proved",
   "theorems": [
    "C36_selects_largest",
    "C36_best_k_term",
    "C36_abs_max_idx"
   ],
   "note": "Includes ties and the comparison with every K-sparse vector."
  },
  {
   "property": "C37",
   "status": "proved",
   "theorems": [
    "C37_residual",
    "C37_exit",
    "C37_ends",
    "C37_objective_decreases",
    "C37_rate",
    "C37_fixed_point_optimal",
    "C37_soft_threshold"
   ],
   "note": "percentile thresholds are covered by the residual and exit theorems; the objective theorems assume the threshold is a proximal map"
  },
  {
   "property": "C38",
   "status": "partial",
   "theorems": [
    "C38_state",
    "C38_momentum_nondecreasing",
    "C38_exit",
    "C38_ends",
    "C38_rate",
    "C38_residual_of_x_refuted"
   ],
   "note": "false for the residual: r belongs to the extrapolated point (C38_residual_of_x_refuted); momentum growth, exit conditions and the O(1/k^2) rate proved"
  },
  {
   "property": "C39",
   "status": "proved",
   "theorems": [
    "C39_every_iterate",
    "C39_result",
    "C39_residual_norm",
    "C39_orthonormal",
    "C39_krylov_optimal",
    "C39_ends",
    "C39_residual_nonincreasing",
    "C39_stopping",
    "C39_solves",
    "C39_x_norm_refuted",
    "C39_minimum_norm"
   ],
   "note": "For every adjoint pair A, b, x0, damp, tolerances and iteration: r_norm is the norm of the (damped) residual of the returned x, atr_norm that of its gradient, the bidiagonalisation vectors are orthonormal, iterates are Krylov-optimal, counters are exact, the loop never divides by zero and ends within min(m,n) iterations; with zero tolerances it solves the problem. x_norm estimates |x - x0| (refutation for x0 != 0). The counter starts at 1, so max_iters = k performs k-1 updates."
  },
  {
   "property": "C40",
   "status": "partial",
   "theorems": [
    "C40_rayleigh",
    "C40_upper_bound",
    "C40_estimates_nondecreasing",
    "C40_norms_nondecreasing",
    "C40_ends",
    "C40_stopping",
    "C40_no_iterations_refuted",
    "C40_zero_operator_refuted",
    "C40_returned_vector_refuted"
   ],
   "note": "proved when at least one iteration runs; max_iters=0 returns the placeholder 1e20 and the zero operator divides by zero (refuted)"
  },
  {
   "property": "C41",
   "status": "partial",
   "theorems": [
    "C41_state",
    "C41_step",
    "C41_newton_system",
    "C41_preconditioner",
    "C41_direction",
    "C41_feasibility_ends",
    "C41_step_ends_partial",
    "C41_returns",
    "C41_certificate",
    "C41_certificate_default",
    "C41_zero_solution",
    "C41_warm_start_refuted"
   ],
   "note": "exact arithmetic; all claims proved for the default start and for starts with positive dual value; for other warm starts the tolerance test is meaningless and the certificate is refuted. Termination of the backtracking loop is proved for descent directions only (C41_step_ends_partial)."
  },
  {
   "property": "C42",
   "status": "partial",
   "theorems": [
    "C42_bpic_from_zero",
    "C42_bp_fits",
    "C42_lasso_from_zero",
    "C42_lasso_state",
    "C42_lasso_memory",
    "C42_lasso_step",
    "C42_lasso_returns",
    "C42_lasso_certificate",
    "C42_lasso_n_trans_refuted",
    "C42_bpic_state",
    "C42_bpic_counters",
    "C42_bpic_step",
    "C42_bpic_first_radius",
    "C42_bpic_bound",
    "C42_bpic_ends",
    "C42_bpic_certificate",
    "C42_bpic_ball_refuted",
    "C42_bpic_r_norm_refuted",
    "C42_lasso_next_step",
    "C42_lasso_first_step"
   ],
   "note": "invariants, step control, descent, termination, duality-gap certificates and counters proved in exact arithmetic; n_trans of the LASSO solver, the l1 bound for warm starts and the residual norm after a radius reduction are wrong in the code (refuted); the entry points with default start are covered (C42_bpic_from_zero, C42_bp_fits, C42_lasso_from_zero)"
  },
  {
   "property": "C43",
   "status": "partial",
   "theorems": [
    "C43_returned",
    "C43_terminates",
    "C43_iteration_limit_refuted",
    "C43_nonneg_residual_refuted",
    "C43_start_refuted",
    "C43_dual_box",
    "C43_optimality",
    "C43_rescaling",
    "C43_fixed_point",
    "C43_fixed_point_general_refuted",
    "C43_distance_decreases",
    "C43_rate",
    "C43_certificate",
    "C43_zero_solution",
    "C43_zero_solution_weights_refuted",
    "C43_zero_solution_both_refuted"
   ],
   "note": "exact arithmetic; residual, dual box, counters, optimality at rest, monotone distance to the solutions, rate of the steps and stopping certificate proved; the iteration limit is exceeded by one when odd, the residual of a non-negative problem is stale when no iteration is made, a given start is rescaled, fixed points are solutions only for orthonormal rows and the zero shortcut ignores weights (all refuted)"
  },
  {
   "property": "C44",
   "status": "proved",
   "theorems": [
    "C44_feasible",
    "C44_step",
    "C44_terminates",
    "C44_zero_budget_refuted",
    "C44_level_set",
    "C44_capped_search_refuted",
    "C44_halving",
    "C44_optimality"
   ],
   "note": "exact arithmetic; the projection is an argument assumed to project onto a convex set. A capped line search may accept an increase for large Lipschitz constants, and a zero budget still makes one step (both refuted strengthenings)."
  },
  {
   "property": "C45",
   "status": "partial",
   "theorems": [
    "C45_invariants",
    "C45_terminates",
    "C45_rate",
    "C45_certificate",
    "C45_lasso",
    "C45_l1rls",
    "C45_stale_value",
    "C45_owl1rls_partial",
    "C45_owl1rls_terminates_refuted"
   ],
   "note": "rates proved unconditionally for fom, lasso and l1rls; for owl1rls the rate is proved for the runs that return (C45_owl1rls_partial), since its proximal step hangs on some inputs (C45_owl1rls_terminates_refuted); exact arithmetic; the reported objective value is that of the previous point because it is never refreshed (C45_stale_value)"
  },
  {
   "property": "C46",
   "status": "proved",
   "theorems": [
    "C46_measure_scale",
    "C46_biht",
    "C46_biht_terminates",
    "C46_biht_step",
    "C46_biht_subgradient",
    "C46_biht_step_size",
    "C46_rfp",
    "C46_rfp_lambda",
    "C46_rfp_ascent",
    "C46_rfp_iterates"
   ],
   "note": "exact arithmetic; also proved: the step of rfp has the wrong sign (C46_rfp_ascent) and its growing lambda has no effect (C46_rfp_lambda)"
  },
  {
   "property": "C47",
   "status": "proved",
   "theorems": [
    "C47_nearest_assignment",
    "C47_state_consistent",
    "C47_terminates",
    "C47_returned_state",
    "C47_best_restart",
    "C47_kmeans_total"
   ],
   "note": "exact arithmetic; initial indices are an argument (the random choice is external)"
  },
  {
   "property": "C48",
   "status": "partial",
   "theorems": [
    "C48_centroids_optimal",
    "C48_assignment_optimal",
    "C48_squares_nonincreasing",
    "C48_distortion_monotone_refuted"
   ],
   "note": "the sum of squared distances never increases; the reported distortion is the mean of unsquared distances and can increase (refuted)"
  },
  {
   "property": "C49",
   "status": "partial",
   "theorems": [
    "C49_best_map_partial",
    "C49_best_map_k",
    "C49_error_zero",
    "C49_error_partial",
    "C49_error_k",
    "C49_assignment_exists",
    "C49_more_true_labels_refuted",
    "C49_more_predicted_labels_refuted"
   ],
   "note": "proved for equally many true and predicted labels and for best_map_k; both unequal cases are wrong in the code (refuted). linear_sum_assignment is an argument assumed optimal; optimal assignments exist."
  },
  {
   "property": "C50",
   "status": "proved",
   "theorems": [
    "C50_sizes_of_labels",
    "C50_sizes_sum",
    "C50_start_end",
    "C50_labels_by_block",
    "C50_block_lens_sum",
    "C50_block_lens_uniform",
    "C50_uniform_blocks"
   ],
   "note": ""
  },
  {
   "property": "C51",
   "status": "partial",
   "theorems": [
    "C51_roundtrip",
    "C51_dense_agree",
    "C51_duplicate_indices_refuted",
    "C51_affinity",
    "C51_preservation_error",
    "C51_preservation_flag",
    "C51_mean_error",
    "C51_sparse_error_zero_refuted",
    "C51_sparse_stats",
    "C51_sparse_mean_error",
    "C51_sparse_full"
   ],
   "note": "round trip, dense agreement, affinity, dense and sparse statistics proved, and how far the two kinds of statistics differ; refuted: repeated indices, and that a zero sparse error means no weight outside the cluster"
  },
  {
   "property": "C52",
   "status": "proved",
   "theorems": [
    "C52_coherence_upper",
    "C52_coherence_attained",
    "C52_coherence_index",
    "C52_babel_upper",
    "C52_babel_attained",
    "C52_babel_starts_at_coherence",
    "C52_babel_nondecreasing",
    "C52_babel_bound",
    "C52_mutual_coherence",
    "C52_complex_coherence_refuted",
    "C52_frame",
    "C52_frame_trace"
   ],
   "note": "Real dictionaries: coherence, index, Babel and mutual coherence have their defining values, and the frame matrix is A A^T. Refuted for complex dictionaries: gram keeps only the real part."
  },
  {
   "property": "C53",
   "status": "proved",
   "theorems": [
    "C53_welch"
   ],
   "note": "For all m <= n, n >= 2 and all m-by-n matrices with unit columns."
  },
  {
   "property": "C54",
   "status": "proved",
   "theorems": [
    "C54_normal",
    "C54_too_many",
    "C54_biuniform",
    "C54_spikes",
    "C54_index_sets",
    "C54_orthogonal",
    "C54_blocks",
    "C54_blocks_defined",
    "C54_unit_blocks_refuted"
   ],
   "note": "draws of the random generator are arguments of the model; arithmetic is exact. A normal draw that is exactly zero makes a spike vanish (C54_spikes says so). The documentation's unit norm blocks hold only with normalize_blocks=True (C54_unit_blocks_refuted)."
  },
  {
   "property": "C55",
   "status": "partial",
   "theorems": [
    "C55_residual",
    "C55_pruned",
    "C55_posterior_mean",
    "C55_mean_minimises",
    "C55_posterior_cov",
    "C55_sums",
    "C55_second_moment_partial",
    "C55_second_moment_refuted",
    "C55_correlation",
    "C55_em_total",
    "C55_bo_total",
    "C55_bo_zero_block",
    "C55_high_snr_stops",
    "C55_high_snr_refuted",
    "C55_block_corr_ignored",
    "C55_change",
    "C55_reached_good",
    "C55_em_learns",
    "C55_bo_learns",
    "C55_np_learns",
    "C55_np_run",
    "C55_square_root"
   ],
   "note": "Refuted as stated: compute_cov_x adds the inner product of the means to every entry instead of the outer product (C55_second_moment_refuted; right only for blocks of length one). Proved: residual consistency of all three algorithms, pruned blocks zero for good, every iterate is the unique posterior mean and the Sigma_x blocks those of the posterior covariance, correlation matrices, totality of EM and BO for the fixed and low SNR noise rules; the rules by which correlation, variances and noise level are learned, with the variances as minimisers of their costs, for all three algorithms; failures of the high SNR rule and of zero dictionary blocks in BO are theorems; a run of the unpruned learner stops within its budget (C55_np_run); it may be rejected for a division by zero"
  },
  {
   "property": "C56",
   "status": "proved",
   "theorems": [
    "C56_hard_keeps",
    "C56_hard_minimiser",
    "C56_half_minimiser",
    "C56_hard_conversions",
    "C56_half_conversions",
    "C56_hard_percentile",
    "C56_half_percentile",
    "C56_soft_percentile"
   ],
   "note": "jnp.percentile is external"
  },
  {
   "property": "C57",
   "status": "proved",
   "theorems": [
    "C57_rejects",
    "C57_admissible",
    "C57_distinct",
    "C57_complete",
    "C57_grid",
    "C57_sparsities"
   ],
   "note": "configuration(N) is modelled completely, with the floats (all of them small integers over powers of two, hence exact) as rationals. The test for powers of two lives in cr.nimble and is modelled by its meaning."
  },
  {
   "property": "C58",
   "status": "proved",
   "theorems": [
    "C58_matrix",
    "C58_diagonal",
    "C58_flipud",
    "C58_sum",
    "C58_pad_zeros",
    "C58_symmetrize",
    "C58_cumsum",
    "C58_identity",
    "C58_scalar_mult",
    "C58_zero"
   ],
   "note": ""
  },
  {
   "property": "C59",
   "status": "proved",
   "theorems": [
    "C59_cosine_adjoint",
    "C59_cosine_inverse",
    "C59_cosine_entries",
    "C59_cosine_matrix"
   ],
   "note": ""
  },
  {
   "property": "C60",
   "status": "proved",
   "theorems": [
    "C60_circulant_convolution",
    "C60_circulant_adjoint"
   ],
   "note": "real filters and real data"
  },
  {
   "property": "C61",
   "status": "partial",
   "theorems": [
    "C61_fft_adjoint",
    "C61_fft_real_adjoint",
    "C61_fft_real_refuted"
   ],
   "note": "c2c proved; r2c proved for real inputs and refuted for complex ones"
  },
  {
   "property": "C62",
   "status": "proved",
   "theorems": [
    "C62_ratio",
    "C62_self"
   ],
   "note": ""
  },
  {
   "property": "C63",
   "status": "proved",
   "theorems": [
    "C63_matrix",
    "C63_operator"
   ],
   "note": "exact arithmetic, real dictionaries"
  },
  {
   "property": "C64",
   "status": "partial",
   "theorems": [
    "C64_iht_monotone",
    "C64_htp_monotone",
    "C64_iht_recovery",
    "C64_htp_recovery",
    "C64_normalised_step",
    "C64_normalised_start",
    "C64_default_step_refuted"
   ],
   "note": "monotonicity and recovery rates proved; the default step size does not guarantee descent (refuted)"
  },
  {
   "property": "C65",
   "status": "partial",
   "theorems": [
    "C65_representation",
    "C65_energy_nonincreasing",
    "C65_self_expressive_partial",
    "C65_self_expressive_refuted",
    "C65_batch_partial",
    "C65_batch_complete",
    "C65_batch_agrees_refuted"
   ],
   "note": "self-selection happens when no other point correlates with the residual (refuted); batch coefficients are those of the normalised point, so they differ by the factor 1/norm (proved, agreement refuted)"
  },
  {
   "property": "C66",
   "status": "proved",
   "theorems": [
    "C66_quadratic_form",
    "C66_symmetric_psd",
    "C66_kernel",
    "C66_random_walk",
    "C66_normalized_symmetric",
    "C66_normalized_bound",
    "C66_sparse_agrees"
   ],
   "note": "eigen-decompositions (svds) themselves are external"
  },
  {
   "property": "C67",
   "status": "partial",
   "theorems": [
    "C67_smooth_dual",
    "C67_lipschitz",
    "C67_concave",
    "C67_convexity_refuted",
    "C67_smoothing_term_refuted",
    "C67_bp_scd_refuted",
    "C67_dantzig_scd_refuted",
    "C67_scd",
    "C67_bp_scd",
    "C67_dantzig_scd"
   ],
   "note": "dual value, gradient and Lipschitz bound proved; the function handed to the minimising driver is concave and the smoothing weight is 1/mu instead of mu, so bp_scd and dantzig_scd run away from the feasible set for A = 1, b = 2 (all refuted)"
  },
  {
   "property": "C68",
   "status": "partial",
   "theorems": [
    "C68_feasible",
    "C68_minimises",
    "C68_defined",
    "C68_descent_step",
    "C68_descent",
    "C68_product",
    "C68_fixed_point",
    "C68_sparse_refuted",
    "C68_zero_refuted",
    "C68_identity_refuted",
    "C68_norm_type_refuted"
   ],
   "note": "exact arithmetic, the linear solver is an argument of which only exactness is assumed. Feasibility, minimality, descent, definedness and fixed points proved; refuted: a sparse iterate (fewer nonzeros than rows), y = 0 and the identity dictionary give NaN, and p is not the type of the norm that is minimised."
  },
  {
   "property": "C69",
   "status": "partial",
   "theorems": [
    "C69_bases",
    "C69_points",
    "C69_two",
    "C69_two_gram",
    "C69_two_small_refuted",
    "C69_three",
    "C69_three_defined",
    "C69_three_zero_refuted"
   ],
   "note": "exact arithmetic; draws and the QR and SVD factors are arguments of which only orthonormality and span are used. Refuted: N < 2D silently gives a second basis with fewer columns; three_subspaces_at_angle has NaN entries for theta = 0 and theta > 120."
  },
  {
   "property": "C70",
   "status": "partial",
   "theorems": [
    "C70_bidiagonal",
    "C70_ritz",
    "C70_residual_refuted",
    "C70_rank_refuted",
    "C70_start_refuted"
   ],
   "note": "exact arithmetic; the error recurrences that decide about reorthogonalisation are replaced by arbitrary decisions (the theorems hold for all of them); breakdown tests are assumed to trigger only for zero vectors. Refuted: lansvd_simple's residual norm after a breakdown is 1 or NaN although the triplets are exact; more vectors than the rank give NaN; a start with A^T p0 = 0 gives a zero right vector. The final error bounds of lansvd_simple (bdsqr, refine_bounds in another package) are not modelled."
  },
  {
   "property": "C71",
   "status": "partial",
   "theorems": [
    "C71_result",
    "C71_full_result_refuted",
    "C71_support",
    "C71_success",
    "C71_exact",
    "C71_energy",
    "C71_energy_refuted",
    "C71_zero_refuted",
    "C71_residual"
   ],
   "note": "exact arithmetic; the index sets, the ratio, success, the split of the error and the reading of pursuit results proved. Refuted: results with a field x raise (the test for the field looks at the values, C71_full_result_refuted); T1 can contain support positions, whose error is then counted twice (x = (0,1), x_hat = (0,2)); the ratio and success divide by zero for the zero signal. Dynamic ranges are not modelled."
  },
  {
   "property": "C72",
   "status": "partial",
   "theorems": [
    "C72_rows",
    "C72_trials",
    "C72_signals_refuted",
    "C72_one_dictionary_refuted",
    "C72_single_refuted"
   ],
   "note": "key splitting, the solver and the verdict of a trial are arguments. Row contents and which keys each trial uses proved (at least two trials; distinct signals when num_signal_trials <= num_dict_trials). Refuted: more signals than dictionaries repeat the last signal, one dictionary always gives success rate 0 or 1, and a single trial divides by zero before any row is written. Timing and the CSV file are not modelled."
  },
  {
   "property": "C73",
   "status": "partial",
   "theorems": [
    "C73_sparse_fast_k",
    "C73_random_walk_automatic",
    "C73_random_walk_isolated",
    "C73_unnormalized_embedding",
    "C73_random_walk_embedding",
    "C73_unnormalized_k",
    "C73_random_walk_k",
    "C73_fast_k",
    "C73_zero_singular_values",
    "C73_automatic",
    "C73_automatic_range",
    "C73_automatic_small",
    "C73_automatic_refuted",
    "C73_bipartite_refuted"
   ],
   "note": "exact arithmetic; the singular value decomposition is an argument of which only its defining equations are used, and a k-means restart is the list of its initial picks. The known-k variants (the fast one for graphs without bipartite component), the zero singular values, the connectivity and the automatic choice under a gap condition proved. Refuted: the automatic variants never report one cluster (the complete graph on four vertices gets three) and raise for two vertices; on two disjoint edges a valid decomposition makes the fast variant separate neighbours and join disconnected vertices; the random walk variant with automatic number of clusters is covered (C73_random_walk_automatic)"
  },
  {
   "property": "C74",
   "status": "partial",
   "theorems": [
    "C74_prob001",
    "C74_prob002",
    "C74_prob003",
    "C74_prob004",
    "C74_prob005",
    "C74_round",
    "C74_breaks",
    "C74_piecewise",
    "C74_prob006",
    "C74_prob007",
    "C74_prob008",
    "C74_prob011",
    "C74_scaled",
    "C74_prob009",
    "C74_prob010",
    "C74_single",
    "C74_real_sensing"
   ],
   "note": "problems 001 to 011 with random draws, wavelet filter bank and the external block signal as arguments, exact arithmetic: all parts proved for these. Missing: prob401 (reads audio files), plots and titles."
  },
  {
   "property": "C75",
   "status": "partial",
   "theorems": [
    "C75_box",
    "C75_laplacian",
    "C75_sharpen",
    "C75_sobel",
    "C75_gaussian",
    "C75_gaussian_weights",
    "C75_gaussian_shape",
    "C75_gaussian_sigma_refuted",
    "C75_ricker_shape",
    "C75_ricker_trough",
    "C75_ricker_mean"
   ],
   "note": "exact arithmetic; everything except the width proved. Refuted: kernel_gaussian multiplies by 2/sigma^2 where 1/(2 sigma^2) is meant, so the standard deviation is sigma/2."
  },
  {
   "property": "C76",
   "status": "partial",
   "theorems": [
    "C76_records",
    "C76_x_norm",
    "C76_snr",
    "C76_snr_order",
    "C76_snr_exact_refuted",
    "C76_prints",
    "C76_no_residual_refuted"
   ],
   "note": "exact arithmetic; what is recorded and printed and the value of the ratio proved. Refuted: an exact recovery gets a smaller ratio than one with error energy below machine epsilon; a state without residual is recorded and then raises while printing. Timing and the plots are not modelled."
  },
  {
   "property": "C77",
   "status": "partial",
   "theorems": [
    "C77_angles",
    "C77_angles_extreme",
    "C77_inside",
    "C77_inside_alone_refuted",
    "C77_inside_empty_refuted",
    "C77_outside",
    "C77_outside_single_refuted",
    "C77_sorted",
    "C77_sorted_duplicate_refuted",
    "C77_positions",
    "C77_positions_absent_refuted",
    "C77_pipeline"
   ],
   "note": "exact arithmetic; proved for clusters of at least two points and at least two clusters, distinct directions. Refuted: a point alone in its cluster is its own nearest neighbour at 10000 degrees, an empty cluster raises, with a single cluster the outside neighbour is inside, a repeated point is listed among its own sorted neighbours, and a missing label gives position 0."
  },
  {
   "property": "C78",
   "status": "partial",
   "theorems": [
    "C78_gaussian",
    "C78_gaussian_defined",
    "C78_gaussian_raw",
    "C78_rademacher",
    "C78_rademacher_raw",
    "C78_sparse_binary",
    "C78_sparse_binary_defined",
    "C78_onb",
    "C78_onb_singular_refuted",
    "C78_rows",
    "C78_rows_shape_refuted",
    "C78_gaussian_dict",
    "C78_rademacher_dict",
    "C78_sparse_binary_dict",
    "C78_onb_dict",
    "C78_rows_dict",
    "C78_binary_alg",
    "C78_binary_alg_shape_refuted"
   ],
   "note": "exact arithmetic; draws and QR factors are arguments. Proved for linearly independent draws and M <= N. Refuted: a singular draw gives zero columns (sign(0) = 0; probability zero), random_orthonormal_rows with M > N silently returns an N x N matrix, and binary_dict_alg advertises the shape of its transpose."
  },
  {
   "property": "C79",
   "status": "partial",
   "theorems": [
    "C79_bounds",
    "C79_bounds_defined",
    "C79_upper",
    "C79_lower_tall_refuted",
    "C79_grass_start",
    "C79_grass_shape",
    "C79_grass_gram",
    "C79_grass_rounds",
    "C79_grass_unit_refuted",
    "C79_grass_zero_refuted"
   ],
   "note": "exact arithmetic; the singular value decomposition is an argument. Proved: both bounds hold and are attained when there are at least as many atoms as dimensions; the upper bound for every shape; the frame shape; without iterations the Gram matrix is that of the initial frame; after iterations the working matrix has unit diagonal and rank at most m; the rounds follow the published algorithm. Refuted: the lower bound with fewer atoms than dimensions; unit-norm atoms after iterations (the diagonal is repaired by scaling columns twice, which destroys symmetry); a zero atom gives NaN. Missing: convergence to a Grassmannian frame."
  },
  {
   "property": "C80",
   "status": "partial",
   "theorems": [
    "C80_along_axis",
    "C80_along_axis_rejects",
    "C80_matrix_partial",
    "C80_matrix_2d_axis",
    "C80_matrix_axis_refuted",
    "C80_restriction_partial",
    "C80_restriction_axis_refuted",
    "C80_dot_axis_refuted",
    "C80_reshape_adjoint",
    "C80_reshape_inverse",
    "C80_reshape_defined",
    "C80_reshape_order",
    "C80_reshape_A_refuted",
    "C80_arr2vec",
    "C80_convolve_entries",
    "C80_convolve_adjoint_partial",
    "C80_convolve_complex_refuted",
    "C80_convolve_scrambled_refuted",
    "C80_convolve_permuted_refuted",
    "C80_convolve_2d",
    "C80_fft_partial"
   ],
   "note": "exact arithmetic. Proved for every shape and number of dimensions: apply_along_axis, matrix, restriction (every valid axis but -2 on 2-D arrays), reshape (orders C and F), arr2vec, convolveND entries for increasing axes and its adjoint for real filters, fft (c2c) along the axis and its adjoint on the entries it returns. Refuted: axis -2 of matrix and restriction on 2-D arrays; dot on any array that is not a vector; reshape with order A; convolveND with complex filters (no conjugate), with axes out of order (entries read along the wrong axes) or permuted with a full-dimensional filter (not adjoint); fft along an axis other than 0 (the adjoint cuts axis 0). Missing: the other operators with an axis argument are covered only through apply_along_axis; fft mode r2c on arrays."
  },
  {
   "property": "C81",
   "status": "partial",
   "theorems": [
    "C81_shrink_rounded",
    "C81_soft_threshold_rounded",
    "C81_shrink_zero",
    "C81_shrink_shrinks",
    "C81_shrink_monotone",
    "C81_shrink_nonexpansive_refuted",
    "C81_box_inside",
    "C81_box_outside_partial",
    "C81_box_power_of_two",
    "C81_box_exceeded_refuted",
    "C81_upper_limit_exact",
    "C81_percentile_partial",
    "C81_percentile_underflow_refuted"
   ],
   "note": "every binary format with gradual underflow, real entries, no overflow. Proved: shrink and soft_threshold are the exact soft threshold rounded once, the zero pattern, no growth, signs and order; project_to_box inside the box, within two units in the last place outside it, and never beyond a power of two; project_to_real_upper_limit exact; hard_threshold_percentile keeps exactly the entries above the percentile when its square does not underflow. Refuted in float32: shrink non-expansive; project_to_box never beyond the radius (radius 3, entry 21); hard_threshold_percentile with a percentile of 2^-80. Missing: complex entries, overflow."
  },
  {
   "property": "C82",
   "status": "partial",
   "theorems": [
    "C82_sum_error",
    "C82_sum_orders_close",
    "C82_sum_exact",
    "C82_sum_order_refuted",
    "C82_reductions_total",
    "C82_dot_error",
    "C82_norm_nonneg",
    "C82_norm_error_partial",
    "C82_norm_zero_refuted",
    "C82_matrix_adjoint_rounded",
    "C82_dot_test_refuted",
    "C82_cumsum_diff",
    "C82_cumsum_inverse_refuted"
   ],
   "note": "every binary format with gradual underflow, every evaluation order, with or without fused multiply-add, no overflow. Proved: error bounds of sums and inner products, agreement of two orders, exact sums of small multiples of a power of two, squared norm not negative and zero only if all squares underflow, relative error of the norm without underflow, adjoint identity of a matrix up to rounding, cumsum and inv_heaviside. Refuted in float32: independence of the order; norm zero only for zero; dot_test_real accepts every matrix with its transpose (a 1 x 2 matrix with cancellation is rejected); inv_heaviside undoes cumsum exactly."
  },
  {
   "property": "C83",
   "status": "proved",
   "theorems": [
    "C83_mp_residual",
    "C83_mp_residual_exact_refuted",
    "C83_cg_residual"
   ],
   "note": "every binary format with gradual underflow, every evaluation order, any number of iterations, no overflow and no division by zero; that the two residuals are equal is refuted in float32 after one iteration of matching pursuit"
  },
  {
   "property": "C84",
   "status": "partial",
   "theorems": [
    "C84_cosamp_matrix_recovers_partial",
    "C84_cosamp_operator_recovers_partial",
    "C84_sp_matrix_recovers_partial",
    "C84_sp_operator_recovers_partial",
    "C84_cosamp_recovery_refuted",
    "C84_sp_recovery_refuted"
   ],
   "note": "error bounds and exact recovery proved for matrices and operators as long as the residual of each iteration still correlates with 2K (CoSaMP) or K (subspace pursuit) atoms outside the support; without that premise atoms are selected twice and recovery is refuted, for CoSaMP even with an orthonormal dictionary. The first error of CoSaMP has an extra term 2|x| because its initial coefficients are not permuted with the sorted indices. least squares is an argument assumed exact"
  },
  {
   "property": "C85",
   "status": "proved",
   "theorems": [
    "C85_power_converges",
    "C85_power_defined",
    "C85_power_tolerance_met",
    "C85_power_iterations_needed",
    "C85_orthogonal_start_refuted",
    "C85_tolerance_accuracy_refuted",
    "C85_normest_converges",
    "C85_normest_defined"
   ],
   "note": "exact arithmetic, real entries; the start b (random in the code) is an argument and must not be orthogonal to the eigenvector. Also shown: a start orthogonal to the eigenvector never finds it, and meeting the tolerance says nothing about accuracy (diag(2, 1), start (1/10000, 1): estimate 1 instead of 2), both refuted strengthenings"
  },
  {
   "property": "C86",
   "status": "proved",
   "theorems": [
    "C86_constrained",
    "C86_basis_pursuit",
    "C86_yall1_rest",
    "C86_yall1",
    "C86_yall1_denoising",
    "C86_spgl1_lasso",
    "C86_fom_lasso",
    "C86_penalised",
    "C86_ista",
    "C86_fista",
    "C86_l1_ls",
    "C86_dictionary",
    "C86_coherent_refuted"
   ],
   "note": "exact arithmetic, real entries. (2K-1) mu < 1 for the constrained problems (shown to be needed), (25K-1) mu < 1 and lambda at least twice the largest correlation with the noise for the penalised ones. YALL1 and SPGL1 bounds hold for runs stopped by their tests; the YALL1 bound mentions the norm of the dual variable it returns. SPGL1 for basis pursuit denoising is not covered: the figures it certifies belong to the point before the last line search (C42)"
  },
  {
   "property": "C87",
   "status": "proved",
   "theorems": [
    "C87_ista",
    "C87_l1_solution",
    "C87_ista_l1",
    "C87_ista_stops",
    "C87_fista_l1",
    "C87_fom_lasso",
    "C87_fom_l1rls",
    "C87_yall1_certificate",
    "C87_yall1",
    "C87_yall1_signed",
    "C87_yall1_stops",
    "C87_yall1_basis_pursuit_stops"
   ],
   "note": "exact arithmetic, real entries. ISTA: any convex regulariser with the threshold as proximal map once a minimiser exists, unconditionally with soft thresholding. FISTA and the first order driver (exact constant given, alpha = 1): distance to the set of minimisers, as accelerated schemes of this form are not known to converge to one point. YALL1: orthonormal rows, gamma = 1; with a sign constraint the basis pursuit and denoising problems need a solution with a certificate as hypothesis (they may be infeasible)"
  },
  {
   "property": "C88",
   "status": "proved",
   "theorems": [
    "C88_eigenbasis",
    "C88_factor",
    "C88_cg",
    "C88_cg_stops",
    "C88_pcg",
    "C88_lsqr",
    "C88_lsqr_geometric"
   ],
   "note": "exact arithmetic, real entries. Includes the spectral theorem for symmetric operators on R^n and the existence of positive bounds on the nonzero singular values of any operator (C88_eigenbasis, C88_lsqr_geometric)"
  },
  {
   "property": "C89",
   "status": "proved",
   "theorems": [
    "C89_power_converges",
    "C89_seen_is_largest",
    "C89_normest_converges",
    "C89_normest_is_norm",
    "C89_norm_attained"
   ],
   "note": "exact arithmetic, real entries; removes the spectral gap assumed by C85. A start in the null space divides by zero in the second iteration"
  },
  {
   "property": "C90",
   "status": "proved",
   "theorems": [
    "C90_best_fit",
    "C90_mp_converges",
    "C90_mp_limit",
    "C90_omp_matrix_noise",
    "C90_omp_operator_noise",
    "C90_noise_seen"
   ],
   "note": "exact arithmetic, real entries; strengthens C31 (rate without assuming one) and C63 (noise). C33 records that the matrix variant has no result for K = 1"
  },
  {
   "property": "C91",
   "status": "proved",
   "theorems": [
    "C91_converges",
    "C91_solves",
    "C91_stops"
   ],
   "note": "exact arithmetic, real vectors; convexity is stated by tangents. The bound on the Lipschitz constant is needed: C44_capped_search_refuted shows an increase of the objective beyond it. A minimiser is assumed to exist"
  },
  {
   "property": "C92",
   "status": "proved",
   "theorems": [
    "C92_progress",
    "C92_stabilises",
    "C92_local_optimum",
    "C92_solves"
   ],
   "note": "exact arithmetic. With the default threshold the run can stop before the fixed point, since the mean distance it watches may rise (C48)"
  },
  {
   "property": "C93",
   "status": "partial",
   "theorems": [
    "C93_exists",
    "C93_converges",
    "C93_converges_searches",
    "C93_solves",
    "C93_search_refuted"
   ],
   "note": "proved for all operators when the largest step is at most 2^10/(L/2 + gamma), L the squared norm of the operator, and for arbitrary steps for all runs whose line searches succeed within their ten halvings. Without this the search accepts its last candidate whatever its misfit (C93_search_refuted), and no fallback exists in the code. Exact arithmetic, real vectors"
  },
  {
   "property": "C94",
   "status": "proved",
   "theorems": [
    "C94_exit",
    "C94_ends",
    "C94_fista_exit",
    "C94_objective_decreases",
    "C94_ista_rate",
    "C94_fista_rate",
    "C94_soft_threshold",
    "C94_ista_converges",
    "C94_fista_converges",
    "C94_ista_stops",
    "C94_fourier_basis"
   ],
   "note": "exact arithmetic; complex vectors as pairs of reals. FISTA: distance to the set of solutions, its change tolerance carries no theorem about stopping beyond the budget"
  },
  {
   "property": "C95",
   "status": "partial",
   "theorems": [
    "C95_pcg_residual",
    "C95_pcg_exit",
    "C95_pcg_terminates",
    "C95_pcg_exact",
    "C95_pcg_start_refuted",
    "C95_pcg_steps_refuted",
    "C95_cg_refuted"
   ],
   "note": "proved for residuals that are real at the start (the matrix and preconditioner may be complex); refuted otherwise: pcg.py starts gamma with jnp.dot instead of vdot, cg.py uses .T throughout (C95_pcg_start_refuted, C95_pcg_steps_refuted, C95_cg_refuted). Exact arithmetic"
  },
  {
   "property": "C96",
   "status": "partial",
   "theorems": [
    "C96_real_data",
    "C96_exists",
    "C96_result",
    "C96_iterates",
    "C96_step",
    "C96_converges",
    "C96_bounded",
    "C96_solves",
    "C96_types",
    "C96_zero_start_refuted",
    "C96_bp_start"
   ],
   "note": "exact arithmetic; refuted part: solve_lasso starts from real zeros and raises a type error on complex data (C96_zero_start_refuted), solve_lasso_from with a complex start works, and on real data stored as complex makes the steps of the real solver (C96_real_data). Convergence needs an upper step bound for which ten halvings suffice, or successful line searches (see C93_search_refuted for the real case)"
  },
  {
   "property": "C97",
   "status": "partial",
   "theorems": [
    "C97_selection",
    "C97_cosamp",
    "C97_sp",
    "C97_terminates",
    "C97_distinct_partial",
    "C97_accepts",
    "C97_iht_refuted",
    "C97_omp_stop_refuted",
    "C97_omp_factor_refuted",
    "C97_mp_refuted"
   ],
   "note": "exact arithmetic; the least squares solver is an argument assumed exact (one is constructed: clstsq). Refuted on complex data: OMP (C97_omp_stop_refuted, C97_omp_factor_refuted), MP (C97_mp_refuted), IHT and HTP (C97_iht_refuted); what holds for CoSaMP and SP is proved, recovery of sparse complex vectors is not treated"
  },
  {
   "property": "C98",
   "status": "partial",
   "theorems": [
    "C98_lsqr_iterates",
    "C98_lsqr_result",
    "C98_lsqr_condition",
    "C98_lsqr_orthonormal",
    "C98_lsqr_krylov_optimal",
    "C98_lsqr_ends",
    "C98_lsqr_nonincreasing",
    "C98_lsqr_stopping",
    "C98_lsqr_solves",
    "C98_lsqr_minimum_norm",
    "C98_lsqr_rate",
    "C98_lsqr_geometric",
    "C98_lsqr_accepts",
    "C98_lsqr_real_data_refuted",
    "C98_power_rayleigh",
    "C98_power_converges",
    "C98_seen_is_largest",
    "C98_power_accepts",
    "C98_normest_converges",
    "C98_normest_is_norm",
    "C98_norm_attained"
   ],
   "note": "exact arithmetic; everything stated is proved when the operator, data and start have compatible types. Refuted: real data and a real (e.g. the default) start with a complex operator (C98_lsqr_real_data_refuted) are rejected by the loop. Power iterations are treated for Hermitian operators, as documented"
  },
  {
   "property": "C99",
   "status": "partial",
   "theorems": [
    "C99_accepts",
    "C99_boundary_refuted",
    "C99_computes",
    "C99_documented_partial",
    "C99_documented_iff",
    "C99_documented_refuted",
    "C99_rows_equal",
    "C99_linear",
    "C99_total",
    "C99_adjoint_refuted",
    "C99_numpy_refuted"
   ],
   "note": "proved: exactly which tables are accepted, what is computed (each output row holds the sum of all documented rows), linearity, conservation, and the documented map for one output row. Refuted: the documented map for several rows (C99_documented_refuted; C99_documented_iff says when it holds), the bound on the entries (C99_boundary_refuted), the adjoint (trans returns None) and every call under numpy 1.24 or later (np.int)"
  },
  {
   "property": "C100",
   "status": "partial",
   "theorems": [
    "C100_start",
    "C100_state",
    "C100_step",
    "C100_first_radius",
    "C100_bound",
    "C100_ends",
    "C100_certificate",
    "C100_from_zero",
    "C100_real_data"
   ],
   "note": "proved: the invariants of every state, the step, the counters and budgets, termination up to a vanishing gradient, the bound by the modulus of the complex duality gap, the stopping certificate, and the agreement with the real solver on real data. Missing: convergence of the radius; rounding. The figures belong to the point before the last projection, as in C42"
  },
  {
   "property": "C101",
   "status": "partial",
   "theorems": [
    "C101_lines",
    "C101_sparsity",
    "C101_ratio",
    "C101_exact",
    "C101_zero_refuted"
   ],
   "note": "exact arithmetic; printed lines, sparsity, overlap and ratio proved; num_largest_coeffs_for_energy_percent belongs to cr.nimble and is modelled from its documented meaning. Refuted: a ratio of 1 means recovery (a zero reconstruction can get it, C101_zero_refuted; every multiple of the original gets it, C101_exact). Signal to noise ratios are not modelled"
  },
  {
   "property": "C102",
   "status": "partial",
   "theorems": [
    "C102_yall1",
    "C102_yall1_complex_refuted",
    "C102_yall1_default",
    "C102_pcg",
    "C102_l1ls",
    "C102_l1ls_complex_refuted",
    "C102_l1ls_default",
    "C102_focuss"
   ],
   "note": "refuted for complex data: every call whose operator or data are complex is rejected by lax.while_loop, whatever the starting points (C102_yall1_complex_refuted, C102_l1ls_complex_refuted, C102_focuss); exactly the all-real calls are accepted (proved). Element types only, real and complex; the early return of yall1.solve for a zero solution is not concerned"
  },
  {
   "property": "C103",
   "status": "partial",
   "theorems": [
    "C103_invariants",
    "C103_terminates",
    "C103_rate",
    "C103_l1rls",
    "C103_certificate",
    "C103_ball_real",
    "C103_ball_refuted",
    "C103_lasso_refuted",
    "C103_real_data",
    "C103_types",
    "C103_real_start_refuted"
   ],
   "note": "exact arithmetic; arr_rdot, arr_rnorm and arr_l1norm of cr.nimble by their documented meaning. Invariants, termination, rate and certificate of the driver and the rate of l1rls proved. Refuted: proj_l1_ball compares complex numbers with 0 (lexicographically), so complex points are moved outside the ball or to points that are not nearest, and lasso returns infeasible points (C103_ball_refuted, C103_lasso_refuted); complex data with a real start are rejected by the loop (C103_types says exactly which types are accepted)"
  },
  {
   "property": "C104",
   "status": "partial",
   "theorems": [
    "C104_ball",
    "C104_l2_ball_accepts",
    "C104_box",
    "C104_real_upper_limit",
    "C104_l2_ball_at_partial",
    "C104_affine_partial",
    "C104_affine_refuted",
    "C104_box_partial",
    "C104_box_bounds_refuted",
    "C104_prox_l2",
    "C104_hard",
    "C104_half",
    "C104_percentile",
    "C104_shrink_partial",
    "C104_shrink_refuted",
    "C104_real_data"
   ],
   "note": "exact arithmetic; qr, the triangular solvers and percentile are external. Proved for the balls, the box of moduli, the real upper limit, prox_l2 and the thresholding functions. Refuted: proj_affine uses A.T in the place of the conjugate transpose, so for complex A the result need not solve A x = b (C104_affine_refuted; proved for real A in C104_affine_partial); proj_box with real bounds leaves imaginary parts (C104_box_bounds_refuted; what it does instead in C104_box_partial); shrink compares complex numbers with 0 (C104_shrink_refuted; what it does instead in C104_shrink_partial); proj_l2_ball with a centre is within 1e-7 of the nearest point (C104_l2_ball_at_partial), as for real data (C20)"
  },
  {
   "property": "C105",
   "status": "partial",
   "theorems": [
    "C105_sp_partial",
    "C105_sp_terminates",
    "C105_sp_distinct_partial",
    "C105_sp_selection_partial",
    "C105_sp_refuted",
    "C105_omp_partial",
    "C105_omp_real_partial",
    "C105_omp_refuted",
    "C105_mp_refuted",
    "C105_accepts",
    "C105_accepts_refuted"
   ],
   "note": "exact arithmetic; lstsq, the triangular solvers and the complex square root are external. Proved: consistency, least squares optimality, orthogonality and termination of SP, its first selection for real matrices, when its supports have no repetitions, consistency of OMP, least squares optimality of OMP for real unit columns and complex data (solvers exact on the factors of the run), the element types accepted. Refuted, because the code uses Phi.T and r.T @ r without conjugation: SP returns another column although the signal is a column (C105_sp_refuted), OMP returns a wrong coefficient for an orthonormal basis (C105_omp_refuted), the residual of MP doubles in every iteration (C105_mp_refuted), CoSaMP, IHT and HTP reject complex data (C105_accepts_refuted)"
  }
 ]
}