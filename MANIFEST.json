{
 "claims": [
  {
   "property": "C01",
   "status": "proved",
   "theorems": [
    "C01_bounded_normalizer_round_trip",
    "C01_bounded_normalizer_range",
    "C01_normalizers_reject_other_ranks"
   ],
   "note": "exact real arithmetic; inf/NaN modelled for the degenerate column"
  },
  {
   "property": "C02",
   "status": "proved",
   "theorems": [
    "C02_unbounded_normalizer_round_trip",
    "C02_unnormalize_has_mean_mu_and_covariance_C"
   ],
   "note": "contracts of numpy.linalg.cholesky and solve are hypotheses"
  },
  {
   "property": "C03",
   "status": "proved",
   "theorems": [
    "C03_process_inputs_accepts_exactly_rank_2",
    "C03_process_inputs_outputs_accepts_exactly_matching"
   ],
   "note": ""
  },
  {
   "property": "C04",
   "status": "proved",
   "theorems": [
    "C04_conditional_expectations",
    "C04_order_independent",
    "C04_variance_nonneg_and_zero_iff_constant",
    "C04_total_expectation",
    "C04_total_variance",
    "C04_averaging_reduces_variance",
    "C04_rejects"
   ],
   "note": "indices are naturals"
  },
  {
   "property": "C05",
   "status": "proved",
   "theorems": [
    "C05_run_calls_rows_in_order",
    "C05_bad_input_no_calls"
   ],
   "note": ""
  },
  {
   "property": "C06",
   "status": "proved",
   "theorems": [
    "C06_gradient_run_calls_rows_in_order",
    "C06_bad_input_no_calls"
   ],
   "note": ""
  },
  {
   "property": "C07",
   "status": "proved",
   "theorems": [
    "C07_difference_quotients",
    "C07_pure_function",
    "C07_exact_for_affine",
    "C07_error_for_quadratic",
    "C07_converges_to_gradient"
   ],
   "note": ""
  },
  {
   "property": "C08",
   "status": "proved",
   "theorems": [
    "C08_exact_on_affine_data",
    "C08_returns",
    "C08_row_count",
    "C08_bad_arguments_raise"
   ],
   "note": "contracts of numpy.argsort and numpy.linalg.lstsq are hypotheses"
  },
  {
   "property": "C09",
   "status": "partial",
   "theorems": [
    "C09_p_nearest_refuted",
    "C09_p_equal_M_refuted",
    "C09_neighbours_partial"
   ],
   "note": "false of the code: the mask D2 != 0 is indexed by sample number but applied to the sorted order, so the wrong sample is dropped (refuted with a witness) and p = M always raises (proved for every input); what holds for distinct samples is proved in C09_neighbours_partial"
  },
  {
   "property": "C10",
   "status": "proved",
   "theorems": [
    "C10_sorted_eigenbasis",
    "C10_returns",
    "C10_solver_independent"
   ],
   "note": "contracts of numpy.linalg.eigh and numpy.argsort are hypotheses, met by a reference solver built from a proof of the spectral theorem"
  },
  {
   "property": "C11",
   "status": "proved",
   "theorems": [
    "C11_eigenvalues_are_mean_squared_slopes",
    "C11_returns"
   ],
   "note": "contracts of eigh and argsort as hypotheses"
  },
  {
   "property": "C12",
   "status": "proved",
   "theorems": [
    "C12_first_k_eigenvectors_capture_most"
   ],
   "note": "contracts of eigh and argsort as hypotheses"
  },
  {
   "property": "C13",
   "status": "proved",
   "theorems": [
    "C13_ridge_functions_recovered",
    "C13_inactive_directions_do_not_matter"
   ],
   "note": "contracts of eigh and argsort as hypotheses"
  },
  {
   "property": "C14",
   "status": "proved",
   "theorems": [
    "C14_ols_direction",
    "C14_returns"
   ],
   "note": "contracts of eigh, argsort and lstsq as hypotheses; weights >= 0"
  },
  {
   "property": "C15",
   "status": "partial",
   "theorems": [
    "C15_quadratic_gradients_partial",
    "C15_returns",
    "C15_gamma_refuted"
   ],
   "note": "false of the code in one branch: np.amin < -1.0 compares a function object with a number, so inputs below -1 do not switch gamma to 1 (C15_gamma_refuted, f = x^2 at -2, 0, 1); everything else is proved"
  },
  {
   "property": "C16",
   "status": "proved",
   "theorems": [
    "C16_first_largest_gap",
    "C16_one_eigenvalue_raises"
   ],
   "note": ""
  },
  {
   "property": "C17",
   "status": "proved",
   "theorems": [
    "C17_errbnd_first_minimiser",
    "C17_ladle_first_minimiser",
    "C17_corner_cases"
   ],
   "note": "finite metric and non-zero eigenvalue sum for ladle_partition; the undefined case is a separate theorem"
  },
  {
   "property": "C18",
   "status": "partial",
   "theorems": [
    "C18_after_success_partial",
    "C18_raising_calls_partial",
    "C18_partition_domain",
    "C18_refuted",
    "C18_stale_subspace_refuted"
   ],
   "note": "false after a compute that raises: eigenvecs is replaced while W1, W2 stay None or stale (C18_refuted, C18_stale_subspace_refuted); proved after every returning call of any history, and what a raising call does is proved"
  },
  {
   "property": "C19",
   "status": "proved",
   "theorems": [
    "C19_bootstrap_ranges",
    "C19_compute_stores_ranges"
   ],
   "note": "contracts of eigh, argsort, norm(ord=2), det as hypotheses; V has as many rows as the data have columns"
  },
  {
   "property": "C20",
   "status": "proved",
   "theorems": [
    "C20_replicates_keep_samples_together",
    "C20_returns"
   ],
   "note": ""
  },
  {
   "property": "C21",
   "status": "proved",
   "theorems": [
    "C21_forward",
    "C21_inverse",
    "C21_unbounded_inverse",
    "C21_inverse_raises"
   ],
   "note": "for every regularize_z that returns inactive variables of the documented shape, in particular the unbounded map; bounded map: C22"
  },
  {
   "property": "C22",
   "status": "partial",
   "theorems": [
    "C22_bounded_inverse_refuted",
    "C22_bounded_inverse_partial"
   ],
   "note": "false of the code: hit_and_run_z leaves constraints met with slack <= sqrt(2^-52) out of the step bounds, so a step can leave the cube by far (C22_bounded_inverse_refuted: 3 inputs, y near the end of its range); proved: every returned point maps to y, rejection samples are always in the cube, hit-and-run starts in the cube and each step keeps every bound met with more than that slack"
  },
  {
   "property": "C23",
   "status": "proved",
   "theorems": [
    "C23_interval_endpoints",
    "C23_one_column_only"
   ],
   "note": ""
  },
  {
   "property": "C24",
   "status": "partial",
   "theorems": [
    "C24_zonotope_vertices_partial",
    "C24_negative_samples",
    "C24_no_duplicates_refuted"
   ],
   "note": "false when a sign is zero: 0.0 and -0.0 differ as bytes, so unique_rows keeps the same vertex twice (C24_no_duplicates_refuted, W1 with a zero row); everything else, and uniqueness of rows without zero sign, is proved for every stream"
  },
  {
   "property": "C25",
   "status": "proved",
   "theorems": [
    "C25_sign_vector_count",
    "C25_search_complete"
   ],
   "note": ""
  },
  {
   "property": "C26",
   "status": "partial",
   "theorems": [
    "C26_maximin_constraint",
    "C26_maximin_design_partial",
    "C26_maximin_design_refuted",
    "C26_boundary_constraint"
   ],
   "note": "proved for compute_boundary, whose vertex set is symmetric; in maximin_design the same sign slip makes the constraint describe the reflected hull (C26_maximin_constraint), so for asymmetric vertices the returned design can lie outside the polytope (C26_maximin_design_refuted, a triangle)"
  },
  {
   "property": "C27",
   "status": "partial",
   "theorems": [
    "C27_random_walk_partial",
    "C27_random_walk_refuted"
   ],
   "note": "false of the code: the (m-n)-by-N walk array is reshaped instead of transposed (C27_random_walk_refuted); proved: the walk visits points of the polytope only, where their coordinates end up, and the claim for m-n = 1 or N = 1"
  },
  {
   "property": "C28",
   "status": "proved",
   "theorems": [
    "C28_start_is_chebyshev_centre",
    "C28_start_found"
   ],
   "note": "contracts of linprog and Gurobi as hypotheses (met by the reference solver)"
  },
  {
   "property": "C29",
   "status": "proved",
   "theorems": [
    "C29_gauss_hermite_rule",
    "C29_gauss_hermite_exact",
    "C29_returns",
    "C29_solver_independent"
   ],
   "note": "contracts of numpy.linalg.eig (unit, independent eigenvectors of a symmetric matrix) and argsort as hypotheses; nodes coincide with the exact ones for N <= 10^24 (the 1e-12 cut cannot bite), for larger N within 1e-12"
  },
  {
   "property": "C30",
   "status": "proved",
   "theorems": [
    "C30_gauss_legendre_rule",
    "C30_gauss_legendre_exact",
    "C30_returns",
    "C30_solver_independent"
   ],
   "note": "as C29, N <= 10^12"
  },
  {
   "property": "C31",
   "status": "proved",
   "theorems": [
    "C31_gauss_hermite_tensor",
    "C31_gauss_legendre_tensor",
    "C31_argument_forms"
   ],
   "note": "as C29, C30"
  },
  {
   "property": "C32",
   "status": "partial",
   "theorems": [
    "C32_jacobi_matrix_partial",
    "C32_other_shapes_raise",
    "C32_one_by_one_refuted"
   ],
   "note": "false for n = 1: two rows raise IndexError (C32_one_by_one_refuted); proved for every n >= 2 and all raising shapes"
  },
  {
   "property": "C33",
   "status": "proved",
   "theorems": [
    "C33_interval_design",
    "C33_negative_size"
   ],
   "note": ""
  },
  {
   "property": "C34",
   "status": "partial",
   "theorems": [
    "C34_objective_partial",
    "C34_objective_refuted",
    "C34_gradient_partial"
   ],
   "note": "false beyond distance 1e5: the 1e5 added to the diagonal takes part in the minimum, so the value is -min(d, 1e10) (C34_objective_refuted); proved exactly as -min(d, 1e10), and the gradient is proved to be the derivative wherever the closest pair is unique and not exactly 1e5 apart"
  },
  {
   "property": "C35",
   "status": "partial",
   "theorems": [
    "C35_maximin_design_partial",
    "C35_maximin_failure",
    "C35_state_after_exception_refuted",
    "C35_optimizers_partial",
    "C35_optimizer_exception_refuted"
   ],
   "note": "false when a solver run fails: the exception leaves the global stream seeded with 42 (C35_maximin_failure for every input, C35_state_after_exception_refuted, C35_optimizer_exception_refuted); proved for every call that returns, and the outcome never depends on the prior state"
  },
  {
   "property": "C36",
   "status": "proved",
   "theorems": [
    "C36_index_set"
   ],
   "note": ""
  },
  {
   "property": "C37",
   "status": "proved",
   "theorems": [
    "C37_basis_gradients_are_derivatives",
    "C37_predict_gradient"
   ],
   "note": ""
  },
  {
   "property": "C38",
   "status": "proved",
   "theorems": [
    "C38_reproduces_polynomials",
    "C38_gradient_and_hessian",
    "C38_R_squared",
    "C38_too_few_points_raise",
    "C38_training_returns",
    "C38_degree_zero_raises"
   ],
   "note": "contract of numpy.linalg.lstsq is a hypothesis"
  },
  {
   "property": "C39",
   "status": "proved",
   "theorems": [
    "C39_exponential_squared",
    "C39_predict_gradient"
   ],
   "note": ""
  },
  {
   "property": "C40",
   "status": "proved",
   "theorems": [
    "C40_training_solves_regularised_problem",
    "C40_reproduces_polynomials",
    "C40_training_returns",
    "C40_R_squared"
   ],
   "note": "contracts of numpy.linalg.solve and scipy fminbound are hypotheses; Gaussian kernel matrix proved positive semidefinite"
  },
  {
   "property": "C41",
   "status": "proved",
   "theorems": [
    "C41_predict",
    "C41_inactive_directions",
    "C41_gradient",
    "C41_trained_surface"
   ],
   "note": ""
  },
  {
   "property": "C42",
   "status": "proved",
   "theorems": [
    "C42_interface_training",
    "C42_interface_returns"
   ],
   "note": ""
  },
  {
   "property": "C43",
   "status": "proved",
   "theorems": [
    "C43_integrate",
    "C43_linear_monotone",
    "C43_raises",
    "C43_weights"
   ],
   "note": "bounded maps: contracts of linprog and Gurobi as hypotheses; weights: contracts of eig, argsort and Delaunay"
  },
  {
   "property": "C44",
   "status": "proved",
   "theorems": [
    "C44_interval_rule",
    "C44_no_points"
   ],
   "note": ""
  },
  {
   "property": "C45",
   "status": "proved",
   "theorems": [
    "C45_zonotope_rule",
    "C45_covering"
   ],
   "note": "contract of scipy.spatial.Delaunay as hypothesis (simplices are rows of the data, find_simplex is right)"
  },
  {
   "property": "C46",
   "status": "proved",
   "theorems": [
    "C46_unbounded_exact"
   ],
   "note": "contracts of eig and argsort as hypotheses; floor(N^(1/n)) <= 10^24"
  },
  {
   "property": "C47",
   "status": "partial",
   "theorems": [
    "C47_zonotope_minimize_partial",
    "C47_unbounded_minimize_partial",
    "C47_interval_minimize",
    "C47_large_values_refuted"
   ],
   "note": "false when all ten values are 1e100 or more: the list that stands for no result has no x, so AttributeError (C47_large_values_refuted); everything else is proved for every solver"
  },
  {
   "property": "C48",
   "status": "proved",
   "theorems": [
    "C48_minimize"
   ],
   "note": "contracts of lstsq, solve, minimize, fminbound and Gurobi as hypotheses; the surface depends on the entries of its argument only"
  },
  {
   "property": "C49",
   "status": "partial",
   "theorems": [
    "C49_refuted",
    "C49_mirrored_partial"
   ],
   "note": "false of the code: the linear system lacks the minus sign, so the mirror image -z* of a stationary point z* is returned (C49_refuted); proved that it is exactly the mirror image, for every trained model and y"
  },
  {
   "property": "C50",
   "status": "partial",
   "theorems": [
    "C50_bounded_partial",
    "C50_refuted"
   ],
   "note": "the box part is proved; the minimisation is false: the quadratic program is posed without the factor 1/2, so z minimises model(2 z) (C50_refuted); that is proved for every trained model and y"
  },
  {
   "property": "C51",
   "status": "proved",
   "theorems": [
    "C51_linear_program_eq_posed",
    "C51_linear_program_ineq_posed",
    "C51_quadratic_program_bnd_posed",
    "C51_quadratic_program_ineq_posed",
    "C51_linear_programs_solved",
    "C51_quadratic_programs_solved",
    "C51_solver_names"
   ],
   "note": "the problem posed to each back end is proved equal to the documented one for every back end; optimality of the returned point assumes the back end keeps its promise (met by a Fourier-Motzkin reference solver for LPs)"
  },
  {
   "property": "C52",
   "status": "partial",
   "theorems": [
    "C52_gradient_iff_symmetric_partial",
    "C52_asymmetric_refuted",
    "C52_constraint_jacobian"
   ],
   "note": "false for asymmetric Q: the gradient handed over is c + 2 Q^T x while the objective has gradient c + (Q + Q^T) x (C52_asymmetric_refuted); proved correct exactly when Q is symmetric, and the constraint Jacobian is proved correct"
  },
  {
   "property": "C53",
   "status": "proved",
   "theorems": [
    "C53_methods",
    "C53_compute",
    "C53_gradient_method_returns"
   ],
   "note": "X and df, when both given, have the same number of columns"
  },
  {
   "property": "C54",
   "status": "proved",
   "theorems": [
    "C54_opg_needs",
    "C54_opg_one_variable_raises"
   ],
   "note": ""
  },
  {
   "property": "C55",
   "status": "proved",
   "theorems": [
    "C55_opg_on_affine_data",
    "C55_opg_returns"
   ],
   "note": "contracts of eigh, argsort and lstsq as hypotheses"
  },
  {
   "property": "C56",
   "status": "proved",
   "theorems": [
    "C56_av_integrate_function",
    "C56_av_integrate_surface",
    "C56_raises"
   ],
   "note": "a response surface of the user predicts one number per row"
  },
  {
   "property": "C57",
   "status": "proved",
   "theorems": [
    "C57_circuit_grad"
   ],
   "note": ""
  },
  {
   "property": "C58",
   "status": "proved",
   "theorems": [
    "C58_piston_grad"
   ],
   "note": ""
  },
  {
   "property": "C59",
   "status": "proved",
   "theorems": [
    "C59_borehole_grad"
   ],
   "note": ""
  },
  {
   "property": "C60",
   "status": "proved",
   "theorems": [
    "C60_wing_grad"
   ],
   "note": ""
  },
  {
   "property": "C61",
   "status": "proved",
   "theorems": [
    "C61_robot_grad"
   ],
   "note": ""
  },
  {
   "property": "C62",
   "status": "partial",
   "theorems": [
    "C62_tutorial_wing_partial",
    "C62_refuted"
   ],
   "note": "false for the sweep angle: the input is in degrees but the derivative with respect to radians is returned (C62_refuted); proved for the other nine columns, and for all ten once that column is multiplied by pi/180"
  },
  {
   "property": "C63",
   "status": "proved",
   "theorems": [
    "C63_eigenvalues",
    "C63_subspace_errors"
   ],
   "note": "matplotlib is a machine of open figures; what is drawn is recorded, pixels are not"
  },
  {
   "property": "C64",
   "status": "proved",
   "theorems": [
    "C64_eigenvectors",
    "C64_refused"
   ],
   "note": "as C63"
  },
  {
   "property": "C65",
   "status": "partial",
   "theorems": [
    "C65_summary_partial",
    "C65_refuted"
   ],
   "note": "false for the window of the bivariate plot: it is 1.1 times the range, so when all coordinates are positive (or all negative) extreme points fall outside (C65_refuted); proved that all points are inside exactly when the coordinates do not all have the same sign, and everything else"
  },
  {
   "property": "C66",
   "status": "partial",
   "theorems": [
    "C66_zonotope_partial",
    "C66_refused",
    "C66_refuted"
   ],
   "note": "false for the file: the figure is saved after show, which closes it, so the file holds an empty figure (C66_refuted, with a window back end); everything else is proved"
  },
  {
   "property": "C67",
   "status": "proved",
   "theorems": [
    "C67_one_direction",
    "C67_ridge_predictions",
    "C67_end_to_end"
   ],
   "note": "contracts of eigh, argsort, norm(ord=2), det, lstsq and solve as hypotheses"
  },
  {
   "property": "C68",
   "status": "proved",
   "theorems": [
    "C68_mean_end_to_end"
   ],
   "note": "contracts of eigh, argsort, norm(ord=2), det and eig as hypotheses; N <= 10^24"
  },
  {
   "property": "C69",
   "status": "proved",
   "theorems": [
    "C69_compute_refuses",
    "C69_partition_refuses",
    "C69_domains",
    "C69_sampling_refuses",
    "C69_recurrences_refuse",
    "C69_surfaces",
    "C69_base_domain",
    "C69_gradients_refuse",
    "C69_minimiser_maps_refuse"
   ],
   "note": ""
  },
  {
   "property": "C70",
   "status": "proved",
   "theorems": [
    "C70_circuit",
    "C70_piston",
    "C70_borehole",
    "C70_wing",
    "C70_robot"
   ],
   "note": ""
  },
  {
   "property": "C71",
   "status": "proved",
   "theorems": [
    "C71_symmetries",
    "C71_dimension"
   ],
   "note": ""
  },
  {
   "property": "C72",
   "status": "proved",
   "theorems": [
    "C72_eigenvalues_stable",
    "C72_subspace_stable",
    "C72_dimension_stable"
   ],
   "note": ""
  },
  {
   "property": "C73",
   "status": "proved",
   "theorems": [
    "C73_finite_differences"
   ],
   "note": ""
  },
  {
   "property": "C74",
   "status": "proved",
   "theorems": [
    "C74_weights_count_samples",
    "C74_monotone",
    "C74_replicate",
    "C74_bootstrap_ranges"
   ],
   "note": ""
  },
  {
   "property": "C75",
   "status": "proved",
   "theorems": [
    "C75_interval_rule",
    "C75_zonotope_rule",
    "C75_ridge",
    "C75_integrate_interval",
    "C75_integrate_zonotope"
   ],
   "note": ""
  },
  {
   "property": "C76",
   "status": "proved",
   "theorems": [
    "C76_objective",
    "C76_affine",
    "C76_training_linear",
    "C76_training_shift"
   ],
   "note": ""
  },
  {
   "property": "C77",
   "status": "proved",
   "theorems": [
    "C77_objective_is_likelihood_partial",
    "C77_objective_is_likelihood_refuted"
   ],
   "note": ""
  },
  {
   "property": "C78",
   "status": "proved",
   "theorems": [
    "C78_training_returns_partial",
    "C78_training_returns_refuted"
   ],
   "note": ""
  },
  {
   "property": "C79",
   "status": "proved",
   "theorems": [
    "C79_callbacks",
    "C79_problems"
   ],
   "note": ""
  },
  {
   "property": "C80",
   "status": "proved",
   "theorems": [
    "C80_active_directions",
    "C80_ridge_predictions",
    "C80_end_to_end"
   ],
   "note": ""
  },
  {
   "property": "C81",
   "status": "proved",
   "theorems": [
    "C81_design_partial",
    "C81_count_refuted"
   ],
   "note": ""
  },
  {
   "property": "C82",
   "status": "proved",
   "theorems": [
    "C82_jacobi",
    "C82_integral_unique",
    "C82_hermite",
    "C82_hermite_one",
    "C82_rows_refuted",
    "C82_refused"
   ],
   "note": ""
  },
  {
   "property": "C83",
   "status": "proved",
   "theorems": [
    "C83_broadcast",
    "C83_broadcast_2d",
    "C83_dot",
    "C83_training_data",
    "C83_normalizer_refuses",
    "C83_test_functions_partial",
    "C83_one_column_refuted",
    "C83_forward",
    "C83_interval",
    "C83_maximin",
    "C83_errbnd",
    "C83_atleast_2d",
    "C83_hit_and_run",
    "C83_surfaces_refuse",
    "C83_degree0_refuted"
   ],
   "note": ""
  },
  {
   "property": "C84",
   "status": "proved",
   "theorems": [
    "C84_hermite_cubature",
    "C84_legendre_cubature",
    "C84_gaussian_subspace",
    "C84_uniform_subspace"
   ],
   "note": ""
  },
  {
   "property": "C85",
   "status": "proved",
   "theorems": [
    "C85_active_variables",
    "C85_other_directions",
    "C85_error_estimate"
   ],
   "note": ""
  },
  {
   "property": "C86",
   "status": "proved",
   "theorems": [
    "C86_ols_mean_gradient",
    "C86_qphd_mean_hessian",
    "C86_returns",
    "C86_qphd_weights_refuted"
   ],
   "note": ""
  },
  {
   "property": "C87",
   "status": "proved",
   "theorems": [
    "C87_best_fit",
    "C87_linear",
    "C87_order",
    "C87_weight_scale",
    "C87_affine",
    "C87_weighted_R2_refuted"
   ],
   "note": ""
  },
  {
   "property": "C88",
   "status": "proved",
   "theorems": [
    "C88_active_dimension",
    "C88_gauss_hermite"
   ],
   "note": ""
  },
  {
   "property": "C89",
   "status": "proved",
   "theorems": [
    "C89_mean",
    "C89_predictions"
   ],
   "note": ""
  },
  {
   "property": "C90",
   "status": "proved",
   "theorems": [
    "C90_objective",
    "C90_training",
    "C90_gradient"
   ],
   "note": ""
  },
  {
   "property": "C91",
   "status": "proved",
   "theorems": [
    "C91_bias",
    "C91_error",
    "C91_chance",
    "C91_bootstrap_draws"
   ],
   "note": ""
  },
  {
   "property": "C92",
   "status": "proved",
   "theorems": [
    "C92_dimension_rules_partial",
    "C92_ladle_refuted"
   ],
   "note": ""
  },
  {
   "property": "C93",
   "status": "proved",
   "theorems": [
    "C93_smoothest_fit",
    "C93_best_linear_unbiased"
   ],
   "note": ""
  },
  {
   "property": "C94",
   "status": "proved",
   "theorems": [
    "C94_nested_fits",
    "C94_more_directions",
    "C94_partitions",
    "C94_same_span"
   ],
   "note": ""
  },
  {
   "property": "C95",
   "status": "proved",
   "theorems": [
    "C95_columns_or_flat",
    "C95_misfits",
    "C95_no_such_dimension",
    "C95_own_figure_refuted"
   ],
   "note": ""
  },
  {
   "property": "C96",
   "status": "proved",
   "theorems": [
    "C96_circuit",
    "C96_piston",
    "C96_wing",
    "C96_robot",
    "C96_robot_files_refuted",
    "C96_borehole",
    "C96_no_bootstrap"
   ],
   "note": ""
  },
  {
   "property": "C97",
   "status": "proved",
   "theorems": [
    "C97_fit_methods_return",
    "C97_ols_keeps_one",
    "C97_opg_bootstrap_starves",
    "C97_opg_bootstrap_refuted"
   ],
   "note": ""
  },
  {
   "property": "C98",
   "status": "proved",
   "theorems": [
    "C98_samples",
    "C98_linear_model",
    "C98_quadratic_model",
    "C98_local_models",
    "C98_exact_gradients",
    "C98_response_surface",
    "C98_integral_and_minimum",
    "C98_notebook"
   ],
   "note": ""
  },
  {
   "property": "C99",
   "status": "proved",
   "theorems": [
    "C99_rejection",
    "C99_hit_and_run",
    "C99_chord",
    "C99_one_inactive",
    "C99_zero_row",
    "C99_random_walk",
    "C99_sample_z",
    "C99_rejection_returns"
   ],
   "note": ""
  },
  {
   "property": "C100",
   "status": "proved",
   "theorems": [
    "C100_rounding",
    "C100_normalize",
    "C100_unnormalize",
    "C100_round_trip",
    "C100_unnormalize_within_bounds_refuted",
    "C100_wide_bounds_refuted",
    "C100_active_variable_error",
    "C100_endpoints",
    "C100_endpoints_any_order_refuted",
    "C100_conditional_expectations",
    "C100_constant_refuted"
   ],
   "note": ""
  },
  {
   "property": "C101",
   "status": "proved",
   "theorems": [
    "C101_bounded_normalizer",
    "C101_unbounded_normalizer",
    "C101_misc_tests",
    "C101_quadrature",
    "C101_plain_designs",
    "C101_maximin_states",
    "C101_maximin_design",
    "C101_gradient_with_finite_difference_partial",
    "C101_gradient_with_finite_difference_refuted",
    "C101_local_linear_gradients",
    "C101_local_linear_gradients_same_points",
    "C101_finite_difference_gradients",
    "C101_simrunners",
    "C101_linear_programs",
    "C101_quadratic_programs",
    "C101_bad_solver"
   ],
   "note": ""
  },
  {
   "property": "C102",
   "status": "proved",
   "theorems": [
    "C102_one_point",
    "C102_negative",
    "C102_empty_design",
    "C102_empty_plots",
    "C102_length_scales"
   ],
   "note": ""
  },
  {
   "property": "C103",
   "status": "proved",
   "theorems": [
    "C103_sorted_eigh",
    "C103_active_subspace",
    "C103_ols_subspace",
    "C103_qphd_subspace",
    "C103_opg_subspace",
    "C103_bootstrap_replicate",
    "C103_partitions",
    "C103_bootstrap",
    "C103_bootstrap_refuted"
   ],
   "note": ""
  },
  {
   "property": "C104",
   "status": "proved",
   "theorems": [
    "C104_unbounded",
    "C104_bounded",
    "C104_samplers",
    "C104_hit_and_run_refuted",
    "C104_bounded_inverse",
    "C104_bounded_inverse_refuted"
   ],
   "note": ""
  },
  {
   "property": "C105",
   "status": "proved",
   "theorems": [
    "C105_raises_iff",
    "C105_first_point"
   ],
   "note": ""
  },
  {
   "property": "C106",
   "status": "proved",
   "theorems": [
    "C106_functions",
    "C106_basis_differences",
    "C106_basis_differences_refuted",
    "C106_exact",
    "C106_gradients",
    "C106_convergence",
    "C106_eigenvalues"
   ],
   "note": ""
  },
  {
   "property": "C107",
   "status": "proved",
   "theorems": [
    "C107_each_passes",
    "C107_pictures",
    "C107_overwritten",
    "C107_teardown"
   ],
   "note": ""
  },
  {
   "property": "C108",
   "status": "proved",
   "theorems": [
    "C108_data",
    "C108_functions",
    "C108_integrals"
   ],
   "note": ""
  },
  {
   "property": "C109",
   "status": "proved",
   "theorems": [
    "C109_ubnd_2d",
    "C109_ubnd",
    "C109_bnd",
    "C109_bnd_2d"
   ],
   "note": ""
  },
  {
   "property": "C110",
   "status": "proved",
   "theorems": [
    "C110_local_linear",
    "C110_active_subspace"
   ],
   "note": ""
  },
  {
   "property": "C111",
   "status": "proved",
   "theorems": [
    "C111_finite_differences",
    "C111_lost_step",
    "C111_any_step_refuted"
   ],
   "note": ""
  },
  {
   "property": "C112",
   "status": "proved",
   "theorems": [
    "C112_matrix",
    "C112_eigenvalues",
    "C112_subspace",
    "C112_returns",
    "C112_symmetric_refuted"
   ],
   "note": ""
  },
  {
   "property": "C113",
   "status": "proved",
   "theorems": [
    "C113_chain"
   ],
   "note": ""
  },
  {
   "property": "C114",
   "status": "proved",
   "theorems": [
    "C114_two_variables",
    "C114_integral",
    "C114_interface"
   ],
   "note": ""
  },
  {
   "property": "C115",
   "status": "proved",
   "theorems": [
    "C115_integrate",
    "C115_av_integrate",
    "C115_constant_refuted"
   ],
   "note": ""
  },
  {
   "property": "C116",
   "status": "proved",
   "theorems": [
    "C116_predict",
    "C116_unit_cube",
    "C116_relative_refuted"
   ],
   "note": ""
  },
  {
   "property": "C117",
   "status": "proved",
   "theorems": [
    "C117_kernel",
    "C117_predict",
    "C117_distinct_points_refuted",
    "C117_far",
    "C117_training_matrix",
    "C117_kernel_gradient",
    "C117_gradient"
   ],
   "note": ""
  }
 ]
}