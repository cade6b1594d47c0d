{
 "claims": [
  {
   "property": "C01",
   "status": "proved",
   "theorems": [
    "C01_soft_thresholding_entry",
    "C01_soft_thresholding"
   ],
   "note": ""
  },
  {
   "property": "C02",
   "status": "proved",
   "theorems": [
    "C02_off_diagonal",
    "C02_l1_od_norm"
   ],
   "note": ""
  },
  {
   "property": "C03",
   "status": "proved",
   "theorems": [
    "C03_prox_logdet",
    "C03_basis_independent",
    "C03_prox_logdet_ala_ma"
   ],
   "note": ""
  },
  {
   "property": "C04",
   "status": "proved",
   "theorems": [
    "C04_prox_trace_indicator"
   ],
   "note": ""
  },
  {
   "property": "C05",
   "status": "proved",
   "theorems": [
    "C05_prox_laplacian"
   ],
   "note": ""
  },
  {
   "property": "C06",
   "status": "proved",
   "theorems": [
    "C06_blockwise",
    "C06_blockwise_lambda0_nan",
    "C06_symmetric_agrees",
    "C06_symmetric_zero_column_nan"
   ],
   "note": "The zero-column NaN cases are theorems of their own."
  },
  {
   "property": "C07",
   "status": "proved",
   "theorems": [
    "C07_node_penalty_value",
    "C07_node_penalty_refuted",
    "C07_node_stationary",
    "C07_node_prox_refuted",
    "C07_node_zero_iterations",
    "C07_node_sum",
    "C07_node_stop",
    "C07_consistent_laplacian_l1",
    "C07_value_error",
    "C07_node_flag",
    "C07_l2_refuted",
    "C07_linf_refuted"
   ],
   "note": "Consistency proved for 'laplacian' and 'l1', refuted for 'l2', 'linf' and 'node'. The inner scipy minimisation of node_penalty is taken at its exact minimum; the node prox is characterised by its resting states."
  },
  {
   "property": "C08",
   "status": "proved",
   "theorems": [
    "C08_pair_update"
   ],
   "note": ""
  },
  {
   "property": "C09",
   "status": "proved",
   "theorems": [
    "C09_prox_FL_off_diagonal",
    "C09_prox_FL_diagonal"
   ],
   "note": ""
  },
  {
   "property": "C10",
   "status": "proved",
   "theorems": [
    "C10_update_rho_cases",
    "C10_positive",
    "C10_envelope"
   ],
   "note": ""
  },
  {
   "property": "C11",
   "status": "proved",
   "theorems": [
    "C11_update_gamma",
    "C11_lower_bound"
   ],
   "note": ""
  },
  {
   "property": "C12",
   "status": "proved",
   "theorems": [
    "C12_symmetric",
    "C12_positive_diagonal",
    "C12_logdet_iterate_pd"
   ],
   "note": ""
  },
  {
   "property": "C13",
   "status": "proved",
   "theorems": [
    "C13_stationary_is_optimal",
    "C13_optimal_is_stationary"
   ],
   "note": ""
  },
  {
   "property": "C14",
   "status": "proved",
   "theorems": [
    "C14_always_terminates",
    "C14_no_warning",
    "C14_terminates"
   ],
   "note": ""
  },
  {
   "property": "C15",
   "status": "proved",
   "theorems": [
    "C15_stop_gap",
    "C15_first_iteration_refuted"
   ],
   "note": "The bound is proved for every stop after at least two iterations, against every competitor; the first-iteration failure is C15_first_iteration_refuted."
  },
  {
   "property": "C16",
   "status": "proved",
   "theorems": [
    "C16_over_relaxation_refuted",
    "C16_stationary_exists"
   ],
   "note": "Refuted: the theorem shows that no stationary point is an optimum for over_relax in (1,2); stationary points exist."
  },
  {
   "property": "C17",
   "status": "proved",
   "theorems": [
    "C17_graphical_lasso_off_by_one",
    "C17_infimal_convolution_off_by_one",
    "C17_kernel_time_graphical_lasso_count",
    "C17_latent_graphical_lasso_off_by_one",
    "C17_latent_time_off_by_one",
    "C17_kernel_latent_time_off_by_one",
    "C17_missing_graphical_lasso_off_by_one",
    "C17_time_graphical_lasso_count",
    "C117_counts"
   ],
   "note": "Refuted in the expected form; settled solver by solver: the count is one less than the iterations performed for graphical_lasso, latent_graphical_lasso, infimal_convolution, missing_graphical_lasso and the three latent time solvers; right for time_graphical_lasso, kernel_time_graphical_lasso and tgl_forward_backward (C117_counts), whose history is one entry longer."
  },
  {
   "property": "C18",
   "status": "proved",
   "theorems": [
    "C18_graphical_lasso_zero_iterations",
    "C18_infimal_convolution_zero_iterations",
    "C18_kernel_time_graphical_lasso_zero_iterations",
    "C18_latent_graphical_lasso_zero_iterations",
    "C18_latent_time_zero_iterations",
    "C18_kernel_latent_time_zero_iterations",
    "C18_missing_graphical_lasso_zero_iterations",
    "C18_time_graphical_lasso_zero_iterations",
    "C116_no_iteration"
   ],
   "note": "Settled for all covariance solvers; missing_graphical_lasso always raises; tgl_forward_backward: C116_no_iteration."
  },
  {
   "property": "C19",
   "status": "proved",
   "theorems": [
    "C19_relabelling"
   ],
   "note": ""
  },
  {
   "property": "C20",
   "status": "proved",
   "theorems": [
    "C20_result",
    "C20_every_iteration"
   ],
   "note": ""
  },
  {
   "property": "C21",
   "status": "proved",
   "theorems": [
    "C21_stationary_is_optimal",
    "C21_optimal_is_stationary",
    "C21_documented_objective_refuted"
   ],
   "note": "For the documented objective the claim is refuted (C21_documented_objective_refuted)."
  },
  {
   "property": "C22",
   "status": "proved",
   "theorems": [
    "C22_result",
    "C22_every_iteration"
   ],
   "note": ""
  },
  {
   "property": "C23",
   "status": "proved",
   "theorems": [
    "C23_stationary_is_optimal",
    "C23_optimal_is_stationary",
    "C23_documented_objective_refuted"
   ],
   "note": "For the documented objective the claim is refuted (C23_documented_objective_refuted)."
  },
  {
   "property": "C24",
   "status": "proved",
   "theorems": [
    "C24_always_terminates",
    "C24_terminates"
   ],
   "note": ""
  },
  {
   "property": "C25",
   "status": "proved",
   "theorems": [
    "C25_kernel_time_reversal",
    "C25_time_reversal"
   ],
   "note": ""
  },
  {
   "property": "C26",
   "status": "proved",
   "theorems": [
    "C26_kernel_time_objective_refuted",
    "C26_latent_time_graphical_lasso",
    "C26_latent_time_matrix_decomposition",
    "C26_graphical_lasso_objective",
    "C26_latent_objective",
    "C26_time_objective_refuted"
   ],
   "note": "Positive for four solvers, refuted for time_graphical_lasso and kernel_time_graphical_lasso."
  },
  {
   "property": "C27",
   "status": "proved",
   "theorems": [
    "C27_latent_time_graphical_lasso",
    "C27_latent_time_matrix_decomposition",
    "C27_kernel_latent_time_graphical_lasso",
    "C27_result",
    "C27_kernel_result"
   ],
   "note": ""
  },
  {
   "property": "C28",
   "status": "proved",
   "theorems": [
    "C28_same_objective",
    "C28_same_estimate"
   ],
   "note": ""
  },
  {
   "property": "C29",
   "status": "proved",
   "theorems": [
    "C29_row_order",
    "C29_classes",
    "C29_solver_input",
    "C29_relabelling"
   ],
   "note": ""
  },
  {
   "property": "C30",
   "status": "proved",
   "theorems": [
    "C30_entries",
    "C30_psd",
    "C30_row_order",
    "C30_translation",
    "C30_centering"
   ],
   "note": ""
  },
  {
   "property": "C31",
   "status": "proved",
   "theorems": [
    "C31_range",
    "C31_order",
    "C31_empty",
    "C31_value"
   ],
   "note": ""
  },
  {
   "property": "C32",
   "status": "proved",
   "theorems": [
    "C32_selected",
    "C32_none_stable",
    "C32_last_stable_refuted",
    "C32_last_ignored"
   ],
   "note": "The expected rule is refuted (C32_last_stable_refuted, C32_last_ignored); C32_selected and C32_none_stable say what is selected instead."
  },
  {
   "property": "C33",
   "status": "proved",
   "theorems": [
    "C33_one_grid",
    "C33_merged_refuted"
   ],
   "note": "One grid: proved. Merged grids: only the last survives (C33_merged_refuted)."
  },
  {
   "property": "C34",
   "status": "proved",
   "theorems": [
    "C34_counts",
    "C34_partition",
    "C34_ratios",
    "C34_swap",
    "C34_raises"
   ],
   "note": ""
  },
  {
   "property": "C35",
   "status": "proved",
   "theorems": [
    "C35_accuracy_refuted",
    "C35_perfect_otherwise"
   ],
   "note": "Refuted for no_diagonal=True (C35_accuracy_refuted)."
  },
  {
   "property": "C36",
   "status": "proved",
   "theorems": [
    "C36_extract",
    "C36_recover",
    "C36_other_lengths"
   ],
   "note": ""
  },
  {
   "property": "C37",
   "status": "proved",
   "theorems": [
    "C37_result",
    "C37_stack"
   ],
   "note": ""
  },
  {
   "property": "C38",
   "status": "proved",
   "theorems": [
    "C38_normalised",
    "C38_bad_diagonal"
   ],
   "note": ""
  },
  {
   "property": "C39",
   "status": "proved",
   "theorems": [
    "C39_shape",
    "C39_intersection",
    "C39_union_value",
    "C39_union_support_refuted",
    "C39_union_average_refuted",
    "C39_union_same_sign"
   ],
   "note": "Positive for 'intersection'; refuted for 'union' (two theorems), with the exact weights."
  },
  {
   "property": "C40",
   "status": "proved",
   "theorems": [
    "C40_first_sample_only",
    "C40_every_sample_refuted",
    "C40_one_sample"
   ],
   "note": "refuted for two or more samples (C40_every_sample_refuted); the code uses the first sample only (C40_first_sample_only); holds for one sample"
  },
  {
   "property": "C41",
   "status": "proved",
   "theorems": [
    "C41_interactions",
    "C41_any_start"
   ],
   "note": ""
  },
  {
   "property": "C42",
   "status": "proved",
   "theorems": [
    "C42_order_independent",
    "C42_incremental",
    "C42_valid",
    "C42_bayes"
   ],
   "note": "Order independence and incrementality of the parameters, positive definiteness of the posterior scale matrix, and Bayes' rule: the posterior's log-density is constant + prior log-density + log-likelihood of the samples (with the location as a vector, see C85)."
  },
  {
   "property": "C43",
   "status": "proved",
   "theorems": [
    "C43_bracket",
    "C43_accepted_above_slice",
    "C43_never_fails"
   ],
   "note": "Brackets, nesting and budget of the run; the result is unchanged or above the slice; no exception for a consistent state. Uniform numbers in [0,1)."
  },
  {
   "property": "C44",
   "status": "proved",
   "theorems": [
    "C44_states",
    "C44_brackets",
    "C44_brackets_refuted",
    "C44_fixed_refuted"
   ],
   "note": "The brackets hold for beta >= 0 and r1(r1-r0) > 0 and are refuted for responses (-1,0); fixed entries are refuted for method CFTP, which ignores them."
  },
  {
   "property": "C45",
   "status": "proved",
   "theorems": [
    "C45_flatten",
    "C45_compose",
    "C45_filename",
    "C45_filename_raises"
   ],
   "note": ""
  },
  {
   "property": "C46",
   "status": "proved",
   "theorems": [
    "C46_threshold",
    "C46_twice"
   ],
   "note": ""
  },
  {
   "property": "C47",
   "status": "proved",
   "theorems": [
    "C47_representative",
    "C47_distance",
    "C47_edges",
    "C47_table"
   ],
   "note": ""
  },
  {
   "property": "C48",
   "status": "proved",
   "theorems": [
    "C48_BIC",
    "C48_extra_edges",
    "C48_EBIC",
    "C48_time"
   ],
   "note": ""
  },
  {
   "property": "C49",
   "status": "proved",
   "theorems": [
    "C49_priors",
    "C49_row_order",
    "C49_given_priors_refuted"
   ],
   "note": "the case of user-given priors is refuted"
  },
  {
   "property": "C50",
   "status": "proved",
   "theorems": [
    "C50_D_counts",
    "C50_consensus",
    "C50_idempotent"
   ],
   "note": ""
  },
  {
   "property": "C51",
   "status": "proved",
   "theorems": [
    "C51_search",
    "C51_positive",
    "C51_succeeds",
    "C51_both",
    "C51_exhausted_refuted"
   ],
   "note": "The result of the search in both outcomes, positivity, success with a large enough budget at positive definite points, choose='both'. Refuted: when the budget is exhausted the step length returned is eps times the one of the point returned."
  },
  {
   "property": "C52",
   "status": "proved",
   "theorems": [
    "C52_split",
    "C52_ragged_raises"
   ],
   "note": ""
  },
  {
   "property": "C53",
   "status": "proved",
   "theorems": [
    "C53_all_times",
    "C53_l1_changes",
    "C53_fixed_latent",
    "C53_repair",
    "C53_observed_refuted",
    "C53_one_variable",
    "C53_yuan_latent",
    "C53_l1_latent",
    "C53_l2_moves"
   ],
   "note": "Refuted for the observed precision after the first time; positive definiteness of theta is proved for update_theta='l1'."
  },
  {
   "property": "C54",
   "status": "proved",
   "theorems": [
    "C54_all_graphs"
   ],
   "note": "np.argsort enters as any order that sorts the keys."
  },
  {
   "property": "C55",
   "status": "proved",
   "theorems": [
    "C55_distance",
    "C55_value"
   ],
   "note": ""
  },
  {
   "property": "C56",
   "status": "proved",
   "theorems": [
    "C56_nonzero_refuted"
   ],
   "note": "Refuted."
  },
  {
   "property": "C57",
   "status": "proved",
   "theorems": [
    "C57_negative_edges_refuted"
   ],
   "note": "Refuted; mcc itself is an oracle."
  },
  {
   "property": "C58",
   "status": "proved",
   "theorems": [
    "C58_mean_structure_error_refuted"
   ],
   "note": "Refuted."
  },
  {
   "property": "C59",
   "status": "proved",
   "theorems": [
    "C59_kernel",
    "C59_degenerate"
   ],
   "note": ""
  },
  {
   "property": "C60",
   "status": "proved",
   "theorems": [
    "C60_window",
    "C60_ordered"
   ],
   "note": ""
  },
  {
   "property": "C61",
   "status": "proved",
   "theorems": [
    "C61_upper_bound",
    "C61_order"
   ],
   "note": ""
  },
  {
   "property": "C62",
   "status": "proved",
   "theorems": [
    "C62_EBIC_below_BIC_refuted",
    "C62_EBIC_m_below_EBIC",
    "C62_two_variables_refuted",
    "C62_one_variable_refuted"
   ],
   "note": "Refuted with the default parameters, for two and for one variable; holds for EBIC_m with 3 or more variables."
  },
  {
   "property": "C63",
   "status": "proved",
   "theorems": [
    "C63_stationary_is_optimal",
    "C63_optimal_is_stationary",
    "C63_documented_objective_refuted"
   ],
   "note": "For the documented objective the claim is refuted (C63_documented_objective_refuted)."
  },
  {
   "property": "C64",
   "status": "proved",
   "theorems": [
    "C64_result",
    "C64_every_iteration"
   ],
   "note": ""
  },
  {
   "property": "C65",
   "status": "proved",
   "theorems": [
    "C65_always_terminates",
    "C65_terminates"
   ],
   "note": ""
  },
  {
   "property": "C66",
   "status": "proved",
   "theorems": [
    "C66_default_kernel_decouples"
   ],
   "note": ""
  },
  {
   "property": "C67",
   "status": "proved",
   "theorems": [
    "C67_only_upper_kernel"
   ],
   "note": ""
  },
  {
   "property": "C68",
   "status": "proved",
   "theorems": [
    "C68_graphical_lasso",
    "C68_time_graphical_lasso",
    "C68_kernel_time_graphical_lasso"
   ],
   "note": ""
  },
  {
   "property": "C69",
   "status": "proved",
   "theorems": [
    "C69_stationary_is_optimal",
    "C69_optimal_is_stationary"
   ],
   "note": ""
  },
  {
   "property": "C70",
   "status": "proved",
   "theorems": [
    "C70_stationary_is_optimal",
    "C70_optimal_is_stationary"
   ],
   "note": ""
  },
  {
   "property": "C71",
   "status": "proved",
   "theorems": [
    "C71_stationary_is_optimal",
    "C71_optimal_is_stationary"
   ],
   "note": ""
  },
  {
   "property": "C72",
   "status": "proved",
   "theorems": [
    "C72_latent_time_graphical_lasso",
    "C72_kernel_latent_time_graphical_lasso",
    "C72_latent_time_matrix_decomposition"
   ],
   "note": ""
  },
  {
   "property": "C73",
   "status": "proved",
   "theorems": [
    "C73_latent_time_graphical_lasso_refuted",
    "C73_kernel_latent_time_graphical_lasso_refuted",
    "C73_latent_time_matrix_decomposition_refuted"
   ],
   "note": "Refuted: the theorems say no stationary state minimises the documented objective."
  },
  {
   "property": "C74",
   "status": "proved",
   "theorems": [
    "C74_graphical_lasso_fit",
    "C74_time_graphical_lasso_fit",
    "C74_fit_total",
    "C74_graphical_lasso_location"
   ],
   "note": ""
  },
  {
   "property": "C75",
   "status": "proved",
   "theorems": [
    "C75_score_is_log_likelihood",
    "C75_row_order",
    "C75_missing_class"
   ],
   "note": ""
  },
  {
   "property": "C76",
   "status": "proved",
   "theorems": [
    "C76_time_graphical_lasso",
    "C76_kernel_time_graphical_lasso",
    "C76_latent_graphical_lasso",
    "C76_graphical_lasso_refuted"
   ],
   "note": "refuted for graphical_lasso"
  },
  {
   "property": "C77",
   "status": "proved",
   "theorems": [
    "C77_graphical_lasso",
    "C77_time_graphical_lasso",
    "C77_kernel_time_graphical_lasso"
   ],
   "note": ""
  },
  {
   "property": "C78",
   "status": "proved",
   "theorems": [
    "C78_stops",
    "C78_objective_nonincreasing",
    "C78_large_alpha"
   ],
   "note": ""
  },
  {
   "property": "C79",
   "status": "proved",
   "theorems": [
    "C79_returns",
    "C79_objective_nonincreasing",
    "C79_unchanged_is_minimiser",
    "C79_coupled_refuted"
   ],
   "note": "refuted with a coupling matrix (C79_coupled_refuted)"
  },
  {
   "property": "C80",
   "status": "proved",
   "theorems": [
    "C80_objective_nonincreasing",
    "C80_stops",
    "C80_unchanged_iff_minimiser",
    "C80_scaled_data_refuted"
   ],
   "note": "divergence for unscaled data: C80_scaled_data_refuted"
  },
  {
   "property": "C81",
   "status": "proved",
   "theorems": [
    "C81_gaussian_arguments_refuted"
   ],
   "note": "refuted"
  },
  {
   "property": "C83",
   "status": "proved",
   "theorems": [
    "C83_gaussian",
    "C83_poisson"
   ],
   "note": ""
  },
  {
   "property": "C82",
   "status": "proved",
   "theorems": [
    "C82_interactions",
    "C82_first_sample_only",
    "C82_objective_sign",
    "C82_uncoupled_refuted",
    "C82_objective_sign_refuted"
   ],
   "note": "symmetry proved; the other three clauses refuted"
  },
  {
   "property": "C84",
   "status": "proved",
   "theorems": [
    "C84_wishart_mode",
    "C84_inverse_wishart_mode",
    "C84_niw_mode"
   ],
   "note": "For all three distributions."
  },
  {
   "property": "C85",
   "status": "proved",
   "theorems": [
    "C85_posterior_usable_refuted"
   ],
   "note": "Refuted for every prior and data set with D >= 2."
  },
  {
   "property": "C86",
   "status": "proved",
   "theorems": [
    "C86_tempered",
    "C86_documented_slice_refuted"
   ],
   "note": "Refuted; C86_tempered gives the acceptance rule of the code."
  },
  {
   "property": "C87",
   "status": "proved",
   "theorems": [
    "C87_kernel_width",
    "C87_cholesky_element",
    "C87_lognstat"
   ],
   "note": "Detailed balance; the densities' integrals (normalisation, mean of the lognormal law) are not formalised."
  },
  {
   "property": "C88",
   "status": "proved",
   "theorems": [
    "C88_valid",
    "C88_given_factor",
    "C88_predict",
    "C88_predict_valid"
   ],
   "note": ""
  },
  {
   "property": "C89",
   "status": "proved",
   "theorems": [
    "C89_stored_factors_refuted",
    "C89_learnt_factor_refuted"
   ],
   "note": "Refuted by a two-iteration run, and C89_stored_factors_refuted for every run."
  },
  {
   "property": "C90",
   "status": "proved",
   "theorems": [
    "C90_samples_are_scaled_prior_draws_refuted"
   ],
   "note": "Refuted for every run."
  },
  {
   "property": "C91",
   "status": "proved",
   "theorems": [
    "C91_singular_refuted"
   ],
   "note": "Refuted for every run with fewer degrees of freedom than variables."
  },
  {
   "property": "C92",
   "status": "proved",
   "theorems": [
    "C92_loglik_refuted"
   ],
   "note": "Refuted for every data set with n samples at each time."
  },
  {
   "property": "C93",
   "status": "proved",
   "theorems": [
    "C93_blankets",
    "C93_sampled_graphs",
    "C93_scores"
   ],
   "note": "np.unique enters as any function preserving membership; the random choices are arbitrary."
  },
  {
   "property": "C94",
   "status": "proved",
   "theorems": [
    "C94_pattern",
    "C94_objective",
    "C94_gradient",
    "C94_stationary_is_mle",
    "C94_posterior_mode"
   ],
   "note": "scipy.optimize.minimize is not modelled: its result is an arbitrary vector, optimality is proved where the gradient vanishes."
  },
  {
   "property": "C95",
   "status": "proved",
   "theorems": [
    "C95_unbounded_refuted"
   ],
   "note": "Refuted: the objective is unbounded below."
  },
  {
   "property": "C96",
   "status": "proved",
   "theorems": [
    "C96_negative_definite",
    "C96_hessian_doubled",
    "C96_is_hessian_refuted",
    "C96_first_derivative"
   ],
   "note": "The claim that the matrix is the Hessian is refuted; definiteness, the diagonal and the first derivative are proved."
  },
  {
   "property": "C97",
   "status": "proved",
   "theorems": [
    "C97_default_prior_refuted",
    "C97_given_prior"
   ],
   "note": "Refuted for the default S0."
  },
  {
   "property": "C98",
   "status": "proved",
   "theorems": [
    "C98_top_mean",
    "C98_valid"
   ],
   "note": ""
  },
  {
   "property": "C99",
   "status": "proved",
   "theorems": [
    "C99_bic",
    "C99_laplace",
    "C99_diaglaplace"
   ],
   "note": "svd and cholesky enter through their defining equations."
  },
  {
   "property": "C100",
   "status": "proved",
   "theorems": [
    "C100_infimal_convolution",
    "C100_graphical_lasso",
    "C100_latent_graphical_lasso",
    "C100_time_graphical_lasso",
    "C100_kernel_time_graphical_lasso",
    "C100_latent_time",
    "C100_kernel_latent_time"
   ],
   "note": ""
  },
  {
   "property": "C101",
   "status": "proved",
   "theorems": [
    "C101_graphical_lasso",
    "C101_zero_variance",
    "C101_time_graphical_lasso",
    "C101_kernel_time_graphical_lasso",
    "C101_latent_time_graphical_lasso",
    "C101_kernel_latent_time_graphical_lasso",
    "C101_latent_time_matrix_decomposition",
    "C101_latent_graphical_lasso",
    "C101_latent_graphical_lasso_rests",
    "C101_latent_time_graphical_lasso_rests",
    "C101_kernel_latent_time_graphical_lasso_rests",
    "C101_latent_time_matrix_decomposition_rests"
   ],
   "note": ""
  },
  {
   "property": "C102",
   "status": "proved",
   "theorems": [
    "C102_x_update",
    "C102_stationary_is_optimal",
    "C102_optimal_is_stationary",
    "C102_solution_exists"
   ],
   "note": ""
  },
  {
   "property": "C103",
   "status": "proved",
   "theorems": [
    "C103_terminates",
    "C103_gap"
   ],
   "note": "Exact arithmetic; cholesky and lstsq as specified."
  },
  {
   "property": "C104",
   "status": "proved",
   "theorems": [
    "C104_pair_refuted",
    "C104_history_refuted",
    "C104_no_iteration"
   ],
   "note": "Refuted: see the _refuted theorems; the others state what the code does."
  },
  {
   "property": "C105",
   "status": "proved",
   "theorems": [
    "C105_stationary_is_lasso",
    "C105_group_problem_refuted"
   ],
   "note": "Refuted: see the _refuted theorems; the others state what the code does."
  },
  {
   "property": "C106",
   "status": "proved",
   "theorems": [
    "C106_dual_residual_refuted",
    "C106_one_iteration_refuted",
    "C106_arbitrarily_bad_refuted"
   ],
   "note": "Refuted: see the _refuted theorems; the others state what the code does."
  },
  {
   "property": "C107",
   "status": "proved",
   "theorems": [
    "C107_accepted",
    "C107_partition_rejected_refuted",
    "C107_non_partition_accepted_refuted",
    "C107_no_groups_accepted_refuted"
   ],
   "note": "Refuted: see the _refuted theorems; the others state what the code does."
  },
  {
   "property": "C108",
   "status": "proved",
   "theorems": [
    "C108_copies_agree",
    "C108_stationary_is_l1",
    "C108_group_problem_refuted"
   ],
   "note": "Refuted: see the _refuted theorems; the others state what the code does."
  },
  {
   "property": "C109",
   "status": "proved",
   "theorems": [
    "C109_stops",
    "C109_no_iteration",
    "C109_always_returns"
   ],
   "note": ""
  },
  {
   "property": "C110",
   "status": "proved",
   "theorems": [
    "C110_same_columns",
    "C110_every_column_used",
    "C110_shape"
   ],
   "note": ""
  },
  {
   "property": "C111",
   "status": "proved",
   "theorems": [
    "C111_search",
    "C111_positive_definite"
   ],
   "note": ""
  },
  {
   "property": "C112",
   "status": "proved",
   "theorems": [
    "C112_values",
    "C112_gradient",
    "C112_prox"
   ],
   "note": "temporal norm p = 1 (the default), or the Laplacian penalty"
  },
  {
   "property": "C113",
   "status": "proved",
   "theorems": [
    "C113_never_increases"
   ],
   "note": "conditional on the searches succeeding, as stated"
  },
  {
   "property": "C114",
   "status": "proved",
   "theorems": [
    "C114_optimum_stays",
    "C114_rest_is_optimal"
   ],
   "note": ""
  },
  {
   "property": "C115",
   "status": "proved",
   "theorems": [
    "C115_negative",
    "C115_refuted",
    "C115_fixed_step"
   ],
   "note": "Refuted as expected; the holding case (fixed small step) is proved."
  },
  {
   "property": "C116",
   "status": "proved",
   "theorems": [
    "C116_returns",
    "C116_type_error",
    "C116_single_time",
    "C116_no_iteration"
   ],
   "note": ""
  },
  {
   "property": "C117",
   "status": "proved",
   "theorems": [
    "C117_counts",
    "C117_n_linesearch",
    "C117_covariance"
   ],
   "note": ""
  },
  {
   "property": "C118",
   "status": "proved",
   "theorems": [
    "C118_certificate",
    "C118_stop_test"
   ],
   "note": ""
  },
  {
   "property": "C119",
   "status": "proved",
   "theorems": [
    "C119_fixed_step",
    "C119_line_search"
   ],
   "note": ""
  },
  {
   "property": "C120",
   "status": "proved",
   "theorems": [
    "C120_fixed_step",
    "C120_line_search"
   ],
   "note": ""
  },
  {
   "property": "C121",
   "status": "proved",
   "theorems": [
    "C121_law",
    "C121_C122_law_total",
    "C121_C122_grid"
   ],
   "note": "The numbers are independent and uniform on [0,1), seen through finitely many cut points that contain every threshold; such cut points are proved to exist."
  },
  {
   "property": "C122",
   "status": "proved",
   "theorems": [
    "C122_law",
    "C122_responses_refuted",
    "C122_no_sweeps",
    "C122_never",
    "C122_inexact"
   ],
   "note": ""
  },
  {
   "property": "C123",
   "status": "proved",
   "theorems": [
    "C123_law",
    "C123_exhausted",
    "C123_rows"
   ],
   "note": "Refuted as expected; what is drawn is proved."
  },
  {
   "property": "C124",
   "status": "proved",
   "theorems": [
    "C124_returns"
   ],
   "note": "Refuted for n = 0, 1 with MH."
  },
  {
   "property": "C125",
   "status": "proved",
   "theorems": [
    "C125_symmetric",
    "C125_diagonal_refuted",
    "C125_one_variable"
   ],
   "note": "Refuted for the diagonal and the number of changes."
  },
  {
   "property": "C126",
   "status": "proved",
   "theorems": [
    "C126_valid",
    "C126_ends",
    "C126_one_variable",
    "C126_count_refuted"
   ],
   "note": "Refuted for the number of changes."
  },
  {
   "property": "C127",
   "status": "proved",
   "theorems": [
    "C127_counts",
    "C127_weights_refuted"
   ],
   "note": "Refuted for weights outside {0,1}."
  },
  {
   "property": "C128",
   "status": "proved",
   "theorems": [
    "C128_sweep",
    "C128_counts"
   ],
   "note": ""
  },
  {
   "property": "C129",
   "status": "proved",
   "theorems": [
    "C129_shape",
    "C129_data",
    "C129_many_latents_refuted",
    "C129_budget",
    "C129_self_refuted"
   ],
   "note": "Refuted for many latent variables."
  },
  {
   "property": "C130",
   "status": "proved",
   "theorems": [
    "C130_plain",
    "C130_starting"
   ],
   "note": ""
  },
  {
   "property": "C131",
   "status": "proved",
   "theorems": [
    "C131_succeeds",
    "C131_sparsity_refuted",
    "C131_all_moved"
   ],
   "note": "Refuted for the sparsity."
  },
  {
   "property": "C132",
   "status": "proved",
   "theorems": [
    "C132_sin",
    "C132_sin_cos_refuted"
   ],
   "note": "Refuted for make_sin_cos."
  },
  {
   "property": "C133",
   "status": "proved",
   "theorems": [
    "C133_marginal",
    "C133_precision",
    "C133_rand_k_refuted"
   ],
   "note": "Refuted for the random-K variant."
  },
  {
   "property": "C134",
   "status": "proved",
   "theorems": [
    "C134_exp_sine",
    "C134_rbf",
    "C134_ticc"
   ],
   "note": ""
  },
  {
   "property": "C135",
   "status": "proved",
   "theorems": [
    "C135_result",
    "C135_stationary_is_optimal",
    "C135_optimal_is_stationary",
    "C135_solution_exists",
    "C135_documented_problem_refuted",
    "C135_objective_refuted"
   ],
   "note": "Refuted for the documented problem; the problem actually solved is identified."
  },
  {
   "property": "C136",
   "status": "proved",
   "theorems": [
    "C136_observed_kept",
    "C136_scaled_conditional_mean",
    "C136_result",
    "C136_covariance_psd",
    "C136_precision_symmetric",
    "C136_complete_data",
    "C136_scale_refuted",
    "C136_imputation_refuted",
    "C136_stops"
   ],
   "note": "Refuted for the covariance of complete data and for the filled values. numpy's pinv is a parameter: inverse on invertible matrices, symmetric on symmetric ones."
  },
  {
   "property": "C137",
   "status": "proved",
   "theorems": [
    "C137_classes",
    "C137_changes_refuted",
    "C137_gaussian",
    "C137_precision_refuted",
    "C137_no_class_refuted",
    "C137_ising"
   ],
   "note": "Refuted for the number of changes, positive definiteness and labels with no class. networkx graphs and random draws are parameters."
  },
  {
   "property": "C138",
   "status": "proved",
   "theorems": [
    "C138_labels",
    "C138_gaussian",
    "C138_ising",
    "C138_modes_refuted",
    "C138_sincos_refuted",
    "C138_degree_refuted",
    "C138_default"
   ],
   "note": "Refuted for the documented modes, the number of times with sincos, and degree. The generators are parameters (any function of the mode); C138_default instantiates the default one."
  },
  {
   "property": "C139",
   "status": "proved",
   "theorems": [
    "C139_fede",
    "C139_fede_refuted",
    "C139_sparse_low_rank",
    "C139_symmetric_refuted"
   ],
   "note": "Refuted for positive definiteness (make_fede) and symmetry (make_sparse_low_rank). make_low_rank_matrix enters through its singular value formula."
  },
  {
   "property": "C140",
   "status": "proved",
   "theorems": [
    "C140_shape",
    "C140_objective_refuted",
    "C140_node_unchanged"
   ],
   "note": "Refuted for the recorded objective, the diagonal and the weights. fuel bounds the line search; a run that exhausts it is not a returning run."
  },
  {
   "property": "C141",
   "status": "proved",
   "theorems": [
    "C141_ising",
    "C141_gaussian",
    "C141_poisson",
    "C141_time_ising",
    "C141_time_poisson"
   ],
   "note": "Refuted for the count of the static fits and the first Poisson iteration."
  },
  {
   "property": "C142",
   "status": "proved",
   "theorems": [
    "C142_lognormal",
    "C142_frobenius"
   ],
   "note": "Real arithmetic; the distribution function of the normal law is any primitive of its density (C142_case builds one)."
  },
  {
   "property": "C143",
   "status": "proved",
   "theorems": [
    "C143_none",
    "C143_none_decouples",
    "C143_rbf",
    "C143_constant",
    "C143_periodic_refuted",
    "C143_array_refuted",
    "C143_array_fit_refuted",
    "C143_similarity_array"
   ],
   "note": "Refuted for array kernels and for ExpSineSquared at whole labels."
  },
  {
   "property": "C144",
   "status": "proved",
   "theorems": [
    "C144_converged",
    "C144_exhausted",
    "C144_best_refuted",
    "C144_best_limit",
    "C144_periodic_increasing",
    "C144_rejects",
    "C144_fixed"
   ],
   "note": "Refuted that a best parameter is found; scipy's scalar search is an arbitrary function."
  },
  {
   "property": "C145",
   "status": "proved",
   "theorems": [
    "C145_formula",
    "C145_similarity",
    "C145_nan",
    "C145_nan_single",
    "C145_ising"
   ],
   "note": ""
  },
  {
   "property": "C146",
   "status": "proved",
   "theorems": [
    "C146_converged",
    "C146_ising_converged",
    "C146_warned_refuted",
    "C146_clusters_refuted",
    "C146_refit_refuted",
    "C146_single_refuted"
   ],
   "note": "Refuted except for the converged loop; the clustering is an argument, its behaviour for one cluster less than times is stated by merges_closest (C146_merges_case builds one)."
  },
  {
   "property": "C147",
   "status": "proved",
   "theorems": [
    "C147_eta_refuted",
    "C147_callable_refuted",
    "C147_array",
    "C147_default_refuted"
   ],
   "note": "Refuted."
  },
  {
   "property": "C148",
   "status": "proved",
   "theorems": [
    "C148_ising_values_refuted",
    "C148_ising_rejects",
    "C148_negative_refuted",
    "C148_auto_refuted",
    "C148_fit",
    "C148_unequal_refuted",
    "C148_score_refuted",
    "C148_constructor_refuted"
   ],
   "note": "Refuted except for the plain fit and the number of values; the solvers are those of C82 and C140 as arguments."
  },
  {
   "property": "C149",
   "status": "proved",
   "theorems": [
    "C149_shape",
    "C149_full",
    "C149_top",
    "C149_psd",
    "C149_posdef_refuted",
    "C149_upper_refuted"
   ],
   "note": "Refuted for positive definiteness and for upper-triangular files; the parsing of the text and of the gene names is not modelled, genes are numbers."
  },
  {
   "property": "C150",
   "status": "proved",
   "theorems": [
    "C150_retained",
    "C150_best",
    "C150_raises"
   ],
   "note": ""
  },
  {
   "property": "C151",
   "status": "proved",
   "theorems": [
    "C151_weight",
    "C151_entries",
    "C151_concentrated",
    "C151_uniform",
    "C151_scale"
   ],
   "note": ""
  },
  {
   "property": "C152",
   "status": "proved",
   "theorems": [
    "C152_value",
    "C152_units_refuted",
    "C152_level_refuted",
    "C152_times"
   ],
   "note": "Refuted for units and level; scipy's t density is an argument."
  },
  {
   "property": "C153",
   "status": "proved",
   "theorems": [
    "C153_rank_one",
    "C153_mean",
    "C153_lengths_refuted",
    "C153_rank"
   ],
   "note": "Refuted for different lengths; Frobenius norm, exact arithmetic."
  },
  {
   "property": "C154",
   "status": "proved",
   "theorems": [
    "C154_sound",
    "C154_layout",
    "C154_list",
    "C154_unequal_refuted",
    "C154_axis_refuted",
    "C154_rejected"
   ],
   "note": "Refuted for unequal numbers of samples and the axis word; the numpy version is a parameter, warnings and non-finite entries are not modelled."
  },
  {
   "property": "C155",
   "status": "proved",
   "theorems": [
    "C155_nearest",
    "C155_converged",
    "C155_cost_refuted",
    "C155_same",
    "C155_single_refuted",
    "C155_raises"
   ],
   "note": "Refuted for the decrease of the cost and for the kernel of one cluster; the random shuffle is an argument."
  },
  {
   "property": "C156",
   "status": "proved",
   "theorems": [
    "C156_gaussian",
    "C156_bayes",
    "C156_proba",
    "C156_indefinite_refuted",
    "C156_precomputed_refuted",
    "C156_covariance"
   ],
   "note": "Refuted for covariances that are not positive definite and for the precomputed estimator; the singular value decomposition and pinvh are arguments."
  },
  {
   "property": "C157",
   "status": "proved",
   "theorems": [
    "C157_residuals",
    "C157_shift",
    "C157_units",
    "C157_targets",
    "C157_options_refuted",
    "C157_dual_gap_refuted",
    "C157_stale_refuted",
    "C157_one_feature_refuted",
    "C157_raises"
   ],
   "note": "Refuted for the ignored options, the stale rows and the single feature; the solver is an argument; scikit-learn's preprocessing and intercept are modelled from its documentation."
  },
  {
   "property": "C158",
   "status": "proved",
   "theorems": [
    "C158_majority",
    "C158_swap",
    "C158_one_feature_refuted"
   ],
   "note": "Refuted for one feature with three or more classes; labels are given as positions among the sorted classes."
  },
  {
   "property": "C159",
   "status": "proved",
   "theorems": [
    "C159_result",
    "C159_shrinks",
    "C159_optimal",
    "C159_fixed",
    "C159_screening_refuted",
    "C159_warm_start_refuted",
    "C159_newton_matrix"
   ],
   "note": "Refuted for the screening and for the warm start. pinv is an argument that maps positive semidefinite matrices to such; a line search that does not end within the given number of tests gives no result. Real arithmetic."
  },
  {
   "property": "C160",
   "status": "proved",
   "theorems": [
    "C160_groups_refuted",
    "C160_rate",
    "C160_stationary",
    "C160_two_iterations"
   ],
   "note": "Refuted for two groups or more; the rate assumes exact proximity steps, while the code solves them to a tolerance."
  },
  {
   "property": "C161",
   "status": "proved",
   "theorems": [
    "C161_times",
    "C161_count_refuted",
    "C161_errors"
   ],
   "note": "Refuted for the number of matrices. Shuffling of the series is not modelled."
  },
  {
   "property": "C162",
   "status": "proved",
   "theorems": [
    "C162_path",
    "C162_not_early",
    "C162_inside"
   ],
   "note": "Random numbers exactly 0 are excluded; real arithmetic."
  },
  {
   "property": "C163",
   "status": "proved",
   "theorems": [
    "C163_representative",
    "C163_degree3_refuted",
    "C163_between_refuted",
    "C163_lower_triangle"
   ],
   "note": "Refuted for symmetry, for degree 3 and for the matrices between representatives."
  },
  {
   "property": "C164",
   "status": "proved",
   "theorems": [
    "C164_labels",
    "C164_returns",
    "C164_check_refuted",
    "C164_new_refuted"
   ],
   "note": "Refuted for the test of make_ticc_dataset and for the lengths of make_ticc_dataset_new."
  },
  {
   "property": "C165",
   "status": "proved",
   "theorems": [
    "C165_samples"
   ],
   "note": "w_size = 1 is excluded (pinvh of an empty matrix). Draws are an argument."
  },
  {
   "property": "C166",
   "status": "proved",
   "theorems": [
    "C166_exact"
   ],
   "note": "pinvh of the empty window (first sample) is the empty matrix, as the code handles it."
  },
  {
   "property": "C167",
   "status": "proved",
   "theorems": [
    "C167_window_refuted"
   ],
   "note": "Refuted: w_size has no effect."
  },
  {
   "property": "C168",
   "status": "proved",
   "theorems": [
    "C168_blocks",
    "C168_values"
   ],
   "note": "The graph of networkx and the random numbers are arguments."
  },
  {
   "property": "C169",
   "status": "proved",
   "theorems": [
    "C169_graph",
    "C169_flat",
    "C169_timed",
    "C169_range",
    "C169_pattern",
    "C169_order",
    "C169_single_refuted"
   ],
   "note": "Refuted for a single estimator. The graphlet degree vectors and the distance of netanalytics are arguments."
  },
  {
   "property": "C170",
   "status": "proved",
   "theorems": [
    "C170_default",
    "C170_classes",
    "C170_positive_refuted",
    "C170_positive",
    "C170_second_fit_refuted"
   ],
   "note": "Refuted for few samples, many classes and a second fit. Exact arithmetic."
  },
  {
   "property": "C171",
   "status": "proved",
   "theorems": [
    "C171_table",
    "C171_weights",
    "C171_empty",
    "C171_params"
   ],
   "note": "The result of each fit is an argument; times and estimators columns use the same function."
  },
  {
   "property": "C172",
   "status": "proved",
   "theorems": [
    "C172_one",
    "C172_several_refuted",
    "C172_flag",
    "C172_callable"
   ],
   "note": "Refuted with several scorers."
  },
  {
   "property": "C173",
   "status": "proved",
   "theorems": [
    "C173_entry",
    "C173_closer",
    "C173_mask",
    "C173_self",
    "C173_symmetric_refuted",
    "C173_moves",
    "C173_square_refuted"
   ],
   "note": "Refuted: symmetry and the unit square. Exact arithmetic, scipy.stats.norm.pdf as its formula."
  },
  {
   "property": "C174",
   "status": "proved",
   "theorems": [
    "C174_generator",
    "C174_values",
    "C174_links"
   ],
   "note": "The Cholesky test of is_pos_def is an argument that accepts exactly the positive definite matrices; the samples drawn from sigma are not modelled."
  },
  {
   "property": "C175",
   "status": "proved",
   "theorems": [
    "C175_shift_refuted",
    "C175_small_refuted"
   ],
   "note": "Both expectations refuted."
  },
  {
   "property": "C176",
   "status": "proved",
   "theorems": [
    "C176_formula",
    "C176_returns",
    "C176_ball",
    "C176_entries",
    "C176_nonexpansive",
    "C176_negative_refuted"
   ],
   "note": "scipy.optimize.minimize is an argument assumed to return a minimiser when there is one. Negative lamda refuted."
  },
  {
   "property": "C177",
   "status": "proved",
   "theorems": [
    "C177_curve",
    "C177_ellipse",
    "C177_limits",
    "C177_limits_refuted",
    "C177_negative_refuted",
    "C177_degenerate_refuted",
    "C177_correlation_refuted"
   ],
   "note": "eigh and arctan2 are arguments with their specification; matplotlib's Ellipse as the parametrised rotated ellipse. Axis limits, degenerate case and returned correlation refuted."
  },
  {
   "property": "C178",
   "status": "proved",
   "theorems": [
    "C178_curve",
    "C178_box",
    "C178_ends",
    "C178_reverse",
    "C178_interval",
    "C178_bounds",
    "C178_edge",
    "C178_direction",
    "C178_monotone",
    "C178_coincident_refuted"
   ],
   "note": "Exact arithmetic; colors, labels and the plotly objects are not modelled. Coincident nodes refuted."
  },
  {
   "property": "C179",
   "status": "proved",
   "theorems": [
    "C179_roundtrip",
    "C179_saves",
    "C179_same_name_refuted",
    "C179_failed_save_refuted",
    "C179_not_writable"
   ],
   "note": "pickle, the file system and failures are arguments. Same-name round trip and safety of a failed save refuted."
  },
  {
   "property": "C180",
   "status": "proved",
   "theorems": [
    "C180_suppressed",
    "C180_restored",
    "C180_after",
    "C180_kept_file_refuted"
   ],
   "note": "The body is any program of a small language; sys.stdout and the files are its state. Kept files refuted."
  },
  {
   "property": "C181",
   "status": "proved",
   "theorems": [
    "C181_handlers",
    "C181_name",
    "C181_messages",
    "C181_twice",
    "C181_filter_refuted"
   ],
   "note": "logging.basicConfig and Logger.callHandlers modelled on a state of handlers, filters, levels and files. Filters refuted."
  },
  {
   "property": "C182",
   "status": "proved",
   "theorems": [
    "C182_first",
    "C182_second",
    "C182_zero_diagonal_refuted"
   ],
   "note": "Float arrays; pinvh and argsort are arguments with their specification. Zero diagonal refuted."
  },
  {
   "property": "C183",
   "status": "proved",
   "theorems": [
    "C183_formula",
    "C183_no_minimum_refuted"
   ],
   "note": "The function is not called by the package. As an objective refuted."
  },
  {
   "property": "C184",
   "status": "proved",
   "theorems": [
    "C184_zero",
    "C184_near",
    "C184_cap_refuted"
   ],
   "note": "eigh is an argument with its specification; exact reals. Bounded distance refuted."
  },
  {
   "property": "C185",
   "status": "proved",
   "theorems": [
    "C185_feat_split_refuted",
    "C185_overlapping_refuted"
   ],
   "note": "Refuted for every input: a float in a shape, and a call with two arguments missing."
  },
  {
   "property": "C186",
   "status": "proved",
   "theorems": [
    "C186_predictive",
    "C186_marginals",
    "C186_proper"
   ],
   "note": "The log-gamma function is any function, multigammaln its product formula; Bayes' rule as an identity of densities."
  },
  {
   "property": "C187",
   "status": "proved",
   "theorems": [
    "C187_rbf_psd",
    "C187_periodic_psd",
    "C187_rbf_pd",
    "C187_predict_train",
    "C187_rbf_width",
    "C187_rbf_defaults_refuted",
    "C187_rbf_normalised_refuted",
    "C187_periodic_width_refuted",
    "C187_periodic_integer_refuted"
   ],
   "note": "sklearn's rbf_kernel and ExpSineSquared by their formula. Defaults, normalisation, direction of the periodic width and integer times refuted."
  },
  {
   "property": "C188",
   "status": "proved",
   "theorems": [
    "C188_roundtrip",
    "C188_header_refuted",
    "C188_odd_refuted"
   ],
   "note": "The text is modelled as lines of cells. Header and odd sizes refuted."
  },
  {
   "property": "C189",
   "status": "proved",
   "theorems": [
    "C189_mean_curve",
    "C189_fold_auc",
    "C189_mean_auc_refuted",
    "C189_matrix_refuted",
    "C189_folds",
    "C189_spread"
   ],
   "note": "roc_curve is an argument with its specification; np.interp, np.trapz and auc modelled. Drawing not modelled. Range of the mean area and matrices refuted."
  },
  {
   "property": "C190",
   "status": "proved",
   "theorems": [
    "C190_best",
    "C190_nan_refuted",
    "C190_estimator_refuted",
    "C190_plot",
    "C190_plot_refuted"
   ],
   "note": "GPyOpt's optimisation is any function of the history; refit=True. nan, the given estimator and a failing plot refuted."
  },
  {
   "property": "C191",
   "status": "proved",
   "theorems": [
    "C191_lines",
    "C191_weighted",
    "C191_negative_refuted",
    "C191_network",
    "C191_dim",
    "C191_third_dropped"
   ],
   "note": "plotly's check of a nonnegative width is modelled as ValueError; negative weights and the dropped coordinate refuted/settled."
  },
  {
   "property": "C192",
   "status": "proved",
   "theorems": [
    "C192_even",
    "C192_scaled",
    "C192_odd_refuted",
    "C192_angle",
    "C192_labels",
    "C192_labels_refuted"
   ],
   "note": "networkx's circular layout is the unit circle; odd numbers of nodes and other node orders refuted."
  },
  {
   "property": "C193",
   "status": "proved",
   "theorems": [
    "C193_independent",
    "C193_order_refuted",
    "C193_list_refuted",
    "C193_mean_roc",
    "C193_axes_refuted",
    "C193_mean_differs_refuted",
    "C193_multiple",
    "C193_too_few",
    "C193_no_prediction"
   ],
   "note": "Independence of the keys and the ROC mean proved; order dependence for matrices, single predictions with several truths and the precision-recall axes refuted. The curve functions are arguments (sklearn); colours and labels are not modelled."
  },
  {
   "property": "C194",
   "status": "proved",
   "theorems": [
    "C194_components",
    "C194_diagonal",
    "C194_covariance",
    "C194_blocks"
   ],
   "note": ""
  },
  {
   "property": "C195",
   "status": "proved",
   "theorems": [
    "C195_path",
    "C195_total",
    "C195_units"
   ],
   "note": ""
  },
  {
   "property": "C196",
   "status": "proved",
   "theorems": [
    "C196_norms",
    "C196_time_graphical_lasso",
    "C196_kernel_time_graphical_lasso"
   ],
   "note": ""
  },
  {
   "property": "C197",
   "status": "proved",
   "theorems": [
    "C197_alpha",
    "C197_beta",
    "C197_tau",
    "C197_total"
   ],
   "note": ""
  },
  {
   "property": "C198",
   "status": "proved",
   "theorems": [
    "C198_no_latent",
    "C198_time"
   ],
   "note": ""
  },
  {
   "property": "C199",
   "status": "proved",
   "theorems": [
    "C199_refused",
    "C199_identity",
    "C199_edges_favoured_refuted",
    "C199_posterior"
   ],
   "note": "refuted part: C199_identity, C199_edges_favoured_refuted. Modelled for mode='covsel'; the mode 'gl' fit is C200. The back ends are arguments with specifications (svds_ok, cholu_ok, stays)."
  },
  {
   "property": "C200",
   "status": "proved",
   "theorems": [
    "C200_fit",
    "C200_posterior",
    "C200_rests"
   ],
   "note": "over_relax = 1, as in the call. The objective, only reported, is not modelled (nan). The bound excludes a stop at the very first iteration, where the dual residual compares with zero instead of the initial matrix."
  },
  {
   "property": "C201",
   "status": "proved",
   "theorems": [
    "C201_topics",
    "C201_total",
    "C201_columns"
   ],
   "note": "argsort is an argument that sorts the indices; the text of the entries is left as pairs of name and weight"
  },
  {
   "property": "C202",
   "status": "proved",
   "theorems": [
    "C202_latents_hidden_refuted",
    "C202_edges",
    "C202_too_many",
    "C202_segments"
   ],
   "note": "refuted part: C202_latents_hidden_refuted. networkx draws edges below nodes and later collections over earlier ones of the same zorder (trusted)."
  },
  {
   "property": "C203",
   "status": "proved",
   "theorems": [
    "C203_estimate",
    "C203_best",
    "C203_needs_prior",
    "C203_attributes_refuted",
    "C203_base"
   ],
   "note": "refuted parts: C203_needs_prior, C203_attributes_refuted. eigh, pinvh, minimize, svd, cholesky, np.unique and sorted are arguments; which attributes the inherited methods read is that of scikit-learn."
  },
  {
   "property": "C204",
   "status": "proved",
   "theorems": [
    "C204_gap",
    "C204_shift_refuted",
    "C204_single"
   ],
   "note": "refuted part: C204_shift_refuted, C204_single; C204_gap gives the exact difference. scipy's density depends on the deviation from the mean only (trusted); the normal density is written out in the theorem."
  },
  {
   "property": "C205",
   "status": "proved",
   "theorems": [
    "C205_range",
    "C205_odds"
   ],
   "note": "LassoLars is an argument that minimises the lasso objective with an intercept (for some weights, as older versions scale the columns); .score is the coefficient of determination."
  },
  {
   "property": "C206",
   "status": "proved",
   "theorems": [
    "C206_bare_refuted",
    "C206_keyword",
    "C206_one_argument",
    "C206_called"
   ],
   "note": "refuted part: C206_bare_refuted. The decorator is modelled after scikit-learn's class (its __init__ and __call__); functions are abstract, by their results."
  },
  {
   "property": "C207",
   "status": "proved",
   "theorems": [
    "C207_which",
    "C207_clone",
    "C207_missing_refuted",
    "C207_ker_param_refuted",
    "C207_group_lasso",
    "C207_stability_refuted"
   ],
   "note": "refuted parts: C207_missing_refuted, C207_ker_param_refuted, C207_stability_refuted and the failing case of C207_group_lasso. get_params and clone are modelled after scikit-learn; an attribute that is not set raises AttributeError from version 0.24 on and reads as None before. Objects are numbered and their contents abstract."
  }
 ]
}