{"claims": [
{"property": "C01", "status": "proved", "theorems": ["C01_psd_forever"], "note": "Exact arithmetic over any ordered field: psd_forever."},
{"property": "C02", "status": "proved", "theorems": ["C02_short_form_and_shrinkage"], "note": "Exact arithmetic over any ordered field: short_form_and_shrinkage."},
{"property": "C03", "status": "proved", "theorems": ["C03_gain_optimal", "C03_error_statistics"], "note": "Exact arithmetic over any ordered field: gain_optimal, error_statistics."},
{"property": "C04", "status": "proved", "theorems": ["C04_minimiser"], "note": "Exact arithmetic over any ordered field: minimiser."},
{"property": "C05", "status": "proved", "theorems": ["C05_update_none", "C05_skipping_run"], "note": "For every arithmetic (so also binary64): update_none, skipping_run."},
{"property": "C06", "status": "proved", "theorems": ["C06_prior_after_predict", "C06_post_after_update", "C06_never"], "note": "For every arithmetic (so also binary64): prior_after_predict, post_after_update, never."},
{"property": "C07", "status": "proved", "theorems": ["C07_ekf_update_atomic", "C07_information_filter_refuted", "C07_failed_call_atomic", "C07_update_raises_iff", "C07_ukf_update_atomic", "C07_ckf_update_atomic"], "note": "For every arithmetic (so also binary64): ekf_update_atomic, failed_call_atomic, update_raises_iff, ukf_update_atomic, ckf_update_atomic. Expected but false, refuted: information_filter_refuted."},
{"property": "C08", "status": "proved", "theorems": ["C08_get_prediction", "C08_get_update"], "note": "For every arithmetic (so also binary64): get_prediction, get_update."},
{"property": "C09", "status": "proved", "theorems": ["C09_batch_filter_is_loop", "C09_length", "C09_defaults", "C09_split"], "note": "For every arithmetic (so also binary64): batch_filter_is_loop, length, defaults, split."},
{"property": "C10", "status": "proved", "theorems": ["C10_overrides_do_not_persist", "C10_alpha_only_by_setter", "C10_scalar_noise", "C10_override_is_temporary_assignment"], "note": "For every arithmetic (so also binary64): overrides_do_not_persist, alpha_only_by_setter, scalar_noise, override_is_temporary_assignment."},
{"property": "C11", "status": "proved", "theorems": ["C11_cov_independent_of_data"], "note": "For every arithmetic (so also binary64): cov_independent_of_data."},
{"property": "C12", "status": "proved", "theorems": ["C12_predict", "C12_steadystate", "C12_batch_control_arguments", "C12_update", "C12_singular_differs"], "note": "For every arithmetic (so also binary64): predict, steadystate, batch_control_arguments. Exact arithmetic over any ordered field: update, singular_differs."},
{"property": "C13", "status": "proved", "theorems": ["C13_sequential_is_joint"], "note": "Exact arithmetic over any ordered field: sequential_is_joint."},
{"property": "C14", "status": "proved", "theorems": ["C14_any_order", "C14_two_sensors"], "note": "Exact arithmetic over any ordered field: any_order, two_sensors."},
{"property": "C15", "status": "proved", "theorems": ["C15_zero_correlation", "C15_correlated_optimal"], "note": "Exact arithmetic over any ordered field: zero_correlation, correlated_optimal."},
{"property": "C16", "status": "proved", "theorems": ["C16_steady_state"], "note": "For every arithmetic (so also binary64): steady_state."},
{"property": "C17", "status": "proved", "theorems": ["C17_coordinate_change"], "note": "Exact arithmetic over any ordered field: coordinate_change."},
{"property": "C18", "status": "proved", "theorems": ["C18_smoother_is_trajectory_least_squares", "C18_function_version_refuted", "C18_control_input_refuted"], "note": "Exact arithmetic over any ordered field: smoother_is_trajectory_least_squares. Expected but false, refuted: function_version_refuted, control_input_refuted."},
{"property": "C19", "status": "proved", "theorems": ["C19_structure", "C19_agree_when_constant", "C19_versions_shifted", "C19_smoothed_covariance_shrinks", "C19_versions_agree_refuted"], "note": "For every arithmetic (so also binary64): structure, agree_when_constant, versions_shifted. Exact arithmetic over any ordered field: smoothed_covariance_shrinks. Expected but false, refuted: versions_agree_refuted."},
{"property": "C20", "status": "proved", "theorems": ["C20_F_setter", "C20_failed_F_used_refuted", "C20_likelihood_floor", "C20_information_is_kalman", "C20_no_information_start", "C20_likelihood_refuted"], "note": "For every arithmetic (so also binary64): F_setter, likelihood_floor. Exact arithmetic over any ordered field: information_is_kalman, no_information_start. Expected but false, refuted: failed_F_used_refuted, likelihood_refuted."},
{"property": "C21", "status": "proved", "theorems": ["C21_setters", "C21_missing_measurement", "C21_square_root_is_kalman", "C21_update_attributes", "C21_P_post_refuted"], "note": "For every arithmetic (so also binary64): setters, missing_measurement. Exact arithmetic over any ordered field: square_root_is_kalman, update_attributes. Expected but false, refuted: P_post_refuted."},
{"property": "C22", "status": "proved", "theorems": ["C22_ekf_is_kf_on_linear", "C22_predict_update", "C22_predict_update_refuted", "C22_update_is_linearised_kf", "C22_ekf_psd"], "note": "For every arithmetic (so also binary64): ekf_is_kf_on_linear, predict_update, update_is_linearised_kf. Exact arithmetic over any ordered field: ekf_psd. Expected but false, refuted: predict_update_refuted."},
{"property": "C23", "status": "proved", "theorems": ["C23_fading_is_kf", "C23_alpha_one", "C23_batch_is_loop", "C23_alpha_setter", "C23_alpha_nan_refuted", "C23_larger_alpha_larger_covariance"], "note": "For every arithmetic (so also binary64): fading_is_kf, alpha_one, batch_is_loop, alpha_setter. Exact arithmetic over any ordered field: larger_alpha_larger_covariance. Expected but false, refuted: alpha_nan_refuted."},
{"property": "C24", "status": "proved", "theorems": ["C24_merwe", "C24_julier", "C24_simplex", "C24_exceptions"], "note": "For every arithmetic (so also binary64): exceptions. Exact arithmetic over any ordered field: merwe, julier, simplex."},
{"property": "C25", "status": "proved", "theorems": ["C25_transform", "C25_affine", "C25_psd", "C25_psd_refuted"], "note": "Exact arithmetic over any ordered field: transform, affine, psd. Expected but false, refuted: psd_refuted."},
{"property": "C26", "status": "proved", "theorems": ["C26_batch_filter", "C26_batch_filter_defaults", "C26_batch_first_missing_refuted", "C26_override_is_temporary_assignment", "C26_missing_measurement", "C26_two_updates_refuted", "C26_update_first_refuted", "C26_psd", "C26_ukf_is_kf_on_linear", "C26_update_details", "C26_never_raises"], "note": "For every arithmetic (so also binary64): batch_filter, batch_filter_defaults, override_is_temporary_assignment, missing_measurement. Exact arithmetic over any ordered field: psd, ukf_is_kf_on_linear, update_details, never_raises. Expected but false, refuted: batch_first_missing_refuted, two_updates_refuted, update_first_refuted."},
{"property": "C27", "status": "proved", "theorems": ["C27_points", "C27_transform", "C27_is_kf_with_delayed_noise", "C27_noiseless_is_kf", "C27_psd", "C27_flat_measurement", "C27_missing_measurement", "C27_update_is_kf_refuted", "C27_flat_measurement_refuted", "C27_two_updates_refuted"], "note": "For every arithmetic (so also binary64): missing_measurement. Exact arithmetic over any ordered field: points, transform, is_kf_with_delayed_noise, noiseless_is_kf, psd, flat_measurement. Expected but false, refuted: update_is_kf_refuted, flat_measurement_refuted, two_updates_refuted."},
{"property": "C28", "status": "proved", "theorems": ["C28_predict", "C28_update", "C28_reported_covariance", "C28_ideal_draws_is_kf", "C28_update_raises", "C28_missing_measurement", "C28_init_checks", "C28_update_P_is_sample_covariance_refuted", "C28_second_update_psd_refuted", "C28_initial_x_is_mean_refuted"], "note": "For every arithmetic (so also binary64): missing_measurement. Exact arithmetic over any ordered field: predict, update, reported_covariance, ideal_draws_is_kf, update_raises. Discrete/structural: init_checks. Expected but false, refuted: update_P_is_sample_covariance_refuted, second_update_psd_refuted, initial_x_is_mean_refuted."},
{"property": "C29", "status": "proved", "theorems": ["C29_update", "C29_predict", "C29_mode_probabilities", "C29_mixing_preserves_mixture", "C29_psd", "C29_identical_filters", "C29_kalman_filters_qualify", "C29_kalman_bank", "C29_missing_measurement_refuted", "C29_prior_is_predicted_mean_refuted", "C29_init_checks"], "note": "Exact arithmetic over any ordered field: update, predict, mode_probabilities, mixing_preserves_mixture, psd, identical_filters, kalman_filters_qualify, kalman_bank. Discrete/structural: init_checks. Expected but false, refuted: missing_measurement_refuted, prior_is_predicted_mean_refuted."},
{"property": "C30", "status": "proved", "theorems": ["C30_update", "C30_probabilities", "C30_reported_P", "C30_predict", "C30_kalman_filters_qualify", "C30_P_is_mixture_covariance_refuted", "C30_missing_measurement_refuted", "C30_init_checks"], "note": "For every arithmetic (so also binary64): predict. Exact arithmetic over any ordered field: update, probabilities, reported_P, kalman_filters_qualify. Discrete/structural: init_checks. Expected but false, refuted: P_is_mixture_covariance_refuted, missing_measurement_refuted."},
{"property": "C31", "status": "proved", "theorems": ["C31_predict_wrap", "C31_wrap_mass", "C31_wrap_compose", "C31_predict_constant", "C31_constant_mass", "C31_update", "C31_update_commute", "C31_run", "C31_update_shapes", "C31_constant_is_net_move_refuted", "C31_fill_mass_refuted", "C31_even_kernels_refuted", "C31_impossible_measurement_refuted"], "note": "For every arithmetic (so also binary64): update_shapes. Exact arithmetic over any ordered field: predict_wrap, wrap_mass, wrap_compose, predict_constant, constant_mass, update, update_commute, run. Expected but false, refuted: constant_is_net_move_refuted, fill_mass_refuted, even_kernels_refuted, impossible_measurement_refuted."},
{"property": "C32", "status": "proved", "theorems": ["C32_any_arithmetic", "C32_systematic", "C32_stratified", "C32_float_rounding_refuted", "C32_float_position_refuted"], "note": "For every arithmetic (so also binary64): any_arithmetic. Real numbers: systematic, stratified. Expected but false, refuted: float_rounding_refuted, float_position_refuted."},
{"property": "C33", "status": "proved", "theorems": ["C33_searchsorted", "C33_multinomial", "C33_zero_weight_refuted", "C33_residual_copies", "C33_residual_overflow", "C33_residual_unnormalised", "C33_fractional_part_refuted", "C33_residual_never_drawn_refuted"], "note": "For every arithmetic (so also binary64): residual_overflow. Real numbers: searchsorted, multinomial, residual_copies, residual_unnormalised. Expected but false, refuted: zero_weight_refuted, fractional_part_refuted, residual_never_drawn_refuted."},
{"property": "C34", "status": "proved", "theorems": ["C34_batch_is_iteration", "C34_error_recursion", "C34_ramp_tracked", "C34_batch_bitwise_refuted"], "note": "Real numbers: batch_is_iteration, error_recursion, ramp_tracked. Expected but false, refuted: batch_bitwise_refuted."},
{"property": "C35", "status": "proved", "theorems": ["C35_error_recursion", "C35_constant_acceleration_tracked", "C35_order1_is_gh", "C35_order2_is_ghk", "C35_order0", "C35_order_checked", "C35_missing_gain", "C35_batch_is_gh", "C35_batch_refuted"], "note": "For every arithmetic (so also binary64): order1_is_gh, order2_is_ghk, order0, order_checked, batch_is_gh. Real numbers: error_recursion, constant_acceleration_tracked, missing_gain. Expected but false, refuted: batch_refuted."},
{"property": "C36", "status": "proved", "theorems": ["C36_least_squares_line"], "note": "Real numbers: least_squares_line."},
{"property": "C37", "status": "proved", "theorems": ["C37_least_squares", "C37_orders"], "note": "Real numbers: least_squares, orders."},
{"property": "C38", "status": "proved", "theorems": ["C38_discounted_least_squares", "C38_is_critically_damped"], "note": "Real numbers: discounted_least_squares, is_critically_damped."},
{"property": "C39", "status": "proved", "theorems": ["C39_mul_adds_precisions", "C39_mul_commutative", "C39_mul_associative", "C39_mul_is_kalman_update", "C39_product_density", "C39_add", "C39_normalised_array", "C39_norm_cdf", "C39_multiply_is_kalman_update", "C39_multiply_adds_precisions", "C39_multiply_commutative_associative", "C39_multivariate_gaussian", "C39_multivariate_is_gaussian"], "note": "Exact arithmetic over any ordered field: multiply_is_kalman_update, multiply_adds_precisions, multiply_commutative_associative. Real numbers: mul_adds_precisions, mul_commutative, mul_associative, mul_is_kalman_update, product_density, add, normalised_array, norm_cdf, multivariate_gaussian, multivariate_is_gaussian."},
{"property": "C40", "status": "proved", "theorems": ["C40_mahalanobis", "C40_change_of_coordinates", "C40_triangle", "C40_errors", "C40_nees"], "note": "For every arithmetic (so also binary64): errors. Exact arithmetic over any ordered field: mahalanobis, change_of_coordinates, triangle, nees."},
{"property": "C41", "status": "proved", "theorems": ["C41_discrete_white_noise", "C41_other_dims", "C41_gain_is_transition_column"], "note": "For every arithmetic (so also binary64): other_dims. Exact arithmetic over any ordered field: discrete_white_noise, gain_is_transition_column."},
{"property": "C42", "status": "proved", "theorems": ["C42_continuous_white_noise", "C42_composition", "C42_predict_in_two_steps", "C42_is_integral", "C42_van_loan", "C42_van_loan_kinematic"], "note": "Exact arithmetic over any ordered field: continuous_white_noise, composition, predict_in_two_steps, van_loan, van_loan_kinematic. Real numbers: is_integral."},
{"property": "C43", "status": "proved", "theorems": ["C43_order_check", "C43_float_order_refuted", "C43_transition_group", "C43_moves_polynomials"], "note": "For every arithmetic (so also binary64): order_check. Exact arithmetic over any ordered field: transition_group, moves_polynomials. Expected but false, refuted: float_order_refuted."},
{"property": "C44", "status": "proved", "theorems": ["C44_checks", "C44_one_position_per_row_refuted", "C44_predict", "C44_measures_sum_of_positions"], "note": "Exact arithmetic over any ordered field: predict, measures_sum_of_positions. Discrete/structural: checks. Expected but false, refuted: one_position_per_row_refuted."},
{"property": "C45", "status": "proved", "theorems": ["C45_records_history", "C45_ignored", "C45_save_is_passive", "C45_property_by_reference_refuted", "C45_late_attribute_refuted"], "note": "Discrete/structural: records_history, ignored, save_is_passive. Expected but false, refuted: property_by_reference_refuted, late_attribute_refuted."},
{"property": "C46", "status": "proved", "theorems": ["C46_exact_for_cubics", "C46_exact_steps", "C46_linear", "C46_local_error"], "note": "Real numbers: exact_for_cubics, exact_steps, linear, local_error."},
{"property": "C47", "status": "proved", "theorems": ["C47_reshape_z", "C47_scalar_drops_entries_refuted"], "note": "Discrete/structural: reshape_z. Expected but false, refuted: scalar_drops_entries_refuted."},
{"property": "C48", "status": "proved", "theorems": ["C48_inv_diagonal", "C48_inv_diagonal_rejects", "C48_outer_product_sum"], "note": "For every arithmetic (so also binary64): inv_diagonal_rejects. Exact arithmetic over any ordered field: inv_diagonal, outer_product_sum."},
{"property": "C49", "status": "proved", "theorems": ["C49_run", "C49_batch_is_loop", "C49_settled", "C49_first_entry", "C49_lag_zero", "C49_raises", "C49_no_lag", "C49_lag_one_is_estimate_refuted", "C49_is_kalman", "C49_newest_entry"], "note": "For every arithmetic (so also binary64): run, batch_is_loop, settled, first_entry, lag_zero, raises, no_lag. Exact arithmetic over any ordered field: is_kalman, newest_entry. Expected but false, refuted: lag_one_is_estimate_refuted."},
{"property": "C50", "status": "proved", "theorems": ["C50_symmetric", "C50_symmetric_binary64", "C50_frame", "C50_P_ignores_data", "C50_batch_default_raises", "C50_batch", "C50_set_V", "C50_P_nonnegative_refuted", "C50_gamma_zero_is_kalman_refuted", "C50_missing_measurements_grow_P_refuted", "C50_information", "C50_gamma_zero", "C50_gamma_inflates", "C50_is_kalman"], "note": "For every arithmetic (so also binary64): symmetric, frame, P_ignores_data, batch_default_raises, batch, set_V. Exact arithmetic over any ordered field: information, gamma_zero, gamma_inflates, is_kalman. binary64: symmetric_binary64. Expected but false, refuted: P_nonnegative_refuted, gamma_zero_is_kalman_refuted, missing_measurements_grow_P_refuted."},
{"property": "C51", "status": "proved", "theorems": ["C51_dimension_checks", "C51_fading_checks", "C51_square_root_refuted", "C51_fresh_objects_agree", "C51_new_filter"], "note": "For every arithmetic (so also binary64): fading_checks, fresh_objects_agree. Exact arithmetic over any ordered field: new_filter. Discrete/structural: dimension_checks. Expected but false, refuted: square_root_refuted."},
{"property": "C52", "status": "proved", "theorems": ["C52_reads_are_current", "C52_reads_after_update", "C52_likelihood_not_zero", "C52_sequential_refuted", "C52_ekf_missing_refuted", "C52_ekf_reads", "C52_fading_reads", "C52_ukf_reads", "C52_ckf_reads", "C52_stats_log_likelihood"], "note": "For every arithmetic (so also binary64): reads_are_current, reads_after_update, likelihood_not_zero, ekf_reads, fading_reads, ukf_reads, ckf_reads, stats_log_likelihood. Expected but false, refuted: sequential_refuted, ekf_missing_refuted."},
{"property": "C53", "status": "proved", "theorems": ["C53_gh_VRF", "C53_ghk_stationary", "C53_ghk_VRF_refuted", "C53_ghk_VRF_corrected"], "note": "Real numbers: gh_VRF, ghk_stationary, ghk_VRF_corrected. Expected but false, refuted: ghk_VRF_refuted."},
{"property": "C54", "status": "proved", "theorems": ["C54_P_order0", "C54_P_order1", "C54_P_order1_refuted", "C54_P_order2", "C54_e_order0", "C54_e_order1", "C54_e_order1_refuted", "C54_e_order2"], "note": "Real numbers: P_order0, P_order1, P_order2, e_order0, e_order1, e_order2. Expected but false, refuted: P_order1_refuted, e_order1_refuted."},
{"property": "C55", "status": "proved", "theorems": ["C55_errors", "C55_errors_raise"], "note": "Real numbers: errors, errors_raise."},
{"property": "C56", "status": "proved", "theorems": ["C56_bias_error", "C56_constant_errors"], "note": "Real numbers: bias_error, constant_errors."},
{"property": "C57", "status": "proved", "theorems": ["C57_time_steps_refuted", "C57_Qs_ignored_refuted", "C57_ukf_smoother_is_rts", "C57_never_raises"], "note": "Exact arithmetic over any ordered field: ukf_smoother_is_rts, never_raises. Expected but false, refuted: time_steps_refuted, Qs_ignored_refuted."},
{"property": "C58", "status": "proved", "theorems": ["C58_more_noise_more_uncertainty"], "note": "Exact arithmetic over any ordered field: more_noise_more_uncertainty."},
{"property": "C59", "status": "proved", "theorems": ["C59_covariance_units"], "note": "Exact arithmetic over any ordered field: covariance_units."},
{"property": "C60", "status": "proved", "theorems": ["C60_superposition"], "note": "Exact arithmetic over any ordered field: superposition."},
{"property": "C61", "status": "proved", "theorems": ["C61_residual_of", "C61_post_fit", "C61_log_likelihood_of_refuted", "C61_second_measurement_refuted"], "note": "For every arithmetic (so also binary64): residual_of. Exact arithmetic over any ordered field: post_fit. Expected but false, refuted: log_likelihood_of_refuted, second_measurement_refuted."},
{"property": "C62", "status": "proved", "theorems": ["C62_transient", "C62_optimal", "C62_default_rings", "C62_critical_does_not_ring"], "note": "Real numbers: transient, optimal, default_rings, critical_does_not_ring."},
{"property": "C63", "status": "proved", "theorems": ["C63_run", "C63_layout", "C63_measurement", "C63_control_layout_refuted", "C63_H_override_refuted", "C63_scalar_R_attribute_refuted", "C63_check", "C63_check_vs_update_refuted", "C63_check_default_refuted", "C63_scalar_F_refuted", "C63_flat_H_refuted"], "note": "Discrete/structural: run, layout, measurement, check. Expected but false, refuted: control_layout_refuted, H_override_refuted, scalar_R_attribute_refuted, check_vs_update_refuted, check_default_refuted, scalar_F_refuted, flat_H_refuted."},
{"property": "C64", "status": "proved", "theorems": ["C64_copy_states", "C64_independent", "C64_compare_kf_refuted"], "note": "Real numbers: independent. Discrete/structural: copy_states. Expected but false, refuted: compare_kf_refuted."},
{"property": "C65", "status": "proved", "theorems": ["C65_item", "C65_attribute", "C65_flatten"], "note": "Discrete/structural: item, attribute, flatten."},
{"property": "C66", "status": "proved", "theorems": ["C66_is_discretization", "C66_agrees_with_van_loan", "C66_default_noise_is_zero"], "note": "Exact arithmetic over any ordered field: is_discretization, agrees_with_van_loan, default_noise_is_zero."},
{"property": "C67", "status": "proved", "theorems": ["C67_ellipse", "C67_negative_deviations", "C67_indefinite_refuted"], "note": "Real numbers: ellipse, negative_deviations. Expected but false, refuted: indefinite_refuted."},
{"property": "C68", "status": "proved", "theorems": ["C68_systematic_unbiased", "C68_stratified_unbiased", "C68_multinomial_unbiased"], "note": "Real numbers: systematic_unbiased, stratified_unbiased, multinomial_unbiased."},
{"property": "C69", "status": "proved", "theorems": ["C69_gh_stability_region", "C69_ghk_stability_region", "C69_optimal_noise_smoothing", "C69_optimal_noise_smoothing_raises", "C69_critical_damping", "C69_benedict_bordner"], "note": "Real numbers: gh_stability_region, ghk_stability_region, optimal_noise_smoothing, optimal_noise_smoothing_raises, critical_damping, benedict_bordner."},
{"property": "C70", "status": "proved", "theorems": ["C70_reported_covariance", "C70_residuals_white", "C70_best_linear_estimate", "C70_conservative"], "note": "Exact arithmetic over any ordered field: reported_covariance, residuals_white, best_linear_estimate, conservative."},
{"property": "C71", "status": "proved", "theorems": ["C71_values_suffice", "C71_arrays_kept", "C71_assigned_array", "C71_callers_array_refuted", "C71_lsq_reads", "C71_lsq_collected", "C71_fmf_collected", "C71_gho_collected", "C71_history_refuted", "C71_sqrt_collected", "C71_sqrt_callers_array_refuted", "C71_banks_independent", "C71_banks_sharing_refuted"], "note": "For every arithmetic (so also binary64): values_suffice, arrays_kept, lsq_reads, lsq_collected, fmf_collected, gho_collected, sqrt_collected, banks_independent. Real numbers: assigned_array. Expected but false, refuted: callers_array_refuted, history_refuted, sqrt_callers_array_refuted, banks_sharing_refuted."},
{"property": "C72", "status": "proved", "theorems": ["C72_variance_sign", "C72_extended", "C72_fading", "C72_correlated_refuted", "C72_two_states_refuted", "C72_symmetry_refuted"], "note": "binary64: variance_sign, extended, fading. Expected but false, refuted: correlated_refuted, two_states_refuted, symmetry_refuted."},
{"property": "C73", "status": "proved", "theorems": ["C73_systematic", "C73_stratified", "C73_zero_weight", "C73_normalize", "C73_normalize_numbers", "C73_update", "C73_belief", "C73_imm", "C73_mmae", "C73_kalman_likelihood", "C73_underflow_refuted"], "note": "binary64: systematic, stratified, zero_weight, normalize, normalize_numbers, update, belief, imm, mmae, kalman_likelihood. Expected but false, refuted: underflow_refuted."},
{"property": "C74", "status": "proved", "theorems": ["C74_covariance", "C74_semiaxis_refuted", "C74_arguments", "C74_documentation_refuted", "C74_gaussian_pdf", "C74_std_refuted", "C74_plot_gaussian_refuted", "C74_discrete_cdf", "C74_eigsorted", "C74_indefinite", "C74_surface", "C74_limits", "C74_shapes"], "note": "For every arithmetic (so also binary64): arguments. Real numbers: covariance, gaussian_pdf, discrete_cdf, eigsorted, indefinite, surface, limits. Discrete/structural: shapes. Expected but false, refuted: semiaxis_refuted, documentation_refuted, std_refuted, plot_gaussian_refuted."},
{"property": "C75", "status": "proved", "theorems": ["C75_student", "C75_scale_refuted"], "note": "Real numbers: student. Expected but false, refuted: scale_refuted."},
{"property": "C76", "status": "proved", "theorems": ["C76_estimate_forgotten", "C76_covariance_forgotten", "C76_observed_estimate", "C76_observed_covariance", "C76_unique_steady_state"], "note": "Exact arithmetic over any ordered field: estimate_forgotten, covariance_forgotten, observed_estimate, observed_covariance, unique_steady_state."},
{"property": "C77", "status": "proved", "theorems": ["C77_fading_float", "C77_fading_integer_refuted", "C77_fading_stuck_refuted", "C77_bayes_update", "C77_bayes_predict_refuted", "C77_kalman", "C77_sequential_refuted", "C77_square_root_refuted", "C77_mmae_float", "C77_mmae_integer_refuted", "C77_mmae_integer_lost_refuted"], "note": "For every arithmetic (so also binary64): fading_float, bayes_update, kalman. binary64: mmae_float. Expected but false, refuted: fading_integer_refuted, fading_stuck_refuted, bayes_predict_refuted, sequential_refuted, square_root_refuted, mmae_integer_refuted, mmae_integer_lost_refuted."},
{"property": "C78", "status": "proved", "theorems": ["C78_conditioning", "C78_likelihood", "C78_record_law", "C78_likelihood_real"], "note": "Exact arithmetic over any ordered field: conditioning, likelihood, record_law. Real numbers: likelihood_real."},
{"property": "C79", "status": "proved", "theorems": ["C79_expectation", "C79_points", "C79_ukf", "C79_ckf", "C79_simplex", "C79_simplex_cubic_refuted", "C79_cubature_variance_refuted"], "note": "Exact arithmetic over any ordered field: expectation, points, ukf, ckf, simplex. Expected but false, refuted: simplex_cubic_refuted, cubature_variance_refuted."},
{"property": "C80", "status": "proved", "theorems": ["C80_smoother_is_conditioning", "C80_returns", "C80_record_law"], "note": "Exact arithmetic over any ordered field: smoother_is_conditioning, returns, record_law."},
{"property": "C81", "status": "proved", "theorems": ["C81_posterior_of_models", "C81_mean_over_models"], "note": "Real numbers: posterior_of_models, mean_over_models."},
{"property": "C82", "status": "proved", "theorems": ["C82_nees_averages_dim_x", "C82_nees_at_most_dim_x", "C82_nees_at_least_dim_x", "C82_mahalanobis_averages_dim_z"], "note": "Exact arithmetic over any ordered field: nees_averages_dim_x, nees_at_most_dim_x, nees_at_least_dim_x, mahalanobis_averages_dim_z."},
{"property": "C83", "status": "proved", "theorems": ["C83_aligned", "C83_column", "C83_lists", "C83_empty", "C83_empty_label_refuted", "C83_no_label_refuted", "C83_repr", "C83_mislabelled_refuted", "C83_blind_refuted", "C83_repr_string", "C83_print_changes_no_estimate", "C83_print_changes_no_likelihood", "C83_print_sequential_refuted", "C83_print_ekf", "C83_print_ekf_refuted"], "note": "For every arithmetic (so also binary64): print_changes_no_estimate, print_changes_no_likelihood, print_ekf. Discrete/structural: aligned, column, lists, empty, repr, repr_string. Expected but false, refuted: empty_label_refuted, no_label_refuted, mislabelled_refuted, blind_refuted, print_sequential_refuted, print_ekf_refuted."},
{"property": "C84", "status": "proved", "theorems": ["C84_no_switching", "C84_kalman", "C84_impossible_mode_refuted", "C84_posterior_of_models"], "note": "Exact arithmetic over any ordered field: no_switching, kalman. Real numbers: posterior_of_models. Expected but false, refuted: impossible_mode_refuted."},
{"property": "C85", "status": "proved", "theorems": ["C85_gh_update", "C85_gh_stuck", "C85_gh_batch", "C85_gh_VRF", "C85_ghk_update", "C85_ghk_stuck", "C85_ghk_batch", "C85_ghk_VRF", "C85_ghk_VRF_refuted", "C85_underflow_refuted", "C85_order_refuted", "C85_benedict_bordner", "C85_benedict_bordner_usable"], "note": "Real numbers: gh_update, gh_stuck, gh_batch, gh_VRF, ghk_update, ghk_stuck, ghk_batch, ghk_VRF, benedict_bordner, benedict_bordner_usable. Expected but false, refuted: ghk_VRF_refuted, underflow_refuted, order_refuted."}
]}
