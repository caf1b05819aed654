{
 "claims": [
  {
   "property": "C01",
   "status": "proved",
   "theorems": [
    "C01_mud_reproduces_data"
   ],
   "note": ""
  },
  {
   "property": "C02",
   "status": "proved",
   "theorems": [
    "C02_mud_is_best_fit"
   ],
   "note": ""
  },
  {
   "property": "C03",
   "status": "proved",
   "theorems": [
    "C03_mud_closest_best_fit"
   ],
   "note": ""
  },
  {
   "property": "C04",
   "status": "proved",
   "theorems": [
    "C04_mud_ignores_alpha_and_cov_o"
   ],
   "note": ""
  },
  {
   "property": "C05",
   "status": "proved",
   "theorems": [
    "C05_consistent_mean_is_fixed"
   ],
   "note": ""
  },
  {
   "property": "C06",
   "status": "proved",
   "theorems": [
    "C06_mud_alt_agrees_iff",
    "C06_mud_alt_agrees_partial",
    "C06_mud_alt_agrees_refuted"
   ],
   "note": "exact condition; the _refuted theorem is the concrete disagreement"
  },
  {
   "property": "C07",
   "status": "proved",
   "theorems": [
    "C07_updated_cov_pushes_forward",
    "C07_updated_cov_defaults"
   ],
   "note": ""
  },
  {
   "property": "C08",
   "status": "proved",
   "theorems": [
    "C08_updated_cov_is_covariance"
   ],
   "note": ""
  },
  {
   "property": "C09",
   "status": "proved",
   "theorems": [
    "C09_updated_cov_documented_formula"
   ],
   "note": ""
  },
  {
   "property": "C10",
   "status": "proved",
   "theorems": [
    "C10_map_minimises_bayes_functional"
   ],
   "note": ""
  },
  {
   "property": "C11",
   "status": "proved",
   "theorems": [
    "C11_posterior_covariance_contracts"
   ],
   "note": ""
  },
  {
   "property": "C12",
   "status": "proved",
   "theorems": [
    "C12_ls_min_norm_best_fit"
   ],
   "note": ""
  },
  {
   "property": "C13",
   "status": "proved",
   "theorems": [
    "C13_mud_is_ls_for_standard_prior"
   ],
   "note": ""
  },
  {
   "property": "C14",
   "status": "proved",
   "theorems": [
    "C14_invertible_map"
   ],
   "note": ""
  },
  {
   "property": "C15",
   "status": "proved",
   "theorems": [
    "C15_all_agrees",
    "C15_other_names",
    "C15_unknown_name",
    "C15_attributes"
   ],
   "note": ""
  },
  {
   "property": "C16",
   "status": "proved",
   "theorems": [
    "C16_output_dim_truncates"
   ],
   "note": ""
  },
  {
   "property": "C17",
   "status": "proved",
   "theorems": [
    "C17_dc_functional_exact",
    "C17_dc_minimised_iff",
    "C17_dc_minimised_partial",
    "C17_dc_minimised_refuted"
   ],
   "note": "one observation; several observations are C74"
  },
  {
   "property": "C18",
   "status": "proved",
   "theorems": [
    "C18_bayes_functional_exact",
    "C18_bayes_minimised_partial",
    "C18_bayes_minimised_refuted"
   ],
   "note": "one observation; several observations are C74"
  },
  {
   "property": "C19",
   "status": "proved",
   "theorems": [
    "C19_terms_consistent",
    "C19_early_terms_succeed"
   ],
   "note": ""
  },
  {
   "property": "C20",
   "status": "proved",
   "theorems": [
    "C20_full_functional_zero_at_mud",
    "C20_scalar_covariances",
    "C20_default_observed_mean_fails"
   ],
   "note": ""
  },
  {
   "property": "C21",
   "status": "proved",
   "theorems": [
    "C21_init_rejects_iff",
    "C21_init_attributes",
    "C21_init_inputs",
    "C21_init_defaults"
   ],
   "note": ""
  },
  {
   "property": "C22",
   "status": "proved",
   "theorems": [
    "C22_mud_accepts_iff",
    "C22_bad_prior_rejected_partial",
    "C22_bad_b_accepted_refuted",
    "C22_oversized_cov_o_accepted_refuted"
   ],
   "note": ""
  },
  {
   "property": "C23",
   "status": "proved",
   "theorems": [
    "C23_parameter_coordinates"
   ],
   "note": ""
  },
  {
   "property": "C24",
   "status": "proved",
   "theorems": [
    "C24_data_coordinates"
   ],
   "note": ""
  },
  {
   "property": "C25",
   "status": "proved",
   "theorems": [
    "C25_transformed_map_is_wme",
    "C25_agrees_with_wme"
   ],
   "note": ""
  },
  {
   "property": "C26",
   "status": "proved",
   "theorems": [
    "C26_repeated_observations"
   ],
   "note": ""
  },
  {
   "property": "C27",
   "status": "proved",
   "theorems": [
    "C27_accepts_iff",
    "C27_zero_rejected",
    "C27_negative_accepted_refuted"
   ],
   "note": ""
  },
  {
   "property": "C28",
   "status": "proved",
   "theorems": [
    "C28_one_row_per_qoi",
    "C28_succeeds_iff",
    "C28_lwme_same_as_setup",
    "C28_lwme_default_y"
   ],
   "note": "operators with at least one row"
  },
  {
   "property": "C29",
   "status": "proved",
   "theorems": [
    "C29_formula",
    "C29_default_sd",
    "C29_error_iff",
    "C29_flat_predictions",
    "C29_additive",
    "C29_permutation",
    "C29_zero_on_exact"
   ],
   "note": ""
  },
  {
   "property": "C30",
   "status": "proved",
   "theorems": [
    "C30_column_rejected",
    "C30_column_square",
    "C30_column_one_sample",
    "C30_column_single_observation",
    "C30_agrees_refuted"
   ],
   "note": ""
  },
  {
   "property": "C31",
   "status": "proved",
   "theorems": [
    "C31_epoch_points_satisfy_their_row"
   ],
   "note": ""
  },
  {
   "property": "C32",
   "status": "proved",
   "theorems": [
    "C32_iteration_is_fejer"
   ],
   "note": ""
  },
  {
   "property": "C33",
   "status": "proved",
   "theorems": [
    "C33_chain_bookkeeping",
    "C33_rows",
    "C33_default_schedule"
   ],
   "note": ""
  },
  {
   "property": "C34",
   "status": "proved",
   "theorems": [
    "C34_solve_never_returns",
    "C34_default_never_solves",
    "C34_solve_empty_schedule",
    "C34_solve_no_epochs",
    "C34_iter_lin_solve_never_returns"
   ],
   "note": ""
  },
  {
   "property": "C35",
   "status": "proved",
   "theorems": [
    "C35_reachable_errors",
    "C35_first_call",
    "C35_later_calls_repeat",
    "C35_stale_errors_refuted",
    "C35_one_chain_too_short"
   ],
   "note": ""
  },
  {
   "property": "C36",
   "status": "proved",
   "theorems": [
    "C36_estimate_is_maximal"
   ],
   "note": ""
  },
  {
   "property": "C37",
   "status": "proved",
   "theorems": [
    "C37_estimate_exact",
    "C37_expected_ratio_exact",
    "C37_estimate_is_current",
    "C37_observed_is_ignored",
    "C37_setters_discard",
    "C37_stale_estimate_refuted"
   ],
   "note": "histories of returning calls; failing calls are C38, C84"
  },
  {
   "property": "C38",
   "status": "proved",
   "theorems": [
    "C38_cache_invariant",
    "C38_mud_point_idempotent"
   ],
   "note": ""
  },
  {
   "property": "C39",
   "status": "proved",
   "theorems": [
    "C39_weights_product",
    "C39_weights_list",
    "C39_default_weights",
    "C39_wrong_length"
   ],
   "note": ""
  },
  {
   "property": "C40",
   "status": "proved",
   "theorems": [
    "C40_estimate_ignores_scale",
    "C40_ratio_ignores_scale",
    "C40_multiplied_weights",
    "C40_normalised_weights"
   ],
   "note": ""
  },
  {
   "property": "C41",
   "status": "proved",
   "theorems": [
    "C41_expected_ratio_between",
    "C41_ratio_one"
   ],
   "note": ""
  },
  {
   "property": "C42",
   "status": "proved",
   "theorems": [
    "C42_undefined_density_wins",
    "C42_nan_wins_refuted"
   ],
   "note": ""
  },
  {
   "property": "C43",
   "status": "proved",
   "theorems": [
    "C43_given_domain",
    "C43_flat_input",
    "C43_fitted_domain"
   ],
   "note": ""
  },
  {
   "property": "C44",
   "status": "proved",
   "theorems": [
    "C44_default_range_widens",
    "C44_repeated_plots",
    "C44_default_initial_after_plots",
    "C44_given_range_pure",
    "C44_plot_changes_default_refuted"
   ],
   "note": ""
  },
  {
   "property": "C45",
   "status": "proved",
   "theorems": [
    "C45_map_is_maximal"
   ],
   "note": ""
  },
  {
   "property": "C46",
   "status": "proved",
   "theorems": [
    "C46_log_mode"
   ],
   "note": ""
  },
  {
   "property": "C47",
   "status": "proved",
   "theorems": [
    "C47_plain_exact",
    "C47_log_underflow_accepted",
    "C47_log_rejects_usable_refuted"
   ],
   "note": "the log-mode rejection condition is C46_log_mode"
  },
  {
   "property": "C48",
   "status": "proved",
   "theorems": [
    "C48_estimate_exact",
    "C48_estimate_is_current",
    "C48_no_likelihood",
    "C48_failed_likelihood_mixes_refuted",
    "C48_default_prior"
   ],
   "note": ""
  },
  {
   "property": "C49",
   "status": "proved",
   "theorems": [
    "C49_contains",
    "C49_float_rows",
    "C49_contains_iff",
    "C49_errors"
   ],
   "note": ""
  },
  {
   "property": "C50",
   "status": "proved",
   "theorems": [
    "C50_result_is_argument",
    "C50_error_keeps",
    "C50_succeeds_iff",
    "C50_calls_compound",
    "C50_unchanged_iff",
    "C50_leaves_argument_refuted",
    "C50_not_2d"
   ],
   "note": ""
  },
  {
   "property": "C51",
   "status": "proved",
   "theorems": [
    "C51_points",
    "C51_ticks",
    "C51_in_square",
    "C51_distinct",
    "C51_complete",
    "C51_small"
   ],
   "note": ""
  },
  {
   "property": "C52",
   "status": "proved",
   "theorems": [
    "C52_seed_reproducible",
    "C52_bad_seed",
    "C52_unseeded",
    "C52_entries",
    "C52_zero_sd",
    "C52_2d_accepted_iff",
    "C52_column_blows_up",
    "C52_empty",
    "C52_2d_error"
   ],
   "note": ""
  },
  {
   "property": "C53",
   "status": "proved",
   "theorems": [
    "C53_null_space",
    "C53_exact_iff",
    "C53_fails_iff",
    "C53_always_kernel_refuted"
   ],
   "note": ""
  },
  {
   "property": "C54",
   "status": "proved",
   "theorems": [
    "C54_terms",
    "C54_succeeds_iff",
    "C54_first_plus_last",
    "C54_rank_bound",
    "C54_last_is_matrix_refuted"
   ],
   "note": ""
  },
  {
   "property": "C55",
   "status": "proved",
   "theorems": [
    "C55_coverage",
    "C55_unique",
    "C55_linear",
    "C55_ends"
   ],
   "note": ""
  },
  {
   "property": "C56",
   "status": "proved",
   "theorems": [
    "C56_lam_with_domain",
    "C56_lam_without_domain",
    "C56_lam_has_domain",
    "C56_domain_accepts_iff",
    "C56_domain_odd",
    "C56_domain_after_samples",
    "C56_samples_without_domain",
    "C56_samples_inside_refuted",
    "C56_one_interval_refuted"
   ],
   "note": ""
  },
  {
   "property": "C57",
   "status": "proved",
   "theorems": [
    "C57_accepts_iff",
    "C57_reference_inside",
    "C57_shorter_reference_refuted",
    "C57_stale_reference_refuted"
   ],
   "note": ""
  },
  {
   "property": "C58",
   "status": "proved",
   "theorems": [
    "C58_data_accepts_iff",
    "C58_measurements_accepts_iff",
    "C58_failing_setters_keep",
    "C58_width_is_sensors_times",
    "C58_default_axes",
    "C58_default_axis"
   ],
   "note": ""
  },
  {
   "property": "C59",
   "status": "proved",
   "theorems": [
    "C59_sample_data",
    "C59_without_masks",
    "C59_errors",
    "C59_flat_sensors",
    "C59_masks"
   ],
   "note": ""
  },
  {
   "property": "C60",
   "status": "proved",
   "theorems": [
    "C60_closest_to_measurements",
    "C60_no_measurements",
    "C60_closest_to_true_vals",
    "C60_true_vals_errors",
    "C60_closest_spread"
   ],
   "note": ""
  },
  {
   "property": "C61",
   "status": "proved",
   "theorems": [
    "C61_load_assigns_in_order",
    "C61_failed_load_keeps_prefix",
    "C61_only_the_fields_matter",
    "C61_renamed",
    "C61_complete_load",
    "C61_measurements_need_sensors_and_times",
    "C61_renaming_refuted"
   ],
   "note": ""
  },
  {
   "property": "C62",
   "status": "proved",
   "theorems": [
    "C62_wme_map",
    "C62_relation_to_wme",
    "C62_same_as_wme_refuted"
   ],
   "note": ""
  },
  {
   "property": "C63",
   "status": "proved",
   "theorems": [
    "C63_unknown_method",
    "C63_unknown_method_error",
    "C63_needs_measurements_and_sd"
   ],
   "note": ""
  },
  {
   "property": "C64",
   "status": "proved",
   "theorems": [
    "C64_default_fails",
    "C64_needs_everything",
    "C64_data_prob"
   ],
   "note": ""
  },
  {
   "property": "C65",
   "status": "proved",
   "theorems": [
    "C65_rejects",
    "C65_mud_problem",
    "C65_only_first_columns",
    "C65_short_truth",
    "C65_one_truth",
    "C65_negative_split_refuted"
   ],
   "note": ""
  },
  {
   "property": "C66",
   "status": "proved",
   "theorems": [
    "C66_grid",
    "C66_grid_errors",
    "C66_grid_inside",
    "C66_plot_dist",
    "C66_normalised",
    "C66_separable",
    "C66_right_parameter_iff",
    "C66_plot_dist_errors",
    "C66_pdf_parameter_refuted"
   ],
   "note": "the density is an arbitrary function; drawing itself is not modelled"
  },
  {
   "property": "C67",
   "status": "proved",
   "theorems": [
    "C67_rejects_iff",
    "C67_standardised"
   ],
   "note": "relative to arbitrary decompositions; StandardScaler modelled exactly over a real closed field"
  },
  {
   "property": "C68",
   "status": "proved",
   "theorems": [
    "C68_mud_sol_reproduces_data",
    "C68_mud_sol_with_cov",
    "C68_map_sol"
   ],
   "note": ""
  },
  {
   "property": "C69",
   "status": "proved",
   "theorems": [
    "C69_solve_keeps_inputs",
    "C69_history_irrelevant"
   ],
   "note": ""
  },
  {
   "property": "C70",
   "status": "proved",
   "theorems": [
    "C70_chain_energy"
   ],
   "note": ""
  },
  {
   "property": "C71",
   "status": "proved",
   "theorems": [
    "C71_solving_point_is_mud"
   ],
   "note": ""
  },
  {
   "property": "C72",
   "status": "proved",
   "theorems": [
    "C72_chain_returns_iff_solved"
   ],
   "note": ""
  },
  {
   "property": "C73",
   "status": "proved",
   "theorems": [
    "C73_orthogonal_rows_one_epoch"
   ],
   "note": ""
  },
  {
   "property": "C74",
   "status": "proved",
   "theorems": [
    "C74_many_observations_wrong_count",
    "C74_many_observations_values"
   ],
   "note": ""
  },
  {
   "property": "C75",
   "status": "proved",
   "theorems": [
    "C75_mud_idempotent"
   ],
   "note": ""
  },
  {
   "property": "C76",
   "status": "proved",
   "theorems": [
    "C76_posterior_below_updated"
   ],
   "note": ""
  },
  {
   "property": "C77",
   "status": "proved",
   "theorems": [
    "C77_map_alpha_limits"
   ],
   "note": ""
  },
  {
   "property": "C78",
   "status": "proved",
   "theorems": [
    "C78_map_monotone_in_alpha"
   ],
   "note": ""
  },
  {
   "property": "C79",
   "status": "proved",
   "theorems": [
    "C79_sequential_map"
   ],
   "note": ""
  },
  {
   "property": "C80",
   "status": "proved",
   "theorems": [
    "C80_updated_cov_neutral",
    "C80_updated_cov_monotone"
   ],
   "note": ""
  },
  {
   "property": "C81",
   "status": "proved",
   "theorems": [
    "C81_map_data_coordinates"
   ],
   "note": ""
  },
  {
   "property": "C82",
   "status": "proved",
   "theorems": [
    "C82_given_predicted_not_joint",
    "C82_several_observables_fail"
   ],
   "note": ""
  },
  {
   "property": "C83",
   "status": "proved",
   "theorems": [
    "C83_one_sample",
    "C83_one_sample_many_outputs",
    "C83_flat_X_fails"
   ],
   "note": ""
  },
  {
   "property": "C84",
   "status": "proved",
   "theorems": [
    "C84_failing_calls"
   ],
   "note": ""
  },
  {
   "property": "C85",
   "status": "proved",
   "theorems": [
    "C85_density_scales"
   ],
   "note": ""
  },
  {
   "property": "C86",
   "status": "proved",
   "theorems": [
    "C86_predicted_is_discarded",
    "C86_kde_instead"
   ],
   "note": ""
  },
  {
   "property": "C87",
   "status": "proved",
   "theorems": [
    "C87_plot_obs_pure",
    "C87_plot_before_initial"
   ],
   "note": ""
  },
  {
   "property": "C88",
   "status": "proved",
   "theorems": [
    "C88_flat_prior_plain",
    "C88_flat_prior_log"
   ],
   "note": ""
  },
  {
   "property": "C89",
   "status": "proved",
   "theorems": [
    "C89_sample_counts",
    "C89_one_output_row",
    "C89_multivariate",
    "C89_multivariate_prior"
   ],
   "note": ""
  },
  {
   "property": "C90",
   "status": "proved",
   "theorems": [
    "C90_given_domain",
    "C90_flat_input",
    "C90_data_never_change",
    "C90_map_point_idempotent",
    "C90_plot_obs"
   ],
   "note": ""
  },
  {
   "property": "C91",
   "status": "proved",
   "theorems": [
    "C91_validate"
   ],
   "note": ""
  },
  {
   "property": "C92",
   "status": "proved",
   "theorems": [
    "C92_pca_map",
    "C92_svd_map"
   ],
   "note": "relative to the decompositions sklearn and numpy return (arbitrary)"
  },
  {
   "property": "C93",
   "status": "proved",
   "theorems": [
    "C93_weights_errors",
    "C93_weights_scale_samples"
   ],
   "note": ""
  },
  {
   "property": "C94",
   "status": "proved",
   "theorems": [
    "C94_adds_noise",
    "C94_wrong_size",
    "C94_missing",
    "C94_seeded"
   ],
   "note": ""
  },
  {
   "property": "C95",
   "status": "proved",
   "theorems": [
    "C95_sample_weights"
   ],
   "note": ""
  },
  {
   "property": "C96",
   "status": "proved",
   "theorems": [
    "C96_split"
   ],
   "note": ""
  },
  {
   "property": "C97",
   "status": "proved",
   "theorems": [
    "C97_lines",
    "C97_on_contour_iff",
    "C97_centred",
    "C97_errors",
    "C97_through_reference_refuted",
    "C97_zero_row_refuted"
   ],
   "note": "scipy's null_space is an oracle with the contract in the hypotheses"
  },
  {
   "property": "C98",
   "status": "proved",
   "theorems": [
    "C98_map_problem"
   ],
   "note": "the scipy normal distribution is an arbitrary function of location and scale"
  },
  {
   "property": "C99",
   "status": "proved",
   "theorems": [
    "C99_normal_mesh",
    "C99_ticks",
    "C99_small"
   ],
   "note": ""
  },
  {
   "property": "C100",
   "status": "proved",
   "theorems": [
    "C100_chain",
    "C100_connected",
    "C100_empty"
   ],
   "note": ""
  },
  {
   "property": "C101",
   "status": "proved",
   "theorems": [
    "C101_change_of_units"
   ],
   "note": ""
  },
  {
   "property": "C102",
   "status": "proved",
   "theorems": [
    "C102_updated_cov_outcome",
    "C102_method_outcome"
   ],
   "note": "added after mutation L09 survived"
  },
  {
   "property": "C103",
   "status": "proved",
   "theorems": [
    "C103_generates",
    "C103_seed_determines",
    "C103_solutions"
   ],
   "note": "numpy's generator is arbitrary; rand returns n numbers in [0,1)"
  },
  {
   "property": "C104",
   "status": "proved",
   "theorems": [
    "C104_more_information",
    "C104_output_dim_monotone",
    "C104_determined"
   ],
   "note": ""
  },
  {
   "property": "C105",
   "status": "proved",
   "theorems": [
    "C105_square_only",
    "C105_dimension_errors"
   ],
   "note": "the SVD is an oracle; only its number of values matters here"
  },
  {
   "property": "C106",
   "status": "proved",
   "theorems": [
    "C106_rank_errors"
   ],
   "note": "for an exact SVD"
  },
  {
   "property": "C107",
   "status": "proved",
   "theorems": [
    "C107_data",
    "C107_accepts",
    "C107_one_by_one"
   ],
   "note": ""
  },
  {
   "property": "C108",
   "status": "proved",
   "theorems": [
    "C108_generates",
    "C108_single_number",
    "C108_bad_arguments"
   ],
   "note": ""
  },
  {
   "property": "C109",
   "status": "proved",
   "theorems": [
    "C109_minimises_wme",
    "C109_zero_wme",
    "C109_predicts_means"
   ],
   "note": ""
  },
  {
   "property": "C110",
   "status": "proved",
   "theorems": [
    "C110_predicted_variance",
    "C110_more_data"
   ],
   "note": ""
  },
  {
   "property": "C111",
   "status": "proved",
   "theorems": [
    "C111_rotation_map",
    "C111_unit_rows",
    "C111_seed_ignored",
    "C111_negative_count",
    "C111_trials_fail"
   ],
   "note": "sin, cos, pi and std_from_equipment are arbitrary functions (sin^2+cos^2=1 for the unit rows)"
  },
  {
   "property": "C112",
   "status": "proved",
   "theorems": [
    "C112_covariances",
    "C112_rejects"
   ],
   "note": "The generator is arbitrary with rand(n) giving n numbers of [0,1). The figure: C142."
  },
  {
   "property": "C113",
   "status": "proved",
   "theorems": [
    "C113_piecewise_linear",
    "C113_interpolates",
    "C113_tends_to_one"
   ],
   "note": "the value of the expression; its text and FEniCS's parser are not modelled"
  },
  {
   "property": "C114",
   "status": "proved",
   "theorems": [
    "C114_drawn",
    "C114_differs"
   ],
   "note": ""
  },
  {
   "property": "C115",
   "status": "proved",
   "theorems": [
    "C115_value",
    "C115_convex",
    "C115_local_is_global",
    "C115_minimiser"
   ],
   "note": "scipy.interpolate.interp1d is modelled (linear, searchsorted); scipy.optimize.minimize is not"
  },
  {
   "property": "C116",
   "status": "proved",
   "theorems": [
    "C116_errors",
    "C116_data",
    "C116_spread"
   ],
   "note": "p is a natural number; the generators are arbitrary"
  },
  {
   "property": "C117",
   "status": "proved",
   "theorems": [
    "C117_updated",
    "C117_mud_point",
    "C117_uniform",
    "C117_degenerate",
    "C117_returns"
   ],
   "note": "exp is an arbitrary positive increasing function with exp(x+y) = exp(x) exp(y); SimpleExamples.v shows that the real exponential function is one"
  },
  {
   "property": "C118",
   "status": "proved",
   "theorems": [
    "C118_returns",
    "C118_map_point",
    "C118_domain",
    "C118_degenerate"
   ],
   "note": "as C117"
  },
  {
   "property": "C119",
   "status": "proved",
   "theorems": [
    "C119_mud_is_map",
    "C119_default",
    "C119_real"
   ],
   "note": "C119_real is over the standard library's real numbers"
  },
  {
   "property": "C120",
   "status": "proved",
   "theorems": [
    "C120_list",
    "C120_raises",
    "C120_returns",
    "C120_map",
    "C120_domain",
    "C120_density"
   ],
   "note": "gaussian_kde is an oracle; what is drawn is not modelled here (see C66 and C40), and drawing does not raise"
  },
  {
   "property": "C121",
   "status": "proved",
   "theorems": [
    "C121_exp_decay",
    "C121_errors",
    "C121_usable",
    "C121_recovers",
    "C121_2d_never_returns",
    "C121_2d_type_error",
    "C121_temporal"
   ],
   "note": "exp is an arbitrary (for C121_recovers injective) function and rounding up any function with ceil x - 1 < x <= ceil x; StExExamples.v shows that the reals' are such"
  },
  {
   "property": "C122",
   "status": "proved",
   "theorems": [
    "C122_std_dev_ignored",
    "C122_poisson_refuses",
    "C122_adcirc_refuses",
    "C122_needs_true_vals",
    "C122_poisson_loads",
    "C122_adcirc_loads",
    "C122_pipeline"
   ],
   "note": "the file and FEniCS's solution are oracles"
  },
  {
   "property": "C123",
   "status": "proved",
   "theorems": [
    "C123_params",
    "C123_errors",
    "C123_indices_ignored",
    "C123_qoi",
    "C123_qoi_single",
    "C123_asked_columns_refuted"
   ],
   "note": "what is handed to matplotlib; triangulation is an oracle"
  },
  {
   "property": "C124",
   "status": "proved",
   "theorems": [
    "C124_solution",
    "C124_initial",
    "C124_errors"
   ],
   "note": "what is handed to matplotlib"
  },
  {
   "property": "C125",
   "status": "proved",
   "theorems": [
    "C125_default_never_returns",
    "C125_lines",
    "C125_chain_never",
    "C125_chain_type_error",
    "C125_empty_chain"
   ],
   "note": "what is handed to matplotlib; the property names of a line are a list in the model; scipy's null_space is an oracle"
  },
  {
   "property": "C126",
   "status": "proved",
   "theorems": [
    "C126_given_mesh",
    "C126_default_mesh",
    "C126_functionals",
    "C126_many_data",
    "C126_all_terms",
    "C126_small"
   ],
   "note": "what is handed to matplotlib"
  },
  {
   "property": "C127",
   "status": "proved",
   "theorems": [
    "C127_plot_ts",
    "C127_errors"
   ],
   "note": "what is handed to matplotlib; times have one column"
  },
  {
   "property": "C128",
   "status": "proved",
   "theorems": [
    "C128_generated",
    "C128_in_box",
    "C128_errors",
    "C128_reproducible"
   ],
   "note": "FEniCS's solutions are oracles"
  },
  {
   "property": "C129",
   "status": "proved",
   "theorems": [
    "C129_range",
    "C129_reference",
    "C129_never_reproduced"
   ],
   "note": "the expressions' values; FEniCS is not modelled"
  },
  {
   "property": "C130",
   "status": "proved",
   "theorems": [
    "C130_names",
    "C130_string",
    "C130_figures",
    "C130_default",
    "C130_paper",
    "C130_contour",
    "C130_many_data"
   ],
   "note": "what is handed to matplotlib; scipy's null_space is an oracle; the directory to save to exists"
  },
  {
   "property": "C131",
   "status": "proved",
   "theorems": [
    "C131_trial",
    "C131_run",
    "C131_stops",
    "C131_reproducible",
    "C131_order",
    "C131_nested",
    "C131_problem",
    "C131_files"
   ],
   "note": "what is handed to matplotlib; PCA, KDE, scipy's minimize and the generators are oracles; y limits not modelled"
  },
  {
   "property": "C132",
   "status": "proved",
   "theorems": [
    "C132_wanted",
    "C132_default_groups",
    "C132_response",
    "C132_components",
    "C132_run",
    "C132_seed",
    "C132_random_refuted"
   ],
   "note": "what is handed to matplotlib; density figures with their default options; PCA, KDE, triangulation, minimize and the generators are oracles"
  },
  {
   "property": "C133",
   "status": "proved",
   "theorems": [
    "C133_window",
    "C133_components_kept",
    "C133_problem",
    "C133_densities",
    "C133_vectors",
    "C133_no_components",
    "C133_qoi",
    "C133_run",
    "C133_empty",
    "C133_no_reference",
    "C133_pca_run"
   ],
   "note": "what is handed to matplotlib; dates are numbers (pandas' parsing and PCA, KDE are oracles); y limits not modelled"
  },
  {
   "property": "C134",
   "status": "proved",
   "theorems": [
    "C134_files",
    "C134_file_in",
    "C134_distinct",
    "C134_overwritten_refuted",
    "C134_ts_plot",
    "C134_mesh",
    "C134_mesh_unknown",
    "C134_mesh_same",
    "C134_value_refuted",
    "C134_mesh_missing"
   ],
   "note": "what is handed to matplotlib; parsing of dates and triangulation are oracles"
  },
  {
   "property": "C135",
   "status": "proved",
   "theorems": [
    "C135_table",
    "C135_all",
    "C135_twice",
    "C135_no_search_column"
   ],
   "note": "the table's columns and rows; the layout by PrettyTable and re.search are oracles"
  },
  {
   "property": "C136",
   "status": "proved",
   "theorems": [
    "C136_no_figures",
    "C136_solve",
    "C136_trials",
    "C136_any_order",
    "C136_reproducible"
   ],
   "note": "PCA, KDE, minimize and the generators are oracles; y limits and click's parsing not modelled"
  },
  {
   "property": "C137",
   "status": "proved",
   "theorems": [
    "C137_windows",
    "C137_row",
    "C137_stops",
    "C137_no_windows",
    "C137_reproducible",
    "C137_too_many"
   ],
   "note": "PCA, KDE, date parsing, literal_eval and the generators are oracles"
  },
  {
   "property": "C138",
   "status": "proved",
   "theorems": [
    "C138_names",
    "C138_generate",
    "C138_without",
    "C138_twice",
    "C138_reproducible",
    "C138_paper_data",
    "C138_paper_fenics_refuted",
    "C138_paper_download",
    "C138_paper_files",
    "C138_paper_run"
   ],
   "note": "files are a finite map from paths; the solver, the download and the generators are oracles"
  },
  {
   "property": "C139",
   "status": "proved",
   "theorems": [
    "C139_curves",
    "C139_one_observable",
    "C139_two_observables",
    "C139_area",
    "C139_default_range",
    "C139_errors",
    "C139_refines"
   ],
   "note": "pdf and kernel density estimates are oracles; colours and line styles not modelled"
  },
  {
   "property": "C140",
   "status": "proved",
   "theorems": [
    "C140_param_curves",
    "C140_prior_first",
    "C140_param_refines",
    "C140_obs_curves",
    "C140_one_observable",
    "C140_obs_errors",
    "C140_obs_refines",
    "C140_several_data"
   ],
   "note": "pdf and kernel density estimates are oracles; colours and line styles not modelled"
  },
  {
   "property": "C141",
   "status": "proved",
   "theorems": [
    "C141_figures",
    "C141_pass",
    "C141_run",
    "C141_stops",
    "C141_second_raises",
    "C141_saved",
    "C141_files"
   ],
   "note": "kernel density estimates, exponential function and draws are oracles; fonts, ticks and axis labels not modelled"
  },
  {
   "property": "C142",
   "status": "proved",
   "theorems": [
    "C142_figure",
    "C142_rate",
    "C142_labels",
    "C142_label_exact",
    "C142_labels_distinct_refuted",
    "C142_example"
   ],
   "note": "svdvals is an argument, assumed right (U = V diag(s) W, V and W orthogonal, s decreasing and >= 0) on the updated covariances of the run. C142_labels_distinct_refuted: two numbers with one label."
  },
  {
   "property": "C143",
   "status": "proved",
   "theorems": [
    "C143_figures",
    "C143_first_figure",
    "C143_square_only"
   ],
   "note": "The legend texts are given to the lines in the order they are drawn (matplotlib). The decomposition used by rank_decomposition is an argument with as many numbers as it should."
  },
  {
   "property": "C144",
   "status": "proved",
   "theorems": [
    "C144_files",
    "C144_disk",
    "C144_overwritten",
    "C144_seeded",
    "C144_bad_seed",
    "C144_unseeded",
    "C144_completes",
    "C144_stops",
    "C144_same_samples",
    "C144_total"
   ],
   "note": "generator, kernel density estimates, null_space and svd are oracles; directories can be made. C144_total: the generator gives numbers in [0, 1), the exponential function is positive, increasing and turns sums into products."
  },
  {
   "property": "C145",
   "status": "proved",
   "theorems": [
    "C145_draws",
    "C145_seeded",
    "C145_bad_seed",
    "C145_wme_covariance",
    "C145_high_dim",
    "C145_contours",
    "C145_paper"
   ],
   "note": "the domain of comparison is of integers (click's type for the default); the json file of contours, if any, can be read."
  },
  {
   "property": "C146",
   "status": "proved",
   "theorems": [
    "C146_first_call",
    "C146_later_calls",
    "C146_reachable"
   ],
   "note": "the scale of the axis and its texts are not modelled"
  },
  {
   "property": "C147",
   "status": "proved",
   "theorems": [
    "C147_vecs_new",
    "C147_vecs_given",
    "C147_given_not_current",
    "C147_vecs_markers",
    "C147_sensors",
    "C147_vert_line"
   ],
   "note": "pyplot modelled as a list of Axes and a current one; no further keyword arguments, so no colour bar"
  },
  {
   "property": "C148",
   "status": "proved",
   "theorems": [
    "C148_figures",
    "C148_data",
    "C148_no_data",
    "C148_bad_data",
    "C148_files",
    "C148_kept",
    "C148_fixed"
   ],
   "note": "save_path given; pickles are a dictionary from paths to data sets; download, mesh triangulation, dates and PCA are oracles"
  },
  {
   "property": "C149",
   "status": "proved",
   "theorems": [
    "C149_files",
    "C149_composed",
    "C149_first_figures",
    "C149_prefix",
    "C149_bad_seed",
    "C149_seeded",
    "C149_python_random",
    "C149_any_seed",
    "C149_fenics_refuted"
   ],
   "note": "as C144, C138 and C148. C149_fenics_refuted: with FEniCS and without data the command cannot complete. C149_met: a complete run over the real numbers."
  },
  {
   "property": "C150",
   "status": "proved",
   "theorems": [
    "C150_draws",
    "C150_before_fit",
    "C150_no_initial",
    "C150_state",
    "C150_bad_index",
    "C150_refines"
   ],
   "note": "The kernel density estimate, d.pdf and its call at grid points are arguments. C150_draws gives the whole result, marks and problem; C150_before_fit says that with other weights the same is drawn; C150_refines ties the model with marks to the one of the histories of C37, C38, C42 and C44. ylim and style options are not modelled."
  },
  {
   "property": "C151",
   "status": "proved",
   "theorems": [
    "C151_constructor",
    "C151_history",
    "C151_estimate",
    "C151_ratio"
   ],
   "note": "hypothesis order_free: the pdf and KDE oracles are row-wise and indifferent to the order of the data (met in OrderExamples.v); weights are given for the n samples, and an explicit predicted distribution only for one observable; exact arithmetic, so sums do not depend on the order of summation"
  },
  {
   "property": "C152",
   "status": "proved",
   "theorems": [
    "C152_constructor",
    "C152_history",
    "C152_estimate"
   ],
   "note": "hypothesis row_wise: pdf and logpdf are computed row by row (met in OrderExamples.v); X and y have the same number of rows; exact arithmetic"
  },
  {
   "property": "C153",
   "status": "proved",
   "theorems": [
    "C153_ignored",
    "C153_far_sample_wins",
    "C153_ratio",
    "C153_zero_weight_estimated_refuted"
   ],
   "note": "exact arithmetic with infinities and NaN; C153_zero_weight_estimated_refuted is a concrete history in which the sample of weight zero is the estimate"
  },
  {
   "property": "C154",
   "status": "proved",
   "theorems": [
    "C154_outcome",
    "C154_settings",
    "C154_figures",
    "C154_files",
    "C154_examples",
    "C154_open_figures_refuted",
    "C154_users_file_refuted"
   ],
   "note": "what plot, savefig and unlink do is an oracle, reading settings, figures and files only (C154_outcome); the finally clause is taken not to raise; logging is left out. The two refuted theorems show that the import closes the user's figures and deletes a user's .test_fig.png."
  },
  {
   "property": "C155",
   "status": "proved",
   "theorems": [
    "C155_reached",
    "C155_no_directory",
    "C155_bad_seed",
    "C155_again"
   ],
   "note": "permissions are not modelled; what np.random.seed does is an oracle"
  },
  {
   "property": "C156",
   "status": "proved",
   "theorems": [
    "C156_constructor",
    "C156_order",
    "C156_covariances",
    "C156_rotated"
   ],
   "note": "output_dim left at its default (a truncated problem depends on which data come first); exact arithmetic; cov_i and cov_o are square of the right size. C156_example is a map of rank one."
  },
  {
   "property": "C157",
   "status": "proved",
   "theorems": [
    "C157_transform_linear_map",
    "C157_observations",
    "C157_quantities",
    "C157_same_solutions"
   ],
   "note": "one row per datum or a single row, and as many deviations as data when they are a list; all operators have the same number of columns; exact arithmetic"
  },
  {
   "property": "C158",
   "status": "proved",
   "theorems": [
    "C158_sensors_and_times",
    "C158_samples"
   ],
   "note": "measurements and std_dev are set and something is picked (otherwise C59, C62); float arrays; exact arithmetic. The problem is otherwise any that the setters accept (setup)"
  },
  {
   "property": "C159",
   "status": "proved",
   "theorems": [
    "C159_linear",
    "C159_superposition",
    "C159_covariances"
   ],
   "note": "output_dim left at its default; exact arithmetic; C159_example: map, two parameters, one datum"
  },
  {
   "property": "C160",
   "status": "proved",
   "theorems": [
    "C160_same_solutions",
    "C160_covariances"
   ],
   "note": "output_dim left at its default; exact arithmetic; the covariances need not be regular. C160_example multiplies by four."
  },
  {
   "property": "C161",
   "status": "proved",
   "theorems": [
    "C161_constructor",
    "C161_history",
    "C161_estimate",
    "C161_ratio"
   ],
   "note": "float arrays with two dimensions; a predicted distribution is given only for one observable (as C82); exact arithmetic; distributions are oracles that follow the change of units (change_of_units), as do the uniform distribution and the kernel density estimate; what the plots draw raises alike in both units. bx_change: boxes satisfy all of this; C161_example: two samples, a run to the end"
  },
  {
   "property": "C162",
   "status": "proved",
   "theorems": [
    "C162_constructor",
    "C162_history",
    "C162_estimate",
    "C162_log_refuted"
   ],
   "note": "likelihoods without logarithms; float arrays with two dimensions; exact arithmetic; distributions are oracles that follow the change of units (bchange_of_units), as does the uniform prior; what the plots draw raises alike in both units. bb_change: boxes satisfy all of this; C162_example: two samples, a run to the end. C162_log_refuted: with log=True the statement fails."
  },
  {
   "property": "C163",
   "status": "proved",
   "theorems": [
    "C163_estimate",
    "C163_defined",
    "C163_repeated",
    "C163_log_refuted"
   ],
   "note": "pdf and logpdf are computed row by row (by_rows, met by en_by_rows); matrices with one row of data per sample; the same domain, prior and likelihood for both sets; exact arithmetic. C163_example: the second of two samples wins. C163_log_refuted: with log=True the estimate of all the samples may be undefined."
  },
  {
   "property": "C164",
   "status": "proved",
   "theorems": [
    "C164_estimate",
    "C164_repeated"
   ],
   "note": "the predicted distribution is given (with the kernel density estimate every sample changes the densities of all), one observable, no weights; distributions are evaluated point by point (by_point, met by ed_by_point); the same domain and distributions for both sets; exact arithmetic with infinities and NaN. C164_example: the second of two samples wins."
  }
 ]
}