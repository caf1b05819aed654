# What `Print Assumptions` lists for each claimed theorem

Generated by tools/assumptions.py.

## Closed under the global context (no axiom): 584 theorems

`C01_mud_reproduces_data`, `C02_mud_is_best_fit`, `C03_mud_closest_best_fit`, `C04_mud_ignores_alpha_and_cov_o`, `C05_consistent_mean_is_fixed`, `C06_mud_alt_agrees_iff`, `C06_mud_alt_agrees_partial`, `C06_mud_alt_agrees_refuted`, `C07_updated_cov_pushes_forward`, `C07_updated_cov_defaults`, `C08_updated_cov_is_covariance`, `C09_updated_cov_documented_formula`, `C10_map_minimises_bayes_functional`, `C11_posterior_covariance_contracts`, `C12_ls_min_norm_best_fit`, `C13_mud_is_ls_for_standard_prior`, `C14_invertible_map`, `C15_all_agrees`, `C15_other_names`, `C15_unknown_name`, `C15_attributes`, `C16_output_dim_truncates`, `C17_dc_functional_exact`, `C17_dc_minimised_iff`, `C17_dc_minimised_partial`, `C17_dc_minimised_refuted`, `C18_bayes_functional_exact`, `C18_bayes_minimised_partial`, `C18_bayes_minimised_refuted`, `C19_terms_consistent`, `C19_early_terms_succeed`, `C20_full_functional_zero_at_mud`, `C20_scalar_covariances`, `C20_default_observed_mean_fails`, `C21_init_rejects_iff`, `C21_init_attributes`, `C21_init_inputs`, `C21_init_defaults`, `C22_mud_accepts_iff`, `C22_bad_prior_rejected_partial`, `C22_bad_b_accepted_refuted`, `C22_oversized_cov_o_accepted_refuted`, `C23_parameter_coordinates`, `C24_data_coordinates`, `C25_transformed_map_is_wme`, `C25_agrees_with_wme`, `C26_repeated_observations`, `C27_accepts_iff`, `C27_zero_rejected`, `C27_negative_accepted_refuted`, `C28_one_row_per_qoi`, `C28_succeeds_iff`, `C28_lwme_same_as_setup`, `C28_lwme_default_y`, `C29_formula`, `C29_default_sd`, `C29_error_iff`, `C29_flat_predictions`, `C29_additive`, `C29_permutation`, `C29_zero_on_exact`, `C30_column_rejected`, `C30_column_square`, `C30_column_one_sample`, `C30_column_single_observation`, `C30_agrees_refuted`, `C31_epoch_points_satisfy_their_row`, `C32_iteration_is_fejer`, `C33_chain_bookkeeping`, `C33_rows`, `C33_default_schedule`, `C34_solve_never_returns`, `C34_default_never_solves`, `C34_solve_empty_schedule`, `C34_solve_no_epochs`, `C34_iter_lin_solve_never_returns`, `C35_reachable_errors`, `C35_first_call`, `C35_later_calls_repeat`, `C35_stale_errors_refuted`, `C35_one_chain_too_short`, `C36_estimate_is_maximal`, `C37_estimate_exact`, `C37_expected_ratio_exact`, `C37_estimate_is_current`, `C37_observed_is_ignored`, `C37_setters_discard`, `C37_stale_estimate_refuted`, `C38_cache_invariant`, `C38_mud_point_idempotent`, `C39_weights_product`, `C39_weights_list`, `C39_default_weights`, `C39_wrong_length`, `C40_estimate_ignores_scale`, `C40_ratio_ignores_scale`, `C40_multiplied_weights`, `C40_normalised_weights`, `C41_expected_ratio_between`, `C41_ratio_one`, `C42_undefined_density_wins`, `C42_nan_wins_refuted`, `C43_given_domain`, `C43_flat_input`, `C43_fitted_domain`, `C44_default_range_widens`, `C44_repeated_plots`, `C44_default_initial_after_plots`, `C44_given_range_pure`, `C44_plot_changes_default_refuted`, `C45_map_is_maximal`, `C46_log_mode`, `C47_plain_exact`, `C47_log_underflow_accepted`, `C48_estimate_exact`, `C48_estimate_is_current`, `C48_no_likelihood`, `C48_default_prior`, `C49_contains`, `C49_float_rows`, `C49_contains_iff`, `C49_errors`, `C50_result_is_argument`, `C50_error_keeps`, `C50_succeeds_iff`, `C50_calls_compound`, `C50_unchanged_iff`, `C50_leaves_argument_refuted`, `C50_not_2d`, `C51_points`, `C51_ticks`, `C51_in_square`, `C51_distinct`, `C51_complete`, `C51_small`, `C52_seed_reproducible`, `C52_bad_seed`, `C52_unseeded`, `C52_entries`, `C52_zero_sd`, `C52_2d_accepted_iff`, `C52_column_blows_up`, `C52_empty`, `C52_2d_error`, `C53_null_space`, `C53_exact_iff`, `C53_fails_iff`, `C53_always_kernel_refuted`, `C54_terms`, `C54_succeeds_iff`, `C54_first_plus_last`, `C54_rank_bound`, `C54_last_is_matrix_refuted`, `C55_coverage`, `C55_unique`, `C55_linear`, `C55_ends`, `C56_lam_with_domain`, `C56_lam_without_domain`, `C56_lam_has_domain`, `C56_domain_accepts_iff`, `C56_domain_odd`, `C56_domain_after_samples`, `C56_samples_without_domain`, `C56_samples_inside_refuted`, `C56_one_interval_refuted`, `C57_accepts_iff`, `C57_reference_inside`, `C57_shorter_reference_refuted`, `C57_stale_reference_refuted`, `C58_data_accepts_iff`, `C58_measurements_accepts_iff`, `C58_failing_setters_keep`, `C58_width_is_sensors_times`, `C58_default_axes`, `C58_default_axis`, `C59_sample_data`, `C59_without_masks`, `C59_errors`, `C59_flat_sensors`, `C59_masks`, `C60_closest_to_measurements`, `C60_no_measurements`, `C60_closest_to_true_vals`, `C60_true_vals_errors`, `C60_closest_spread`, `C61_load_assigns_in_order`, `C61_failed_load_keeps_prefix`, `C61_only_the_fields_matter`, `C61_renamed`, `C61_complete_load`, `C61_measurements_need_sensors_and_times`, `C61_renaming_refuted`, `C62_wme_map`, `C62_relation_to_wme`, `C62_same_as_wme_refuted`, `C63_unknown_method`, `C63_unknown_method_error`, `C63_needs_measurements_and_sd`, `C64_default_fails`, `C64_needs_everything`, `C64_data_prob`, `C65_rejects`, `C65_mud_problem`, `C65_only_first_columns`, `C65_short_truth`, `C65_one_truth`, `C65_negative_split_refuted`, `C66_grid`, `C66_grid_errors`, `C66_grid_inside`, `C66_plot_dist`, `C66_normalised`, `C66_separable`, `C66_right_parameter_iff`, `C66_plot_dist_errors`, `C66_pdf_parameter_refuted`, `C67_rejects_iff`, `C67_standardised`, `C68_mud_sol_reproduces_data`, `C68_mud_sol_with_cov`, `C68_map_sol`, `C69_solve_keeps_inputs`, `C69_history_irrelevant`, `C70_chain_energy`, `C71_solving_point_is_mud`, `C72_chain_returns_iff_solved`, `C73_orthogonal_rows_one_epoch`, `C74_many_observations_wrong_count`, `C74_many_observations_values`, `C75_mud_idempotent`, `C76_posterior_below_updated`, `C77_map_alpha_limits`, `C78_map_monotone_in_alpha`, `C79_sequential_map`, `C80_updated_cov_neutral`, `C80_updated_cov_monotone`, `C81_map_data_coordinates`, `C82_given_predicted_not_joint`, `C82_several_observables_fail`, `C83_one_sample`, `C83_one_sample_many_outputs`, `C83_flat_X_fails`, `C84_failing_calls`, `C85_density_scales`, `C86_predicted_is_discarded`, `C86_kde_instead`, `C87_plot_obs_pure`, `C87_plot_before_initial`, `C88_flat_prior_plain`, `C88_flat_prior_log`, `C89_sample_counts`, `C89_one_output_row`, `C89_multivariate`, `C89_multivariate_prior`, `C90_given_domain`, `C90_flat_input`, `C90_data_never_change`, `C90_map_point_idempotent`, `C90_plot_obs`, `C91_validate`, `C92_pca_map`, `C92_svd_map`, `C93_weights_errors`, `C93_weights_scale_samples`, `C94_adds_noise`, `C94_wrong_size`, `C94_missing`, `C94_seeded`, `C95_sample_weights`, `C96_split`, `C97_lines`, `C97_on_contour_iff`, `C97_centred`, `C97_errors`, `C97_through_reference_refuted`, `C97_zero_row_refuted`, `C98_map_problem`, `C99_normal_mesh`, `C99_ticks`, `C99_small`, `C100_chain`, `C100_connected`, `C100_empty`, `C101_change_of_units`, `C102_updated_cov_outcome`, `C102_method_outcome`, `C103_generates`, `C103_seed_determines`, `C103_solutions`, `C104_more_information`, `C104_output_dim_monotone`, `C104_determined`, `C105_square_only`, `C105_dimension_errors`, `C106_rank_errors`, `C107_data`, `C107_accepts`, `C107_one_by_one`, `C108_generates`, `C108_single_number`, `C108_bad_arguments`, `C109_minimises_wme`, `C109_zero_wme`, `C109_predicts_means`, `C110_predicted_variance`, `C110_more_data`, `C111_rotation_map`, `C111_unit_rows`, `C111_seed_ignored`, `C111_negative_count`, `C111_trials_fail`, `C112_covariances`, `C112_rejects`, `C113_piecewise_linear`, `C113_interpolates`, `C113_tends_to_one`, `C114_drawn`, `C114_differs`, `C115_value`, `C115_convex`, `C115_local_is_global`, `C115_minimiser`, `C116_errors`, `C116_data`, `C116_spread`, `C117_updated`, `C117_mud_point`, `C117_uniform`, `C117_degenerate`, `C117_returns`, `C118_returns`, `C118_map_point`, `C118_domain`, `C118_degenerate`, `C119_mud_is_map`, `C119_default`, `C120_list`, `C120_raises`, `C120_returns`, `C120_map`, `C120_domain`, `C120_density`, `C121_exp_decay`, `C121_errors`, `C121_usable`, `C121_recovers`, `C121_2d_never_returns`, `C121_2d_type_error`, `C121_temporal`, `C122_std_dev_ignored`, `C122_poisson_refuses`, `C122_adcirc_refuses`, `C122_needs_true_vals`, `C122_poisson_loads`, `C122_adcirc_loads`, `C122_pipeline`, `C123_params`, `C123_errors`, `C123_indices_ignored`, `C123_qoi`, `C123_qoi_single`, `C123_asked_columns_refuted`, `C124_solution`, `C124_initial`, `C124_errors`, `C125_default_never_returns`, `C125_lines`, `C125_chain_never`, `C125_chain_type_error`, `C125_empty_chain`, `C126_given_mesh`, `C126_default_mesh`, `C126_functionals`, `C126_many_data`, `C126_all_terms`, `C126_small`, `C127_plot_ts`, `C127_errors`, `C128_generated`, `C128_in_box`, `C128_errors`, `C128_reproducible`, `C129_range`, `C129_reference`, `C129_never_reproduced`, `C130_names`, `C130_string`, `C130_figures`, `C130_default`, `C130_paper`, `C130_contour`, `C130_many_data`, `C131_trial`, `C131_run`, `C131_stops`, `C131_reproducible`, `C131_order`, `C131_nested`, `C131_problem`, `C131_files`, `C132_wanted`, `C132_default_groups`, `C132_response`, `C132_components`, `C132_run`, `C132_seed`, `C132_random_refuted`, `C133_window`, `C133_components_kept`, `C133_problem`, `C133_densities`, `C133_vectors`, `C133_no_components`, `C133_qoi`, `C133_run`, `C133_empty`, `C133_no_reference`, `C133_pca_run`, `C134_files`, `C134_file_in`, `C134_distinct`, `C134_overwritten_refuted`, `C134_ts_plot`, `C134_mesh`, `C134_mesh_unknown`, `C134_mesh_same`, `C134_value_refuted`, `C134_mesh_missing`, `C135_table`, `C135_all`, `C135_twice`, `C135_no_search_column`, `C136_no_figures`, `C136_solve`, `C136_trials`, `C136_any_order`, `C136_reproducible`, `C137_windows`, `C137_row`, `C137_stops`, `C137_no_windows`, `C137_reproducible`, `C137_too_many`, `C138_names`, `C138_generate`, `C138_without`, `C138_twice`, `C138_reproducible`, `C138_paper_data`, `C138_paper_fenics_refuted`, `C138_paper_download`, `C138_paper_files`, `C138_paper_run`, `C139_curves`, `C139_one_observable`, `C139_two_observables`, `C139_area`, `C139_default_range`, `C139_errors`, `C139_refines`, `C140_param_curves`, `C140_prior_first`, `C140_param_refines`, `C140_obs_curves`, `C140_one_observable`, `C140_obs_errors`, `C140_obs_refines`, `C140_several_data`, `C141_figures`, `C141_pass`, `C141_run`, `C141_stops`, `C141_second_raises`, `C141_saved`, `C141_files`, `C142_figure`, `C142_rate`, `C142_labels`, `C142_label_exact`, `C142_labels_distinct_refuted`, `C142_example`, `C143_figures`, `C143_first_figure`, `C143_square_only`, `C144_files`, `C144_disk`, `C144_overwritten`, `C144_seeded`, `C144_bad_seed`, `C144_unseeded`, `C144_completes`, `C144_stops`, `C144_same_samples`, `C144_total`, `C145_draws`, `C145_seeded`, `C145_bad_seed`, `C145_wme_covariance`, `C145_high_dim`, `C145_contours`, `C145_paper`, `C146_first_call`, `C146_later_calls`, `C146_reachable`, `C147_vecs_new`, `C147_vecs_given`, `C147_given_not_current`, `C147_vecs_markers`, `C147_sensors`, `C147_vert_line`, `C148_figures`, `C148_data`, `C148_no_data`, `C148_bad_data`, `C148_files`, `C148_kept`, `C148_fixed`, `C149_files`, `C149_composed`, `C149_first_figures`, `C149_prefix`, `C149_bad_seed`, `C149_seeded`, `C149_python_random`, `C149_any_seed`, `C149_fenics_refuted`, `C150_draws`, `C150_before_fit`, `C150_no_initial`, `C150_state`, `C150_bad_index`, `C150_refines`, `C151_constructor`, `C151_history`, `C151_estimate`, `C151_ratio`, `C152_constructor`, `C152_history`, `C152_estimate`, `C153_ignored`, `C153_far_sample_wins`, `C153_ratio`, `C153_zero_weight_estimated_refuted`, `C154_outcome`, `C154_settings`, `C154_figures`, `C154_files`, `C154_examples`, `C154_open_figures_refuted`, `C154_users_file_refuted`, `C155_reached`, `C155_no_directory`, `C155_bad_seed`, `C155_again`, `C156_constructor`, `C156_order`, `C156_covariances`, `C156_rotated`, `C157_transform_linear_map`, `C157_observations`, `C157_quantities`, `C157_same_solutions`, `C158_sensors_and_times`, `C158_samples`, `C159_linear`, `C159_superposition`, `C159_covariances`, `C160_same_solutions`, `C160_covariances`, `C161_constructor`, `C161_history`, `C161_estimate`, `C161_ratio`, `C162_constructor`, `C162_history`, `C162_estimate`, `C162_log_refuted`, `C163_estimate`, `C163_defined`, `C163_repeated`, `C163_log_refuted`, `C164_estimate`, `C164_repeated`

## 3 theorem(s) resting on: `ClassicalDedekindReals.sig_forall_dec`, `ClassicalDedekindReals.sig_not_dec`, `Classical_Prop.classic`, `Epsilon.epsilon_statement`, `FunctionalExtensionality.functional_extensionality_dep`

`C47_log_rejects_usable_refuted`, `C48_failed_likelihood_mixes_refuted`, `C119_real`
