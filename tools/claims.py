CLAIMS.update({
"C01": ("proved", ["C01_mud_reproduces_data"], ""),
"C02": ("proved", ["C02_mud_is_best_fit"], ""),
"C03": ("proved", ["C03_mud_closest_best_fit"], ""),
"C04": ("proved", ["C04_mud_ignores_alpha_and_cov_o"], ""),
"C05": ("proved", ["C05_consistent_mean_is_fixed"], ""),
"C06": ("partial", ["C06_mud_alt_agrees_partial", "C06_mud_alt_agrees_refuted"], "false of the code for rank-deficient A with correlated cov_o; proved when cov_o commutes with the projector on range A (full row rank, scalar cov_o)"),
"C07": ("proved", ["C07_updated_cov_pushes_forward", "C07_updated_cov_defaults"], ""),
"C08": ("proved", ["C08_updated_cov_is_covariance"], ""),
"C09": ("proved", ["C09_updated_cov_documented_formula"], ""),
"C10": ("proved", ["C10_map_minimises_bayes_functional"], ""),
"C11": ("proved", ["C11_posterior_covariance_contracts"], ""),
"C12": ("proved", ["C12_ls_min_norm_best_fit"], ""),
"C13": ("proved", ["C13_mud_is_ls_for_standard_prior"], ""),
"C14": ("proved", ["C14_invertible_map"], ""),
"C15": ("proved", ["C15_all_agrees", "C15_other_names", "C15_unknown_name"], ""),
"C16": ("proved", ["C16_output_dim_truncates"], ""),
"C17": ("partial", ["C17_dc_minimised_partial", "C17_dc_minimised_refuted"], "false of the code when b is not 0 or there are several observations"),
"C18": ("partial", ["C18_bayes_minimised_partial", "C18_bayes_minimised_refuted"], "false of the code when alpha is not 1, b is not 0, or there are several observations"),
"C19": ("proved", ["C19_terms_consistent", "C19_early_terms_succeed"], ""),
"C20": ("proved", ["C20_full_functional_zero_at_mud", "C20_scalar_covariances", "C20_default_observed_mean_fails"], ""),
"C21": ("proved", ["C21_init_rejects_iff", "C21_init_attributes", "C21_init_inputs", "C21_init_defaults"], ""),
"C22": ("partial", ["C22_mud_accepts_iff", "C22_bad_prior_rejected_partial", "C22_bad_b_accepted_refuted", "C22_oversized_cov_o_accepted_refuted"], "false of the code for b and cov_o; exact acceptance condition of solve('mud') proved"),
"C23": ("proved", ["C23_parameter_coordinates"], ""),
"C24": ("proved", ["C24_data_coordinates"], ""),
"C68": ("proved", ["C68_mud_sol_reproduces_data", "C68_mud_sol_with_cov", "C68_map_sol"], ""),
"C69": ("proved", ["C69_solve_keeps_inputs", "C69_history_irrelevant"], ""),
})

CLAIMS.update({
"C06": ("proved", ["C06_mud_alt_agrees_iff", "C06_mud_alt_agrees_partial", "C06_mud_alt_agrees_refuted"], "exact condition; the _refuted theorem is the concrete disagreement"),
"C17": ("proved", ["C17_dc_functional_exact", "C17_dc_minimised_iff", "C17_dc_minimised_partial", "C17_dc_minimised_refuted"], "one observation; several observations are C74"),
"C18": ("proved", ["C18_bayes_functional_exact", "C18_bayes_minimised_partial", "C18_bayes_minimised_refuted"], "one observation; several observations are C74"),
"C22": ("proved", ["C22_mud_accepts_iff", "C22_bad_prior_rejected_partial", "C22_bad_b_accepted_refuted", "C22_oversized_cov_o_accepted_refuted"], ""),
"C31": ("proved", ["C31_epoch_points_satisfy_their_row"], ""),
"C32": ("proved", ["C32_iteration_is_fejer"], ""),
"C33": ("proved", ["C33_chain_bookkeeping"], ""),
"C34": ("proved", ["C34_solve_never_returns", "C34_default_never_solves", "C34_solve_empty_schedule", "C34_solve_no_epochs", "C34_iter_lin_solve_never_returns"], ""),
"C35": ("proved", ["C35_reachable_errors", "C35_first_call", "C35_later_calls_repeat", "C35_stale_errors_refuted"], ""),
"C70": ("proved", ["C70_chain_energy"], ""),
"C71": ("proved", ["C71_solving_point_is_mud"], ""),
"C72": ("proved", ["C72_chain_returns_iff_solved"], ""),
"C73": ("proved", ["C73_orthogonal_rows_one_epoch"], ""),
"C74": ("proved", ["C74_many_observations_wrong_count", "C74_many_observations_values"], ""),
"C75": ("proved", ["C75_mud_idempotent"], ""),
"C76": ("proved", ["C76_posterior_below_updated"], ""),
"C77": ("proved", ["C77_map_alpha_limits"], ""),
"C78": ("proved", ["C78_map_monotone_in_alpha"], ""),
"C79": ("proved", ["C79_sequential_map"], ""),
"C80": ("proved", ["C80_updated_cov_neutral", "C80_updated_cov_monotone"], ""),
"C81": ("proved", ["C81_map_data_coordinates"], ""),
})
CLAIMS.update({
"C25": ("proved", ["C25_transformed_map_is_wme", "C25_agrees_with_wme"], ""),
"C26": ("proved", ["C26_repeated_observations"], ""),
"C27": ("proved", ["C27_accepts_iff", "C27_zero_rejected", "C27_negative_accepted_refuted"], ""),
"C28": ("proved", ["C28_one_row_per_qoi", "C28_succeeds_iff", "C28_lwme_same_as_setup", "C28_lwme_default_y"], "operators with at least one row"),
"C29": ("proved", ["C29_formula", "C29_default_sd", "C29_error_iff", "C29_flat_predictions", "C29_additive", "C29_permutation", "C29_zero_on_exact"], ""),
"C30": ("proved", ["C30_column_rejected", "C30_column_square", "C30_column_one_sample", "C30_column_single_observation", "C30_agrees_refuted"], ""),
})
CLAIMS.update({
"C36": ("proved", ["C36_estimate_is_maximal"], ""),
"C37": ("proved", ["C37_estimate_exact", "C37_expected_ratio_exact", "C37_estimate_is_current", "C37_observed_is_ignored", "C37_setters_discard", "C37_stale_estimate_refuted"], "histories of returning calls; failing calls are C38, C84"),
"C38": ("proved", ["C38_cache_invariant", "C38_mud_point_idempotent"], ""),
"C39": ("proved", ["C39_weights_product", "C39_weights_list", "C39_default_weights", "C39_wrong_length"], ""),
"C40": ("proved", ["C40_estimate_ignores_scale", "C40_ratio_ignores_scale", "C40_multiplied_weights", "C40_normalised_weights"], ""),
"C41": ("proved", ["C41_expected_ratio_between", "C41_ratio_one"], ""),
"C42": ("proved", ["C42_undefined_density_wins", "C42_nan_wins_refuted"], ""),
"C43": ("proved", ["C43_given_domain", "C43_flat_input", "C43_fitted_domain"], ""),
"C44": ("proved", ["C44_default_range_widens", "C44_repeated_plots", "C44_default_initial_after_plots", "C44_given_range_pure", "C44_plot_changes_default_refuted"], ""),
"C82": ("proved", ["C82_given_predicted_not_joint", "C82_several_observables_fail"], ""),
"C83": ("proved", ["C83_one_sample", "C83_one_sample_many_outputs", "C83_flat_X_fails"], ""),
"C84": ("proved", ["C84_failing_calls"], ""),
"C85": ("proved", ["C85_density_scales"], ""),
"C86": ("proved", ["C86_predicted_is_discarded", "C86_kde_instead"], ""),
"C87": ("proved", ["C87_plot_obs_pure", "C87_plot_before_initial"], ""),
})
CLAIMS.update({
"C45": ("proved", ["C45_map_is_maximal"], ""),
"C46": ("proved", ["C46_log_mode"], ""),
"C47": ("proved", ["C47_plain_exact", "C47_log_underflow_accepted", "C47_log_rejects_usable_refuted"], "the log-mode rejection condition is C46_log_mode"),
"C48": ("proved", ["C48_estimate_exact", "C48_estimate_is_current", "C48_no_likelihood", "C48_failed_likelihood_mixes_refuted"], ""),
"C88": ("proved", ["C88_flat_prior_plain", "C88_flat_prior_log"], ""),
"C89": ("proved", ["C89_sample_counts", "C89_one_output_row"], ""),
"C90": ("proved", ["C90_given_domain", "C90_flat_input", "C90_data_never_change", "C90_map_point_idempotent", "C90_plot_obs"], ""),
})
CLAIMS.update({
"C49": ("proved", ["C49_contains", "C49_float_rows", "C49_contains_iff", "C49_errors"], ""),
"C50": ("proved", ["C50_result_is_argument", "C50_error_keeps", "C50_succeeds_iff", "C50_calls_compound", "C50_unchanged_iff", "C50_leaves_argument_refuted"], ""),
"C51": ("proved", ["C51_points", "C51_ticks", "C51_in_square", "C51_distinct", "C51_complete", "C51_small"], ""),
"C52": ("proved", ["C52_seed_reproducible", "C52_bad_seed", "C52_unseeded", "C52_entries", "C52_zero_sd", "C52_2d_accepted_iff", "C52_column_blows_up", "C52_empty"], ""),
"C53": ("proved", ["C53_null_space", "C53_exact_iff", "C53_fails_iff", "C53_always_kernel_refuted"], ""),
"C54": ("proved", ["C54_terms", "C54_succeeds_iff", "C54_first_plus_last", "C54_rank_bound", "C54_last_is_matrix_refuted"], ""),
"C55": ("proved", ["C55_coverage", "C55_unique", "C55_linear", "C55_ends"], ""),
})
CLAIMS.update({
"C56": ("proved", ["C56_lam_with_domain", "C56_lam_without_domain", "C56_lam_has_domain", "C56_domain_accepts_iff", "C56_domain_odd", "C56_domain_after_samples", "C56_samples_without_domain", "C56_samples_inside_refuted", "C56_one_interval_refuted"], ""),
"C57": ("proved", ["C57_accepts_iff", "C57_reference_inside", "C57_shorter_reference_refuted", "C57_stale_reference_refuted"], ""),
"C58": ("proved", ["C58_data_accepts_iff", "C58_measurements_accepts_iff", "C58_failing_setters_keep", "C58_width_is_sensors_times"], ""),
"C59": ("proved", ["C59_sample_data", "C59_without_masks", "C59_errors", "C59_flat_sensors"], ""),
"C60": ("proved", ["C60_closest_to_measurements", "C60_no_measurements", "C60_closest_to_true_vals", "C60_true_vals_errors"], ""),
"C61": ("proved", ["C61_load_assigns_in_order", "C61_failed_load_keeps_prefix", "C61_only_the_fields_matter", "C61_renamed", "C61_complete_load", "C61_measurements_need_sensors_and_times", "C61_renaming_refuted"], ""),
"C62": ("proved", ["C62_wme_map", "C62_relation_to_wme", "C62_same_as_wme_refuted"], ""),
"C63": ("proved", ["C63_unknown_method", "C63_unknown_method_error", "C63_needs_measurements_and_sd"], ""),
"C91": ("proved", ["C91_validate"], ""),
"C92": ("proved", ["C92_pca_map", "C92_svd_map"], "relative to the decompositions sklearn and numpy return (arbitrary)"),
"C93": ("proved", ["C93_weights_errors", "C93_weights_scale_samples"], ""),
"C94": ("proved", ["C94_adds_noise", "C94_wrong_size", "C94_missing", "C94_seeded"], ""),
})
CLAIMS.update({
"C64": ("proved", ["C64_default_fails", "C64_needs_everything", "C64_data_prob"], ""),
"C65": ("proved", ["C65_rejects", "C65_mud_problem", "C65_only_first_columns", "C65_short_truth", "C65_one_truth", "C65_negative_split_refuted"], ""),
"C95": ("proved", ["C95_sample_weights"], ""),
"C96": ("proved", ["C96_split"], ""),
"C98": ("proved", ["C98_map_problem"], "the scipy normal distribution is an arbitrary function of location and scale"),
})
CLAIMS.update({
"C66": ("proved", ["C66_grid", "C66_grid_errors", "C66_grid_inside", "C66_plot_dist", "C66_normalised", "C66_separable", "C66_right_parameter_iff", "C66_plot_dist_errors", "C66_pdf_parameter_refuted"], "the density is an arbitrary function; drawing itself is not modelled"),
"C67": ("proved", ["C67_rejects_iff", "C67_standardised"], "relative to arbitrary decompositions; StandardScaler modelled exactly over a real closed field"),
"C97": ("proved", ["C97_lines", "C97_on_contour_iff", "C97_centred", "C97_errors", "C97_through_reference_refuted", "C97_zero_row_refuted"], "scipy's null_space is an oracle with the contract in the hypotheses"),
"C99": ("proved", ["C99_normal_mesh", "C99_ticks", "C99_small"], ""),
"C100": ("proved", ["C100_chain", "C100_connected", "C100_empty"], ""),
"C101": ("proved", ["C101_change_of_units"], ""),
})
CLAIMS.update({
"C102": ("proved", ["C102_updated_cov_outcome", "C102_method_outcome"], "added after mutation L09 survived"),
})
CLAIMS.update({
"C103": ("proved", ["C103_generates", "C103_seed_determines", "C103_solutions"], "numpy's generator is arbitrary; rand returns n numbers in [0,1)"),
"C104": ("proved", ["C104_more_information", "C104_output_dim_monotone", "C104_determined"], ""),
"C105": ("proved", ["C105_square_only", "C105_dimension_errors"], "the SVD is an oracle; only its number of values matters here"),
"C106": ("proved", ["C106_rank_errors"], "for an exact SVD"),
"C107": ("proved", ["C107_data", "C107_accepts"], ""),
"C108": ("proved", ["C108_generates", "C108_single_number"], ""),
"C109": ("proved", ["C109_minimises_wme", "C109_zero_wme", "C109_predicts_means"], ""),
"C110": ("proved", ["C110_predicted_variance", "C110_more_data"], ""),
"C111": ("proved", ["C111_rotation_map", "C111_unit_rows", "C111_seed_ignored", "C111_negative_count", "C111_trials_fail"], "sin, cos, pi and std_from_equipment are arbitrary functions (sin^2+cos^2=1 for the unit rows)"),
})
CLAIMS.update({
"C112":("proved",["C112_covariances","C112_rejects"],"The generator is arbitrary with rand(n) giving n numbers of [0,1). The figure: C142."),
})
def add(id, ths, note=None):
    st, l, n = CLAIMS[id]
    CLAIMS[id] = (st, l + [t for t in ths if t not in l], n if note is None else note)
add("C15", ["C15_attributes"])
add("C33", ["C33_rows", "C33_default_schedule"])
add("C48", ["C48_default_prior"])
add("C59", ["C59_masks"])
CLAIMS.update({
"C113":("proved",["C113_piecewise_linear","C113_interpolates","C113_tends_to_one"],"the value of the expression; its text and FEniCS's parser are not modelled"),
"C114":("proved",["C114_drawn","C114_differs"],""),
"C115":("proved",["C115_value","C115_convex","C115_local_is_global","C115_minimiser"],"scipy.interpolate.interp1d is modelled (linear, searchsorted); scipy.optimize.minimize is not"),
})
CLAIMS.update({
"C116":("proved",["C116_errors","C116_data","C116_spread"],"p is a natural number; the generators are arbitrary"),
"C117":("proved",["C117_updated","C117_mud_point","C117_uniform","C117_degenerate","C117_returns"],"exp is an arbitrary positive increasing function with exp(x+y) = exp(x) exp(y); SimpleExamples.v shows that the real exponential function is one"),
"C118":("proved",["C118_returns","C118_map_point","C118_domain","C118_degenerate"],"as C117"),
"C119":("proved",["C119_mud_is_map","C119_default","C119_real"],"C119_real is over the standard library's real numbers"),
"C120":("proved",["C120_list","C120_raises","C120_returns","C120_map","C120_domain","C120_density"],"gaussian_kde is an oracle; what is drawn is not modelled here (see C66 and C40), and drawing does not raise"),
})
CLAIMS.update({
"C121":("proved",["C121_exp_decay","C121_errors","C121_usable","C121_recovers","C121_2d_never_returns","C121_2d_type_error","C121_temporal"],"exp is an arbitrary (for C121_recovers injective) function and rounding up any function with ceil x - 1 < x <= ceil x; StExExamples.v shows that the reals' are such"),
"C122":("proved",["C122_std_dev_ignored","C122_poisson_refuses","C122_adcirc_refuses","C122_needs_true_vals","C122_poisson_loads","C122_adcirc_loads","C122_pipeline"],"the file and FEniCS's solution are oracles"),
})
CLAIMS.update({
"C123":("proved",["C123_params","C123_errors","C123_indices_ignored","C123_qoi","C123_qoi_single","C123_asked_columns_refuted"],"what is handed to matplotlib; triangulation is an oracle"),
"C124":("proved",["C124_solution","C124_initial","C124_errors"],"what is handed to matplotlib"),
"C125":("proved",["C125_default_never_returns","C125_lines","C125_chain_never","C125_chain_type_error"],"what is handed to matplotlib; the property names of a line are a list in the model; scipy's null_space is an oracle"),
"C126":("proved",["C126_given_mesh","C126_default_mesh","C126_functionals","C126_many_data","C126_all_terms","C126_small"],"what is handed to matplotlib"),
"C127":("proved",["C127_plot_ts","C127_errors"],"what is handed to matplotlib; times have one column"),
})
CLAIMS.update({
"C128":("proved",["C128_generated","C128_in_box","C128_errors","C128_reproducible"],"FEniCS's solutions are oracles"),
"C129":("proved",["C129_range","C129_reference","C129_never_reproduced"],"the expressions' values; FEniCS is not modelled"),
})
CLAIMS.update({
"C130":("proved",["C130_names","C130_string","C130_figures","C130_default","C130_paper","C130_contour","C130_many_data"],"what is handed to matplotlib; scipy's null_space is an oracle; the directory to save to exists"),
})
CLAIMS.update({
"C131":("proved",["C131_trial","C131_run","C131_stops","C131_reproducible","C131_order","C131_nested","C131_problem","C131_files"],"what is handed to matplotlib; PCA, KDE, scipy's minimize and the generators are oracles; y limits not modelled"),
"C132":("proved",["C132_wanted","C132_default_groups","C132_response","C132_components","C132_run","C132_seed","C132_random_refuted"],"what is handed to matplotlib; density figures with their default options; PCA, KDE, triangulation, minimize and the generators are oracles"),
})
CLAIMS.update({
"C133":("proved",["C133_window","C133_components_kept","C133_problem","C133_densities","C133_vectors","C133_no_components","C133_qoi","C133_run","C133_empty","C133_no_reference","C133_pca_run"],"what is handed to matplotlib; dates are numbers (pandas' parsing and PCA, KDE are oracles); y limits not modelled"),
"C134":("proved",["C134_files","C134_file_in","C134_distinct","C134_overwritten_refuted","C134_ts_plot","C134_mesh","C134_mesh_unknown","C134_mesh_same","C134_value_refuted"],"what is handed to matplotlib; parsing of dates and triangulation are oracles"),
})
CLAIMS.update({
"C135":("proved",["C135_table","C135_all","C135_twice","C135_no_search_column"],"the table's columns and rows; the layout by PrettyTable and re.search are oracles"),
"C136":("proved",["C136_no_figures","C136_solve","C136_trials","C136_any_order","C136_reproducible"],"PCA, KDE, minimize and the generators are oracles; y limits and click's parsing not modelled"),
"C137":("proved",["C137_windows","C137_row","C137_stops","C137_no_windows","C137_reproducible","C137_too_many"],"PCA, KDE, date parsing, literal_eval and the generators are oracles"),
"C138":("proved",["C138_names","C138_generate","C138_without","C138_twice","C138_reproducible","C138_paper_data","C138_paper_fenics_refuted","C138_paper_download","C138_paper_files"],"files are a finite map from paths; the solver, the download and the generators are oracles"),
})
CLAIMS.update({
"C139":("proved",["C139_curves","C139_one_observable","C139_two_observables","C139_area","C139_default_range","C139_errors","C139_refines"],"pdf and kernel density estimates are oracles; colours and line styles not modelled"),
"C140":("proved",["C140_param_curves","C140_prior_first","C140_param_refines","C140_obs_curves","C140_one_observable","C140_obs_errors","C140_obs_refines","C140_several_data"],"pdf and kernel density estimates are oracles; colours and line styles not modelled"),
"C141":("proved",["C141_figures","C141_pass","C141_run","C141_stops","C141_second_raises","C141_saved","C141_files"],"kernel density estimates, exponential function and draws are oracles; fonts, ticks and axis labels not modelled"),
})
CLAIMS["C58"][1].extend(["C58_default_axes","C58_default_axis"])
CLAIMS["C35"][1].append("C35_one_chain_too_short")
CLAIMS["C89"][1].extend(["C89_multivariate","C89_multivariate_prior"])
CLAIMS["C125"][1].append("C125_empty_chain")
CLAIMS["C134"][1].append("C134_mesh_missing")

CLAIMS.update({
"C142":("proved",["C142_figure","C142_rate","C142_labels","C142_label_exact","C142_labels_distinct_refuted","C142_example"],"svdvals is an argument, assumed right (U = V diag(s) W, V and W orthogonal, s decreasing and >= 0) on the updated covariances of the run. C142_labels_distinct_refuted: two numbers with one label."),
"C143":("proved",["C143_figures","C143_first_figure","C143_square_only"],"The legend texts are given to the lines in the order they are drawn (matplotlib). The decomposition used by rank_decomposition is an argument with as many numbers as it should."),
})

CLAIMS.update({
"C144":("proved",["C144_files","C144_disk","C144_overwritten","C144_seeded","C144_bad_seed","C144_unseeded","C144_completes","C144_stops","C144_same_samples","C144_total"],"generator, kernel density estimates, null_space and svd are oracles; directories can be made. C144_total: the generator gives numbers in [0, 1), the exponential function is positive, increasing and turns sums into products."),
"C145":("proved",["C145_draws","C145_seeded","C145_bad_seed","C145_wme_covariance","C145_high_dim","C145_contours","C145_paper"],"the domain of comparison is of integers (click's type for the default); the json file of contours, if any, can be read."),
})

CLAIMS["C60"][1].append("C60_closest_spread")
CLAIMS["C50"][1].append("C50_not_2d")
CLAIMS["C52"][1].append("C52_2d_error")
CLAIMS["C107"][1].append("C107_one_by_one")
CLAIMS["C108"][1].append("C108_bad_arguments")
CLAIMS.update({
"C146":("proved",["C146_first_call","C146_later_calls","C146_reachable"],"the scale of the axis and its texts are not modelled"),
"C147":("proved",["C147_vecs_new","C147_vecs_given","C147_given_not_current","C147_vecs_markers","C147_sensors","C147_vert_line"],"pyplot modelled as a list of Axes and a current one; no further keyword arguments, so no colour bar"),
})

CLAIMS["C138"][1].append("C138_paper_run")
CLAIMS.update({
"C148":("proved",["C148_figures","C148_data","C148_no_data","C148_bad_data","C148_files","C148_kept","C148_fixed"],"save_path given; pickles are a dictionary from paths to data sets; download, mesh triangulation, dates and PCA are oracles"),
"C149":("proved",["C149_files","C149_composed","C149_first_figures","C149_prefix","C149_bad_seed","C149_seeded","C149_python_random","C149_any_seed","C149_fenics_refuted"],"as C144, C138 and C148. C149_fenics_refuted: with FEniCS and without data the command cannot complete. C149_met: a complete run over the real numbers."),
})

CLAIMS.update({"C150": ("proved", ["C150_draws", "C150_before_fit", "C150_no_initial", "C150_state", "C150_bad_index", "C150_refines"],
  "The kernel density estimate, d.pdf and its call at grid points are arguments. C150_draws gives the whole result, marks and problem; C150_before_fit says that with other weights the same is drawn; C150_refines ties the model with marks to the one of the histories of C37, C38, C42 and C44. ylim and style options are not modelled.")})
CLAIMS.update({"C151":("proved",["C151_constructor","C151_history","C151_estimate","C151_ratio"],"hypothesis order_free: the pdf and KDE oracles are row-wise and indifferent to the order of the data (met in OrderExamples.v); weights are given for the n samples, and an explicit predicted distribution only for one observable; exact arithmetic, so sums do not depend on the order of summation")})
CLAIMS.update({"C152":("proved",["C152_constructor","C152_history","C152_estimate"],"hypothesis row_wise: pdf and logpdf are computed row by row (met in OrderExamples.v); X and y have the same number of rows; exact arithmetic")})
CLAIMS.update({"C153":("proved",["C153_ignored","C153_far_sample_wins","C153_ratio","C153_zero_weight_estimated_refuted"],"exact arithmetic with infinities and NaN; C153_zero_weight_estimated_refuted is a concrete history in which the sample of weight zero is the estimate")})
CLAIMS.update({"C154":("proved",["C154_outcome","C154_settings","C154_figures","C154_files","C154_examples","C154_open_figures_refuted","C154_users_file_refuted"],"what plot, savefig and unlink do is an oracle, reading settings, figures and files only (C154_outcome); the finally clause is taken not to raise; logging is left out. The two refuted theorems show that the import closes the user's figures and deletes a user's .test_fig.png."),
"C155":("proved",["C155_reached","C155_no_directory","C155_bad_seed","C155_again"],"permissions are not modelled; what np.random.seed does is an oracle")})
CLAIMS.update({"C156":("proved",["C156_constructor","C156_order","C156_covariances","C156_rotated"],"output_dim left at its default (a truncated problem depends on which data come first); exact arithmetic; cov_i and cov_o are square of the right size. C156_example is a map of rank one."),
"C157":("proved",["C157_transform_linear_map","C157_observations","C157_quantities","C157_same_solutions"],"one row per datum or a single row, and as many deviations as data when they are a list; all operators have the same number of columns; exact arithmetic")})
CLAIMS.update({"C158":("proved",["C158_sensors_and_times","C158_samples"],"measurements and std_dev are set and something is picked (otherwise C59, C62); float arrays; exact arithmetic. The problem is otherwise any that the setters accept (setup)")})
CLAIMS.update({"C159":("proved",["C159_linear","C159_superposition","C159_covariances"],"output_dim left at its default; exact arithmetic; C159_example: map, two parameters, one datum"),
"C160":("proved",["C160_same_solutions","C160_covariances"],"output_dim left at its default; exact arithmetic; the covariances need not be regular. C160_example multiplies by four.")})
CLAIMS.update({"C161":("proved",["C161_constructor","C161_history","C161_estimate","C161_ratio"],"float arrays with two dimensions; a predicted distribution is given only for one observable (as C82); exact arithmetic; distributions are oracles that follow the change of units (change_of_units), as do the uniform distribution and the kernel density estimate; what the plots draw raises alike in both units. bx_change: boxes satisfy all of this; C161_example: two samples, a run to the end")})
CLAIMS.update({"C162":("proved",["C162_constructor","C162_history","C162_estimate","C162_log_refuted"],"likelihoods without logarithms; float arrays with two dimensions; exact arithmetic; distributions are oracles that follow the change of units (bchange_of_units), as does the uniform prior; what the plots draw raises alike in both units. bb_change: boxes satisfy all of this; C162_example: two samples, a run to the end. C162_log_refuted: with log=True the statement fails.")})
CLAIMS.update({"C163":("proved",["C163_estimate","C163_defined","C163_repeated","C163_log_refuted"],"pdf and logpdf are computed row by row (by_rows, met by en_by_rows); matrices with one row of data per sample; the same domain, prior and likelihood for both sets; exact arithmetic. C163_example: the second of two samples wins. C163_log_refuted: with log=True the estimate of all the samples may be undefined.")})
CLAIMS.update({"C164":("proved",["C164_estimate","C164_repeated"],"the predicted distribution is given (with the kernel density estimate every sample changes the densities of all), one observable, no weights; distributions are evaluated point by point (by_point, met by ed_by_point); the same domain and distributions for both sets; exact arithmetic with infinities and NaN. C164_example: the second of two samples wins.")})
