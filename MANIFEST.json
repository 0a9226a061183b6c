{"claims": [
{"property": "C01", "status": "proved", "theorems": ["C01_sort_fronts", "C01_first_front_only", "C01_nan_terminates_refuted"], "note": "NaN-free inputs; with a NaN cycle the loop never ends (C01_nan_terminates_refuted)"},
{"property": "C02", "status": "proved", "theorems": ["C02_dominate_meaning", "C02_dominate_length_error", "C02_strict_partial_order", "C02_portfolio_dominates"], "note": ""},
{"property": "C03", "status": "proved", "theorems": ["C03_train_is_purged_complement", "C03_split_raises_iff", "C03_train_nonempty_refuted"], "note": "characterisation holds for every split; finding: training set can be empty (C03_train_nonempty_refuted)"},
{"property": "C04", "status": "proved", "theorems": ["C04_splits_enumerate_choices", "C04_folds_partition_iff", "C04_every_observation_tested_refuted", "C04_paths_cover_each_fold_once", "C04_path_is_whole_sample"], "note": "whole-sample coverage holds iff n mod K <= n div K (C04_folds_partition_iff); otherwise refuted by C04_every_observation_tested_refuted"},
{"property": "C05", "status": "proved", "theorems": ["C05_walk_forward_splits", "C05_raises_iff", "C05_zero_test_size_terminates_refuted"], "note": "test_size=0 loops forever (C05_zero_test_size_terminates_refuted)"},
{"property": "C06", "status": "proved", "theorems": ["C06_no_offset_located", "C06_period_int_train", "C06_period_int_windows", "C06_period_offset_train", "C06_period_offset_windows", "C06_offset_purge_refuted", "C06_freq_offset_bfill_refuted", "C06_freq_offset_ffill_leak_refuted", "C06_get_n_splits_refuted"], "note": "pd.date_range is a parameter returning increasing dates in its interval. Findings: C06_offset_purge_refuted (with a train offset the purge is cut from the test window, not from the training window), C06_freq_offset_bfill_refuted and C06_freq_offset_ffill_leak_refuted (a date that cannot be located becomes index -1), C06_get_n_splits_refuted (get_n_splits ignores freq)."},
{"property": "C07", "status": "proved", "theorems": ["C07_every_fold_once", "C07_chronological", "C07_accepts", "C07_refuses", "C07_walk_forward", "C07_interleaved_refuted", "C07_shuffled_fold_detected_refuted", "C07_combinatorial_paths"], "note": "chronology needs contiguous test folds; interleaved or late-shuffled folds are accepted (C07_interleaved_refuted, C07_shuffled_fold_detected_refuted); joblib result order trusted"},
{"property": "C08", "status": "proved", "theorems": ["C08_constraint_string_meaning", "C08_matrix_meaning", "C08_duplicate_levels_rejected", "C08_exponent_notation_refuted", "C08_missing_group_warns_refuted"], "note": "Full: any well-formed constraint, any spacing, any weights; row and matrix level. Limit of 1e6 tokens passes is a hypothesis. Findings: exponent notation 3e-5 is split at '-'; '2 * unknown' raises although missing groups should only warn."},
{"property": "C09", "status": "proved", "theorems": ["C09_no_comparison_rejected", "C09_strict_comparison_rejected", "C09_accepted_is_grammatical", "C09_chained_comparison_rejected_refuted", "C09_missing_left_side_rejected_refuted", "C09_unfinished_product_refuted"], "note": "Soundness of acceptance proved for all strings. Findings (refuted): chained comparisons accepted with a wrong meaning, missing left side accepted, unfinished product gives TypeError."},
{"property": "C10", "status": "proved", "theorems": ["C10_group_cardinalities", "C10_missing_group_skipped_refuted"], "note": "All known groups. Finding (refuted): unknown group raises EquationToMatrixError even with raise_if_group_missing=False."},
{"property": "C11", "status": "proved", "theorems": ["C11_cvar_is_minimum", "C11_cvar_is_worst_expected_loss", "C11_cvar_coherent"], "note": "np.partition is a parameter assumed only to return a permutation with the k-th element in sorted position. Real arithmetic instead of binary64."},
{"property": "C12", "status": "proved", "theorems": ["C12_var_is_tail_quantile", "C12_ordering", "C12_evar_above_cvar", "C12_evar_no_loss_refuted", "C12_deviation_ordering", "C12_entropic_risk_measure"], "note": "The SLSQP solver inside evar is a parameter assumed only to respect its lower bound. C12_evar_no_loss_refuted: with no negative return evar evaluates the entropic measure at a negative risk aversion and falls below cvar."},
{"property": "C13", "status": "proved", "theorems": ["C13_max_drawdown", "C13_max_drawdown_compounded", "C13_drawdowns_nonpositive", "C13_drawdown_ordering", "C13_first_loss_counted_refuted"], "note": "C13_first_loss_counted_refuted: a loss on the first observation is not part of any drawdown, because the running peak starts after it."},
{"property": "C14", "status": "proved", "theorems": ["C14_gini_is_mean_absolute_difference", "C14_gini_invariance"], "note": "np.sort is a parameter assumed to return a sorted permutation."},
{"property": "C15", "status": "proved", "theorems": ["C15_variance_relations", "C15_effective_number_bounds", "C15_skew_kurtosis_invariance"], "note": ""},
{"property": "C16", "status": "proved", "theorems": ["C16_measures_never_stale", "C16_fitness_list_aliased_refuted", "C16_fitness_list_shared_with_copy_refuted", "C16_measure_assignment_rejected_refuted"], "note": "Refinement: the cached heap program and a cache-free reference produce the same trace. Values None stand for nan/inf (too few observations, zero denominators). Findings: fitness_measures list is aliased and shared with copies; measure attributes are writable."},
{"property": "C17", "status": "proved", "theorems": ["C17_every_measure_resolves", "C17_names_consistent", "C17_annualization", "C17_annualized_ratio", "C17_rolling_measure", "C17_rolling_annualized_ratio_refuted"], "note": "Finding: rolling_measure of an annualized ratio disagrees with the measure when risk_free_rate is non-zero (C17_rolling_annualized_ratio_refuted)."},
{"property": "C18", "status": "proved", "theorems": ["C18_expression", "C18_mismatch_rejected", "C18_laws", "C18_add_comm", "C18_abs_floordiv"], "note": "Linearity of the returns stated for portfolios without transaction costs and management fees; weight laws unconditional."},
{"property": "C19", "status": "proved", "theorems": ["C19_mean_contributions", "C19_variance_contributions", "C19_dropped_zero_weights"], "note": "Exact over the reals; binary64 rounding not modelled."},
{"property": "C20", "status": "proved", "theorems": ["C20_multi_period_is_concatenation", "C20_order_checked", "C20_copies_independent_refuted", "C20_append_same_check_refuted", "C20_operators_keep_settings_refuted"], "note": "Findings: append on a copy corrupts the original (shared list); append accepts an overlap of one observation that the constructor rejects; operators drop constructor arguments."},
{"property": "C21", "status": "proved", "theorems": ["C21_only_portfolios", "C21_raising_changes_nothing", "C21_list_semantics", "C21_iadd_refuted", "C21_extend_atomic_refuted"], "note": "Findings: += bypasses validation; a failing extend is not atomic."},
{"property": "C22", "status": "proved", "theorems": ["C22_sort_measure", "C22_quantile", "C22_quantile_monotone", "C22_min_max", "C22_filter"], "note": "np.sort/argsort are modelled by a stable insertion sort."},
{"property": "C23", "status": "proved", "theorems": ["C23_drop_correlated", "C23_absolute_refuted"], "note": "np.argsort is a parameter with its specification. Finding: C23_absolute_refuted (the absolute flag has no effect). NaN correlations (constant assets) are not modelled."},
{"property": "C24", "status": "proved", "theorems": ["C24_select_k_extremes"], "note": "The measure is an arbitrary function of the asset's returns. The argsort of the Population is modelled as stable."},
{"property": "C25", "status": "proved", "theorems": ["C25_min_n_assets", "C25_first_front", "C25_pair_minimum_variance", "C25_stops_when_reached_refuted"], "note": "Finding: C25_stops_when_reached_refuted (the loop tests > instead of >=, so one more front is added when min_n_assets is reached exactly)."},
{"property": "C26", "status": "proved", "theorems": ["C26_select_complete", "C26_select_non_expiring", "C26_drop_zero_variance"], "note": ""},
{"property": "C27", "status": "proved", "theorems": ["C27_prices_to_returns", "C27_fill_is_causal", "C27_compounding", "C27_nan_threshold_refuted"], "note": "The join of X and y is done by pandas before the model starts. Finding: C27_nan_threshold_refuted (missing factor prices are counted against the number of assets). Labels assumed distinct."},
{"property": "C28", "status": "proved", "theorems": ["C28_stationary_bootstrap"], "note": "Random draws are inputs (any draws)."},
{"property": "C29", "status": "proved", "theorems": ["C29_hierarchical_risk_parity", "C29_finite", "C29_not_finite_refuted", "C29_infeasible_minimum_accepted_refuted"], "note": "Any risk function, order and bounds. NaN from 0/0 is modelled as NotFinite. Findings: valid min_weights can give NaN (C29_not_finite_refuted); sum(min_weights)>1 is accepted and violated (C29_infeasible_minimum_accepted_refuted). The order of the assets (linkage) is an argument."},
{"property": "C30", "status": "proved", "theorems": ["C30_weights_before_bounds", "C30_bounds"], "note": "Any dendrogram, labelling that is a cut of it, and positive risks. The solver behind minimize_relative_weight_deviation is a parameter with an explicit correctness hypothesis."},
{"property": "C31", "status": "proved", "theorems": ["C31_nco", "C31_stacking", "C31_nco_full"], "note": "Inner/outer estimators and their predictions are parameters (only the lengths of their results are assumed). The iterator alignment of fitted inner estimators and clusters is part of the model."},
{"property": "C32", "status": "proved", "theorems": ["C32_equal_weighted", "C32_inverse_volatility", "C32_rand_weights", "C32_all_zeros_refuted"], "note": "Random draws are arguments. Finding: rand_weights with zeros = n divides by zero (C32_all_zeros_refuted). Random.fit itself only calls numpy's dirichlet and is not modelled."},
{"property": "C33", "status": "proved", "theorems": ["C33_reported_weights", "C33_turnover", "C33_turnover_needs_previous_weights", "C33_factor_positive", "C33_homogenization_factor", "C33_negative_factor_refuted"], "note": "Positive factor is a hypothesis of the constraint theorem; C33_factor_positive discharges it for MAXIMIZE_RATIO with bounds. C33_negative_factor_refuted: without bounds the ratio problem has feasible points with a negative factor whose reported weights break an inequality."},
{"property": "C34", "status": "proved", "theorems": ["C34_cardinalities_and_thresholds", "C34_complete", "C34_zero_short_threshold_refuted", "C34_no_min_weights_refuted"], "note": "Soundness and completeness of the big-M encoding. Findings: zero short thresholds and min_weights=None with a cardinality raise TypeError."},
{"property": "C35", "status": "proved", "theorems": ["C35_worst_realization", "C35_cvar", "C35_first_lower_partial_moment", "C35_mean_absolute_deviation", "C35_semi_variance", "C35_standard_deviation", "C35_evar", "C35_drawdowns", "C35_drawdowns_of_measures", "C35_first_loss_refuted", "C35_gini_mean_difference", "C35_evar_costs_refuted", "C35_flpm_risk_free_rate_refuted", "C35_mad_target_refuted"], "note": "One theorem per risk measure, at factor 1. Findings (_refuted): drawdowns when the first return is negative, EVaR without transaction costs, FLPM with a risk free rate, MAD with a minimum acceptable return. Worst-case variance (semi-definite) is not modelled."},
{"property": "C36", "status": "proved", "theorems": ["C36_weights_allowed", "C36_maximum_ratio", "C36_optimal", "C36_integer_weights", "C36_integer_optimal", "C36_integer_ratio", "C36_tracking_error_refuted", "C36_variance_limit_refuted"], "note": "C36_weights_allowed: reported weights satisfy all documented limits. C36_maximum_ratio and C36_optimal: optimality among all allowed weights without integer constraints; C36_integer_weights, C36_integer_optimal and C36_integer_ratio: the same with cardinalities and thresholds, for competitors within the constant 1000 of the big-M constraints. Findings: C36_tracking_error_refuted (max_tracking_error is not multiplied by the homogenisation factor), C36_variance_limit_refuted (max_variance with the ratio objective bounds variance by limit/factor)."},
{"property": "C37", "status": "proved", "theorems": ["C37_differentiable_risk", "C37_contributions", "C37_first_lower_partial_moment", "C37_scalar_budget_refuted"], "note": "C37_contributions (variance, standard deviation, default constraints) and C37_differentiable_risk (any risk measure but the first lower partial moment, any non-binding constraints). Finding: C37_scalar_budget_refuted (a scalar risk_budget raises TypeError)."},
{"property": "C38", "status": "proved", "theorems": ["C38_drawdown_defined", "C38_same_problem", "C38_after_success", "C38_failed_fit_refuted", "C38_dropped_constraints_unbounded"], "note": "C38_same_problem over all histories. Findings: C38_failed_fit_refuted (the cache is not cleared when a fit raises: the drawdown constraints are then left out), C38_dropped_constraints_unbounded (without them any risk value is feasible for any weights)."},
{"property": "C39", "status": "proved", "theorems": ["C39_posterior", "C39_least_disagreement", "C39_covariance_bounds", "C39_certain_views", "C39_neutral_views", "C39_rejected", "C39_single_view", "C39_no_confidences", "C39_confidences_kept_refuted"], "note": "All parts proved with mathcomp matrices, no axioms. C39_confidences_kept_refuted: a zero confidence in the caller's array is overwritten with 1e-16 (np.asarray does not copy)."},
{"property": "C40", "status": "proved", "theorems": ["C40_moments", "C40_always_positive_definite", "C40_mean_of_scenarios", "C40_cholesky_refuted", "C40_zero_loading_undefined"], "note": "C40_cholesky_refuted and C40_zero_loading_undefined are findings for residual_variance=False. eigh, cholesky and the positive-definiteness test are parameters with explicit specifications; arithmetic is exact."},
{"property": "C41", "status": "proved", "theorems": ["C41_gerber", "C41_window_zero_refuted"], "note": "Positive semidefiniteness of the psd_variant is proved for all samples by a geometric series of Schur-product forms. Finding: window_size=0 is read as the whole history. Assets constant over the window are excluded (their statistic is 0/0 or compares with a zero threshold)."},
{"property": "C42", "status": "proved", "theorems": ["C42_correlation", "C42_nearest_clip", "C42_nearest_higham", "C42_denoise", "C42_detone", "C42_fitted"], "note": "Exact arithmetic over an arbitrary real closed field; eigh and the positive-definiteness test are parameters with explicit specifications, met by a concrete 2x2 implementation in the Examples. The fitted Marchenko-Pastur edge is a parameter (the numerical minimisation is not modelled)."},
{"property": "C43", "status": "proved", "theorems": ["C43_target", "C43_preserved", "C43_bayes_stein", "C43_james_stein", "C43_bodnar_okhrin", "C43_bodnar_okhrin_projection_refuted", "C43_james_stein_two_assets_refuted"], "note": "Findings: BODNAR_OKHRIN divides beta by m'S^-1 m instead of t'S^-1 t (projection_refuted); with two assets JAMES_STEIN never shrinks (intensity <= 0). np.linalg.eigvals is an oracle with an explicit orthogonal-diagonalisation spec; covariance is any symmetric positive definite matrix."},
{"property": "C44", "status": "proved", "theorems": ["C44_distance", "C44_decreasing", "C44_matrix", "C44_triangle", "C44_fractional_power_refuted"], "note": "Finding: a fractional power without absolute=True gives NaN for every pair, even positively correlated ones."},
{"property": "C45", "status": "proved", "theorems": ["C45_partial_derivative", "C45_density", "C45_copula", "C45_inverse", "C45_methods", "C45_sample", "C45_score"], "note": "all rotations and margins, generic in the base copula, plus the public methods with clipping"},
{"property": "C46", "status": "proved", "theorems": ["C46_clayton", "C46_gumbel", "C46_joe", "C46_gaussian", "C46_student", "C46_independent"], "note": "Gaussian/Student t inverse pairs assume scipy's quantile functions invert the distribution functions"},
{"property": "C47", "status": "proved", "theorems": ["C47_gumbel_solution", "C47_gumbel", "C47_gumbel_converges", "C47_joe_solution", "C47_joe", "C47_code"], "note": "existence, uniqueness, explicit error bound and convergence; the bound is stated for the code's tolerance and 50 updates in C47_code"},
{"property": "C48", "status": "proved", "theorems": ["C48_order", "C48_sampling", "C48_copulas", "C48_rotated_refuted"], "note": "Pair copulas not rotated by a quarter turn. REFUTED for 90/270 degree rotations: C48_rotated_refuted."},
{"property": "C49", "status": "proved", "theorems": ["C49_regular_vine", "C49_rejected", "C49_levels", "C49_conditioning_sets", "C49_columns"], "note": "Spanning-tree oracle is a hypothesis with a proved instance (greedy_spanning)."},
{"property": "C50", "status": "proved", "theorems": ["C50_accepted", "C50_conditions", "C50_law", "C50_exact_value", "C50_back", "C50_box_cox_refuted", "C50_mixed_keys_refuted"], "note": "Keys all indices or all names. Findings: bounds above the Box-Cox threshold collapse to the lower bound (C50_box_cox_refuted); a condition is dropped when one asset is given by index and by name (C50_mixed_keys_refuted)."},
{"property": "C51", "status": "proved", "theorems": ["C51_by_name", "C51_order_free", "C51_array", "C51_groups", "C51_items", "C51_items_lenient", "C51_distinct", "C51_mixed_refuted"], "note": "Finding: an index and a name designating one asset are accepted together (C51_mixed_refuted)."},
{"property": "C52", "status": "proved", "theorems": ["C52_renaming", "C52_unique", "C52_collision_refuted"], "note": "Finding: collision with an existing suffixed name (C52_collision_refuted)."},
{"property": "C53", "status": "proved", "theorems": ["C53_history", "C53_no_collision", "C53_own_arguments", "C53_first_use", "C53_minus_one_refuted", "C53_keyword_refuted"], "note": "Findings: hash(-1)=hash(-2) and flattened keywords give the wrong cached value (C53_minus_one_refuted, C53_keyword_refuted)."},
{"property": "C54", "status": "proved", "theorems": ["C54_transpose", "C54_permutation"], "note": ""},
{"property": "C55", "status": "proved", "theorems": ["C55_ellipsoid", "C55_mu_worst_case", "C55_empirical_mu", "C55_bootstrap_mu", "C55_covariance_bound", "C55_empirical_covariance", "C55_covariance_exact", "C55_bootstrap_covariance", "C55_roots", "C55_wishart_refuted"], "note": "sqrtm is an input with Q'=Q, QQ=S (existence proved for the diagonal shapes, C55_roots). Finding: the empirical covariance shape is not the documented Wishart covariance: 1/T instead of 1/(T-1), off-diagonal terms always dropped (C55_wishart_refuted)."},
{"property": "C56", "status": "proved", "theorems": ["C56_windows", "C56_layout", "C56_causal", "C56_fit", "C56_accepts", "C56_regression", "C56_refit", "C56_refit_refuted", "C56_negative_refuted"], "note": "Regressor is a parameter. Findings: C56_refit_refuted (an ndarray of floats is divided in place, so a second fit annualises twice), C56_negative_refuted (the sign check looks at the shape)."},
{"property": "C57", "status": "proved", "theorems": ["C57_value", "C57_order", "C57_selection", "C57_explicit", "C57_callable", "C57_refused"], "note": "Skew is scored as a risk because the code gives it that type."},
{"property": "C58", "status": "proved", "theorems": ["C58_optimal", "C58_range", "C58_two_assets_refuted", "C58_fit", "C58_accepted", "C58_documented_refuted"], "note": "scipy linkage/fcluster are parameters. Findings: C58_two_assets_refuted (raises for two assets), C58_documented_refuted (the standardised argmax of the documentation is not what is computed)."},
{"property": "C59", "status": "proved", "theorems": ["C59_all_solved", "C59_raise_on_failure", "C59_rows_shift_refuted", "C59_failure_not_tolerated_refuted", "C59_different_lengths_refuted", "C59_reported_return", "C59_reported_risk", "C59_reported_risk_refuted"], "note": "Findings: C59_rows_shift_refuted (raise_on_failure=False drops failed rows), C59_failure_not_tolerated_refuted, C59_different_lengths_refuted (np.all(sizes) does not compare lengths), C59_reported_risk_refuted (MAXIMIZE_RETURN reports an unrelated risk)."},
{"property": "C60", "status": "proved", "theorems": ["C60_targets", "C60_frontier_monotone", "C60_targets_refuted"], "note": "Finding: C60_targets_refuted (first target above the maximum return when both ends are within one percent)."},
{"property": "C61", "status": "proved", "theorems": ["C61_equilibrium"], "note": "covariance supplied by the covariance estimator (any symmetric positive semidefinite matrix)"},
{"property": "C62", "status": "proved", "theorems": ["C62_clayton", "C62_gumbel", "C62_joe", "C62_concentration", "C62_concentration_clipped_refuted"], "note": "FINDING C62_concentration_clipped_refuted: below 1e-9 the clipped cdf is divided by the unclipped quantile"},
{"property": "C63", "status": "proved", "theorems": ["C63_horizon", "C63_moments", "C63_log_normal", "C63_positive_semidefinite", "C63_mean_refuted", "C63_attributes_refuted"], "note": "The estimators are parameters. Findings as C63_mean_refuted (mu exceeds the mean of the linear returns by exactly one) and C63_attributes_refuted."},
{"property": "C64", "status": "proved", "theorems": ["C64_weights_allowed", "C64_maximises_net_ratio", "C64_maximum_diversification", "C64_min_return_refuted"], "note": "Solver optimum taken as hypothesis; without max_tracking_error and l2 penalty (see C36 for the tracking-error finding). Finding C64_min_return_refuted."},
{"property": "C65", "status": "proved", "theorems": ["C65_certificate", "C65_worst_case", "C65_minimises_worst_case"], "note": "Solver optimum taken as hypothesis. Laws are expectations on a lattice of integrable functions (Daniell), given as one law per observation (a coupling); strong duality proved by Farkas (Fourier-Motzkin elimination, FarkasProps). Returns of the prior at least -1 and risk aversion positive."},
{"property": "C66", "status": "proved", "theorems": ["C66_portfolio", "C66_population", "C66_no_side_effect", "C66_score", "C66_not_fitted"], "note": "Dictionaries live in a memory, so the copies made by predict matter. Costs given by asset name, scalars and arrays are modelled; the mean and the standard deviation of the net returns are over the reals."},
{"property": "C67", "status": "proved", "theorems": ["C67_window", "C67_window_zero_refuted", "C67_empirical_mu", "C67_empirical_covariance", "C67_single_asset_refuted", "C67_ew_mu", "C67_alpha_rejected", "C67_ew_covariance", "C67_alpha_one_refuted"], "note": "pandas' ewm loops are modelled as loops over observations without missing values. A variance below 1e-15 raises, as in the code; the nearest-covariance repair that follows is modelled in CovarianceModel.v. Findings: C67_window_zero_refuted, C67_single_asset_refuted, C67_alpha_one_refuted."},
{"property": "C68", "status": "proved", "theorems": ["C68_bins", "C68_variation_of_information", "C68_metric", "C68_affine_invariance", "C68_default_total", "C68_default_metric_refuted"], "note": "C68_bins: equal-width classes. C68_variation_of_information: the entries are the information-theoretic quantities. C68_metric: metric axioms for a given number of bins. C68_affine_invariance. C68_default_total: default bins always defined. Finding C68_default_metric_refuted: with the default number of bins the triangle inequality fails and the codependence can be NaN. Modelled over the reals; Knuth's optimiser is a parameter."},
{"property": "C69", "status": "proved", "theorems": ["C69_szekely", "C69_symmetric", "C69_independence", "C69_affine", "C69_invariance"], "note": "C69_szekely (value, range, NaN for a constant asset), C69_symmetric, C69_independence (zero iff independent), C69_affine (one iff affine image), C69_invariance. Exact reals; rounding is not modelled."},
{"property": "C70", "status": "proved", "theorems": ["C70_core", "C70_first_tree", "C70_next_trees", "C70_own_vine"], "note": "minimum_spanning_tree is trusted to return a maximum-weight spanning forest of the candidates (maximum_forest_oracle, met by an exhaustive search in the file)."},
{"property": "C71", "status": "proved", "theorems": ["C71_given_all_before", "C71_conditions_first", "C71_one_condition", "C71_central", "C71_two_conditions_refuted", "C71_truncated_refuted"], "note": "Findings: REFUTED outside this domain (C71_two_conditions_refuted: chain 0-1-2 conditioned on 0 and 2 draws asset 1 ignoring the value given for 0; C71_truncated_refuted: on a truncated chain the condition on asset 0 is ignored by all the others), although the documentation promises conditional samples for any conditioning."},
{"property": "C72", "status": "proved", "theorems": ["C72_best", "C72_independence", "C72_data", "C72_bad_data", "C72_rejected", "C72_rotation", "C72_maximum_likelihood", "C72_failure", "C72_bounds", "C72_correlation", "C72_gaussian", "C72_student", "C72_default", "C72_independent_candidate_refuted", "C72_reuse_refuted", "C72_constant_refuted", "C72_univariate", "C72_univariate_rejected"], "note": "Numerical minimiser, root finder, p-value and the scores of the Gaussian and Student t copulas are parameters. Findings: an IndependentCopula among the candidates fails with AttributeError (C72_independent_candidate_refuted); the tau shared between candidates is computed on unclipped data, so the result can differ from fitting the candidate alone (C72_reuse_refuted); a constant column yields a NaN p-value that is not treated as independence and a copula with a NaN parameter is returned (C72_constant_refuted)."},
{"property": "C73", "status": "proved", "theorems": ["C73_tau", "C73_range", "C73_margins", "C73_shuffled", "C73_rotations", "C73_pseudo", "C73_uniform", "C73_tau_pseudo", "C73_concentration", "C73_exchange", "C73_upper_lower"], "note": "scipy.stats.kendalltau's statistic and rankdata are written out in the model. C73_upper_lower excludes the level 1/2, where the code uses the lower tail."},
{"property": "C74", "status": "proved", "theorems": ["C74_unique", "C74_clayton", "C74_gumbel", "C74_joe", "C74_fit"], "note": "kendall_of is the iterated improper Riemann integral 4 int int C c - 1, shown unique. For Joe the digamma function enters through its integral (digamma_at, satisfied at 1/2 in C74_joe_applies) and the root returned by brentq is a hypothesis; theta = 2 is excluded because the code's formula divides by zero there. Rotated copulas: sample-level statement in C73_rotations."},
{"property": "C75", "status": "proved", "theorems": ["C75_simulation", "C75_density", "C75_copulas", "C75_families", "C75_log_transform_refuted"], "note": "Exact real arithmetic. Pair copulas are any pair of conditional distribution functions with a common continuous density (fitted_copulas); all four rotations of Clayton, Joe, Gumbel (true density, equal to the score between the validation bounds) and the independent copula are shown to be instances. C75_log_transform_refuted: with log_transform the score misses -ln(1+x) per transformed asset."},
{"property": "C76", "status": "proved", "theorems": ["C76_delivery", "C76_nothing", "C76_synthetic_data_refuted", "C76_refusal_refuted", "C76_unrouted_refuted"], "note": "C76_delivery for trees without SyntheticData and without ineffective refusals; C76_nothing for all trees without parameter; findings in the three refuted theorems. scikit-learn's process_routing is modelled from its documentation."},
{"property": "C77", "status": "proved", "theorems": ["C77_nco", "C77_stacking", "C77_weights_fit", "C77_no_leak", "C77_stacking_no_leak", "C77_walk_forward_causal", "C77_nco_total", "C77_factors_refuted", "C77_factor_subset_refuted", "C77_params_refuted", "C77_interleaved_refuted"], "note": "Splitters with interval test folds; combinatorial splitters whose folds cover the sample. Four findings refuted."},
{"property": "C78", "status": "proved", "theorems": ["C78_optimal", "C78_default_weights", "C78_too_few", "C78_large_weight_refuted", "C78_average_train_size", "C78_summary", "C78_average_upper", "C78_summary_refuted"], "note": "Weights within the stated range; two findings refuted."},
{"property": "C79", "status": "proved", "theorems": ["C79_gaussian", "C79_student", "C79_rejects", "C79_boundary_refuted", "C79_uncorrelated", "C79_gaussian_tails", "C79_student_tails", "C79_student_coefficient"], "note": "C79_gaussian and C79_student tie partial_derivative and score_samples; C79_gaussian_tails and C79_student_tails are the limits. ndtr is only required to have a density proportional to exp(-x^2/2); stdtr at dof and dof + 1 the Student density written with gammaln. The copula C is any exchangeable function with uniform margins whose derivative is partial_derivative; scipy's bivariate cdf is not modelled. C79_gaussian_applies constructs a normal distribution function, C79_student_applies the Cauchy copula in closed form. Finding: C79_boundary_refuted, rho = 1 and -1 are accepted although the formula divides by zero and the docstring announces an error."},
{"property": "C80", "status": "proved", "theorems": ["C80_composition", "C80_multi_period", "C80_population", "C80_weights_per_observation", "C80_empty", "C80_plotted", "C80_get_weight", "C80_reported_close", "C80_from_assets", "C80_diversification", "C80_single_asset", "C80_diversification_refuted", "C80_plotted_idx_refuted"], "note": "Orderings of pandas are parameters with a specification. Findings: C80_diversification_refuted (ddof mismatch), C80_plotted_idx_refuted (idx selects portfolios instead of observations)."},
{"property": "C81", "status": "proved", "theorems": ["C81_returns", "C81_prior", "C81_no_null_variance", "C81_two_constant_assets", "C81_singular_refuted"], "note": "Findings: C81_two_constant_assets and C81_singular_refuted (one noise vector shared by all constant columns)."},
{"property": "C82", "status": "proved", "theorems": ["C82_maximum_likelihood", "C82_raises", "C82_degenerate", "C82_criteria", "C82_gaussian_criteria", "C82_equivariant", "C82_fixed_location_never_better", "C82_free_parameters_refuted"], "note": "scipy's norm.fit and norm.logpdf are modelled by their closed forms. Findings: C82_fixed_location_never_better, C82_free_parameters_refuted (fixed parameters counted by AIC and BIC)."},
{"property": "C83", "status": "proved", "theorems": ["C83_block_size", "C83_short", "C83_range", "C83_affine_invariant", "C83_constant", "C83_default", "C83_constant_asset_refuted", "C83_short_panel"], "note": "Full functional specification from eight observations on; shorter series and constant series characterised. Finding: a constant asset removes the blocks of all the assets (C83_constant_asset_refuted)."},
{"property": "C84", "status": "proved", "theorems": ["C84_get_params", "C84_set_params", "C84_set_one", "C84_set_many", "C84_set_list", "C84_member_refuted", "C84_trailing_underscore_refuted", "C84_validate_names"], "note": "get_params, set_params and their success are proved for trees of any depth; two findings are proved: a member given by name raises RuntimeError (C84_member_refuted) and a trailing underscore makes parameters unreachable (C84_trailing_underscore_refuted)."},
{"property": "C85", "status": "proved", "theorems": ["C85_correct", "C85_returns", "C85_recovers", "C85_cached", "C85_missing", "C85_crash_refuted", "C85_relative_refuted", "C85_concurrent_refuted"], "note": "Model at the level of system calls with inodes; proved for every interleaving, failure and kill. Findings proved: C85_crash_refuted, C85_concurrent_refuted, C85_relative_refuted."},
{"property": "C86", "status": "proved", "theorems": ["C86_current", "C86_single", "C86_recomputed", "C86_multi", "C86_independent", "C86_written_refuted", "C86_append_refuted", "C86_flag_refuted", "C86_portfolios_set"], "note": "measures are functions of the returns and settings (C16); C86_written_refuted, C86_append_refuted and C86_flag_refuted are findings"},
{"property": "C87", "status": "proved", "theorems": ["C87_operators", "C87_order", "C87_other", "C87_lengths", "C87_nan_refuted", "C87_lists", "C87_remove_refuted", "C87_max_min", "C87_params", "C87_params_unchanged", "C87_params_stopped", "C87_params_refuted"], "note": "C87_operators and C87_order give the comparisons; C87_lists and C87_max_min the list operations; C87_params, C87_params_unchanged and C87_params_stopped the parameter setter. C87_nan_refuted, C87_remove_refuted and C87_params_refuted are findings."},
{"property": "C88", "status": "proved", "theorems": ["C88_call", "C88_method_refuted", "C88_default_refuted", "C88_absent", "C88_optimal", "C88_ratio", "C88_ratio_refuted", "C88_scale", "C88_scale_refuted"], "note": "Custom functions, optimality with custom terms for the four objectives, and scale independence of MeanRisk; four refuted expectations as findings."},
{"property": "C89", "status": "proved", "theorems": ["C89_guarantee", "C89_values", "C89_robust", "C89_ratio_refuted"], "note": "Guarantee for every set of covariances; exact worst-case optimality for the empirical set; costs, penalties and custom terms are not part of this model (see C36, C88)."},
{"property": "C90", "status": "proved", "theorems": ["C90_number", "C90_order", "C90_rows", "C90_winning_refuted", "C90_level_refuted"], "note": "C90_number, C90_order: printed numbers; C90_rows: the tables after any program. Findings: C90_winning_refuted (summary raises OverflowError for every portfolio without a single loss), C90_level_refuted (level 0.975 is displayed as 98%)."},
{"property": "C91", "status": "proved", "theorems": ["C91_units", "C91_cash", "C91_order", "C91_order_refuted", "C91_compounded_refuted"], "note": "EVaR and EDaR under the hypothesis that the solver attains the minimum; drawdown measures excluded from the order claim and, compounded, from the unit claim (C91_order_refuted, C91_compounded_refuted show why)."},
{"property": "C92", "status": "proved", "theorems": ["C92_mean_risk", "C92_moments"], "note": "The factors of the reordered covariance and uncertainty matrices are any factors of those matrices; the inputs have one entry per asset."},
{"property": "C93", "status": "proved", "theorems": ["C93_sample", "C93_released", "C93_score", "C93_history", "C93_fit"], "note": "Theorems about arbitrary histories include calls that raise."},
{"property": "C94", "status": "proved", "theorems": ["C94_mean_risk", "C94_ratio_refuted", "C94_risk_budgeting", "C94_maximum_diversification", "C94_inverse_volatility", "C94_moments", "C94_sanity_check_refuted"], "note": "C94_ratio_refuted and C94_sanity_check_refuted are findings: the clipping of the normalisation and the absolute bound of the sanity check depend on the unit"},
{"property": "C95", "status": "proved", "theorems": ["C95_risk_aversion", "C95_l1", "C95_l2", "C95_utility_efficient", "C95_ratio_efficient", "C95_utility_on_frontier", "C95_relaxed"], "note": "Comparison of optima: risk aversion (C95_risk_aversion), L1 and L2 coefficients (C95_l1, C95_l2), also with cardinalities and thresholds; efficiency (C95_utility_efficient, C95_ratio_efficient), agreement with the efficient frontier (C95_utility_on_frontier) and relaxation of limits (C95_relaxed). For the ratio and for the relaxed problem without integer constraints."},
{"property": "C96", "status": "proved", "theorems": ["C96_mixture", "C96_optimal_mixture", "C96_unique_l2", "C96_unique_variance", "C96_unique_deviation", "C96_unique_ratio", "C96_unique_diversification", "C96_frontier_convex", "C96_unique_refuted", "C96_unique_integer_refuted"], "note": "no integer constraint; the Gini mean difference only without transaction costs; the ratio without penalties, tracking error or limits on risk measures that do not scale; the two refuted theorems show the conditions of uniqueness matter"},
{"property": "C97", "status": "proved", "theorems": ["C97_unique", "C97_unbounded", "C97_risk_not_negative", "C97_scaled_budgets", "C97_unique_refuted"], "note": "default weight constraints and no transaction cost for C97_unique, C97_unbounded and C97_risk_not_negative; any constraints for C97_scaled_budgets. C97_unique_refuted: without risk the weights are not unique."},
{"property": "C98", "status": "proved", "theorems": ["C98_equal_budgets", "C98_two_assets", "C98_uncorrelated_budgets", "C98_maximum_diversification", "C98_minimum_variance", "C98_inverse_variance", "C98_equal_weighted", "C98_hierarchical", "C98_hierarchical_default"], "note": "the budgets with the default constraints, variance or standard deviation; the diversification without costs, fees, penalties or risk-free rate"}
]}
