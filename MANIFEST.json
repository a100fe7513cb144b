{"claims": [
{"property": "C01", "status": "proved", "theorems": ["C01_nested_matvec"], "note": "Every operator expression over the linalg classes, nested to any depth."},
{"property": "C02", "status": "proved", "theorems": ["C02_nested_matmat"], "note": "Same expressions, any number of right-hand sides."},
{"property": "C03", "status": "proved", "theorems": ["C03_toeplitz_matvec", "C03_toeplitz_defined"], "note": "All sizes >= 1; FFT by its definition."},
{"property": "C04", "status": "proved", "theorems": ["C04_bttb", "C04_bttb_defined"], "note": "Any number of dimensions and sizes."},
{"property": "C05", "status": "proved", "theorems": ["C05_toeplitz_bound"], "note": "Row sums and eigenpairs are those of the dense matrix as_numpy."},
{"property": "C06", "status": "partial", "theorems": ["C06_nested_abs_bound_partial", "C06_nested_bound_partial", "C06_kronecker_refuted", "C06_block_matrix_refuted", "C06_ski_refuted", "C06_ski_never_bounds"], "note": "Refuted in general (Kronecker of indefinite factors, block grids, SKI); proved for nested expressions satisfying one_sided/two_sided."},
{"property": "C07", "status": "partial", "theorems": ["C07_toeplitz", "C07_bttb", "C07_sum_matrix", "C07_block_matrix", "C07_diag", "C07_numpy_matrix", "C07_dimensions", "C07_no_empty_matrix", "C07_zero_dim_refuted", "C07_bttb_no_sizes_refuted"], "note": "Exact acceptance conditions, error kinds and resulting shapes proved; 0-d arrays (TypeError) and BTTB with no sizes (IndexError) refute the documented ValueError."},
{"property": "C08", "status": "proved", "theorems": ["C08_shur"], "note": "Completion is shown equivalent to positive definiteness; partial factorisation on a break is characterised too."},
{"property": "C09", "status": "proved", "theorems": ["C09_tesselate_splits", "C09_split_unique"], "note": "Success exactly when the lengths add up; the split is unique."},
{"property": "C10", "status": "proved", "theorems": ["C10_search_descending"], "note": "Exact characterisation of the returned index."},
{"property": "C100", "status": "proved", "theorems": ["C100_quantiles", "C100_interval", "C100_positive", "C100_real"], "note": "scipy.stats.norm.ppf is any function meeting its contract (is_ppf), gammaln any with gammaln a = ln (Gamma a). No parameter has two priors or two constraints (tidy): setting either replaces the former one."},
{"property": "C101", "status": "proved", "theorems": ["C101_cap", "C101_three", "C101_any", "C101_note_refuted"], "note": "The README's statement is proved, the note in the class's documentation that only one-dimensional input is supported is refuted."},
{"property": "C102", "status": "proved", "theorems": ["C102_settings", "C102_handed", "C102_run", "C102_misspelt", "C102_optimize"], "note": "Settings of the documented types only; the keyword names of climin.Adadelta are trusted."},
{"property": "C103", "status": "partial", "theorems": ["C103_table", "C103_text", "C103_text_refuted", "C103_accepted"], "note": "results.tex and the arguments proved; results.txt keeps only the averages of the last setting (C103_text, C103_text_refuted)."},
{"property": "C104", "status": "partial", "theorems": ["C104_summary", "C104_count", "C104_sizes_partial", "C104_sizes_refuted", "C104_nan_refuted"], "note": "Lines, order, averages and count proved; sizes shown proved for the full benchmark and refuted in validation; nan errors are averaged as 0 (refuted)."},
{"property": "C11", "status": "partial", "theorems": ["C11_map_entries_c_order_partial", "C11_map_entries_refuted"], "note": "true for C-contiguous arrays, false for other layouts"},
{"property": "C12", "status": "proved", "theorems": ["C12_begin_end_indices", "C12_chunks", "C12_cartesian_product", "C12_symm_2d_list_map"], "note": "All four helpers, all sizes."},
{"property": "C13", "status": "proved", "theorems": ["C13_interp_rows", "C13_cubic_kernel_domain"], "note": "All real samples, all equispaced grids of size >= 4; cubic_kernel's own rejection condition is characterised."},
{"property": "C14", "status": "proved", "theorems": ["C14_exact_on_grid", "C14_exact_quadratics"], "note": "Exact at every grid point (borders included) and on quadratics for samples in [grid[1], grid[-2]]."},
{"property": "C15", "status": "proved", "theorems": ["C15_third_order", "C15_twice_differentiable_refuted"], "note": "Error <= B/2 h^3. The documented version, for functions that are only twice differentiable, is refuted by x^2 sqrt|x|."},
{"property": "C16", "status": "proved", "theorems": ["C16_bicubic"], "note": "Entries, row sums, at most 16 stored entries, products of quadratics on the points of cartesian_product."},
{"property": "C17", "status": "proved", "theorems": ["C17_multi_interpolant", "C17_multi_interpolant_2d", "C17_assemble_blocks"], "note": "1-D (vectors or columns) and 2-D inputs, empty outputs included; also for arbitrary well-formed blocks."},
{"property": "C18", "status": "proved", "theorems": ["C18_autogrid", "C18_training_data_exact", "C18_constant_data_refuted"], "note": "Two grid points strictly on each side, no clamping; the documentation's unconditional claim is refuted for constant data."},
{"property": "C19", "status": "partial", "theorems": ["C19_arguments_kept_partial", "C19_array_m_refuted"], "note": "Holds when m is None or a list; refuted when m is a numpy array, which is modified in place."},
{"property": "C20", "status": "partial", "theorems": ["C20_rejects_partial", "C20_not_equispaced_refuted", "C20_empty_samples_refuted"], "note": "Dimension and size checks hold when there are samples; equispacing is never checked (refuted) and empty samples skip all checks (refuted)."},
{"property": "C21", "status": "partial", "theorems": ["C21_accepts", "C21_rejects", "C21_coreg_forms", "C21_omitted_lists_refuted", "C21_index_refuted"], "note": "Accepted and rejected arguments and the form of every B_q (initially and in every reachable state) are proved when the two LMC lists are passed. Refuted: omitting them is a TypeError, and output indices out of range are an IndexError."},
{"property": "C22", "status": "proved", "theorems": ["C22_groups", "C22_total_rank", "C22_first_call", "C22_later_calls"], "note": "For every reachable state of a FunctionalKernel and every later call history."},
{"property": "C23", "status": "partial", "theorems": ["C23_same_covariance_partial", "C23_slfm_deviation", "C23_selection", "C23_same_covariance_refuted"], "note": "All three representations are built for every group and grid; 'sum' and 'bt' always represent sum_q B_q (x) K_q, 'slfm' exactly when the group has both a coregionalized and a diagonal kernel. Otherwise 'slfm' adds an identity matrix (proved exactly), and gen_grid_kernel does select it then: the property as stated is refuted."},
{"property": "C24", "status": "proved", "theorems": ["C24_kernel_matrix"], "note": "Any number of axes and points, any spacing, all kernels with parameters in their documented range."},
{"property": "C25", "status": "proved", "theorems": ["C25_exact_kernel", "C25_kernel_from_indices"], "note": "kernel_from_indices and the exact likelihood matrix, entry by entry at the block offsets; hypothesis dims_in_range because set_input_dim accepts active dimensions >= P"},
{"property": "C26", "status": "partial", "theorems": ["C26_base_psd", "C26_operator", "C26_operator_partial", "C26_symmetric_psd"], "note": "The operator is determined exactly for every model (C26_operator): W K_UU W^T + noise, plus W W^T for each group in the case refuted by C23. Symmetry and definiteness hold for all models."},
{"property": "C27", "status": "partial", "theorems": ["C27_exact_on_grid_partial", "C27_exact_on_grid_refuted"], "note": "equality proved for K_SKI and for the operator without the superfluous identities; refuted when gen_grid_kernel adds one (C23)"},
{"property": "C28", "status": "proved", "theorems": ["C28_exact_gradients"], "note": "all four families of gradients are partial derivatives of the log density (determinant by Laplace expansion), for every successful construction"},
{"property": "C29", "status": "proved", "theorems": ["C29_draws", "C29_unbiased", "C29_mean_is_exact"], "note": "mean over all 2^(k n) draws, exact solver"},
{"property": "C30", "status": "proved", "theorems": ["C30_kernel_gradient", "C30_update_gradient"], "note": "kernel_gradient row j is the derivative of from_dist in parameter j (periods above e^-200, below which from_dist is nan); update_gradient stores entry j in parameter j"},
{"property": "C31", "status": "partial", "theorems": ["C31_documented_formula", "C31_correlation", "C31_decreasing", "C31_period", "C31_to_gpy", "C31_tiny_period_refuted"], "note": "all parts proved for kernels that evaluate to a number; below period e^-200 StdPeriodic returns nan (refuted there)"},
{"property": "C32", "status": "partial", "theorems": ["C32_psd_partial", "C32_std_periodic_2d_refuted"], "note": "PSD for RBF, Matern32, Identity and scalings in any dimension, StdPeriodic in one dimension; StdPeriodic on two or more dimensions is refuted for all parameters"},
{"property": "C33", "status": "partial", "theorems": ["C33_predict_partial", "C33_identity_fails", "C33_predict_refuted"], "note": "Proved for every mixture of the supplied kernels that contains no (scaled) Identity, in all three modes and all non-empty requests. Refuted otherwise: with an Identity kernel every prediction raises AttributeError (native variance evaluates from_dist(0), which calls a method of the int)."},
{"property": "C34", "status": "proved", "theorems": ["C34_native_variance"], "note": "For kernel mixtures without Identity (for Identity the evaluation raises, see C33)."},
{"property": "C35", "status": "partial", "theorems": ["C35_pointwise_partial", "C35_empty_fails", "C35_pointwise_refuted"], "note": "All modes, any solver returning vectors: each mean and variance is the value of one fixed function of output and point. Refuted on the fly for a request that has no point at all: ValueError instead of empty lists."},
{"property": "C36", "status": "proved", "theorems": ["C36_nonnegative", "C36_exact", "C36_on_the_fly"], "note": "Non-negativity holds for every solver and mode; exact mode gives the Gaussian conditional variance, between noise and prior variance; the on-the-fly variance is characterised too."},
{"property": "C37", "status": "proved", "theorems": ["C37_quantiles"], "note": "For any ppf (monotonicity under monotone ppf)."},
{"property": "C38", "status": "proved", "theorems": ["C38_normalize_standardises", "C38_inverse_mean_undoes_normalize", "C38_inverse_variance_scales"], "note": "Any non-constant outputs."},
{"property": "C39", "status": "partial", "theorems": ["C39_fresh_partial", "C39_sound", "C39_stale_refuted"], "note": "For every history over any number of objects without assignments to unlinked parameters, every query after an update that returned equals a computation from scratch; no update raises in histories of sound objects (C39_sound). Refuted for the scale of a Scaled kernel, which paramz does not know of."},
{"property": "C40", "status": "partial", "theorems": ["C40_series_partial", "C40_sound", "C40_none", "C40_raising_refuted"], "note": "Equal lengths, one entry per update since optimize began, whenever no update raised; none raises in histories of sound objects (C40_sound). Refuted when the exact likelihood of an update raises (negative noise assigned): two series are longer than the other three."},
{"property": "C41", "status": "partial", "theorems": ["C41_stops_partial", "C41_empty", "C41_cap_refuted"], "note": "For all gradient sequences and settings the loop ends after the first iteration that meets the documented condition, with one callback per iteration, and after at most max_it iterations if max_it >= 1. Refuted for max_it <= 0: one iteration is performed."},
{"property": "C42", "status": "proved", "theorems": ["C42_reports", "C42_distance"], "note": "For every behaviour of the Krylov solver; also bounds the distance from the solution for positive definite matrices."},
{"property": "C43", "status": "partial", "theorems": ["C43_validation_partial", "C43_validation_refuted"], "note": "ValueError exactly when the documented conditions other than repeated inputs fail; refuted for repeated inputs, which are accepted. An empty output passes (numpy's std of an empty array is nan)."},
{"property": "C44", "status": "partial", "theorems": ["C44_precompute_partial", "C44_split_rejected", "C44_subset_fails", "C44_precompute_refuted"], "note": "Works, with the precomputed grid variances as documented, when all kernels act on all dimensions; kernels on different dimensions raise ValueError. Refuted when all kernels share a proper subset of the dimensions: KeyError."},
{"property": "C45", "status": "proved", "theorems": ["C45_starmap_order_independent", "C45_starmap_failure_reported"], "note": "Workers may finish in any order; failures are reported."},
{"property": "C46", "status": "proved", "theorems": ["C46_density", "C46_normalised", "C46_gradient", "C46_from_EV", "C46_gaussian"], "note": "Textbook densities proved normalised (Gaussian integral, Gamma integral convergent and positive); gammaln is an oracle assumed to be ln of the Gamma integral."},
{"property": "C47", "status": "partial", "theorems": ["C47_gradient_partial", "C47_off", "C47_logexp", "C47_refuted"], "note": "Proved where the last prior in iteration order owns the index, or the index has no prior or no transformation. False otherwise (C47_refuted: two Gamma priors on positive parameters; C47_off: the entry lacks exactly the Jacobian derivative), because the comprehension in _log_prior_gradients reads the leftover loop variable."},
{"property": "C48", "status": "partial", "theorems": ["C48_linked_partial", "C48_gradient_count_partial", "C48_scaled_refuted"], "note": "holds for unscaled kernels; Scaled.scale is never linked (refuted)"},
{"property": "C49", "status": "proved", "theorems": ["C49_constant", "C49_gradient", "C49_initial", "C49_zero", "C49_errors"], "note": ""},
{"property": "C50", "status": "proved", "theorems": ["C50_predict", "C50_pointwise", "C50_quantiles", "C50_errors"], "note": "The wrapped GPy model is an oracle."},
{"property": "C51", "status": "partial", "theorems": ["C51_inherit_partial", "C51_returns", "C51_property_refuted", "C51_raises"], "note": "Proved for functions and for properties documented by their getter. False otherwise: a property with documentation of its own loses it (C51_property_refuted), and an undocumented property overriding a non-property makes the decorator raise (C51_raises). Assumes the class's functions are objects of their own."},
{"property": "C52", "status": "proved", "theorems": ["C52_operator_history"], "note": "All histories of pickling and operator use."},
{"property": "C53", "status": "proved", "theorems": ["C53_log_det", "C53_log_likelihood", "C53_on_grid"], "note": "The determinant is the exact covariance's while alpha comes from the grid covariance, as in the code; for data on the grid (no extra identity block) log_likelihood is the Gaussian log density."},
{"property": "C54", "status": "proved", "theorems": ["C54_update_gradient", "C54_exact_delivery"], "note": "delivery of any gradients of the right shapes, and end to end for the exact likelihood: the slots hold the partial derivatives"},
{"property": "C55", "status": "proved", "theorems": ["C55_exact_exists", "C55_exact_succeeds"], "note": "LinAlgError exactly on covariances that are not positive definite; never for positive noise, non-negative diagonals and periodic kernels on one dimension"},
{"property": "C56", "status": "proved", "theorems": ["C56_expected_gradients", "C26_operator"], "note": "The expectation is the mean over all equally likely sign arrays; solver exactness is a hypothesis on the oracle."},
{"property": "C57", "status": "proved", "theorems": ["C57_generate_grids", "C57_single_number"], "note": "groups of one or two active dimensions (multi_interpolant supports no more); one number as an argument is refused when some kernel acts on several dimensions"},
{"property": "C58", "status": "proved", "theorems": ["C58_mean", "C58_on_grid"], "note": ""},
{"property": "C59", "status": "proved", "theorems": ["C59_init", "C59_init_rejects", "C59_fit"], "note": ""},
{"property": "C60", "status": "partial", "theorems": ["C60_covariance_partial", "C60_dims_refuted", "C60_ranks_refuted"], "note": "Proved for one-dimensional inputs with one rank per kernel. False for two-dimensional inputs (C60_dims_refuted: input_dim is fixed to 1, so a coordinate is read as the output index) and with fewer ranks (C60_ranks_refuted)."},
{"property": "C61", "status": "proved", "theorems": ["C61_noise_floor", "C61_iterative", "C61_predictions", "C61_gradients", "C61_expected"], "note": "Residual at most eps and noise at least s; on-the-fly variances only. The bound's constants are stated in the theorems."},
{"property": "C62", "status": "proved", "theorems": ["C62_variance"], "note": "Exact solves; the variance over all sign draws and Chebyshev's bound."},
{"property": "C63", "status": "proved", "theorems": ["C63_smooth", "C63_spacing", "C63_inside", "C63_covariance", "C63_fit", "C63_predictions"], "note": "Points outside the outermost cells; kernels other than the identity, periodic ones in one dimension; variances computed on the fly. No surplus ranks for the observations' covariance and the predictions."},
{"property": "C64", "status": "proved", "theorems": ["C64_series", "C64_update", "C64_solver"], "note": "Histories of sound objects (valid data, positive noise, exact solves); the reports of Iterative.solve are arbitrary; C64_solver: what those reports are for Iterative.solve."},
{"property": "C65", "status": "proved", "theorems": ["C65_units", "C65_translation"], "note": "a > 0; a bound of the grid given as one number requires all columns to move alike; periods stay on the same side of the cut-off exp(-200) of std_periodic.py:45 (no condition for translations)."},
{"property": "C66", "status": "proved", "theorems": ["C66_units"], "note": "c_d > 0, no output without observations."},
{"property": "C67", "status": "partial", "theorems": ["C67_set_prior_partial", "C67_one_prior", "C67_refuted"], "note": "Which priors, values and constraints set_prior and unset_prior leave, for every history; never two priors on one entry. Missing (refuted): a parameter with a prior may be fixed or constrained otherwise, because the check looks at nothing; a prior without a domain raises KeyError after the prior is set; a zero stays zero."},
{"property": "C68", "status": "partial", "theorems": ["C68_rand_pd_partial", "C68_rand_pd_refuted", "C68_exp_partial", "C68_exp_rate", "C68_exp_refuted", "C68_random_toep", "C68_poor_cond_toep", "C68_basic_gradient_partial", "C68_basic_gradient_refuted", "C68_error_context_partial", "C68_error_context_refuted", "C68_oracle_exists"], "note": "Generators end and give positive (semi-)definite matrices for all draws; BasicModel's gradient is that of the log density. Missing (refuted): entries may be zero; decay is slower than promised; the gradient is not that of the jittered value returned; an assertion without message becomes an IndexError."},
{"property": "C69", "status": "partial", "theorems": ["C69_smse", "C69_smse_undefined", "C69_model_units", "C69_nlpd_partial", "C69_nlpd_negative", "C69_nlpd_refuted"], "note": "smse proved in full, also composed with a normalising model, and undefined without spread; nlpd proved for test points with a predictive variance other than 0, undefined for a negative one, refuted for 0 (they are silently left out)"},
{"property": "C70", "status": "partial", "theorems": ["C70_fx_partial", "C70_fx_refuted", "C70_weather"], "note": "the weather split proved in full; the exchange rate split proved except that held-out days without a value become nan test outputs (refuted)"},
{"property": "C71", "status": "proved", "theorems": ["C71_init", "C71_order", "C71_more_data"], "note": "Solves assumed exact (oracle). Precomputed variances are compared on the grid only. Added data must keep the grid (lie within the range) and the normalisation."},
{"property": "C72", "status": "proved", "theorems": ["C72_residuals", "C72_observed"], "note": "Solves assumed exact (oracle). On the fly: points of the grid and no superfluous identities (C23)."},
{"property": "C73", "status": "partial", "theorems": ["C73_cells", "C73_sign_refuted", "C73_table", "C73_rows_refuted"], "note": "Cells and rows as stated; refuted for signed numbers and for stations listed twice."},
{"property": "C74", "status": "partial", "theorems": ["C74_degrees", "C74_only", "C74_decimal_refuted", "C74_map_partial", "C74_map_refuted", "C74_centre_refuted"], "note": "Degrees, minutes, seconds as stated; refuted for decimal minutes, an unreadable first location, and the centre of the map."},
{"property": "C75", "status": "partial", "theorems": ["C75_stats_partial", "C75_sign_refuted", "C75_missing", "C75_signed_error"], "note": "Numbers as printed without sign; refuted for negative means."},
{"property": "C76", "status": "proved", "theorems": ["C76_table", "C76_stats", "C76_stderr_below", "C76_expected"], "note": ""},
{"property": "C77", "status": "partial", "theorems": ["C77_arguments_partial", "C77_default_refuted", "C77_kernels", "C77_errors"], "note": "All arguments given; the documented default of the test type is refuted."},
{"property": "C78", "status": "partial", "theorems": ["C78_same_covariance_partial", "C78_same_covariance_refuted"], "note": "Equal predictions and likelihood for equal covariance functions, provided the redundant identities of C23 appear in both models or in neither; refuted otherwise."},
{"property": "C79", "status": "proved", "theorems": ["C79_separate", "C79_linear"], "note": "For fitted models with exact solves; the grid must be the same in both models (it is built from the inputs of all outputs)."},
{"property": "C80", "status": "proved", "theorems": ["C80_lipschitz"], "note": "exact solver assumed as in C30; identity kernels excluded (predict raises)"},
{"property": "C81", "status": "proved", "theorems": ["C81_sampled", "C81_layout", "C81_split", "C81_family"], "note": "exact arithmetic; files as values; samples per output generalised from 10000"},
{"property": "C82", "status": "proved", "theorems": ["C82_edge", "C82_prior_variance", "C82_prior_mean_refuted"], "note": "C82_edge: means (and precompute variances) frozen past the grid; C82_prior_variance: variances tend to the prior; C82_prior_mean_refuted: in every mode a model whose means do not return to the prior mean (and, with precompute, whose variance does not return either)."},
{"property": "C83", "status": "proved", "theorems": ["C83_variance", "C83_prior", "C83_likelihood"], "note": "Solves assumed exact (oracle). Precomputed variances are compared at grid points only."},
{"property": "C84", "status": "proved", "theorems": ["C84_exact", "C84_on_the_fly", "C84_observations"], "note": "Solves assumed exact (oracle). Precomputed variances are not covered; off the grid the predicted mean uses the interpolated covariance, whose weights are not the best ones in general."},
{"property": "C85", "status": "proved", "theorems": ["C85_chain"], "note": "Solves assumed exact (oracle). Samples and the new point on the grid, no surplus identities; precomputed variances not covered."},
{"property": "C86", "status": "proved", "theorems": ["C86_score", "C86_truth", "C86_stochastic_score"], "note": "Score for the exact likelihood in general and for the stochastic likelihood with exact solves; the maximum for models whose data lie on the grid and whose covariance has no surplus term (where the log likelihood is the log density, C53)."},
{"property": "C87", "status": "partial", "theorems": ["C87_report_partial", "C87_count", "C87_count_refuted", "C87_ranks_raise", "C87_ranks_refuted"], "note": "Proved for kernels of equal rank, except the count printed for the coregionalisation vectors, which is the number of vectors (C87_count, C87_count_refuted). Different ranks raise ValueError (C87_ranks_raise, C87_ranks_refuted)."},
{"property": "C88", "status": "partial", "theorems": ["C88_lines_partial", "C88_silent", "C88_lines_refuted", "C88_moving_average", "C88_rolled_max", "C88_cutoff_partial", "C88_cutoff_refuted"], "note": "The lines printed are characterised and counted for every run; v lines exactly when max_it mod v < max_it / v (C88_lines_partial, C88_lines_refuted). The plotted line is the stopping threshold for min_grad_ratio=0.2, not for the default (C88_cutoff_partial, C88_cutoff_refuted)."},
{"property": "C89", "status": "partial", "theorems": ["C89_workers_partial", "C89_warning_refuted"], "note": "The choice of workers is proved. The warning is proved in one direction, and in both for 300 or more observations and a non-zero request; it also appears for models that run serially (C89_warning_refuted)."},
{"property": "C90", "status": "partial", "theorems": ["C90_systems_partial", "C90_dense_refuted", "C90_kept_refuted", "C90_arguments", "C90_seed", "C90_vectorize", "C90_check_lists_partial", "C90_check_lists_refuted", "C90_step_partial", "C90_step_refuted"], "note": "Proved except that the dense form lacks the noise (C90_dense_refuted), kept objects change (C90_kept_refuted), check_np_lists is not symmetric (C90_check_lists_refuted), and a step with too small an L can lower the objective (C90_step_refuted)."},
{"property": "C91", "status": "proved", "theorems": ["C91_separates"], "note": "Exact solves; the four models share the grid."},
{"property": "C92", "status": "proved", "theorems": ["C92_likelihood", "C92_error", "C92_between", "C92_limit"], "note": "No identity kernels, no superfluous identities (C23_selection); variances only for prediction 'on-the-fly'."},
{"property": "C93", "status": "partial", "theorems": ["C93_panels", "C93_limits_partial", "C93_marks_partial", "C93_duplicates", "C93_limits_refuted", "C93_marks_refuted", "C93_all_kernels_refuted"], "note": "Limits and marks proved when no pair of a kernel's q and eps is missing and refuted otherwise; at most four kernels are drawn, also refuted."},
{"property": "C94", "status": "proved", "theorems": ["C94_state", "C94_switch", "C94_keeps"], "note": "Histories as in C39 with sound objects and exact solvers; an unknown name assigned later is not modelled."},
{"property": "C95", "status": "proved", "theorems": ["C95_derivative", "C95_rate", "C95_limit"], "note": "C95_derivative bounds the derivatives of the covariance entry by entry; C95_rate the mean of the gradients over the draws; C95_limit is the limit. Exact arithmetic; residuals of the solver enter as a bound."},
{"property": "C96", "status": "proved", "theorems": ["C96_rate", "C96_limit", "C96_modes"], "note": "Kernels on all dimensions, as the mode requires (C44); without surplus; points between inputs and bounds."},
{"property": "C97", "status": "proved", "theorems": ["C97_completes", "C97_no_runs", "C97_slfm_form", "C97_alvarez_form", "C97_return_lmc_refuted"], "note": "Values that the optimiser tries are in the ranges that the constraints keep; kernels without active dimensions, identities or periods, as the benchmarks use. return_lmc=False is refuted."},
{"property": "C98", "status": "proved", "theorems": ["C98_fx", "C98_weather", "C98_holdout_shown", "C98_band", "C98_days_refuted"], "note": "Models in one dimension, as in the benchmarks. That there is a picture whenever COGP's results are for every day is refuted."},
{"property": "C99", "status": "proved", "theorems": ["C99_value", "C99_fresh", "C99_gradient", "C99_missing", "C99_never", "C99_ignores", "C99_refuted"], "note": "What the log prior and gradients are and lack is proved; the docstring's claim is refuted. The derivative in the first parameter of an inverse Gamma prior is left out (it needs the digamma function), as the notebook uses the second."}
]}
