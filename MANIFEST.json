{
 "claims": [
  {
   "property": "C01",
   "status": "proved",
   "theorems": [
    "C01_particles_inside_their_level",
    "C01_particles_inside_during_round",
    "C01_rows_inside_their_level",
    "C00_sampler_memory_safe"
   ],
   "note": "Invariant over every reachable state of the multi-task run; C00 adds that no out-of-bounds access occurs."
  },
  {
   "property": "C02",
   "status": "proved",
   "theorems": [
    "C02_thresholds_permanent",
    "C02_thresholds_nondecreasing",
    "C02_thresholds_increasing",
    "C02_strict_without_distinct_values_refuted"
   ],
   "note": "Permanence and order proved; strictness proved for distinct recorded values and refuted without that hypothesis."
  },
  {
   "property": "C03",
   "status": "proved",
   "theorems": [
    "C03_counters_consistent"
   ],
   "note": "All level records of all tasks in every reachable state, hence everything that is written from them."
  },
  {
   "property": "C04",
   "status": "proved",
   "theorems": [
    "C04_no_lost_work",
    "C04_tries_count_steps"
   ],
   "note": "Per-round conservation and total number of tries while levels are being built."
  },
  {
   "property": "C05",
   "status": "proved",
   "theorems": [
    "C05_log_prior_mass"
   ],
   "note": "Over real numbers, for the level table of every reachable state."
  },
  {
   "property": "C06",
   "status": "proved",
   "theorems": [
    "C06_pool_fits",
    "C06_no_overflow_abort",
    "C06_small_compression_refuted"
   ],
   "note": "No overflow for compression >= 2; overflow witness for compression 1.1."
  },
  {
   "property": "C07",
   "status": "proved",
   "theorems": [
    "C07_level_count_bounded"
   ],
   "note": ""
  },
  {
   "property": "C08",
   "status": "proved",
   "theorems": [
    "C08_saves_at_any_time",
    "C08_exactly_M_samples",
    "C08_no_abort_after_building",
    "C08_wraparound_refuted"
   ],
   "note": "Exact count at termination and at any time; witness that 32-bit wrap-around breaks the count for extreme settings."
  },
  {
   "property": "C09",
   "status": "proved",
   "theorems": [
    "C09_rows_describe_one_particle"
   ],
   "note": ""
  },
  {
   "property": "C10",
   "status": "proved",
   "theorems": [
    "C10_same_tables",
    "C10_identical_after_a_round",
    "C10_agree_on_building"
   ],
   "note": ""
  },
  {
   "property": "C11",
   "status": "proved",
   "theorems": [
    "C11_replacement_copies_a_survivor"
   ],
   "note": ""
  },
  {
   "property": "C12",
   "status": "proved",
   "theorems": [
    "C12_limits_nested",
    "C12_limits_only_grow",
    "C12_limits_contain_recorded"
   ],
   "note": "Includes that every recorded value is contained."
  },
  {
   "property": "C13",
   "status": "proved",
   "theorems": [
    "C13_level_wraparound"
   ],
   "note": ""
  },
  {
   "property": "C14",
   "status": "proved",
   "theorems": [
    "C14_wrap",
    "C14_wrap_identity",
    "C14_wrap_idempotent",
    "C14_wrap_empty_interval",
    "C14_wrap_reversed_interval_exits",
    "C14_clamp"
   ],
   "note": "Over real numbers."
  },
  {
   "property": "C15",
   "status": "proved",
   "theorems": [
    "C15_callbacks_inconsistent",
    "C15_sort_permutes",
    "C15_level_pool_descending",
    "C15_samples_ascending",
    "C15_centres_ascending"
   ],
   "note": "Assumes glibc's merge sort; callbacks are shown to be inconsistent orderings."
  },
  {
   "property": "C16",
   "status": "proved",
   "theorems": [
    "C16_new_level_is_quantile",
    "C16_pools_are_numeric"
   ],
   "note": ""
  },
  {
   "property": "C17",
   "status": "proved",
   "theorems": [
    "C17_snapshot_round_trip",
    "C17_tasks_get_their_particles_back",
    "C17_step_counter_refuted"
   ],
   "note": "Byte-level writer and reader; task-by-task restoration; the step counter is proved lossy above 2^32."
  },
  {
   "property": "C18",
   "status": "proved",
   "theorems": [
    "C18_fewer_levels_read",
    "C18_reassignment",
    "C18_invariants_across_restarts",
    "C18_memory_safe_across_restarts",
    "C18_restart_succeeds",
    "C18_minus_infinity_refuted",
    "C18_nan_refuted"
   ],
   "note": "Reader with fewer levels, reassignment loop, invariants through any sequence of restarts; witnesses for minus infinity and NaN log-likelihoods."
  },
  {
   "property": "C19",
   "status": "proved",
   "theorems": [
    "C19_last_snapshot_is_final_state",
    "C19_rows_after_restart",
    "C19_stop_and_continue",
    "C19_rows_after_crash",
    "C19_crash_refuted"
   ],
   "note": "Row counts over stop/continue; exact excess after a crash and a crash witness with 11 instead of 10 rows."
  },
  {
   "property": "C20",
   "status": "proved",
   "theorems": [
    "C20_line",
    "C20_values",
    "C20_rejected",
    "C20_accepted",
    "C20_order",
    "C20_interval",
    "C20_terminates",
    "C20_long_comment_refuted",
    "C20_zero_steps_refuted",
    "C20_interval_wrap_refuted"
   ],
   "note": "For every file without NUL and without lines over 198 characters, every number conversion, line order irrelevant. Refuted outside: a comment line over 199 characters stops the program; accepted options may have zero steps per round; the interval guarantee needs tasks*steps < 2^32 (unsigned wrap)."
  },
  {
   "property": "C21",
   "status": "proved",
   "theorems": [
    "C21_defined",
    "C21_weights",
    "C21_evidence",
    "C21_information",
    "C21_written_weights"
   ],
   "note": "Over the real numbers (no rounding). Weights sum to one, evidence bounds, information >= 0, weights file relative to the maximum."
  },
  {
   "property": "C22",
   "status": "proved",
   "theorems": [
    "C22_ess"
   ],
   "note": "Both bounds, both equality cases, and the truncated number of posterior samples."
  },
  {
   "property": "C23",
   "status": "proved",
   "theorems": [
    "C23_between",
    "C23_order",
    "C23_single",
    "C23_sandwich",
    "C23_weight"
   ],
   "note": "Masses strictly between level masses and ordered by likelihood; lone sample has no mass; weights are neighbour differences."
  },
  {
   "property": "C24",
   "status": "proved",
   "theorems": [
    "C24_posterior"
   ],
   "note": "For all lists of draws; acceptance iff u < w/wmax, so proportional to the weight when draws are uniform."
  },
  {
   "property": "C25",
   "status": "proved",
   "theorems": [
    "C25_logsumexp",
    "C25_logdiffexp",
    "C25_permutation",
    "C25_shift",
    "C25_no_overflow"
   ],
   "note": "Exactness, permutation and shift invariance, and exponentials only of non-positive numbers."
  },
  {
   "property": "C26",
   "status": "proved",
   "theorems": [
    "C26_vector",
    "C26_matrix",
    "C26_inverse"
   ],
   "note": "Vector, matrix, transposed-matrix and inverse routines, real arithmetic. For the inverse, LAPACK dtrtri/dlauum are assumed to meet their documented contracts (shown satisfiable)."
  },
  {
   "property": "C27",
   "status": "proved",
   "theorems": [
    "C27_lndet"
   ],
   "note": "lndet returned by inverse_semiseparable, and the sum of log D, equal ln of the determinant (mathcomp \\det). LAPACK contracts as for C26."
  },
  {
   "property": "C28",
   "status": "proved",
   "theorems": [
    "C28_pivots",
    "C28_positive_definite",
    "C28_ties_without_error_refuted"
   ],
   "note": "Pivots positive and quadratic form positive for ordered times where equal neighbouring times carry noise; the condition is needed (C28_ties_without_error_refuted)."
  },
  {
   "property": "C29",
   "status": "proved",
   "theorems": [
    "C29_iter",
    "C29_semiseparable_iter",
    "C29_positive_definite_leading",
    "C29_no_line_refuted",
    "C29_one_step",
    "C29_one_step_full",
    "C29_no_2x2_pivot"
   ],
   "note": "One step (three routines) and iterated (both variants) over a memory with addresses, any block sizes; LAPACK dsytrf/dsytri under a contract shown satisfiable; the log-determinant for positive definite matrices (the pivot rule never takes a 2x2 block there: C29_no_2x2_pivot). With no line the routine leaves the matrix unchanged: C29_no_line_refuted."
  },
  {
   "property": "C30",
   "status": "proved",
   "theorems": [
    "C30_trend_matrix",
    "C30_likelihood",
    "C30_trend_invariant",
    "C30_continuum",
    "C30_sum_of_sets"
   ],
   "note": "Line likelihood (scaled matrices, partitioned inverse) and continuum likelihood, any number of lines, trend order and data: equals the trend-marginalised likelihood, q minimises chi-square, invariant under trends. Full column rank is derived from enough different times per curve. The sign/return-code tests never fire for a positive definite matrix. LAPACK under contracts shown satisfiable; real arithmetic. The sum over data sets is C30_sum_of_sets."
  },
  {
   "property": "C31",
   "status": "proved",
   "theorems": [
    "C31_tophat_continuum_line",
    "C31_tophat_line_line",
    "C31_tophat_one_line"
   ],
   "note": "all four scalar loops with the top-hat bodies, over the reals; covariances specified as improper integrals of the transfer functions against the damped random walk; any number of components, any decoding of the amplitude (exp or identity)"
  },
  {
   "property": "C32",
   "status": "proved",
   "theorems": [
    "C32_exponential_continuum_line",
    "C32_exponential_line_line",
    "C32_exponential_one_line",
    "C32_exponential_accuracy_continuum_line",
    "C32_exponential_accuracy_line_line",
    "C32_band_exact_refuted"
   ],
   "note": "exact when every width is clear of the tolerance band or equal to the damping time; for all parameters the value is within 2 EPS (continuum-line) or 4 EPS (line-line) times the sum of amplitudes of the true covariance; inside the band exactness is refuted by a witness"
  },
  {
   "property": "C33",
   "status": "proved",
   "theorems": [
    "C33_gamma_continuum_line",
    "C33_gamma_line_line",
    "C33_gamma_one_line",
    "C33_gamma_accuracy_continuum_line",
    "C33_gamma_accuracy_line_line",
    "C33_band_exact_refuted"
   ],
   "note": "as C32 with 6 EPS and 50 EPS"
  },
  {
   "property": "C34",
   "status": "proved",
   "theorems": [
    "C34_gaussian_continuum_line",
    "C34_gaussian_line_line",
    "C34_gaussian_one_line"
   ],
   "note": "gsl_sf_log_erfc enters through the contract log_erfc_correct (its exponential is the complementary error function integral), shown satisfiable"
  },
  {
   "property": "C35",
   "status": "proved",
   "theorems": [
    "C35_gaussian_arrays",
    "C35_tophat_arrays",
    "C35_gamma_arrays",
    "C35_exponential_arrays",
    "C35_gaussian_symmetric",
    "C35_tophat_symmetric",
    "C35_exponential_symmetric",
    "C35_gamma_symmetric",
    "C35_exponential_symmetric_refuted",
    "C35_gamma_symmetric_refuted"
   ],
   "note": "array routines equal scalar routines entry by entry for all four types (one-line blocks: lower triangle, rest untouched); symmetry for all parameters for gaussian and top-hat, and for exponential and gamma outside the excluded case; in the excluded case symmetry is refuted by a witness"
  },
  {
   "property": "C36",
   "status": "proved",
   "theorems": [
    "C36_symmetric_and_noise",
    "C36_array_version",
    "C36_array_symmetric_and_noise",
    "C36_entries",
    "C36_array_entries",
    "C36_reconstruction_data_matrix",
    "C36_reconstruction_matrix"
   ],
   "note": "Assembly of the data, data-reconstruction and reconstruction covariance matrices for every number of lines and points, every transfer-function type and both amplitude encodings; entries are the integrals of C31-C34 (exp and gamma widths clear of the tolerance band or equal to the damping time); alldata[k].n is taken to be the number of points."
  },
  {
   "property": "C37",
   "status": "proved",
   "theorems": [
    "C37_likelihood",
    "C37_likelihood_vmap",
    "C37_continuum",
    "C37_reconstruction",
    "C37_reconstruction_trend",
    "C37_no_line_refuted",
    "C37_decomposition",
    "C37_inverse",
    "C37_matrices",
    "C37_reused_matrix",
    "C37_reused_matrix_refuted"
   ],
   "note": "All routines in use that carve the work arrays; every piece in bounds in bytes, pieces in use at the same time disjoint, for every list of data sets. Refuted: 4 bytes over the end in reconstruction of a single set without lines and without trend; the reused matrix of reconstruct_line_from_varmodel3 when curves have fewer points than trend terms. Superseded variants of the likelihood that are never called are not modelled."
  },
  {
   "property": "C38",
   "status": "proved",
   "theorems": [
    "C38_only_lines",
    "C38_own_slot",
    "C38_tile",
    "C38_shared",
    "C38_variability",
    "C38_centre_test",
    "C38_ranges"
   ],
   "note": "Index table, ranges and centre recognition for every shape; own, shared and variability slots."
  },
  {
   "property": "C39",
   "status": "proved",
   "theorems": [
    "C39_line",
    "C39_mmap",
    "C39_vmap",
    "C39_pmap",
    "C39_con",
    "C39_own_fixed",
    "C39_own_conditions",
    "C39_loaded_ranges_refuted",
    "C39_own_fixed_mixed",
    "C39_own_fixed_photometric",
    "C39_own_fixed_continuum"
   ],
   "note": "All four line modes and the continuum fit, any number of perturbations; hypotheses shown to hold for the program's own set-up (C39_own_conditions). The failure with loaded unequal centre ranges is proved (refuted)."
  },
  {
   "property": "C40",
   "status": "proved",
   "theorems": [
    "C40_line",
    "C40_mmap",
    "C40_positivity_refuted"
   ],
   "note": "Line and velocity-map modes; violation with the positivity option on is proved (refuted)."
  },
  {
   "property": "C41",
   "status": "proved",
   "theorems": [
    "C41_relation_imposed",
    "C41_range_refuted",
    "C41_not_positive_refuted"
   ],
   "note": "The expected property is false in the code: refutations of positivity and of the range; what is imposed instead is C41_relation_imposed."
  },
  {
   "property": "C42",
   "status": "proved",
   "theorems": [
    "C42_header",
    "C42_data",
    "C42_zero_entry_refuted"
   ],
   "note": "Both header passes and all data rows, character by character, for every header of decimal fields with blanks and every body of rows; any %lf meeting a stated contract (satisfied by an instance). General theorem says what a zero entry does; witness that it breaks reading. The nmap branch is not covered here."
  },
  {
   "property": "C43",
   "status": "proved",
   "theorems": [
    "C43_actual",
    "C43_first_set",
    "C43_refuted"
   ],
   "note": "The statement's failure is proved: set i gets numbers i and i+1 (C43_actual), the intended reading is refuted (C43_refuted) and holds for the first set (C43_first_set)."
  },
  {
   "property": "C44",
   "status": "proved",
   "theorems": [
    "C44_one_pair",
    "C44_pairs",
    "C44_odd",
    "C44_refuted"
   ],
   "note": "One pair gives the pair to all components; two or more pairs are undefined behaviour for every count (C44_pairs); odd counts stop. The intended reading is refuted."
  },
  {
   "property": "C45",
   "status": "proved",
   "theorems": [
    "C45_lag",
    "C45_width"
   ],
   "note": "All strings of numerals and all component counts; the width version also takes logs and stops on non-positive numbers."
  },
  {
   "property": "C46",
   "status": "proved",
   "theorems": [
    "C46_line",
    "C46_accepted",
    "C46_decided",
    "C46_rejected",
    "C46_order",
    "C46_negative_resp_refuted",
    "C46_type_tf_refuted",
    "C46_mmap_prior_refuted",
    "C46_alias_order_refuted"
   ],
   "note": "Acceptance is characterised exactly (acceptable <-> Ok). Exceptions refuted: FlagNegativeResp, TypeTF unchecked; old/new component names are order dependent; in mmap mode the lag prior checks use the wrong number of components."
  },
  {
   "property": "C47",
   "status": "proved",
   "theorems": [
    "C47_accepted",
    "C47_factors",
    "C47_file",
    "C47_vmap_rows_uninitialised_refuted",
    "C47_vmap_rows_refuted",
    "C47_output"
   ],
   "note": "Acceptance characterised; factors positive, undone on output, all 1 / all averages / all half ranges; normalization.txt rows exact outside velocity-map mode; in velocity-map mode the continuum row is an uninitialised or foreign value (refuted)."
  },
  {
   "property": "C48",
   "status": "proved",
   "theorems": [
    "C48_each_row_once",
    "C48_result",
    "C48_independent",
    "C48_variance",
    "C48_rounded_variance_refuted",
    "C48_rounded_independence_refuted"
   ],
   "note": "Distribution, sums, reduction in any order, output, for any number of rows and tasks over the reals; in IEEE doubles (exact bit-level arithmetic) both the sign of the variance and the independence of the last bits are refuted by witnesses."
  },
  {
   "property": "C49",
   "status": "proved",
   "theorems": [
    "C49_records",
    "C49_bad_index",
    "C49_comment_loops",
    "C49_unterminated_line_ignored",
    "C49_refuted"
   ],
   "note": "Files of record lines: last record per parameter wins, others unchanged. Comment or blank line: no fuel suffices (C49_comment_loops), so the full claim is refuted; also an unterminated last line is ignored."
  },
  {
   "property": "C50",
   "status": "proved",
   "theorems": [
    "C50_best",
    "C50_otherwise",
    "C50_refuted"
   ],
   "note": "First largest evidence whenever some evidence exceeds -DBL_MAX; otherwise the first number. The NaN clause is refuted for [NaN; -infinity] (C50_refuted)."
  },
  {
   "property": "C51",
   "status": "proved",
   "theorems": [
    "C51_actual",
    "C51_otherwise",
    "C51_refuted"
   ],
   "note": "Any library version. Exact result (C51_actual), right except for a lower patch (C51_otherwise), witness of failure (C51_refuted)."
  },
  {
   "property": "C52",
   "status": "proved",
   "theorems": [
    "C52_mean_std",
    "C52_mean_in_range",
    "C52_std"
   ],
   "note": "Over the reals, any number of rows >= 1 and columns; mean within range; sum of squares relation and single-row case."
  },
  {
   "property": "C53",
   "status": "proved",
   "theorems": [
    "C53_inplace",
    "C53_copy",
    "C53_agree"
   ],
   "note": "Memory with addresses, any value type and addition; both versions, agreement, and untouched input and surroundings."
  },
  {
   "property": "C54",
   "status": "proved",
   "theorems": [
    "C54_ranges"
   ],
   "note": "Over the reals, all sets; the result is characterised as a set intersection, stopping exactly when it is empty."
  },
  {
   "property": "C55",
   "status": "proved",
   "theorems": [
    "C55_elapsed",
    "C55_overflow_refuted"
   ],
   "note": "In IEEE binary64 with round-to-nearest-even (Flocq): exact for every double from 0 up to 596524 hours; int overflow from there on."
  },
  {
   "property": "C56",
   "status": "proved",
   "theorems": [
    "C56_set_of_parameter",
    "C56_shared_refuted"
   ],
   "note": "Proved for own and tied transfer functions; refuted for shared ones."
  },
  {
   "property": "C57",
   "status": "proved",
   "theorems": [
    "C57_missing_line_refuted"
   ],
   "note": "Refutation: undefined behaviour for every such shape."
  },
  {
   "property": "C58",
   "status": "proved",
   "theorems": [
    "C58_vmap_abort_refuted"
   ],
   "note": "Refutation: for every such configuration there are draws that make the next perturbation exit."
  },
  {
   "property": "C59",
   "status": "proved",
   "theorems": [
    "C59_grid",
    "C59_empty_line_refuted",
    "C59_one_point_refuted"
   ],
   "note": "Grid equally spaced and covering all data, repeated times and any extensions of the range allowed that leave some time; refuted for lines without data (undefined behaviour for all such sets) and for one point."
  },
  {
   "property": "C60",
   "status": "proved",
   "theorems": [
    "C60_light_curves",
    "C60_kernel_nonnegative",
    "C60_continuum"
   ],
   "note": "Real arithmetic. For lines the joint covariance of the true value and the data is a hypothesis (the entries are C36); for the continuum alone it is proved. BLAS/LAPACK contracts as hypotheses, shown satisfiable."
  },
  {
   "property": "C61",
   "status": "proved",
   "theorems": [
    "C61_mixed_continuum_line"
   ],
   "note": "all shape strings; real arithmetic; contract of log_erfc"
  },
  {
   "property": "C62",
   "status": "proved",
   "theorems": [
    "C62_mixed_line_line",
    "C62_mixed_one_line"
   ],
   "note": "all sixteen pairs of shapes; real arithmetic; contracts of log_erfc and erfc"
  },
  {
   "property": "C63",
   "status": "proved",
   "theorems": [
    "C63_mixed_arrays",
    "C63_mixed_symmetric"
   ],
   "note": "for any log_erfc and erfc"
  },
  {
   "property": "C64",
   "status": "proved",
   "theorems": [
    "C64_gauss_gamma_band_refuted"
   ],
   "note": "the property states a failure; the theorem exhibits the parameters"
  },
  {
   "property": "C65",
   "status": "proved",
   "theorems": [
    "C65_component_covariances",
    "C65_components_add_up",
    "C65_matrices",
    "C65_time_unit_refuted"
   ],
   "note": "values proved for all parameters outside the tolerance; the tolerance compares a rate with a pure number, failure at long time scales proved"
  },
  {
   "property": "C66",
   "status": "proved",
   "theorems": [
    "C66_component_curves",
    "C66_components_add_up",
    "C66_mixed_components_add_up",
    "C66_error_refuted"
   ],
   "note": "curves proved; refutation: the printed errors are not those of the printed prediction"
  },
  {
   "property": "C67",
   "status": "proved",
   "theorems": [
    "C67_component_covariances",
    "C67_components_add_up",
    "C67_matrices",
    "C67_variance_refuted"
   ],
   "note": "covariances with the data proved; refutation for the variance when the shape differs from type_tf"
  },
  {
   "property": "C68",
   "status": "proved",
   "theorems": [
    "C68_data_positive_definite",
    "C68_joint_covariance",
    "C68_covariance_symmetric",
    "C68_program_matrix",
    "C68_program_mixed_matrix"
   ],
   "note": "Spec-level theorems for all responses of the four shapes; program matrices under the exactness conditions of C31-C34, C61, C62."
  },
  {
   "property": "C69",
   "status": "proved",
   "theorems": [
    "C69_described",
    "C69_likelihood",
    "C69_mixed_described",
    "C69_mixed_likelihood"
   ],
   "note": "Composition of C36/C63, C68 and C30; LAPACK by contract."
  },
  {
   "property": "C70",
   "status": "proved",
   "theorems": [
    "C70_light_curves",
    "C70_mixed_light_curves"
   ],
   "note": "Composition of C36/C63, C68 and C60; LAPACK by contract."
  },
  {
   "property": "C71",
   "status": "proved",
   "theorems": [
    "C71_program_matrix",
    "C71_trend_matrix",
    "C71_described",
    "C71_likelihood",
    "C71_one_line_refuted"
   ],
   "note": "Two or more lines: C71_likelihood, nothing assumed about the matrices. One line: C71_one_line_refuted gives the wrong value. Real arithmetic, LAPACK by contract."
  },
  {
   "property": "C72",
   "status": "proved",
   "theorems": [
    "C72_light_curves",
    "C72_error_refuted"
   ],
   "note": "C72_light_curves states value and error of lines and driving curve; that the driving-curve error is too small against the best unbiased prediction is C72_error_refuted."
  },
  {
   "property": "C73",
   "status": "proved",
   "theorems": [
    "C73_normalized",
    "C73_fails"
   ],
   "note": "Real arithmetic. The program does not test for a constant curve; the model returns None there."
  },
  {
   "property": "C74",
   "status": "proved",
   "theorems": [
    "C74_described",
    "C74_general",
    "C74_mixed_described",
    "C74_mixed",
    "C74_virtual_described",
    "C74_virtual"
   ],
   "note": "general, mixed and virtual mode; under the exactness conditions of C31-C35 on the parameters"
  },
  {
   "property": "C75",
   "status": "proved",
   "theorems": [
    "C75_described",
    "C75_ratio"
   ],
   "note": "positive responses only, as the mode requires"
  },
  {
   "property": "C76",
   "status": "proved",
   "theorems": [
    "C76_line",
    "C76_mmap",
    "C76_pmap",
    "C76_vmap",
    "C76_con"
   ],
   "note": "Detailed balance in all four modes with lines and in the continuum fit; in the virtual mode for the line parameters (C78 for the others). Real arithmetic. Draws are compared pairwise: the move back uses the negated heavy-tailed draw, whose distribution is symmetric."
  },
  {
   "property": "C77",
   "status": "proved",
   "theorems": [
    "C77_level_moves"
   ],
   "note": "Level proposals and acceptance, real arithmetic."
  },
  {
   "property": "C78",
   "status": "proved",
   "theorems": [
    "C78_damping_refuted"
   ],
   "note": "Refuted: in the virtual mode every move of the damping time has a NaN acceptance ratio. IEEE semantics as written; the build sets -ffast-math, which leaves NaN comparisons unspecified."
  },
  {
   "property": "C79",
   "status": "proved",
   "theorems": [
    "C79_gap",
    "C79_bounds",
    "C79_one_year",
    "C79_sparse_refuted"
   ],
   "note": "Value and bounds proved; out-of-bounds read with fewer points than years or no continuum refuted for all such data."
  },
  {
   "property": "C80",
   "status": "proved",
   "theorems": [
    "C80_span",
    "C80_cadence",
    "C80_report",
    "C80_report_refuted"
   ],
   "note": "Spans, cadences and report proved; the report without a continuum is refuted."
  },
  {
   "property": "C81",
   "status": "proved",
   "theorems": [
    "C81_distinct",
    "C81_digits",
    "C81_zero_refuted",
    "C81_grid",
    "C81_short_set_refuted"
   ],
   "note": "Proved for the set with the longest curve; refuted for shorter sets and for the degenerate inputs."
  },
  {
   "property": "C82",
   "status": "proved",
   "theorems": [
    "C82_general",
    "C82_mixed",
    "C82_ratio"
   ],
   "note": "Composes C48, C53, C59 and C70 with the parameter layout. Times in order as read_data checks (they may repeat), no empty curve, extensions of the range that leave some time. LAPACK by contracts; exactness conditions of the covariance formulas as in C31-C36, C61, C62. The existence of the covariance matrices, their inverses and trends is C74_described, C74_mixed_described and C75_described. Real arithmetic; printed digits are C81."
  },
  {
   "property": "C83",
   "status": "proved",
   "theorems": [
    "C83_grid",
    "C83_negative_times_refuted",
    "C83_virtual",
    "C83_trend_data",
    "C83_rising_lines_refuted"
   ],
   "note": "Full description of both files for all sets. Two parts of the claim are false of the code and refuted: for data before time 0 only the grid runs on to time 0 (C83_negative_times_refuted); for data lying on their trends NaN is written (C83_rising_lines_refuted)."
  },
  {
   "property": "C84",
   "status": "proved",
   "theorems": [
    "C84_command_line",
    "C84_double_dash_refuted",
    "C84_colon_refuted",
    "C84_report_undefined",
    "C84_report_refuted"
   ],
   "note": "proved for every line without a word in front of --; refuted: words in front of -- are lost, -: is taken for an option, reporting a bad option hands NULL to printf (for every such line)"
  },
  {
   "property": "C85",
   "status": "proved",
   "theorems": [
    "C85_general",
    "C85_snapshots",
    "C85_mapping",
    "C85_continuum",
    "C85_mapping_shares",
    "C85_own_snapshot_refuted",
    "C85_long_directory_undefined",
    "C85_long_directory_refuted"
   ],
   "note": "proved for names that fit; refuted: runs of a range share one snapshot file in the mapping modes, directory names of 131 characters and more overflow the sampler's arrays"
  },
  {
   "property": "C86",
   "status": "proved",
   "theorems": [
    "C86_likelihood",
    "C86_dense",
    "C86_dense_reconstruction"
   ],
   "note": "Real arithmetic; LAPACK by contracts shown satisfiable. That the covariance has an inverse is con_inverse."
  },
  {
   "property": "C87",
   "status": "proved",
   "theorems": [
    "C87_files",
    "C87_times",
    "C87_all_tasks",
    "C87_backwards_refuted",
    "C87_empty_undefined"
   ],
   "note": "Proved for ranges that leave some time; refuted: nothing checks the extensions, times may run backwards (C87_backwards_refuted). An empty curve is undefined behaviour (C87_empty_undefined)."
  },
  {
   "property": "C88",
   "status": "proved",
   "theorems": [
    "C88_determinant",
    "C88_logarithm",
    "C88_some_sign_refuted",
    "C88_no_sign_refuted"
   ],
   "note": "det_mat, lndet_mat, lndet_mat3 proved; the clause on lndet_mat2 is refuted in both directions. lndet_mat2 is called nowhere."
  },
  {
   "property": "C89",
   "status": "proved",
   "theorems": [
    "C89_general",
    "C89_ratio",
    "C89_mixed",
    "C89_add_up",
    "C89_ratio_add_up",
    "C89_mixed_add_up",
    "C89_times_refuted"
   ],
   "note": "files of the components for all sets, components and samples in the general, ratio and mixed modes; sums to pall.txt without range extensions; C89_times_refuted with extensions"
  },
  {
   "property": "C90",
   "status": "proved",
   "theorems": [
    "C90_continuum",
    "C90_lines",
    "C90_virtual",
    "C90_sizes",
    "C90_overflow_refuted",
    "C90_few_points_refuted",
    "C90_one_point_refuted",
    "C90_no_lines_refuted"
   ],
   "note": "Refines C37 from the pieces of the work array to every element touched, including callees. Refuted where the statement says it fails; whether the singular trend matrix of a set with too few points makes the program exit before the write depends on rounding and is not claimed."
  },
  {
   "property": "C91",
   "status": "proved",
   "theorems": [
    "C91_curves",
    "C91_bare",
    "C91_bare_refuted",
    "C91_empty_refuted"
   ],
   "note": "File text to sets for the nmap mode; refuted for header lines without a colon (null pointer) and for an empty continuum."
  },
  {
   "property": "C92",
   "status": "proved",
   "theorems": [
    "C92_numbers",
    "C92_sample",
    "C92_posterior",
    "C92_again",
    "C92_exact_refuted"
   ],
   "note": "printf %f and scanf %lf on binary64, sample file, posterior sample file and their readers; exactness refuted."
  },
  {
   "property": "C93",
   "status": "proved",
   "theorems": [
    "C93_levels",
    "C93_info",
    "C93_again",
    "C93_admissible",
    "C93_order",
    "C93_sandwich",
    "C93_sandwich_refuted"
   ],
   "note": "Level and sample files from sampler to post-processing, with all digits; likelihoods of seven digits can place samples on the wrong side of a level (refuted)."
  },
  {
   "property": "C94",
   "status": "proved",
   "theorems": [
    "C94_table",
    "C94_reload",
    "C94_again",
    "C94_range_refuted"
   ],
   "note": "Table of parameters: order, names, types, numbers, loading and printing again; limits closer than six decimals collapse (refuted). The changes of set_drw_par_range_load after loading are a separate property."
  },
  {
   "property": "C95",
   "status": "proved",
   "theorems": [
    "C95_particles",
    "C95_agree",
    "C95_line",
    "C95_line_particles",
    "C95_accepted",
    "C95_con",
    "C95_small_refuted",
    "C95_lookup_refuted"
   ],
   "note": "Option files written for the sampler and the look-up of the particle number; refuted: settings below 0.005, single-word lines, empty files, exponents."
  },
  {
   "property": "C96",
   "status": "proved",
   "theorems": [
    "C96_run",
    "C96_amplitude",
    "C96_centre",
    "C96_width",
    "C96_variability",
    "C96_tile",
    "C96_nonempty",
    "C96_inside",
    "C96_upper_refuted",
    "C96_inverted_refuted",
    "C96_width_refuted",
    "C96_fixed_refuted",
    "C96_short_refuted",
    "C96_default_refuted",
    "C96_photo_refuted"
   ],
   "note": "Explicit prior ranges from settings and data, tiling of the lags, no empty range, obedience to the limits; refuted: negative upper limit, upside-down ranges, widths of prior 3, fixed lags, short spans, left-out limits."
  },
  {
   "property": "C97",
   "status": "proved",
   "theorems": [
    "C97_numbers",
    "C97_sampling",
    "C97_priors",
    "C97_parts",
    "C97_null",
    "C97_examine",
    "C97_ends",
    "C97_options",
    "C97_null_refuted",
    "C97_virtual_refuted",
    "C97_table_refuted"
   ],
   "note": "Order and content of a run for all options, completion conditions, priors from the fit; refuted: restart of the null mode, decomposition in the virtual mode, table left by -p and -d."
  },
  {
   "property": "C98",
   "status": "proved",
   "theorems": [
    "C98_memory",
    "C98_leak_refuted",
    "C98_api_refuted"
   ],
   "note": "Allocation histories of all pointers of a run; refuted: everything is freed; calling the sampler with and then without ranges."
  },
  {
   "property": "C99",
   "status": "proved",
   "theorems": [
    "C99_rule",
    "C99_ends",
    "C99_set",
    "C99_settled",
    "C99_codes",
    "C99_width",
    "C99_nan",
    "C99_rejected",
    "C99_unset_refuted",
    "C99_zero_refuted"
   ],
   "note": "Ends inside the range once a particle stood there; refuted: always set; always positive."
  },
  {
   "property": "C100",
   "status": "proved",
   "theorems": [
    "C100_range",
    "C100_whole",
    "C100_stays",
    "C100_exact",
    "C100_ends",
    "C100_draw",
    "C100_above_refuted",
    "C100_jump_refuted"
   ],
   "note": "Refuted: never above the upper end; a value in the range always stays."
  },
  {
   "property": "C101",
   "status": "proved",
   "theorems": [
    "C101_first",
    "C101_ends",
    "C101_even",
    "C101_favour_refuted",
    "C101_free",
    "C101_hang_refuted"
   ],
   "note": "Refuted: variability parameters are drawn more often; the loop always ends."
  },
  {
   "property": "C102",
   "status": "proved",
   "theorems": [
    "C102_single",
    "C102_inverse",
    "C102_functions",
    "C102_assumptions",
    "C102_likelihood",
    "C102_sign_refuted",
    "C102_negative_refuted"
   ],
   "note": "Discharges the contract assumed of dsytrf/dsytri in C29, C30, C60, C69-C75, C86. Refuted: sign and code tell a matrix that is not positive definite."
  },
  {
   "property": "C103",
   "status": "proved",
   "theorems": [
    "C103_general",
    "C103_mixed",
    "C103_ratio",
    "C103_virtual",
    "C103_origin_general",
    "C103_origin_mixed",
    "C103_origin_ratio",
    "C103_origin_virtual",
    "C103_degenerate",
    "C103_fixing",
    "C103_counterpart",
    "C103_prior_refuted",
    "C103_held"
   ],
   "note": "The mixed mode is required to be away from its near-equal scales in both units, because that test compares with a fixed number. Refuted: the prior range of the damping time is free of units."
  },
  {
   "property": "C104",
   "status": "proved",
   "theorems": [
    "C104_accepted",
    "C104_data",
    "C104_ends",
    "C104_normal",
    "C104_raw",
    "C104_units",
    "C104_uniform_refuted"
   ],
   "note": "Refuted: free of flux units when the sets share parameters (no normalisation then)."
  },
  {
   "property": "C105",
   "status": "proved",
   "theorems": [
    "C105_described",
    "C105_general",
    "C105_same",
    "C105_virtual_described",
    "C105_virtual",
    "C105_virtual_same",
    "C105_no_lines_refuted",
    "C105_one_line_refuted"
   ],
   "note": "Refuted: agreement with the function in use for a set without lines (line mode) and with one line (virtual mode): the matrix is not inverted."
  },
  {
   "property": "C106",
   "status": "proved",
   "theorems": [
    "C106_value",
    "C106_curve",
    "C106_curve_refuted"
   ],
   "note": "Refuted: the reconstruction is the best prediction (un-inverted covariance for sets without lines)."
  },
  {
   "property": "C107",
   "status": "proved",
   "theorems": [
    "C107_general",
    "C107_mixed",
    "C107_one_curve",
    "C107_one_curve_mixed"
   ],
   "note": "General and mixed models; real arithmetic. The virtual mode is not covered."
  },
  {
   "property": "C108",
   "status": "proved",
   "theorems": [
    "C108_same_text",
    "C108_general",
    "C108_not_gaussian",
    "C108_mixed",
    "C108_mixed_refuted",
    "C108_overflow"
   ],
   "note": "Covariance functions of src/mc_line.c and src/mc_mmap.c; the exponentials that decode parameters are not the subject. The last sentence of the statement is a refutation (C108_mixed_refuted, C108_overflow)."
  },
  {
   "property": "C109",
   "status": "proved",
   "theorems": [
    "C109_general",
    "C109_same",
    "C109_no_lines_refuted"
   ],
   "note": "Real arithmetic. Nothing calls the two functions. The last clause of the statement is a refutation of agreement (C109_no_lines_refuted)."
  },
  {
   "property": "C110",
   "status": "proved",
   "theorems": [
    "C110_one_task",
    "C110_same",
    "C110_general",
    "C110_ratio",
    "C110_own",
    "C110_own_ratio",
    "C110_short",
    "C110_unopened_refuted"
   ],
   "note": "Real arithmetic except C110_one_task, which holds for any arithmetic, doubles included. Nothing calls the two functions. C110_unopened_refuted: after opening pall_each.txt the pointer of pall.txt is tested."
  },
  {
   "property": "C111",
   "status": "proved",
   "theorems": [
    "C111_curves",
    "C111_virtual",
    "C111_components",
    "C111_short",
    "C111_trend_refuted"
   ],
   "note": "Real arithmetic. Nothing calls the two functions. C111_trend_refuted: lines of levels 1, 2, 3: the second is written with level 1, the first with the memory."
  },
  {
   "property": "C112",
   "status": "proved",
   "theorems": [
    "C112_draw",
    "C112_step",
    "C112_level_step",
    "C112_type_refuted",
    "C112_filled",
    "C112_previous",
    "C112_option_refuted",
    "C112_freed_refuted",
    "C112_version",
    "C112_version_refuted"
   ],
   "note": "Real arithmetic. The Gaussian is wrapped into the range, not truncated: C112_draw says so. What sscanf does with a version text is an argument: the numbers it could read. C112_version is about patch numbers from 0 on."
  },
  {
   "property": "C113",
   "status": "proved",
   "theorems": [
    "C113_line",
    "C113_grows",
    "C113_full_refuted",
    "C113_unlimited_refuted",
    "C113_overflow_refuted"
   ],
   "note": "Single precision rounding is that of Flocq (FLT, nearest even, no overflow: the values stay below 2^37). A float expression is taken to be evaluated in float at each step (FLT_EVAL_METHOD 0)."
  },
  {
   "property": "C114",
   "status": "proved",
   "theorems": [
    "C114_lags",
    "C114_widths",
    "C114_refused",
    "C114_lags_refuted",
    "C114_widths_refuted",
    "C114_photometric_refuted",
    "C114_columns",
    "C114_decomposition_refuted",
    "C114_decomposition_one",
    "C114_response",
    "C114_ratio_response",
    "C114_ratio_response_refuted",
    "C114_decomposition_response_refuted"
   ],
   "note": "Numbers are exact reals; reading the sample file, quantiles and drawing are not modelled. C114_lags_refuted, C114_widths_refuted and C114_photometric_refuted say for all inputs what is returned instead."
  },
  {
   "property": "C115",
   "status": "proved",
   "theorems": [
    "C115_prior_lag",
    "C115_prior_width",
    "C115_prior_short",
    "C115_gap_one",
    "C115_gap_refuted"
   ],
   "note": "%f and %lf are parameters; assumed of them is that a numeral followed by colon, bracket or white space is read back, and for C115_gap_refuted that two texts in a row are not read up to a colon. A reader of decimals with a point meets both (C115_gap_instance)."
  },
  {
   "property": "C116",
   "status": "proved",
   "theorems": [
    "C116_created",
    "C116_formatted",
    "C116_missing",
    "C116_dates_refuted",
    "C116_long_refuted"
   ],
   "note": "%e and %lf are parameters (assumed: a numeral followed by white space is read back). Asked of the data: at least one line per set, no empty line, numbers of rows that are ints, header lines of at most 255 characters."
  },
  {
   "property": "C117",
   "status": "proved",
   "theorems": [
    "C117_same",
    "C117_effective",
    "C117_ties_refuted"
   ],
   "note": "Over the reals. Files with a single row, which genfromtxt turns into one-dimensional arrays, are not modelled; nor are the plots."
  },
  {
   "property": "C118",
   "status": "proved",
   "theorems": [
    "C118_columns",
    "C118_default",
    "C118_single_refuted"
   ],
   "note": "The rule of numpy and pandas for shapes is modelled as: a one-dimensional array is a single column. At least one component. Failure to read the table is not modelled."
  },
  {
   "property": "C119",
   "status": "proved",
   "theorems": [
    "C119_printed",
    "C119_curve",
    "C119_centroid",
    "C119_ratio",
    "C119_peak",
    "C119_mark",
    "C119_mark_rows",
    "C119_mark_refuted"
   ],
   "note": "The quantiles over the rows, the bins of the histograms and the drawing itself are not modelled. A type above 3 is left out."
  }
 ]
}