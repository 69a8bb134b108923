{"claims": [
 {"property": "C01", "status": "proved", "theorems": ["C01_heap_is_priority_queue"], "note": ""},
 {"property": "C02", "status": "proved", "theorems": ["C02_qsort_sorts"], "note": ""},
 {"property": "C03", "status": "proved", "theorems": ["C03_shuffle_permutes", "C03_permute_indexes_permutes", "C03_shuffle_reaches_all", "C03_permute_indexes_reaches_all"], "note": ""},
 {"property": "C04", "status": "proved", "theorems": ["C04_random_ranges"], "note": ""},
 {"property": "C05", "status": "proved", "theorems": ["C05_seed_erases_history", "C05_seed_by_array_erases_history", "C05_init_default_seed"], "note": ""},
 {"property": "C06", "status": "proved", "theorems": ["C06_mt19937_seed", "C06_mt_sequence_exists_unique", "C06_mt19937_seed_by_array", "C06_temper_bijective"], "note": ""},
 {"property": "C07", "status": "proved", "theorems": ["C07_fast_sqrt_exact", "C07_fast_sqrt_no_overflow", "C07_fast_sqrt_ui64", "C07_fast_sqrt_ui32", "C07_fast_sqrt_ui16", "C07_fast_sqrt_ui8"], "note": ""},
 {"property": "C08", "status": "proved", "theorems": ["C08_string_copy_bounded", "C08_string_copy_sub_bounded", "C08_string_basename_bounded", "C08_basename_spec_deterministic", "C08_null_destination_measures"], "note": ""},
 {"property": "C09", "status": "proved", "theorems": ["C09_replace_wildcard"], "note": ""},
 {"property": "C10", "status": "proved", "theorems": ["C10_parse_protocol_none", "C10_parse_protocol_split", "C10_names_parse_back"], "note": ""},
 {"property": "C11", "status": "proved", "theorems": ["C11_casei_cmp_order", "C11_dict_order_total", "C11_casei_cmp_laws", "C11_enumeration_get", "C11_enumeration_get_casei", "C11_enumeration_get_by_value"], "note": ""},
 {"property": "C12", "status": "proved", "theorems": ["C12_pgm_stream_round_trip", "C12_pgm_ascii_pixels", "C12_pgm_reader_total"], "note": ""},
 {"property": "C13", "status": "proved", "theorems": ["C13_swap_bytes", "C13_swap_value", "C13_swap_involution"], "note": ""},
 {"property": "C14", "status": "proved", "theorems": ["C14_getopt_reports_parse", "C14_getopt_parse_exists"], "note": ""},
 {"property": "C15", "status": "proved", "theorems": ["C15_build_gives_good_trees"], "note": ""},
 {"property": "C16", "status": "proved", "theorems": ["C16_exact_queries_are_nearest"], "note": ""},
 {"property": "C17", "status": "proved", "theorems": ["C17_budgeted_queries"], "note": ""},
 {"property": "C18", "status": "proved", "theorems": ["C18_searchers_are_the_live_ones", "C18_forest_delete_releases_all"], "note": ""},
 {"property": "C19", "status": "proved", "theorems": ["C19_pixels_in_stable_intensity_order"], "note": ""},
 {"property": "C20", "status": "proved", "theorems": ["C20_extremal_regions_are_level_set_components"], "note": ""},
 {"property": "C21", "status": "proved", "theorems": ["C21_selection_and_statistics", "C21_whole_image_never_selected"], "note": ""},
 {"property": "C22", "status": "proved", "theorems": ["C22_push", "C22_methods_agree", "C22_ready"], "note": ""},
 {"property": "C23", "status": "proved", "theorems": ["C23_training_paths", "C23_paths", "C23_depth"], "note": ""},
 {"property": "C24", "status": "proved", "theorems": ["C24_greedy"], "note": ""},
 {"property": "C25", "status": "proved", "theorems": ["C25_tree", "C25_mass", "C25_start"], "note": ""},
 {"property": "C26", "status": "proved", "theorems": ["C26_mutual_exclusion", "C26_reentrant", "C26_count_exact", "C26_count_never_negative", "C26_progress", "C26_no_sleeper_left"], "note": ""},
 {"property": "C27", "status": "proved", "theorems": ["C27_thread_state_private"], "note": ""},
 {"property": "C28", "status": "proved", "theorems": ["C28_integral_image", "C28_rectangle_sums", "C28_integral_ui32"], "note": ""},
 {"property": "C29", "status": "proved", "theorems": ["C29_column_convolution", "C29_column_convolution_sse2"], "note": ""},
 {"property": "C30", "status": "proved", "theorems": ["C30_triangular_convolution", "C30_normalised"], "note": ""},
 {"property": "C31", "status": "proved", "theorems": ["C31_lower_envelope"], "note": ""},
 {"property": "C32", "status": "proved", "theorems": ["C32_memory", "C32_links", "C32_forest"], "note": ""},
 {"property": "C33", "status": "proved", "theorems": ["C33_regions", "C33_memory", "C33_unchanged"], "note": ""},
 {"property": "C34", "status": "proved", "theorems": ["C34_mapping", "C34_process", "C34_transposed_mode"], "note": ""},
 {"property": "C35", "status": "proved", "theorems": ["C35_permutation_index", "C35_histogram"], "note": ""},
 {"property": "C36", "status": "proved", "theorems": ["C36_permutation", "C36_mirrored"], "note": ""},
 {"property": "C37", "status": "proved", "theorems": ["C37_history_irrelevant", "C37_put_image", "C37_features"], "note": ""},
 {"property": "C38", "status": "proved", "theorems": ["C38_grid", "C38_new"], "note": ""},
 {"property": "C39", "status": "proved", "theorems": ["C39_transpose"], "note": ""},
 {"property": "C40", "status": "proved", "theorems": ["C40_all_pairs", "C40_self_pairs", "C40_empty"], "note": ""},
 {"property": "C41", "status": "proved", "theorems": ["C41_simd_equals_scalar", "C41_mahalanobis", "C41_weighted_accumulation"], "note": ""},
 {"property": "C42", "status": "proved", "theorems": ["C42_quantize", "C42_distances", "C42_elkan"], "note": ""},
 {"property": "C43", "status": "proved", "theorems": ["C43_lloyd", "C43_ann", "C43_elkan"], "note": ""},
 {"property": "C44", "status": "proved", "theorems": ["C44_update", "C44_lloyd_result"], "note": ""},
 {"property": "C45", "status": "proved", "theorems": ["C45_best_run"], "note": ""},
 {"property": "C46", "status": "proved", "theorems": ["C46_residual_sums", "C46_encoding", "C46_order_irrelevant"], "note": ""},
 {"property": "C47", "status": "proved", "theorems": ["C47_table", "C47_stays_in_tables", "C47_zero_outside_range", "C47_interpolates"], "note": ""},
 {"property": "C48", "status": "partial", "theorems": ["C48_equal_geometries_partial", "C48_equality_refuted"], "note": "The property is false of the code: octaveFirstSubdivision of one geometry is compared with octaveLastSubdivision of the other. C48_equality_refuted shows that no geometry with different first and last subdivision equals itself; C48_equal_geometries_partial proves the implication for the other fields."},
 {"property": "C49", "status": "proved", "theorems": ["C49_downsampling"], "note": ""},
 {"property": "C50", "status": "proved", "theorems": ["C50_gaussian_elimination", "C50_solve_2", "C50_solve_3"], "note": ""},
 {"property": "C51", "status": "proved", "theorems": ["C51_rotation", "C51_turn", "C51_inverse"], "note": ""},
 {"property": "C52", "status": "proved", "theorems": ["C52_gradients_at", "C52_orientations", "C52_descriptors", "C52_detection", "C52_octaves", "C52_gradients"], "note": "Orientations and descriptors read only the data compared here; the exception of the octave computed last is real, see C117."},
 {"property": "C53", "status": "proved", "theorems": ["C53_certificate", "C53_converged", "C53_terminates"], "note": ""},
 {"property": "C54", "status": "proved", "theorems": ["C54_update", "C54_monotone"], "note": ""},
 {"property": "C55", "status": "proved", "theorems": ["C55_transparent", "C55_small_rate"], "note": ""},
 {"property": "C56", "status": "partial", "theorems": ["C56_permute_indexes_large_refuted"], "note": "The property is false of the code: refuted for every array longer than 2^31 (cast of the draw to a 32-bit int)."},
 {"property": "C57", "status": "partial", "theorems": ["C57_documented_prefixes_refuted"], "note": "The property is false of the code: witnesses binary:// (unknown), a:// and :// (ascii), null name of the unknown protocol."},
 {"property": "C58", "status": "partial", "theorems": ["C58_pgm_write_read_refuted", "C58_pgm_read_new_never_succeeds_refuted"], "note": "The property is false of the code: vl_pgm_extract_head rejects every maximum value below 65536 (inverted test), so no file is ever read."},
 {"property": "C59", "status": "partial", "theorems": ["C59_swap_in_place_refuted"], "note": "The property is false of the code: the in-place swap overwrites bytes before reading them."},
 {"property": "C60", "status": "partial", "theorems": ["C60_double_dash_refuted", "C60_double_dash_last_refuted", "C60_single_dash_refuted"], "note": "The property is false of the code: -- makes the parser overwrite and skip the next argument (or the NULL entry), and - makes it read past its strings."},
 {"property": "C61", "status": "partial", "theorems": ["C61_build_with_rounded_mean_refuted"], "note": "The property is false of the code: C61_build_with_rounded_mean_refuted shows that the index of the split wraps around and the recursion exhausts the nodes."},
 {"property": "C62", "status": "partial", "theorems": ["C62_exact_l1_search_refuted"], "note": "The property is false of the code: C62_exact_l1_search_refuted gives two points and a query whose nearest neighbour is missed."},
 {"property": "C63", "status": "partial", "theorems": ["C63_searcher_survives_rebuild_refuted"], "note": "The property is false of the code: C63_searcher_survives_rebuild_refuted gives a searcher whose heap overflows after the rebuild."},
 {"property": "C64", "status": "proved", "theorems": ["C64_variation_uses_the_top_region"], "note": ""},
 {"property": "C65", "status": "proved", "theorems": ["C65_ellipsoids_are_moments_of_the_regions"], "note": ""},
 {"property": "C66", "status": "partial", "theorems": ["C66_small_coefficient_refuted"], "note": "The property is false of the code: a coefficient not above VL_EPSILON is treated as zero when the envelope is built but not when it is evaluated; witness row (0, eps/2) with c = eps."},
 {"property": "C67", "status": "proved", "theorems": ["C67_find_char_rev"], "note": ""},
 {"property": "C68", "status": "proved", "theorems": ["C68_documented_formulas"], "note": ""},
 {"property": "C69", "status": "proved", "theorems": ["C69_distance_from_kernel"], "note": ""},
 {"property": "C70", "status": "partial", "theorems": ["C70_hellinger_kernel_refuted"], "note": "The property is false of the code: the code sums sqrt(x y) without the factor 2 of the documentation (with the factor the documented relation to the distance would fail)."},
 {"property": "C71", "status": "partial", "theorems": ["C71_destination_size_refuted", "C71_destination_size_partial"], "note": "The property is false of the code when 2^d does not divide the height: one more row is written (C71_destination_size_refuted). It holds when 2^d divides the height (C71_destination_size_partial)."},
 {"property": "C72", "status": "proved", "theorems": ["C72_upsampling"], "note": ""},
 {"property": "C73", "status": "partial", "theorems": ["C73_repeated_doubling_square_partial", "C73_repeated_doubling_refuted"], "note": "The property is false of the code for n >= 2 and images that are not square: the second pass of each further doubling is called with width and height exchanged (C73_repeated_doubling_refuted). Proved for square images (C73_repeated_doubling_square_partial); n = 1 is C72."},
 {"property": "C74", "status": "partial", "theorems": ["C74_second_bit_refuted", "C74_order_of_bits_partial"], "note": "The property is false of the code: the second bit is the comparison with I(x+1,y+1) (C74_second_bit_refuted); C74_order_of_bits_partial gives the order the code uses."},
 {"property": "C75", "status": "partial", "theorems": ["C75_null_period_refuted", "C75_negative_period_partial"], "note": "The property is false of the code: a null period is kept and divides two pi (C75_null_period_refuted); C75_negative_period_partial covers negative periods."},
 {"property": "C76", "status": "partial", "theorems": ["C76_norms_accumulate", "C76_extract_twice_refuted"], "note": "The property is false of the code: the cell norms accumulate in the object, so that the t-th extraction divides by t times the energies. C76_extract_twice_refuted is a witness; C76_norms_accumulate says what every extraction returns."},
 {"property": "C77", "status": "partial", "theorems": ["C77_polar_contents", "C77_polar_weights_refuted"], "note": "The property is false of the code: the orientation weight is multiplied in twice, so that a gradient half-way between two orientations gives a quarter of its modulus to each. C77_polar_weights_refuted is a witness; C77_polar_contents says what the object holds for all fields."},
 {"property": "C78", "status": "partial", "theorems": ["C78_other_coordinates_unchanged_refuted"], "note": "The property is false of the code: the restart loop reuses the variable d of the loop over coordinates, so with an empty cluster only coordinate 0 of the other centers is updated; the theorem shows the others are left unchanged."},
 {"property": "C79", "status": "partial", "theorems": ["C79_masses_out_of_bounds_refuted"], "note": "The property is false of the code: clusterMasses has numData entries but is indexed by the center, so a datum assigned to a center numbered numData or more is counted out of bounds."},
 {"property": "C80", "status": "proved", "theorems": ["C80_rand_data"], "note": ""},
 {"property": "C81", "status": "proved", "theorems": ["C81_plus_plus"], "note": ""},
 {"property": "C82", "status": "partial", "theorems": ["C82_zero_draw_refuted"], "note": "The property is false of the code: a draw of zero, which vl_rand_real1 can return, always selects datum 0, even when it is already a center."},
 {"property": "C83", "status": "proved", "theorems": ["C83_elkan_fixed_point"], "note": ""},
 {"property": "C84", "status": "partial", "theorems": ["C84_single_value", "C84_root_parent_refuted"], "note": "The property is false of the code: with a single value of positive probability no merge is made and the parent of that value, the root, is 2*nvalues. C84_root_parent_refuted gives a witness, C84_single_value the general statement; C25_tree proves the claim for two or more such values."},
 {"property": "C85", "status": "proved", "theorems": ["C85_costs"], "note": ""},
 {"property": "C86", "status": "proved", "theorems": ["C86_image_transpose"], "note": ""},
 {"property": "C87", "status": "partial", "theorems": ["C87_six_orientations_refuted"], "note": "The property is false of the code: with six orientations the transposed descriptor differs (C87_six_orientations_refuted); true if four divides the number, C86."},
 {"property": "C88", "status": "partial", "theorems": ["C88_thin_image_refuted"], "note": "The property is false of the code: for an image one pixel wide the gradient at the last pixel reads im[1 + (h-1)] past the end (C88_thin_image_refuted); from two pixels on it is in bounds, C38."},
 {"property": "C89", "status": "partial", "theorems": ["C89_bias_rate_refuted"], "note": "The property is false of the code: when the bias learning rate equals t + t0 at some step, biasFactor becomes zero and the bias update divides by it. C55 proves the transparent update for the other rates."},
 {"property": "C90", "status": "partial", "theorems": ["C90_set_lambda_refuted"], "note": "The property is false of the code: the dual variables are kept while the model is no longer their combination, so the gap is meaningless (and may be negative). C53 proves the certificate for runs with one lambda."},
 {"property": "C91", "status": "proved", "theorems": ["C91_losses"], "note": ""},
 {"property": "C92", "status": "partial", "theorems": ["C92_iteration_ignored", "C92_warm_start_refuted"], "note": "The property is false of the code: the iteration number is stored and never read by the solver."},
 {"property": "C93", "status": "proved", "theorems": ["C93_training_stops", "C93_lloyd_assignments"], "note": ""},
 {"property": "C94", "status": "proved", "theorems": ["C94_initial_centers"], "note": ""},
 {"property": "C95", "status": "partial", "theorems": ["C95_any_datum_refuted"], "note": "The property is false of the code: C95_any_datum_refuted trains on two equal data and pushes a third datum, which reaches a node without centers: its path holds 0xffffffff, or a child pointer is read out of bounds."},
 {"property": "C96", "status": "partial", "theorems": ["C96_same_training_refuted"], "note": "The property is false of the code: C96_same_training_refuted gives four data and three centers for which both methods converge, to different centers, Elkan's with larger distortion. After a datum is moved, Elkan's pass still prunes with the distances from its previous center."},
 {"property": "C97", "status": "partial", "theorems": ["C97_empty_kept_refuted"], "note": "The property is false of the code: C97_empty_kept_refuted shows a center without data become zero."},
 {"property": "C98", "status": "partial", "theorems": ["C98_deterministic_refuted", "C98_otherwise_deterministic"], "note": "The property is false of the code: C98_deterministic_refuted gives two contents of fresh memory with different resulting centers. C98_otherwise_deterministic proves it when neither run stops at once."},
 {"property": "C99", "status": "partial", "theorems": ["C99_more_centers_refuted"], "note": "The property is false of the code: C99_more_centers_refuted proves that training with K greater than N always writes out of bounds (with Lloyd's method, unless it stops at once)."},
 {"property": "C100", "status": "partial", "theorems": ["C100_descent_refuted"], "note": "The property is false of the code: C100_descent_refuted gives data for which the truncated mean increases the distortion."},
 {"property": "C101", "status": "proved", "theorems": ["C101_forward", "C101_forward_zero", "C101_inverse"], "note": ""},
 {"property": "C102", "status": "proved", "theorems": ["C102_all_rotations", "C102_onto"], "note": ""},
 {"property": "C103", "status": "partial", "theorems": ["C103_sign", "C103_recovered_refuted"], "note": "The property is false of the code: within 1e-6 of half a turn the sign of the vector is not determined, and a vector (-(pi - 5e-7), 0, 0) comes back with the opposite sign, which is another rotation (C103_recovered_refuted). Proved: the vector is recovered up to its sign there (C103_sign), and exactly elsewhere (C51_inverse)."},
 {"property": "C104", "status": "proved", "theorems": ["C104_assignment", "C104_labels", "C104_seeds"], "note": ""},
 {"property": "C105", "status": "proved", "theorems": ["C105_means", "C105_energies"], "note": ""},
 {"property": "C106", "status": "partial", "theorems": ["C106_large_refuted"], "note": "The property is false of the code: the region of the first pixel has no visited neighbour and keeps its label however small it is (C106_large_refuted). All regions without that pixel are large enough (C33_regions)."},
 {"property": "C107", "status": "partial", "theorems": ["C107_dense_refuted"], "note": "The property is false of the code: labels are tile numbers and a tile may lose all its pixels, C107_dense_refuted shows an image with labels 0 and 2 only. What holds is that labels are below the number of tiles (C104_labels)."},
 {"property": "C108", "status": "partial", "theorems": ["C108_connected_refuted"], "note": "The property is false of the code: separate regions of one cluster that are large enough keep the same label (C108_connected_refuted)."},
 {"property": "C109", "status": "partial", "theorems": ["C109_weight_refuted"], "note": "The property is false of the code: squared coordinates are weighted by regularizer / regionSize^2 and not by regularizer^2 / regionSize^2 (C109_weight_refuted). The distance actually minimised is the one in C104."},
 {"property": "C110", "status": "proved", "theorems": ["C110_density", "C110_again", "C110_defaults", "C110_small_defaults"], "note": ""},
 {"property": "C111", "status": "partial", "theorems": ["C111_new_kernel_refuted"], "note": "The property is false of the code: density is accumulated over calls and never reset; C111_new_kernel_refuted is the counterexample."},
 {"property": "C112", "status": "proved", "theorems": ["C112_scores", "C112_medoid"], "note": ""},
 {"property": "C113", "status": "partial", "theorems": ["C113_medoid_refuted"], "note": "The property is false of the code: the search starts from a score of zero, so that pixels keep themselves when all scores are negative; C113_medoid_refuted gives a 2 by 2 image, for all functions like exp."},
 {"property": "C114", "status": "proved", "theorems": ["C114_scale_space"], "note": "For a first octave of -1 or more, or square images; C115 shows that this is needed. Over exact rationals, for arbitrary pow, sqrt and exp with the signs required by `sane`."},
 {"property": "C115", "status": "partial", "theorems": ["C115_enlarging_refuted"], "note": "The property is false of the code: C115_enlarging_refuted. C114 proves it for square images."},
 {"property": "C116", "status": "partial", "theorems": ["C116_octave_count", "C116_no_octaves_refuted"], "note": "Proved for O >= 1. For O = 0 it is false of the code: C116_no_octaves_refuted."},
 {"property": "C117", "status": "partial", "theorems": ["C117_stale_gradients_refuted"], "note": "The property is false of the code: grad_o is not reset when an image is started, C117_stale_gradients_refuted. C52_gradients proves it for the other octaves."},
 {"property": "C118", "status": "proved", "theorems": ["C118_detection"], "note": ""},
 {"property": "C119", "status": "proved", "theorems": ["C119_keypoints"], "note": ""},
 {"property": "C120", "status": "proved", "theorems": ["C120_gradients"], "note": ""},
 {"property": "C121", "status": "proved", "theorems": ["C121_orientations"], "note": "Octaves of at least 2 by 2 pixels. Over exact rationals, for arbitrary elementary functions; the tabulated exponential must not be evaluated at exactly 25 (C129)."},
 {"property": "C122", "status": "proved", "theorems": ["C122_angles"], "note": "Under the hypotheses of C121."},
 {"property": "C123", "status": "partial", "theorems": ["C123_strongest_refuted"], "note": "The property is false of the code: C123_strongest_refuted gives a keypoint with five peaks of which the strongest is the last; only the first four in the order of the bins are returned."},
 {"property": "C124", "status": "proved", "theorems": ["C124_descriptor"], "note": "Octaves of at least 2 by 2 pixels. Over exact rationals, for arbitrary elementary functions; the tabulated exponential must not be evaluated at exactly 25 (C129)."},
 {"property": "C125", "status": "proved", "theorems": ["C125_raw_descriptor"], "note": "For a nonnegative window size. Over exact rationals, for arbitrary elementary functions; the tabulated exponential must not be evaluated at exactly 25 (C129)."},
 {"property": "C126", "status": "proved", "theorems": ["C126_descriptor_size", "C126_raw_descriptor_size"], "note": ""},
 {"property": "C127", "status": "proved", "theorems": ["C127_raw_agrees"], "note": ""},
 {"property": "C128", "status": "proved", "theorems": ["C128_exponential"], "note": ""},
 {"property": "C129", "status": "partial", "theorems": ["C129_exponential_range_refuted"], "note": "The property is false of the code: C129_exponential_range_refuted; at 25 the entry after the last of the table is read, for instance by a raw descriptor with magnification 2 and window size 1/2."},
 {"property": "C130", "status": "proved", "theorems": ["C130_keypoint_init"], "note": ""},
 {"property": "C131", "status": "proved", "theorems": ["C131_detected_usable"], "note": ""},
 {"property": "C132", "status": "partial", "theorems": ["C132_descriptor_of_detected_refuted"], "note": "The property is false of the code: C132_descriptor_of_detected_refuted. The row test is stricter than the column test by one; C131 proves what holds."},
 {"property": "C133", "status": "proved", "theorems": ["C133_posteriors"], "note": ""},
 {"property": "C134", "status": "proved", "theorems": ["C134_distribution"], "note": ""},
 {"property": "C135", "status": "proved", "theorems": ["C135_maximization", "C135_mass"], "note": ""},
 {"property": "C136", "status": "partial", "theorems": ["C136_empty_modes_refuted"], "note": "The property is false of the code: C136_empty_modes_refuted proves that the mean becomes the origin, the covariance the bound and the prior zero."},
 {"property": "C137", "status": "proved", "theorems": ["C137_em"], "note": ""},
 {"property": "C138", "status": "proved", "theorems": ["C138_restart"], "note": ""},
 {"property": "C139", "status": "proved", "theorems": ["C139_rand", "C139_kmeans"], "note": ""},
 {"property": "C140", "status": "proved", "theorems": ["C140_cluster"], "note": ""},
 {"property": "C141", "status": "partial", "theorems": ["C141_copy", "C141_copy_bounds_refuted"], "note": "The property is false of the code: the copy has the default bounds (C141_copy), and C141_copy_bounds_refuted gives an object whose copy ends with other covariances. What is copied is proved in C141_copy."},
 {"property": "C142", "status": "partial", "theorems": ["C142_negligible_priors_refuted", "C142_million_modes_refuted"], "note": "The property is false of the code: with all priors below 1e-6 the likelihood is not a number, and this is what the random initialization of more than a million modes leads to."},
 {"property": "C143", "status": "partial", "theorems": ["C143_custom_once", "C143_custom_repetitions_refuted"], "note": "The property is false of the code for two or more repetitions, which read uninitialized arrays (C143_custom_repetitions_refuted); it holds for one (C143_custom_once)."},
 {"property": "C144", "status": "proved", "theorems": ["C144_likelihood"], "note": ""},
 {"property": "C145", "status": "proved", "theorems": ["C145_encoding", "C145_no_data"], "note": ""},
 {"property": "C146", "status": "proved", "theorems": ["C146_terms"], "note": ""},
 {"property": "C147", "status": "proved", "theorems": ["C147_improved", "C147_unit"], "note": ""},
 {"property": "C148", "status": "proved", "theorems": ["C148_gradient"], "note": ""},
 {"property": "C149", "status": "proved", "theorems": ["C149_detect", "C149_append", "C149_new"], "note": ""},
 {"property": "C150", "status": "partial", "theorems": ["C150_reset_refuted", "C150_stored"], "note": "The property is false of the code: vl_covdet_reset frees the features but keeps numFeatures and numFeatureBufferSize: the number of features stays, and the next detection that finds a feature writes it through NULL."},
 {"property": "C151", "status": "proved", "theorems": ["C151_suppress", "C151_off"], "note": ""},
 {"property": "C152", "status": "partial", "theorems": ["C152_order_refuted"], "note": "The property is false of the code: a chain of three features keeps one or two of them depending on the order, and a feature can be removed by one that is itself removed."},
 {"property": "C153", "status": "proved", "theorems": ["C153_inside", "C153_drop"], "note": ""},
 {"property": "C154", "status": "proved", "theorems": ["C154_orientations", "C154_rotation"], "note": ""},
 {"property": "C155", "status": "proved", "theorems": ["C155_scales", "C155_scaled"], "note": ""},
 {"property": "C156", "status": "proved", "theorems": ["C156_last", "C156_limit"], "note": ""},
 {"property": "C157", "status": "partial", "theorems": ["C157_number_refuted"], "note": "The property is false of the code: the limit is num - first - 1 instead of num + first - 1: with the default first octave -1, n octaves are n + 2."},
 {"property": "C158", "status": "partial", "theorems": ["C158_small_refuted", "C158_enough"], "note": "The property is false of the code: images with a side of 2 to 8 pixels have a last octave before the first, and for a side of one pixel the logarithm of zero is taken."},
 {"property": "C159", "status": "proved", "theorems": ["C159_scanned"], "note": ""},
 {"property": "C160", "status": "partial", "theorems": ["C160_scanned_refuted", "C160_nothing"], "note": "The property is false of the code: the loop stops before the last subdivision: it is never searched, and with one subdivision per octave nothing is found."},
 {"property": "C161", "status": "proved", "theorems": ["C161_orientations", "C161_near"], "note": ""},
 {"property": "C162", "status": "partial", "theorems": ["C162_strongest_refuted"], "note": "The property is false of the code: the loop stops at the first maxNumOrientations peaks in the order of the bins and sorts only those."},
 {"property": "C163", "status": "partial", "theorems": ["C163_zero_refuted", "C163_overflow_refuted"], "note": "The property is false of the code: a limit of 0 returns one orientation; a limit above 4 is accepted and writes beyond the array orientations[4]."},
 {"property": "C164", "status": "proved", "theorems": ["C164_scales", "C164_near", "C164_top"], "note": ""},
 {"property": "C165", "status": "partial", "theorems": ["C165_score_refuted"], "note": "The property is false of the code: the score is b + (c-a) dk / 2 instead of b + (c-a) dk / 4, equal only if both neighbours are equal."},
 {"property": "C166", "status": "proved", "theorems": ["C166_volume", "C166_image"], "note": ""},
 {"property": "C167", "status": "proved", "theorems": ["C167_volume", "C167_image"], "note": ""},
 {"property": "C168", "status": "proved", "theorems": ["C168_ratio", "C168_none"], "note": ""},
 {"property": "C169", "status": "partial", "theorems": ["C169_saddles_refuted", "C169_score"], "note": "The property is false of the code: C169_saddles_refuted gives a map whose only feature is at a saddle with opposite eigenvalues, of edge score -1. C169_score proves that this is the only exception."},
 {"property": "C170", "status": "proved", "theorems": ["C170_octave", "C170_level", "C170_inside"], "note": ""},
 {"property": "C171", "status": "partial", "theorems": ["C171_twice_refuted"], "note": "The property is false of the code: C171_twice_refuted gives a map whose two extrema are refined to one feature, which is returned twice."},
 {"property": "C172", "status": "proved", "theorems": ["C172_level", "C172_mapped"], "note": ""},
 {"property": "C173", "status": "partial", "theorems": ["C173_largest_refuted"], "note": "The property is false of the code: C173_largest_refuted gives a scale space of three subdivisions per octave where a level of larger smoothing qualifies. The subdivision is computed without the resolution."},
 {"property": "C174", "status": "proved", "theorems": ["C174_patch", "C174_right", "C174_zero", "C174_error"], "note": ""},
 {"property": "C175", "status": "partial", "theorems": ["C175_inside_refuted"], "note": "The property is false of the code: C175_inside_refuted gives a patch contained in the image whose samples in the last column show the column before. C174_right proves what is returned."},
 {"property": "C176", "status": "partial", "theorems": ["C176_left_refuted"], "note": "The property is false of the code: C176_left_refuted gives a frame for which the copy runs past the end of the buffer."},
 {"property": "C177", "status": "partial", "theorems": ["C177_above_refuted"], "note": "The property is false of the code: C177_above_refuted gives a patch of zeros below a nonzero image. C174_zero proves that all such patches are zero."},
 {"property": "C178", "status": "proved", "theorems": ["C178_svd", "C178_values"], "note": "Over the real numbers, without rounding. The hypothesis balanced excludes the case of C181."},
 {"property": "C179", "status": "partial", "theorems": ["C179_negative_refuted"], "note": "The property is false of the code: for each matrix of negative determinant one of the entries of S is negative, e.g. 1 and -1 for diag(1,-1). Callers in covdet.c take the smaller of the two as the smallest scale."},
 {"property": "C180", "status": "partial", "theorems": ["C180_total_refuted"], "note": "The property is false of the code: if the first column is zero the norm of the column divides by zero."},
 {"property": "C181", "status": "partial", "theorems": ["C181_unbalanced_refuted"], "note": "The property is false of the code: cv and sv of the case of a large off-diagonal entry are exchanged (LAPACK sets the sine to 1); for the matrix with columns (1,0) and (g,1) the product U S V' has g for the entry 1."},
 {"property": "C182", "status": "proved", "theorems": ["C182_adaptation", "C182_isotropic"], "note": "The measured second moments, atan2 and the linear solver are arguments with their specifications; real numbers."},
 {"property": "C183", "status": "partial", "theorems": ["C183_mirrored_refuted"], "note": "The property is false of the code: the quotients of D[0] and D[3] are negative for a mirrored frame and the test of the anisotropy never fires; a frame of anisotropy 50 is returned."},
 {"property": "C184", "status": "proved", "theorems": ["C184_gradient", "C184_polar", "C184_layout"], "note": ""},
 {"property": "C185", "status": "partial", "theorems": ["C185_small_refuted"], "note": "The property is false of the code: for one column the pixel after it is read and the second column of the planes is written; for one row the row below is read."},
 {"property": "C186", "status": "proved", "theorems": ["C186_hessian"], "note": ""},
 {"property": "C187", "status": "partial", "theorems": ["C187_small_refuted"], "note": "The property is false of the code: with 2 columns or rows the interior is empty and the borders are copied from the uninitialised buffer; with 1 column the size width - 2 of memcpy wraps around."},
 {"property": "C188", "status": "proved", "theorems": ["C188_dog", "C188_harris"], "note": "The smoothing vl_imsmooth_f is an argument."},
 {"property": "C189", "status": "proved", "theorems": ["C189_atan2", "C189_range", "C189_odd"], "note": ""},
 {"property": "C190", "status": "partial", "theorems": ["C190_bound_refuted"], "note": "The property is false of the code: at (1827, 173) the error exceeds 0.0061 radians (it is about 0.00614)."},
 {"property": "C191", "status": "partial", "theorems": ["C191_short_refuted"], "note": "The property is false of the code: VL_EPSILON is added to the absolute value of y, so that the result for (x, 0) with x well below VL_EPSILON is nearly pi / 2."},
 {"property": "C192", "status": "proved", "theorems": ["C192_mod"], "note": ""},
 {"property": "C193", "status": "partial", "theorems": ["C193_hang_refuted"], "note": "The property is false of the code: at 2^28 for floats and 2^57 for doubles subtracting 2 pi is rounded away and the loop never ends."},
 {"property": "C194", "status": "proved", "theorems": ["C194_floor"], "note": ""},
 {"property": "C195", "status": "proved", "theorems": ["C195_resqrt", "C195_sqrt"], "note": ""},
 {"property": "C196", "status": "partial", "theorems": ["C196_small_refuted"], "note": "The property is false of the code: the result for numbers below 10^-8 is zero."},
 {"property": "C197", "status": "proved", "theorems": ["C197_counts", "C197_slots", "C197_null"], "note": ""},
 {"property": "C198", "status": "partial", "theorems": ["C198_zero_refuted"], "note": "The property is false of the code: C198_zero_refuted shows that K = 0 passes the check and the code takes a remainder modulo zero."},
 {"property": "C199", "status": "partial", "theorems": ["C199_full_refuted"], "note": "The property is false of the code: C199_full_refuted gives two labels and K = 3 where the second label is put in the overflow area while two buckets are free, because the probe step 3 visits one bucket only."},
 {"property": "C200", "status": "proved", "theorems": ["C200_matches", "C200_unique"], "note": ""},
 {"property": "C201", "status": "partial", "theorems": ["C201_distance_refuted"], "note": "The property is false of the code: C201_distance_refuted gives a match with squared distances 16 and 25, where 4 times 1.5 exceeds 5; the code compares squared distances."},
 {"property": "C202", "status": "partial", "theorems": ["C202_lone_refuted"], "note": "The property is false of the code: C202_lone_refuted shows that with an integer class a threshold of 2^31 - 1 rejects a lone descriptor at distance 1, because the second best distance starts at 2^31 - 1."},
 {"property": "C203", "status": "proved", "theorems": ["C203_binsearch"], "note": ""},
 {"property": "C204", "status": "proved", "theorems": ["C204_all", "C204_sizes"], "note": ""},
 {"property": "C205", "status": "proved", "theorems": ["C205_dim"], "note": ""},
 {"property": "C206", "status": "partial", "theorems": ["C206_scalar_refuted"], "note": "The property is false of the code: C206_scalar_refuted shows a wrong sum for DIM = 4 and a write out of bounds, because the loop that computes the stride and checks the dimensions runs over the two dimensions of the scalar."},
 {"property": "C207", "status": "partial", "theorems": ["C207_last_refuted"], "note": "The property is false of the code: C207_last_refuted shows that the code reads the missing entry of the dimensions of INDEXES."},
 {"property": "C208", "status": "proved", "theorems": ["C208_cummax", "C208_default"], "note": ""},
 {"property": "C209", "status": "proved", "theorems": ["C209_region", "C209_once", "C209_error"], "note": ""},
 {"property": "C210", "status": "partial", "theorems": ["C210_twice_refuted"], "note": "The property is false of the code: the pixel given is never marked as visited, so that it is listed twice whenever its region has another pixel."},
 {"property": "C211", "status": "partial", "theorems": ["C211_overflow_refuted"], "note": "The property is false of the code: the pixel given is listed twice, so that a region that is the whole image has one member more than members_pt has room for."},
 {"property": "C212", "status": "proved", "theorems": ["C212_inthist", "C212_error"], "note": ""},
 {"property": "C213", "status": "proved", "theorems": ["C213_sample", "C213_error"], "note": ""},
 {"property": "C214", "status": "partial", "theorems": ["C214_maps_refuted"], "note": "The property is false of the code: only the first map is used to guess or check the number of labels; a greater label in a later map is counted out of bounds."},
 {"property": "C215", "status": "partial", "theorems": ["C215_mass_refuted"], "note": "The property is false of the code: the masses of the first layer are used for all layers."},
 {"property": "C216", "status": "partial", "theorems": ["C216_empty_refuted"], "note": "The property is false of the code: with NUMLABELS given, the first entry of each bin is read and written although there is none."},
 {"property": "C217", "status": "proved", "theorems": ["C217_maxima", "C217_default", "C217_error"], "note": ""},
 {"property": "C218", "status": "partial", "theorems": ["C218_zero_refuted"], "note": "The property is false of the code: the loop skips the last element of the first dimension, and the first one of later columns."},
 {"property": "C219", "status": "partial", "theorems": ["C219_empty_refuted"], "note": "The property is false of the code: when the first P dimensions are at least three, the first element is read without a check that there is one."},
 {"property": "C220", "status": "proved", "theorems": ["C220_warp"], "note": ""},
 {"property": "C221", "status": "proved", "theorems": ["C221_derivatives", "C221_outside"], "note": ""},
 {"property": "C222", "status": "partial", "theorems": ["C222_border_refuted"], "note": "The property is false of the code: with derivatives, every point on the last column or row makes the code read one element past the end of the grid (C222_border_refuted)."},
 {"property": "C223", "status": "partial", "theorems": ["C223_scale_refuted"], "note": "The property is false of the code: the differences are not divided by the step of the grid; on a grid of step 2 the derivative is twice too large (C223_scale_refuted). C221 proves what the outputs are."},
 {"property": "C224", "status": "proved", "theorems": ["C224_hist", "C224_zero", "C224_link"], "note": ""},
 {"property": "C225", "status": "partial", "theorems": ["C225_mode_refuted"], "note": "The property is false of the code: in this mode the component 0 is taken for the leaf 0 and every nonempty histogram is refused (C225_mode_refuted)."},
 {"property": "C226", "status": "partial", "theorems": ["C226_leaf_refuted"], "note": "The property is false of the code: min_node starts from zero, so the greatest leaf accepted is 2^32 - 1 and inner nodes are counted (C226_leaf_refuted)."},
 {"property": "C227", "status": "partial", "theorems": ["C227_bounds_refuted"], "note": "The property is false of the code: for the same reason data beyond the tree are accepted and the code reads past the end of PARENTS (C227_bounds_refuted)."},
 {"property": "C228", "status": "partial", "theorems": ["C228_cycle_refuted"], "note": "The property is false of the code: the check compares with the index from zero, so a link to the previous node passes and two nodes linked to each other are walked for ever (C228_cycle_refuted)."},
 {"property": "C229", "status": "proved", "theorems": ["C229_full", "C229_self", "C229_error"], "note": ""},
 {"property": "C230", "status": "proved", "theorems": ["C230_sparse", "C230_self"], "note": ""},
 {"property": "C231", "status": "proved", "theorems": ["C231_kernel"], "note": ""},
 {"property": "C232", "status": "partial", "theorems": ["C232_mixed_refuted"], "note": "The property is false of the code: the test is made only if X is sparse; with a full X and a sparse Y the values of Y are read as a full matrix, beyond their end (C232_mixed_refuted)."},
 {"property": "C233", "status": "proved", "theorems": ["C233_descriptor"], "note": "Directions of neighbours are a parameter (cos and sin bounded by one), floats are rationals, the square root is a parameter."},
 {"property": "C234", "status": "proved", "theorems": ["C234_normalised"], "note": "For any square root of relative error at most one half in the square."},
 {"property": "C235", "status": "proved", "theorems": ["C235_affine"], "note": ""},
 {"property": "C236", "status": "partial", "theorems": ["C236_monotone_refuted"], "note": "The property is false of the code: squaring positive intensities changes the descriptor, since interpolated intensities are compared (C236_monotone_refuted)."},
 {"property": "C237", "status": "partial", "theorems": ["C237_rotation_refuted"], "note": "The property is false of the code: the neighbours of the centre of the patch start at a fixed angle, so that its pattern turns with the patch (C237_rotation_refuted)."},
 {"property": "C238", "status": "partial", "theorems": ["C238_margin_refuted"], "note": "The property is false of the code: neighbours are up to 0.6 pixels outside and padded by zeros, and a constant patch has a descriptor that is not zero (C238_margin_refuted)."},
 {"property": "C239", "status": "partial", "theorems": ["C239_partition_refuted"], "note": "The property is false of the code: with fewer pixels than bins each pixel has a bin of its own, from the second one on, and the last bin may be empty (C239_partition_refuted)."},
 {"property": "C240", "status": "partial", "theorems": ["C240_small_refuted"], "note": "The property is false of the code: for sides up to two the region is empty since the corner is skipped, and the sort fails its assertion (C240_small_refuted)."},
 {"property": "C241", "status": "proved", "theorems": ["C241_levels", "C241_exact"], "note": ""},
 {"property": "C242", "status": "partial", "theorems": ["C242_negative_refuted"], "note": "The property is false of the code: if all octaves are negative, the image is first copied to octave zero, which does not exist, and the assertion on the octave fails (C242_negative_refuted)."},
 {"property": "C243", "status": "proved", "theorems": ["C243_loss", "C243_derivative"], "note": ""},
 {"property": "C244", "status": "proved", "theorems": ["C244_conjugate"], "note": ""},
 {"property": "C245", "status": "proved", "theorems": ["C245_update"], "note": ""},
 {"property": "C246", "status": "partial", "theorems": ["C246_ascent_refuted"], "note": "The property is false of the code: from a dual variable close to its optimum exp(-15) bisection returns 1/64, from where the Newton step is clipped to zero, the end of the interval, where the objective is worse (C246_ascent_refuted)."},
 {"property": "C247", "status": "proved", "theorems": ["C247_expanded"], "note": ""},
 {"property": "C248", "status": "proved", "theorems": ["C248_render"], "note": ""},
 {"property": "C249", "status": "proved", "theorems": ["C249_glyphs", "C249_rounding"], "note": ""},
 {"property": "C250", "status": "partial", "theorems": ["C250_buffer_refuted"], "note": "The property is false of the code: the glyphs are added to the buffer, which is never cleared, although the documentation says that the result is stored there (C250_buffer_refuted)."},
 {"property": "C251", "status": "proved", "theorems": ["C251_parse"], "note": ""},
 {"property": "C252", "status": "proved", "theorems": ["C252_open"], "note": ""},
 {"property": "C253", "status": "proved", "theorems": ["C253_round_trip"], "note": "A double is the list of its eight bytes; the file is large enough."},
 {"property": "C254", "status": "partial", "theorems": ["C254_status_refuted"], "note": "The property is false of the code: with the ASCII protocol the number of characters printed is taken for an error (C254_status_refuted)."},
 {"property": "C255", "status": "partial", "theorems": ["C255_eof_refuted"], "note": "The property is false of the code: with the binary protocol VL_ERR_BAD_ARG is returned at the end of file (C255_eof_refuted)."},
 {"property": "C256", "status": "partial", "theorems": ["C256_frames_refuted"], "note": "The property is false of the code: every binary file is rejected as malformed, since the end of file is not recognised (C256_frames_refuted)."},
 {"property": "C257", "status": "proved", "theorems": ["C257_frames"], "note": "The scanning of a number by the C library is a parameter."},
 {"property": "C258", "status": "proved", "theorems": ["C258_round_trip"], "note": "Classes and presence of fields of the structure are not modelled; twice the number of data is below 2^31."},
 {"property": "C259", "status": "proved", "theorems": ["C259_same_queries"], "note": ""},
 {"property": "C260", "status": "proved", "theorems": ["C260_safe", "C260_sizes"], "note": "Loading is safe whatever the contents of the structure (C260_safe) and succeeds only with data of the sizes of the forest (C260_sizes)."},
 {"property": "C261", "status": "partial", "theorems": ["C261_checks_refuted"], "note": "The property is false of the code: data indices are not checked, nodes are counted but not marked when visited, and the root is read before the number of nodes is tested (C261_checks_refuted)."},
 {"property": "C262", "status": "proved", "theorems": ["C262_round_trip"], "note": "K and the depth fit in an int; classes of other fields than centers and sub are reduced to present or not."},
 {"property": "C263", "status": "proved", "theorems": ["C263_same_assignments"], "note": ""},
 {"property": "C264", "status": "proved", "theorems": ["C264_new_data"], "note": ""},
 {"property": "C265", "status": "proved", "theorems": ["C265_checks", "C265_scalars"], "note": ""},
 {"property": "C266", "status": "partial", "theorems": ["C266_safe_refuted"], "note": "The property is false of the code: neither DEPTH nor the number of rows of DATA is compared with the structure (C266_safe_refuted)."},
 {"property": "C267", "status": "partial", "theorems": ["C267_max_iters_refuted"], "note": "The property is false of the code: the option is parsed but never passed to the tree, which keeps 200 (C267_max_iters_refuted)."},
 {"property": "C268", "status": "proved", "theorems": ["C268_depth", "C268_one_cluster"], "note": "With real numbers; rounding of log and of the quotient is not modelled. For one cluster the code divides by zero (C268_one_cluster)."},
 {"property": "C269", "status": "partial", "theorems": ["C269_leaves_refuted"], "note": "The property is false of the code: a cluster with fewer data than K gets as many children as data (C269_leaves_refuted)."},
 {"property": "C270", "status": "proved", "theorems": ["C270_vector", "C270_scalar", "C270_scalar_dims", "C270_plain"], "note": "C270_plain covers vlmxIsPlainScalar and vlmxIsPlainVector."},
 {"property": "C271", "status": "partial", "theorems": ["C271_empty_refuted", "C271_size_refuted"], "note": "The property is false of the code: C271_empty_refuted gives the documented vectors [] (0 by 0) and 0 by 3 that are rejected, C271_size_refuted an array of 2^32 elements accepted when 0 elements are requested, since sizes are compared as 32 bit integers."},
 {"property": "C272", "status": "proved", "theorems": ["C272_matrix", "C272_plain", "C272_array"], "note": "C272_matrix shows that the out of bounds read refuted in C273 does not change the result if the memory can be read at all."},
 {"property": "C273", "status": "partial", "theorems": ["C273_bounds_refuted", "C273_doc", "C273_doc_refuted"], "note": "The property is false of the code: C273_bounds_refuted shows that for every non-empty full 2-D array the dimension after the last one is read; C273_doc_refuted that a 3 by 2 by 0 array is accepted. C273_doc proves that all documented matrices are accepted."},
 {"property": "C274", "status": "proved", "theorems": ["C274_string", "C274_compare"], "note": ""},
 {"property": "C275", "status": "proved", "theorems": ["C275_options", "C275_next"], "note": "Characters of arguments that are zero as bytes are excluded by hypothesis (mxGetString cuts there)."},
 {"property": "C276", "status": "partial", "theorems": ["C276_draw", "C276_forms", "C276_forms_refuted"], "note": "C276_draw and C276_forms prove the property up to 29 scalars (30 elements of a vector). C276_forms_refuted: with 30 dimensions the form with scalars is an error while the vector is accepted."},
 {"property": "C277", "status": "proved", "theorems": ["C277_read", "C277_restore", "C277_after_draw"], "note": "C277_after_draw shows that every generator from which a number was drawn has an index of at most 624. The case of a fresh generator is refuted in C278."},
 {"property": "C278", "status": "partial", "theorems": ["C278_fresh_refuted", "C278_ignored_refuted"], "note": "The property is false of the code: C278_fresh_refuted shows that the state of a generator that was just initialised (index 625) is read but silently ignored when restored, so numbers are not repeated; C278_ignored_refuted that all other unusable arguments are silently ignored too."},
 {"property": "C279", "status": "proved", "theorems": ["C279_seed", "C279_key"], "note": ""},
 {"property": "C280", "status": "partial", "theorems": ["C280_safe_refuted"], "note": "The property is false of the code: C280_safe_refuted shows that an empty key reads a word of the key that was never written, that a sparse key with fewer stored values than elements is read past its end, and that seeds below zero or above 2^32 - 1 are converted out of range."},
 {"property": "C281", "status": "proved", "theorems": ["C281_joins", "C281_no_null"], "note": ""},
 {"property": "C282", "status": "partial", "theorems": ["C282_costs", "C282_null_cost_refuted"], "note": "The placement of costs is proved. The property is false of the code: the merges of null values are given the cost after the first merge of other values instead of the initial one (C282_null_cost_refuted)."},
 {"property": "C283", "status": "partial", "theorems": ["C283_out_of_bounds_refuted"], "note": "The property is false of the code: with at most one value of positive probability no tree exists, all values count as null, and the entry after the end of the parents is written (C283_out_of_bounds_refuted)."},
 {"property": "C284", "status": "proved", "theorems": ["C284_numbers"], "note": ""},
 {"property": "C285", "status": "proved", "theorems": ["C285_batch"], "note": ""},
 {"property": "C286", "status": "proved", "theorems": ["C286_matlab"], "note": ""},
 {"property": "C287", "status": "proved", "theorems": ["C287_transposed"], "note": "For all contents, by evaluation of the loops."},
 {"property": "C288", "status": "proved", "theorems": ["C288_descriptor"], "note": "Exact rationals; the entry is stated by the histogram of C125 on the gradient by rows. The argument of the tabulated exponential must not be exactly 25, as in C125."},
 {"property": "C289", "status": "partial", "theorems": ["C289_uninitialised", "C289_determined_refuted"], "note": "The property is false of the code: for frames off the image, and for frames in its last column, nothing is written to the local array buf and the descriptor consists of its uninitialised contents (C289_uninitialised for all such frames, C289_determined_refuted for a witness)."},
 {"property": "C290", "status": "proved", "theorems": ["C290_bytes"], "note": "Exact rationals."},
 {"property": "C291", "status": "proved", "theorems": ["C291_sorted"], "note": "Scales are numbers, not NaN."},
 {"property": "C292", "status": "proved", "theorems": ["C292_gaussian", "C292_copy"], "note": "Exact rationals; both C29 and the exponential enter as in ImOp_Model and as any function."},
 {"property": "C293", "status": "proved", "theorems": ["C293_triangular"], "note": "Exact rationals."},
 {"property": "C294", "status": "proved", "theorems": ["C294_aux", "C294_between"], "note": "Exact rationals; the exponential is positive."},
 {"property": "C295", "status": "proved", "theorems": ["C295_passes", "C295_aux", "C295_transpose"], "note": "Exact rationals."},
 {"property": "C296", "status": "partial", "theorems": ["C296_empty_refuted"], "note": "The property is false of the code: M - 1 wraps for M = 0, and with subsampling by step >= 2 the output size is (2^64-1)/step+1 (C296_empty_refuted)."},
 {"property": "C297", "status": "proved", "theorems": ["C297_written", "C297_overflow"], "note": "Exact rationals; the product of width and height fits in an int."},
 {"property": "C298", "status": "partial", "theorems": ["C298_white_refuted"], "note": "The property is false of the code: the scale is 255 / (max - min + epsilon) and the conversion rounds down, so that no byte exceeds 254 (C298_white_refuted, for all data, exact arithmetic; with floats also for ranges such as 0 to 1, where adding epsilon is not lost)."},
 {"property": "C299", "status": "partial", "theorems": ["C299_floats", "C299_read_refuted"], "note": "The conversion is right (C299_floats), but the property is false of the code: vl_pgm_read_new rejects every file (C58), and so does the float variant (C299_read_refuted)."},
 {"property": "C300", "status": "proved", "theorems": ["C300_owned", "C300_envelope", "C300_matrix"], "note": "C300_owned is about arrays, C300_envelope about envelopes."},
 {"property": "C301", "status": "partial", "theorems": ["C301_room", "C301_wraps_refuted"], "note": "The property is false of the code: the number of bytes is computed modulo 2^64, and a matrix of 2^32 by 2^32 doubles gets a block of no bytes with no error (C301_wraps_refuted). It holds if the number of bytes is below 2^64 (C301_room)."},
 {"property": "C302", "status": "partial", "theorems": ["C302_round_trip", "C302_dimensions_refuted"], "note": "The property is false of the code: dimensions beyond the 16th are written past an array on the stack before they are checked (C302_dimensions_refuted). It holds for numeric arrays of 1 to 16 dimensions (C302_round_trip)."},
 {"property": "C303", "status": "partial", "theorems": ["C303_names_refuted", "C303_names"], "note": "The property is false of the code: unsigned types have the names of signed types (C303_names_refuted). Types of the same name have the same size, and only float and double are determined by their names (C303_names)."},
 {"property": "C304", "status": "proved", "theorems": ["C304_released"], "note": "C304_released is about all sequences of operations with valid sources of centers."},
 {"property": "C305", "status": "partial", "theorems": ["C305_deep", "C305_parameters_refuted"], "note": "The property is false of the code: the way to initialise, the minimum variation of the energy and the energy are neither copied nor set (C305_parameters_refuted). The rest of the property is proved (C305_deep)."},
 {"property": "C306", "status": "partial", "theorems": ["C306_set", "C306_own_refuted"], "note": "The property is false of the code: the centers of the object itself are freed before they are copied (C306_own_refuted). It holds for all other centers (C306_set)."},
 {"property": "C307", "status": "partial", "theorems": ["C307_leak_refuted"], "note": "The property is false of the code: the lower bounds of the covariances are never freed (C307_leak_refuted, which also proves that all other blocks are)."},
 {"property": "C308", "status": "proved", "theorems": ["C308_user"], "note": "C308_user; changes made by clustering with an object of the user are not modelled."},
 {"property": "C309", "status": "proved", "theorems": ["C309_minimum", "C309_default", "C309_refused"], "note": "C309_minimum for all parameters, C309_default without, C309_refused for negative coefficients."},
 {"property": "C310", "status": "partial", "theorems": ["C310_offsets_refuted", "C310_negated"], "note": "The property is false of the code: the offsets have the opposite sign (C310_offsets_refuted); the transform computed is the documented one with the offsets negated (C309_minimum and C310_negated)."},
 {"property": "C311", "status": "proved", "theorems": ["C311_pairs", "C311_self", "C311_refused"], "note": "For the function vl_alldist with the comparison functions and the data as parameters; the matrix test is that of C272, with the value after the dimensions readable."},
 {"property": "C312", "status": "partial", "theorems": ["C312_metrics_refuted", "C312_unknown"], "note": "The property is false of the code: LINF and L0 are in the table of options but not in the switch, so that they call abort and end MATLAB (C312_metrics_refuted). That all other names are refused with an error is proved (C312_unknown)."},
 {"property": "C313", "status": "proved", "theorems": ["C313_decode", "C313_refused"], "note": "On the models of strings and of MATLAB arrays; the conversion of characters to bytes is that of MexUtil, here for ASCII characters."}
]}
