{
 "claims": [
  {
   "property": "C01",
   "status": "proved",
   "theorems": [
    "C01_max_cliques_enumerates_maximal_cliques"
   ],
   "note": ""
  },
  {
   "property": "C02",
   "status": "proved",
   "theorems": [
    "C02_max_cliques_terminates"
   ],
   "note": ""
  },
  {
   "property": "C03",
   "status": "proved",
   "theorems": [
    "C03_heuristic_recovers_one_pure_child"
   ],
   "note": ""
  },
  {
   "property": "C04",
   "status": "proved",
   "theorems": [
    "C04_heuristic_explains_every_dependence"
   ],
   "note": ""
  },
  {
   "property": "C05",
   "status": "partial",
   "theorems": [
    "C05_heuristic_total_refuted",
    "C05_empty_graph_refuted",
    "C05_outcome_partial",
    "C05_always_answers_iff",
    "C05_never_answers_iff",
    "C05_depends_on_set_order_refuted",
    "C04_heuristic_explains_every_dependence"
   ],
   "note": "The property is false of the code and is refuted: the set comprehension at line 248 hashes ndarray rows, so the 5-cycle raises TypeError for every set order, and the empty graph raises StopIteration. The exact condition is proved: on a non-empty undirected graph there is an answer for every set order iff every maximum independent set dominates the edges, TypeError for every order iff none does, and on the 4-chain the order decides."
  },
  {
   "property": "C06",
   "status": "partial",
   "theorems": [
    "C06_heuristic_rows_are_cliques_refuted",
    "C64_heuristic_exact_iff_one_pure_child"
   ],
   "note": "The property is false of the code and is refuted (4-cycle, every set order); C64 says exactly when it holds."
  },
  {
   "property": "C07",
   "status": "proved",
   "theorems": [
    "C07_heuristic_at_most_any_cover"
   ],
   "note": ""
  },
  {
   "property": "C08",
   "status": "proved",
   "theorems": [
    "C08_search_terminates_without_raising"
   ],
   "note": "n=0 is excluded: see C65"
  },
  {
   "property": "C09",
   "status": "proved",
   "theorems": [
    "C09_rows_are_nonempty_cliques"
   ],
   "note": ""
  },
  {
   "property": "C10",
   "status": "proved",
   "theorems": [
    "C10_left_out_vertices_are_appended"
   ],
   "note": ""
  },
  {
   "property": "C11",
   "status": "partial",
   "theorems": [
    "C11_edge_cover_refuted",
    "C11_depth_limit_refuted",
    "C11_every_order_refuted",
    "C11_edge_cover_partial",
    "C11_edge_cover_nested_partial"
   ],
   "note": "False of the code: two independent causes, each with a computed witness (Rule 3 deletes a vertex that is never re-inserted; iteration_max=3); on the octahedron it fails for every set order. Positive parts: C11_edge_cover_partial (graphs without diamonds), C130 (at most five measurements), C22 (no deletion, no limit), C13 and C89 (one-pure-child and private-sibling graphs). Holds for all graphs without induced gems and 4-wheels (C143)."
  },
  {
   "property": "C12",
   "status": "partial",
   "theorems": [
    "C12_minimum_refuted",
    "C12_minimum_partial",
    "C12_minimum_nested_partial"
   ],
   "note": "False of the code: 8-vertex graph with a 7-row answer and an explicit 6-row cover. Positive parts: C12_minimum_partial (graphs without diamonds), C130 (at most five measurements), C13 and C89 (one-pure-child and private-sibling graphs). Holds for all graphs without induced gems and 4-wheels (C143)."
  },
  {
   "property": "C13",
   "status": "proved",
   "theorems": [
    "C13_search_recovers_one_pure_child"
   ],
   "note": ""
  },
  {
   "property": "C14",
   "status": "proved",
   "theorems": [
    "C14_edgeless_returned_unchanged"
   ],
   "note": "numpy: assigning a (0,)-shaped array into a (0,n) array raises ValueError, which find_clique_min_cover catches"
  },
  {
   "property": "C15",
   "status": "partial",
   "theorems": [
    "C15_zero_diagonal_refuted",
    "C15_without_edges_partial",
    "C15_filled_diagonal_partial"
   ],
   "note": "False of the code for every zero-diagonal graph with an edge: ValueError; exactly those, an edgeless one is returned unchanged. If the caller fills the diagonal first the search answers for every estimated graph."
  },
  {
   "property": "C16",
   "status": "proved",
   "theorems": [
    "C16_edge_numbering_bijective"
   ],
   "note": ""
  },
  {
   "property": "C17",
   "status": "proved",
   "theorems": [
    "C17_make_aux_records_common_neighbourhoods"
   ],
   "note": ""
  },
  {
   "property": "C18",
   "status": "proved",
   "theorems": [
    "C18_edge_operations_consistent"
   ],
   "note": ""
  },
  {
   "property": "C19",
   "status": "partial",
   "theorems": [
    "C19_counts_exact_refuted",
    "C19_counts_never_too_large_partial",
    "C19_counts_exact_before_cover_partial"
   ],
   "note": "False of the code (an edge between two vertices isolated in the same round is subtracted twice); proved: never too large in every reachable state, exact until the first clique is chosen."
  },
  {
   "property": "C20",
   "status": "proved",
   "theorems": [
    "C20_rule_2_adds_only_useful_cliques",
    "C20_reduction_stays_reachable"
   ],
   "note": ""
  },
  {
   "property": "C21",
   "status": "partial",
   "theorems": [
    "C21_deleted_vertices_put_back_refuted",
    "C66_reconstruction_never_produces_the_answer",
    "C96_deletions_undone_partial"
   ],
   "note": "False of the code; C66 is the general reason (the reconstruction never produces an answer); C96: the reconstruction itself is right as long as no clique is in the cover."
  },
  {
   "property": "C22",
   "status": "proved",
   "theorems": [
    "C22_run_without_rule_3_and_limit_is_a_cover"
   ],
   "note": ""
  },
  {
   "property": "C23",
   "status": "proved",
   "theorems": [
    "C23_nde_text_reads_back",
    "C23_nde_text_determines_graph"
   ],
   "note": ""
  },
  {
   "property": "C24",
   "status": "proved",
   "theorems": [
    "C24_sfd_symmetric_and_order_blind"
   ],
   "note": ""
  },
  {
   "property": "C25",
   "status": "proved",
   "theorems": [
    "C25_sfd_dominates_ushd"
   ],
   "note": ""
  },
  {
   "property": "C26",
   "status": "partial",
   "theorems": [
    "C26_zero_sfd_identifies_refuted",
    "C67_zero_sfd_iff_same_parent_counts",
    "C27_zero_ushd_identifies_one_pure_child"
   ],
   "note": "False; C67 is the exact meaning, C27 the case where it identifies."
  },
  {
   "property": "C27",
   "status": "proved",
   "theorems": [
    "C27_zero_ushd_identifies_one_pure_child"
   ],
   "note": ""
  },
  {
   "property": "C28",
   "status": "proved",
   "theorems": [
    "C28_ushd_is_a_distance_on_induced_graphs"
   ],
   "note": ""
  },
  {
   "property": "C29",
   "status": "proved",
   "theorems": [
    "C29_recover_ug_is_the_dependence_graph"
   ],
   "note": ""
  },
  {
   "property": "C30",
   "status": "proved",
   "theorems": [
    "C30_optimal_row_matching"
   ],
   "note": "float dtype; exact rationals instead of floats. Integer dtype: C68."
  },
  {
   "property": "C31",
   "status": "proved",
   "theorems": [
    "C31_row_order_irrelevant",
    "C31_signs_irrelevant",
    "C31_zero_iff_same_rows",
    "C31_abs_below_plain"
   ],
   "note": "exact rationals"
  },
  {
   "property": "C32",
   "status": "proved",
   "theorems": [
    "C32_generated_structure_is_one_pure_child"
   ],
   "note": "Sizes, density (given or drawn), num_latent given or drawn; the generator is any outcome respecting numpy's contract (SampleSpec.possible). Rationals for floats. Concrete instance: a_gen_run."
  },
  {
   "property": "C33",
   "status": "proved",
   "theorems": [
    "C33_generate_forget_recover"
   ],
   "note": "For the dependence graph with unit diagonal, any set order."
  },
  {
   "property": "C34",
   "status": "partial",
   "theorems": [
    "C34_drawn_graph_partial",
    "C34_induced_graph_is_a_subgraph_partial",
    "C34_exact_on_diamond_free_partial",
    "C34_exact_up_to_five_partial",
    "C34_induces_the_drawn_graph_refuted",
    "C34_exact_nested_partial"
   ],
   "note": "False as stated: the refuted theorem exhibits a drawn graph whose structure misses an edge. Proved: edge count of the drawn graph, no invented dependence, every measurement has a parent; the property itself if the drawn graph has no diamond or there are at most five measurements. Holds for all graphs without induced gems and 4-wheels (C143)."
  },
  {
   "property": "C35",
   "status": "proved",
   "theorems": [
    "C35_num_latent_refused",
    "C35_impossible_sizes_refused"
   ],
   "note": ""
  },
  {
   "property": "C36",
   "status": "proved",
   "theorems": [
    "C36_parameters_respect_the_structure",
    "C36_means_and_variances_are_the_draws",
    "C36_other_parameterizations_refused"
   ],
   "note": "Rationals for floats."
  },
  {
   "property": "C37",
   "status": "partial",
   "theorems": [
    "C37_mcm_reproducible_refuted",
    "C37_reproducible_iff_same_structure_partial"
   ],
   "note": "False as stated: line 17 of sample.py does not pass rng to biadj. The exact condition is proved."
  },
  {
   "property": "C38",
   "status": "proved",
   "theorems": [
    "C38_estimated_graph_is_simple"
   ],
   "note": "Any p-value functions; Pool.imap returns results in input order."
  },
  {
   "property": "C39",
   "status": "proved",
   "theorems": [
    "C39_monotone_in_the_level"
   ],
   "note": "chi2 quantile assumed monotone."
  },
  {
   "property": "C40",
   "status": "partial",
   "theorems": [
    "C40_dcov_is_distance_covariance_refuted",
    "C40_dcov_is_half_without_diagonal_partial"
   ],
   "note": "False as stated: squareform drops the diagonal and counts each pair once. The exact relation to the distance covariance is proved; see also C70."
  },
  {
   "property": "C41",
   "status": "proved",
   "theorems": [
    "C41_dcov_symmetric",
    "C41_dcov_shift_and_scale",
    "C41_dcov_observation_order",
    "C41_graph_does_not_depend_on_units",
    "C41_graph_observation_order",
    "C41_relabelling"
   ],
   "note": "Exact rationals for floats."
  },
  {
   "property": "C42",
   "status": "partial",
   "theorems": [
    "C42_xicor_relabelling_refuted",
    "C42_symmetric_tests_relabel_partial",
    "C42_relabelling_iff_partial",
    "C42_order_kept_partial"
   ],
   "note": "False as stated: only the pairs i<j are tested and xi is not symmetric. Exact condition proved: the graph is relabelled iff both directions of the test agree (about the level) on every pair that changed its order; order-preserving selections keep graph and p-values."
  },
  {
   "property": "C43",
   "status": "proved",
   "theorems": [
    "C43_xicorr_depends_on_ranks_only",
    "C43_xicorr_of_a_monotone_relation"
   ],
   "note": "Exact rationals; argsort is any function that sorts."
  },
  {
   "property": "C44",
   "status": "partial",
   "theorems": [
    "C44_constant_reported_dependent_refuted",
    "C44_constant_first_refuted"
   ],
   "note": "False for every x if y is constant: coefficient 1, p-value 0. If x is constant the result depends on the order in which the sort leaves the ties: a drifting y gets the coefficient of a monotone relation."
  },
  {
   "property": "C45",
   "status": "proved",
   "theorems": [
    "C45_unsupported_methods_raise"
   ],
   "note": ""
  },
  {
   "property": "C46",
   "status": "proved",
   "theorems": [
    "C46_fitted_parameters_respect_the_structure"
   ],
   "note": "the function handed to the optimizer is characterised completely; scipy's minimize is any function that answers a vector of the right length"
  },
  {
   "property": "C47",
   "status": "partial",
   "theorems": [
    "C47_refit_refuted",
    "C47_first_dataset_decides_partial"
   ],
   "note": "The property is false of the code: structure is only computed while biadj is empty. Proved: a concrete counterexample for every set order and optimizer, and that after any history (even one starting with a fit that raised) graph and structure stem from the first dataset."
  },
  {
   "property": "C48",
   "status": "proved",
   "theorems": [
    "C48_given_structure_kept",
    "C48_given_graph_kept_and_used"
   ],
   "note": "GaussianMCM; histories of fit and sample calls including raising ones"
  },
  {
   "property": "C49",
   "status": "partial",
   "theorems": [
    "C49_units_refuted",
    "C49_estimate_is_a_simple_graph_partial"
   ],
   "note": "Unit independence is false for every dataset with two correlated measurements (cov*corr instead of corr*corr); symmetric with False diagonal is proved. Exact criterion: C72."
  },
  {
   "property": "C50",
   "status": "partial",
   "theorems": [
    "C50_negative_variances_refuted",
    "C50_variances_reproduced_partial"
   ],
   "note": "False of the code (Heywood case, all exact optima negative). Proved: at an optimum, error variance = sample variance minus explained variance."
  },
  {
   "property": "C51",
   "status": "proved",
   "theorems": [
    "C51_zero_iff_exact",
    "C51_latent_order_irrelevant",
    "C51_latent_signs_irrelevant",
    "C51_dev_objective",
    "C46_fitted_parameters_respect_the_structure"
   ],
   "note": "Stated about the objective function itself (C46 shows it is the one handed to the optimizer)."
  },
  {
   "property": "C52",
   "status": "partial",
   "theorems": [
    "C52_sample_refuted",
    "C52_fit_succeeds_partial"
   ],
   "note": "False of the code: fit stores W_hat/D_hat, sample looks for W_hat_mle etc., so sample raises ValueError after every history; proved for all histories."
  },
  {
   "property": "C53",
   "status": "partial",
   "theorems": [
    "C53_mle_reports_the_optimum_partial",
    "C53_lse_reports_nonnegative_optimum_partial",
    "C53_lse_refuted"
   ],
   "note": "Proved for 'mle'; false for 'lse' (absolute values are stored), true when the optimizer returned no negative error variance. Exact difference: C75."
  },
  {
   "property": "C54",
   "status": "partial",
   "theorems": [
    "C54_training_mode_refuted",
    "C54_training_mode_partial"
   ],
   "note": "False of the code: line 342 switches to eval mode and nothing switches back, so every training pass after the first epoch is made without sampling. Proved: refutation for every network, data and >= 2 epochs; the claim for at most one epoch; C55_training_run gives the exact mode of every pass."
  },
  {
   "property": "C55",
   "status": "proved",
   "theorems": [
    "C55_training_run",
    "C55_batches_determined",
    "C55_number_of_batches",
    "C55_history_lengths",
    "C55_empty_split"
   ],
   "note": "Network, optimizer and loss are an arbitrary learner; numbers are reals instead of floats."
  },
  {
   "property": "C56",
   "status": "proved",
   "theorems": [
    "C56_kl",
    "C56_validation_loss",
    "C56_training_loss"
   ],
   "note": "torch.inverse is a black box assumed to invert diagonal matrices with positive entries, the nuclear norm one assumed non-negative; torch.det is modelled by Laplace expansion; reals instead of floats."
  },
  {
   "property": "C57",
   "status": "proved",
   "theorems": [
    "C57_blocks_do_not_mix",
    "C57_output_from_own_block"
   ],
   "note": "Every architecture and weight assignment; reals instead of floats."
  },
  {
   "property": "C58",
   "status": "partial",
   "theorems": [
    "C58_all_trainable_refuted",
    "C58_all_trainable_partial"
   ],
   "note": "False whenever there is a hidden layer (default: one): the hidden layers sit in a plain dict, so they are not registered and keep their random initial values. Exact list of trainable layers proved; true for num_hidden_layers=0. nn.Module registration and the optimizer's reach are modelled, gradients are arbitrary updates."
  },
  {
   "property": "C59",
   "status": "partial",
   "theorems": [
    "C59_weights_refuted",
    "C59_weights_partial"
   ],
   "note": "False for the mean (the weights come from the log-covariance path only), true for the log-covariance."
  },
  {
   "property": "C60",
   "status": "partial",
   "theorems": [
    "C60_log_location_refuted",
    "C60_log_location_partial"
   ],
   "note": "False for a path without final slash; exact characterisation proved. The three saved files are always inside."
  },
  {
   "property": "C61",
   "status": "partial",
   "theorems": [
    "C61_crash_consistency_refuted",
    "C61_crash_consistency_partial"
   ],
   "note": "False: a crash while overwriting can leave complete files of two different fits. Exact set of bad crash points proved. A write is modelled as truncate then complete; buffering below the file system is not modelled."
  },
  {
   "property": "C62",
   "status": "proved",
   "theorems": [
    "C62_dag"
   ],
   "note": ""
  },
  {
   "property": "C63",
   "status": "partial",
   "theorems": [
    "C63_topological_refuted",
    "C63_topological_partial",
    "C63_child_before_latent"
   ],
   "note": "False in general: biadj_to_adj symmetrises, so a latent with two children is listed after one of its (or another latent's) children. Exact: all nodes once; topological iff every latent has at most one child."
  },
  {
   "property": "C64",
   "status": "proved",
   "theorems": [
    "C64_heuristic_exact_iff_one_pure_child"
   ],
   "note": ""
  },
  {
   "property": "C65",
   "status": "proved",
   "theorems": [
    "C65_empty_matrix_diverges"
   ],
   "note": ""
  },
  {
   "property": "C66",
   "status": "proved",
   "theorems": [
    "C66_reconstruction_never_produces_the_answer"
   ],
   "note": ""
  },
  {
   "property": "C67",
   "status": "proved",
   "theorems": [
    "C67_zero_sfd_iff_same_parent_counts"
   ],
   "note": ""
  },
  {
   "property": "C68",
   "status": "partial",
   "theorems": [
    "C68_integer_predictions_refuted",
    "C68_measures_rounded_weights_partial",
    "C68_whole_weights_partial"
   ],
   "note": "False of the code: np.zeros_like copies the integer dtype, so true_W is truncated. Exact: the distance to the true weights rounded towards zero is reported; the dtype is irrelevant for whole weights."
  },
  {
   "property": "C69",
   "status": "proved",
   "theorems": [
    "C69_impossible_sizes_raise"
   ],
   "note": "numpy broadcasting of a single row and the float dtype of np.array(()) are modelled by hand"
  },
  {
   "property": "C70",
   "status": "proved",
   "theorems": [
    "C70_dcov_at_most_half"
   ],
   "note": ""
  },
  {
   "property": "C71",
   "status": "proved",
   "theorems": [
    "C71_dcov_isolates_constants"
   ],
   "note": ""
  },
  {
   "property": "C72",
   "status": "proved",
   "theorems": [
    "C72_criterion",
    "C72_small_units_empty_graph",
    "C72_large_units_all_correlated"
   ],
   "note": "exact reals"
  },
  {
   "property": "C73",
   "status": "proved",
   "theorems": [
    "C73_first_fit_outcome"
   ],
   "note": ""
  },
  {
   "property": "C74",
   "status": "proved",
   "theorems": [
    "C74_sample_after_fit",
    "C74_measurement_depends_on_its_parents"
   ],
   "note": ""
  },
  {
   "property": "C75",
   "status": "proved",
   "theorems": [
    "C75_lse_report_difference",
    "C75_lse_overstates_the_optimum"
   ],
   "note": ""
  },
  {
   "property": "C76",
   "status": "proved",
   "theorems": [
    "C76_random_split"
   ],
   "note": "floor(0.7*n) is modelled with IEEE rounding (seven_tenths, round_half_even); the 70 percent bound is stated for up to 2^50 rows."
  },
  {
   "property": "C77",
   "status": "partial",
   "theorems": [
    "C77_standardised_refuted",
    "C77_standardised_partial",
    "C77_explicit_split_raw_partial"
   ],
   "note": "False with explicit split_idcs (raw rows are used); true for the random split, except that a column which varies too little compared with its mean (sklearn's test for constant features) is centred and not scaled. Reals; for the conversion to float32 see C158."
  },
  {
   "property": "C78",
   "status": "partial",
   "theorems": [
    "C78_unit_invariance_partial",
    "C78_scale_partial",
    "C78_shift_refuted"
   ],
   "note": "False: sklearn's StandardScaler (>= 1.0) takes a column for constant if its standard deviation is at most about n * mean * 2^-52 and then does not scale it, so that a shift can change the fit. True for changes of units that do not change this verdict; for positive factors alone it suffices that no varying column of the data as given is taken for constant. Over the reals."
  },
  {
   "property": "C79",
   "status": "partial",
   "theorems": [
    "C79_negative_elbo_refuted",
    "C79_best_variance_partial",
    "C79_best_variance_of_elbo_partial",
    "C79_best_variances_partial",
    "C79_best_variances_of_elbo_partial"
   ],
   "note": "False: det(cov) is used where log det(cov) belongs; refuted for every batch size, number of measurements >= 1 and number of latents. Exact minimisers of both objectives for any number of measurements: the mean squared residuals, but for the loss divided by a common factor, the (p+1)-th root of their product."
  },
  {
   "property": "C80",
   "status": "proved",
   "theorems": [
    "C80_noise_in_training_mode_only"
   ],
   "note": "Together with C54 this says that training after the first epoch is deterministic."
  },
  {
   "property": "C81",
   "status": "partial",
   "theorems": [
    "C81_sample_equations",
    "C81_memory_independent_iff",
    "C81_memory_refuted"
   ],
   "note": "Holds iff no latent has two children; otherwise two contents of np.empty give different samples."
  },
  {
   "property": "C82",
   "status": "partial",
   "theorems": [
    "C82_random_B_partial",
    "C82_integer_structure_refuted",
    "C82_boolean_structure_refuted"
   ],
   "note": "Holds for float structures; for int structures (always the case in verify_independence_pattern_GP) every coefficient is truncated to 0 and the data are pure noise."
  },
  {
   "property": "C83",
   "status": "proved",
   "theorems": [
    "C83_generate_dataset",
    "C83_equation"
   ],
   "note": ""
  },
  {
   "property": "C84",
   "status": "proved",
   "theorems": [
    "C84_expected_dependences",
    "C84_match_rate"
   ],
   "note": ""
  },
  {
   "property": "C85",
   "status": "partial",
   "theorems": [
    "C85_grid_loop_finds_first_minimum_partial",
    "C85_grid_search_refuted"
   ],
   "note": "The loop is right, but grid_search never gets a distance to compare: fit stores W_hat while calculate_metrics reads W_hat_mle / W_hat_lse, so every cell raises AttributeError, which is swallowed; no pair is ever reported."
  },
  {
   "property": "C86",
   "status": "proved",
   "theorems": [
    "C86_folds_partition_the_data"
   ],
   "note": "sklearn's KFold is modelled from its documented algorithm; the shuffle is an arbitrary permutation."
  },
  {
   "property": "C87",
   "status": "proved",
   "theorems": [
    "C87_cross_validation_reports"
   ],
   "note": "For held-out folds of at least two rows (numpy's covariance of one row is nan)."
  },
  {
   "property": "C88",
   "status": "proved",
   "theorems": [
    "C88_examples_are_minimal",
    "C88_more_latents_is_necessary"
   ],
   "note": "Lower bounds by sets of edges no two of which share a clique."
  },
  {
   "property": "C89",
   "status": "proved",
   "theorems": [
    "C89_search_recovers_private_siblings",
    "C89_generalizes_one_pure_child",
    "C89_examples_found"
   ],
   "note": ""
  },
  {
   "property": "C90",
   "status": "proved",
   "theorems": [
    "C90_rules_1_and_2_are_optimal"
   ],
   "note": ""
  },
  {
   "property": "C91",
   "status": "partial",
   "theorems": [
    "C91_quarter_square_latents_suffice_partial",
    "C91_small_refuted"
   ],
   "note": "Holds for num_meas >= 4 (Erdos-Goodman-Posa plus isolated vertices); false for 1, 2 and 3 measurements, where independent measurements need num_meas latents."
  },
  {
   "property": "C92",
   "status": "partial",
   "theorems": [
    "C92_one_more_suffices_partial",
    "C92_printed_bound_partial",
    "C92_printed_values",
    "C92_printed_bound_refuted"
   ],
   "note": "One more than the printed number always suffices (Lovasz's bound, proved in Lovasz.v). The printed number itself is valid for graphs with at most n^2//4 edges, for complete graphs, and when the number q of missing edges satisfies q < s(s+1) with s = isqrt(q); false for K5 minus two disjoint edges (prints 3, four cliques are needed): the code uses isqrt(q) instead of the largest t with t^2 - t <= q."
  },
  {
   "property": "C93",
   "status": "partial",
   "theorems": [
    "C93_one_private_pair_refuted",
    "C89_search_recovers_private_siblings"
   ],
   "note": "False: rule_1 subtracts an edge between two simultaneously isolated vertices twice, so Rule 2 misses the last clique and Rule 3 drops its edge. What holds is C89 (a private sibling for every child)."
  },
  {
   "property": "C94",
   "status": "proved",
   "theorems": [
    "C94_attributes_consistent"
   ],
   "note": "All reachable states: copies, rules in any order, further cliques. nbrhood_edge_counts is C19."
  },
  {
   "property": "C95",
   "status": "proved",
   "theorems": [
    "C95_reconstruct_exact",
    "C95_reconstruct_without_deletions",
    "C95_reconstruct_no_cover_raises"
   ],
   "note": ""
  },
  {
   "property": "C96",
   "status": "partial",
   "theorems": [
    "C96_deletions_undone_partial",
    "C96_rounds_before_cover",
    "C96_deletions_undone_refuted"
   ],
   "note": "Proved for any number of deletions as long as no clique has been put in the cover. False afterwards: C96_deletions_undone_refuted gives a completed reduction on 6 vertices whose reconstructed cover has a row that is not a clique."
  },
  {
   "property": "C97",
   "status": "partial",
   "theorems": [
    "C97_reset_restores_partial",
    "C97_reset_fresh_refuted"
   ],
   "note": "Everything but reduced_away is restored; the stale record makes reconstruct_cover spoil a correct cover."
  },
  {
   "property": "C98",
   "status": "partial",
   "theorems": [
    "C98_counts",
    "C98_counts_meaning",
    "C98_match_rate_partial",
    "C98_metrics_below_one",
    "C98_metrics_close",
    "C98_wrong_columns_refuted"
   ],
   "note": "Counts, match rate and metrics proved relative to the columns the code picks. Those are the first num_meas of the num_latent+num_meas sampled columns, i.e. not the measurements: C98_wrong_columns_refuted shows that as soon as two measurements share a latent an estimate exact for the sampled columns never scores 1."
  },
  {
   "property": "C99",
   "status": "proved",
   "theorems": [
    "C99_kernel_entries",
    "C99_kernel_positive_semidefinite",
    "C99_kernel_positive_definite",
    "C99_kernel_translation"
   ],
   "note": "Exact reals."
  },
  {
   "property": "C100",
   "status": "partial",
   "theorems": [
    "C100_own_generator_partial",
    "C100_default_is_shared",
    "C100_shared_generator_refuted",
    "C100_two_draws_per_sample"
   ],
   "note": "Proved for objects that are given a generator nobody else has. False for the default: default_rng(0) is evaluated once, so all models made without rng, and all models made by mcm whatever rng it is given, draw from one generator."
  },
  {
   "property": "C101",
   "status": "proved",
   "theorems": [
    "C101_sample_moments",
    "C101_fit_matches_sample"
   ],
   "note": "Expectation is any linear functional on a class of random variables closed under sums and multiples; the moments of rng.multivariate_normal are a hypothesis, met by a concrete finite probability space in C101_instance. It cannot be met with negative error variances: see C160."
  },
  {
   "property": "C102",
   "status": "partial",
   "theorems": [
    "C102_unweighted_error",
    "C102_weighted_error_refuted",
    "C102_batch_size_refuted"
   ],
   "note": "Proved for the unweighted error (spectral norm of the residual matrix). False for the weighted one, which is negative and largest for a perfect reconstruction (the sign of a log-likelihood), and false for independence of batching: two batches of one row and one batch of two rows of the same data report different errors."
  },
  {
   "property": "C103",
   "status": "proved",
   "theorems": [
    "C103_every_structure_can_be_drawn",
    "C103_every_graph_can_be_drawn",
    "C103_every_parameter_can_be_drawn"
   ],
   "note": "Outcomes range over the documented contract of numpy's Generator; its distribution is not modelled."
  },
  {
   "property": "C104",
   "status": "proved",
   "theorems": [
    "C104_draws_of_a_structure",
    "C104_draws_of_a_graph",
    "C104_draws_do_not_depend_on_outcomes",
    "C104_refused_without_drawing"
   ],
   "note": "The kind and length of each generator call is recorded in the model's trace."
  },
  {
   "property": "C105",
   "status": "proved",
   "theorems": [
    "C105_pairwise_tests",
    "C105_given_p_values",
    "C105_dcov_fast"
   ],
   "note": "Exact rationals with infinities and nan for floats; the chi-square quantile, dcor's test and the p-value of xicorr are parameters."
  },
  {
   "property": "C106",
   "status": "proved",
   "theorems": [
    "C106_tie_free_coefficient",
    "C106_tie_free_range",
    "C106_tie_free_p_values",
    "C106_ties_is_conservative",
    "C106_sizes"
   ],
   "note": "Exact rationals; norm.cdf(sqrt(n)*xi/sqrt(v)) is a parameter cdf n xi v."
  },
  {
   "property": "C107",
   "status": "proved",
   "theorems": [
    "C107_outputs_are_bounded",
    "C107_far_data_are_not_reconstructed",
    "C107_training_and_evaluation_agree_without_noise",
    "C107_encoder_rectifies",
    "C107_held_layers_determine_the_network",
    "C107_bounds_are_sharp"
   ],
   "note": "Real arithmetic for floats; width_per_meas >= 1."
  },
  {
   "property": "C108",
   "status": "proved",
   "theorems": [
    "C108_single_measurement",
    "C108_wrong_width",
    "C108_sample_before_fit",
    "C108_explicit_split",
    "C108_empty_dataset_and_batch_size_zero",
    "C108_unknown_method",
    "C108_dev_sample_with_attributes_set_by_hand"
   ],
   "note": "numpy broadcasting of width-one structures is outside the model (hypotheses exclude it); explicit indices are non-negative."
  },
  {
   "property": "C109",
   "status": "partial",
   "theorems": [
    "C109_structure_refuted",
    "C109_shape_partial"
   ],
   "note": "Refuted for every input: two models that differ only in biadj, udg, one_pure_child and the structure-learning hyperparameters make the same passes and end with the same network, weights and losses, and biadj/udg stay as they were (fit never calls _compute_biadj). Proved instead: the network always has one latent per measurement, the reported weights have shape (p, p*width), sample raises NotImplementedError."
  },
  {
   "property": "C110",
   "status": "partial",
   "theorems": [
    "C110_seed_refuted",
    "C110_seed_partial"
   ],
   "note": "Refuted: torch's generator is never seeded and the decoder's hidden layers are never trained, so processes whose generator initialises such a layer differently end with different networks for every seed, dataset and number of epochs. Proved: the seed fixes the batches of every pass."
  },
  {
   "property": "C111",
   "status": "proved",
   "theorems": [
    "C111_losses_are_positive"
   ],
   "note": "torch.inverse inverts positive diagonal matrices and torch's norms are >= 0 (hypotheses); real arithmetic."
  },
  {
   "property": "C112",
   "status": "proved",
   "theorems": [
    "C112_generators",
    "C112_refused_fits"
   ],
   "note": ""
  },
  {
   "property": "C113",
   "status": "partial",
   "theorems": [
    "C113_exact_recovery_partial",
    "C113_identified_iff",
    "C113_three_children_visible",
    "C113_two_children_refuted"
   ],
   "note": "Settled exactly for structures in which every latent has a pure child (all structures that the heuristic search returns, C03): recovery holds if and only if no change of the latents' variances is invisible to the covariances of the measurements other than the pure children (C113_identified_iff), a linear condition on the weights that holds whenever every latent has a pure child and two further children sharing no other parent (C113_three_children_visible, C113_exact_recovery_partial). The property as stated, for every structure, is false: refuted whenever some latent has at most two children (the toy model of the scripts). Structures with a latent without pure child (possible with the exact search) and at least three children are not settled."
  },
  {
   "property": "C114",
   "status": "partial",
   "theorems": [
    "C114_unbounded_refuted",
    "C114_never_optimal_refuted",
    "C114_positive_variances_partial"
   ],
   "note": "Refuted for every dataset with two or more measurements: finite values below every bound, at negative error variances, so what fit stores is never a minimum. Proved where all error variances are positive and the sample covariance is regular: finite, bounded by the saturated value plus penalties, with equality exactly at an exact fit. Exact linear algebra is a hypothesis, met by Gaussian elimination (MleInstance.v)."
  },
  {
   "property": "C115",
   "status": "partial",
   "theorems": [
    "C115_variances_refuted",
    "C115_optimal_variances_lse_partial",
    "C115_optimal_variances_mle_partial",
    "C115_range_partial"
   ],
   "note": "Refuted: without penalties every vector of sufficiently small positive error variances is optimal for suitable weights. Exact: the optimal error variances are those that leave a positive semidefinite matrix when subtracted from the sample variances (least squares: all real vectors, all data; likelihood: positive ones, regular data); they are at most the sample variances, closed downwards and convex. For one_pure_child=False and fewer than four measurements (fewer latents than measurements) nothing is claimed."
  },
  {
   "property": "C116",
   "status": "partial",
   "theorems": [
    "C116_boolean_partial",
    "C116_shared_child_refuted",
    "C116_single_latent_refuted",
    "C116_structure_ignored_refuted",
    "C116_two_clusters_refuted",
    "C116_examples_refuted",
    "C116_mcm_structure_ignored_refuted",
    "C116_single_edge_refuted",
    "C116_float_refused"
   ],
   "note": "False for integer structures, which numpy uses as row indices: ValueError whenever every measurement has a parent and one has two (all of medil.examples), IndexError for one latent; if every measurement has exactly one parent the call succeeds but ignores the structure (rows 0 and 1 both get all weights) and cannot reproduce two uncorrelated clusters. numpy's integer-array assignment is modelled from its documentation."
  },
  {
   "property": "C117",
   "status": "partial",
   "theorems": [
    "C117_isolated_partial",
    "C117_complete_partial",
    "C117_other_files",
    "C117_same_directory_mixed",
    "C117_same_directory_refuted",
    "C117_torn_network",
    "C117_killed_second_fit"
   ],
   "note": "True if no other fit has the same directory (at every moment, for every schedule and crash); false for the shared default path: whatever two fits write, some schedule leaves the network of one with the losses of the other, and a file can hold bytes of both. A log entry is one append; a saved file is a truncation and a sequence of writes of any sizes."
  },
  {
   "property": "C118",
   "status": "proved",
   "theorems": [
    "C118_log_is_an_interleaving",
    "C118_append_only"
   ],
   "note": "By an invariant over the schedule. A line is one append (mode 'a', shorter than the buffer, closed after each line)."
  },
  {
   "property": "C119",
   "status": "partial",
   "theorems": [
    "C119_constructor",
    "C119_empty_path",
    "C119_again",
    "C119_then_fit",
    "C119_creates_directory_refuted"
   ],
   "note": "Success is characterised exactly; false for nested paths with a missing parent (FileNotFoundError, mkdir without parents=True). Links, permissions, '.', '..' and doubled slashes are not modelled."
  },
  {
   "property": "C120",
   "status": "partial",
   "theorems": [
    "C120_same_as_sequential",
    "C120_schedule_independent",
    "C120_fair_schedules_end_partial",
    "C120_estimate_UDG",
    "C120_killed_process_hangs_refuted"
   ],
   "note": "Values, order and first exception are proved for every schedule and every crash; termination for fair schedules in which no worker process dies. False with a crash: a worker that dies while it holds a chunk takes it with it and estimate_UDG waits for ever. multiprocessing.Pool.imap is modelled from the source of the Python library."
  },
  {
   "property": "C121",
   "status": "proved",
   "theorems": [
    "C121_structure",
    "C121_parameters",
    "C121_consistent",
    "C121_data_exist",
    "C121_cancelled_refuted"
   ],
   "note": "The deterministic half of consistency: constants exist for every model; that random samples have such covariances with high probability is not part of the model. Data with exactly the model's covariance are constructed for every number of observations. C121_cancelled_refuted shows that the hypothesis on cancelled dependences cannot be dropped."
  },
  {
   "property": "C122",
   "status": "partial",
   "theorems": [
    "C122_caller_arrays_unchanged",
    "C122_sharing_is_harmless",
    "C122_result_is_new_partial",
    "C122_edgeless_result_is_the_argument_refuted"
   ],
   "note": "Proved on a heap model by refinement to the value model used elsewhere. The last clause is false for graphs without edges: there the returned array is the argument itself, so writing to the result overwrites the graph (refuted for every such graph; proved for all others)."
  },
  {
   "property": "C123",
   "status": "partial",
   "theorems": [
    "C123_edits_are_shared",
    "C123_aux_of_current_array",
    "C123_edge_count_partial",
    "C123_new_edge_count_partial",
    "C123_edge_count_refuted",
    "C123_copy_partial",
    "C123_stale_copy_refuted",
    "C123_failed_aux_refuted"
   ],
   "note": "Proved: num_edges is right as long as the array is not changed otherwise than through the object since the last edit, and copies describe the graph as long as the array is not changed since make_aux. Refuted beyond that, for every graph: two objects on one array, add_edges after make_aux, and make_aux on an edgeless graph followed by add_edges."
  },
  {
   "property": "C124",
   "status": "partial",
   "theorems": [
    "C124_exact_when_countable_partial",
    "C124_bool_and_int_exact_partial",
    "C124_recovered_edges",
    "C124_no_self_loops",
    "C124_overflow_refuted"
   ],
   "note": "False as stated: recover_ug multiplies in the dtype of the structure, so in a w-bit array a dependence with a multiple of 2^w common parents disappears and a structure can have distance (0, 1) from itself. Proved: exact whenever the number of latents is below 2^w for each array and (measurements * latents)^2 < 2^63; always so for bool; and exactly which dependences are lost."
  },
  {
   "property": "C125",
   "status": "partial",
   "theorems": [
    "C125_near_optimal_partial",
    "C125_abs_near_optimal_partial",
    "C125_answers",
    "C125_impossible_sizes_raise",
    "C125_exact_match_is_zero",
    "C125_zero_means_close_partial",
    "C125_zero_means_match_refuted",
    "C125_row_order_irrelevant",
    "C125_signs_irrelevant",
    "C125_overflow",
    "C125_one_infinite_entry",
    "C125_finite_distance_iff",
    "C125_row_order_with_infinities_refuted",
    "C125_refusals"
   ],
   "note": "IEEE binary64 with gradual underflow, overflow, infinities and nan (Flocq). False in two points: distance 0 does not mean an exact match, because squares of small differences underflow (then all differences are at most 2^-537); with an infinite or nan entry no search takes place, the rows are reported in the order given, and their order decides between infinity and nan. Finite entries whose distance is 2^1024 or more give infinity and the order given."
  },
  {
   "property": "C126",
   "status": "partial",
   "theorems": [
    "C126_show_dag",
    "C126_drawing_determines_structure",
    "C126_heatmap",
    "C126_heatmap_names",
    "C126_plots_are_shown",
    "C126_missing_names_refuted",
    "C126_values_are_drawn"
   ],
   "note": "show_dag and show_obs_dcor_mat are proved correct (labels of non-square matrices are characterised exactly). show_obs_adj_mat and show_pairwise_plot always raise NameError before they show anything: refuted for every input. Rendering by matplotlib is not modelled."
  },
  {
   "property": "C127",
   "status": "partial",
   "theorems": [
    "C127_no_plot_is_overwritten",
    "C127_validation_panel_partial",
    "C127_hyperparameters",
    "C127_headlines",
    "C127_distance_panels_refuted",
    "C127_numbering_refuted",
    "C127_deep_dive_refuted",
    "C127_deep_dive_exception",
    "C127_no_graphs",
    "C127_fit_without_hyperparameters"
   ],
   "note": "Proved: every plot has its own file, the validation panels are right, all pairs of hyperparameters are tried, the messages and files come in the announced order. Refuted for all inputs: distance and SFD panels contain only nan, file numbers are one less than the announced ones, and benchmark_graphs_deep_dive raises on its first graph."
  },
  {
   "property": "C128",
   "status": "partial",
   "theorems": [
    "C128_developing_refuted",
    "C128_developing_ends",
    "C128_pgm_demo_refuted",
    "C128_imports_from_medil_partial"
   ],
   "note": "False for both scripts in every environment (Python before 3.14): developing.py ends at the latest in line 756 (annotation Tuple is not imported), pgm_demo.py in line 4 (no module medil.functional_MCM). Proved: every name developing.py takes from medil exists."
  },
  {
   "property": "C129",
   "status": "proved",
   "theorems": [
    "C129_search_exact_on_diamond_free",
    "C129_search_exact_on_triangle_free"
   ],
   "note": "For all graphs of this class; C11/C12 show that the search is wrong on some other graphs."
  },
  {
   "property": "C130",
   "status": "proved",
   "theorems": [
    "C130_search_exact_up_to_five",
    "C130_octahedron",
    "C130_examples_found"
   ],
   "note": "Proved with a verified exploration of all orders (all_results_complete) and C129 for the graphs without diamonds. The octahedron shows that five is best possible: every order misses an edge there."
  },
  {
   "property": "C131",
   "status": "proved",
   "theorems": [
    "C131_max_cliques_bound",
    "C131_maximal_cliques_bound",
    "C131_bound_is_attained"
   ],
   "note": "The bound depends on the choice of the pivot with most neighbours among the candidates, on the removal of tried vertices and on the pruning by the pivot's neighbours."
  },
  {
   "property": "C132",
   "status": "proved",
   "theorems": [
    "C132_search_cost",
    "C132_counting_changes_nothing"
   ],
   "note": "Counted version of the search with an erasure theorem. The model runs the generator max_cliques to its end where the code may stop early, so the bound is an upper bound for the code."
  },
  {
   "property": "C133",
   "status": "proved",
   "theorems": [
    "C133_latents_explain_something_new",
    "C133_no_more_latents_than_edges"
   ],
   "note": "Invariant of the reduction and of branch: edges still in the reduced graph are not inside a row of the cover."
  },
  {
   "property": "C134",
   "status": "proved",
   "theorems": [
    "C134_attributes",
    "C134_gaussian_text",
    "C134_neural_text",
    "C134_text_determines_values",
    "C134_one_line_is_needed"
   ],
   "note": "How numpy formats a value is a parameter; the last theorem shows why one-line values are required."
  },
  {
   "property": "C135",
   "status": "partial",
   "theorems": [
    "C135_no_optimum_refuted",
    "C135_learned_refuted",
    "C135_exists_iff_partial",
    "C135_latents_of_any_size_partial",
    "C135_positive_covariances_partial",
    "C135_close_to_a_model_partial"
   ],
   "note": "False: if a latent has exactly three children, all pure, whose sample covariances have a negative product (or exactly one is zero), every parameter choice, hence whatever fit reports, can be strictly improved; fit learns such structures itself. Exact characterisation when no measurement has two parents (any number of children per latent); positive products of covariances suffice. With shared children: a best choice exists for all data close enough to a model with three children per latent (as in C121); an exact condition for arbitrary data is missing."
  },
  {
   "property": "C136",
   "status": "proved",
   "theorems": [
    "C136_minimum_exists",
    "C136_fit_can_solve_it",
    "C136_solutions_bounded"
   ],
   "note": "The nuclear norm is a parameter specified by its duality with the spectral norm; an instance is constructed."
  },
  {
   "property": "C137",
   "status": "proved",
   "theorems": [
    "C137_empty_model_is_a_local_minimum",
    "C137_strong_penalty_gives_the_empty_model"
   ],
   "note": ""
  },
  {
   "property": "C138",
   "status": "partial",
   "theorems": [
    "C138_weights_refuted",
    "C138_every_penalty_refuted",
    "C138_invariances_partial"
   ],
   "note": "False for every penalty. mu_reg = 0 and at least two latents: each single reported weight is zero at another point with the same objective value (rotation of the latents). lam_reg + mu_reg > 0, lse: there are data on which the model without influences and one with influences are both best. Proved: both objectives are invariant under rotations for mu_reg = 0 and under order and signs of the latents always."
  },
  {
   "property": "C139",
   "status": "proved",
   "theorems": [
    "C139_final_validation_loss"
   ],
   "note": "torch.inverse inverts positive diagonal matrices (hypothesis); real arithmetic; the loss is the closed formula of C56."
  },
  {
   "property": "C140",
   "status": "partial",
   "theorems": [
    "C140_same_measurements",
    "C140_sfd_refuses_partial",
    "C140_sfd_single_measurement_refuted",
    "C140_permutation_distances_refuse_partial",
    "C140_permutation_distances_refuted",
    "C108_wrong_width",
    "C140_fit_refuted",
    "C140_validation_refuses_partial",
    "C140_validation_refuted"
   ],
   "note": "True unless one side has exactly one measurement; then numpy broadcasts, and what is computed instead is given exactly: sfd treats the single measurement as all measurements, true weights are repeated, GaussianMCM.fit succeeds but no sample can be drawn afterwards, validation_lse takes the single variance for every covariance. (validation_mle can also end with the exception of a singular matrix or with infinity.)"
  },
  {
   "property": "C141",
   "status": "partial",
   "theorems": [
    "C141_generated_structure_is_one_pure_child",
    "C141_generate_forget_recover",
    "C141_drawn_graph",
    "C141_every_structure_can_be_drawn",
    "C141_parameters_respect_the_structure",
    "C141_nearest_number_of_edges_refuted",
    "C141_every_parameter_can_be_drawn_refuted",
    "C141_same_draws_and_refusals"
   ],
   "note": "Structures, ranges and reachability of structures are proved with IEEE rounding (fewer than 2^53 possible edges; rng.random returns multiples of 2^-53). False in two points: the product density * max_num_edges is rounded first, so the number of edges can be the second nearest integer (proved: at most max_num_edges / 2^53 beyond one half, and nearest otherwise); and some float64 numbers in [0.5, 2), e.g. 0.5 + 2^-53, are never drawn."
  },
  {
   "property": "C142",
   "status": "partial",
   "theorems": [
    "C142_histories",
    "C142_same_rows_one_batch",
    "C142_same_rows_frozen_network",
    "C142_comparable_refuted"
   ],
   "note": "The contents of the four histories are proved for every run. False in the last clause: on the same rows and for the same network the training loss exceeds the validation loss by the penalties times the average of 1/(rows in the batch); the exact difference and the agreement of the errors are proved."
  },
  {
   "property": "C143",
   "status": "proved",
   "theorems": [
    "C143_search_exact_without_gems_and_wheels",
    "C143_graphs_without_gems_and_wheels",
    "C143_one_vertex_more_fails"
   ],
   "note": "The positive part is proved for the whole class (it contains the class of C129). The boundary is shown by two concrete runs: with one more vertex joined to a gem or to a wheel the search misses an edge (6 vertices, ascending set order)."
  },
  {
   "property": "C144",
   "status": "partial",
   "theorems": [
    "C144_exact_search_partial",
    "C144_heuristic_partial",
    "C144_heuristic_number_of_latents",
    "C144_heuristic_answers",
    "C144_exact_search_refuted",
    "C144_heuristic_refuted",
    "C144_fit_partial"
   ],
   "note": "False in general: with the same set order, one numbering of a 6-vertex graph gets a cover and another misses an edge; the heuristic answers for one numbering of a chain of four and raises TypeError for another. Proved: the exact search on all graphs without gems and 4-wheels, the heuristic and fit on all graphs of one-pure-child structures, for any set orders in the two runs; on all graphs the number of latents found by the heuristic, and whether it answers for every set order, do not depend on the numbering; fit's estimated graph is always renumbered."
  },
  {
   "property": "C145",
   "status": "partial",
   "theorems": [
    "C145_xicorr_partial",
    "C145_xicorr_refuted",
    "C145_xicor_graph_partial",
    "C145_fit",
    "C145_dev"
   ],
   "note": "False for xicorr with ties in x, whatever sorting routine is used (a dataset of three rows is constructed for every routine); proved for xicorr and the xicor graph when equal values of x come with equal values of y, and without condition for GaussianMCM().fit (any environment, exceptions included) and DevMedil, in real arithmetic. The dcov methods are in C41."
  },
  {
   "property": "C146",
   "status": "proved",
   "theorems": [
    "C146_every_sample",
    "C146_positive_variance",
    "C146_one_observation",
    "C146_graph"
   ],
   "note": "The coefficient is 1 exactly if y is constant; the tie-corrected variance is positive exactly if y is not. A single observation gives nan twice. Exact rationals instead of floats."
  },
  {
   "property": "C147",
   "status": "partial",
   "theorems": [
    "C147_permutation_triangle",
    "C147_permutation_symmetric",
    "C147_frobenius_triangle",
    "C147_reported_numbers_refuted"
   ],
   "note": "The square roots of the reported numbers satisfy the triangle inequality, missing latents included, and the permutation distances are symmetric for equally many latents. The reported numbers themselves are squares and violate the triangle inequality (refuted for all three functions)."
  },
  {
   "property": "C148",
   "status": "partial",
   "theorems": [
    "C148_fixed_width_integers",
    "C148_booleans_refuted"
   ],
   "note": "True for signed and unsigned integers of any width: the normaliser depends only on which values are equal. False for booleans: numpy refuses to negate them, so every such call raises TypeError."
  },
  {
   "property": "C149",
   "status": "partial",
   "theorems": [
    "C149_infinite_values",
    "C149_nan_in_y",
    "C149_nan_in_x_refuted",
    "C149_graph_refuted",
    "C149_graph_complete_pairs"
   ],
   "note": "Infinite values and a nan in y are handled. A nan in x is not noticed: rankdata returns only nan, all recorded values of x are disregarded, and the coefficient is that of y against the order in which nans are sorted (with an increasing y and the stable order the largest possible coefficient). rankdata with its default nan_policy (scipy 1.10 or later). In the graph of method=\"xicor\" a nan prevents the edge if it is in the later column and goes unnoticed in the earlier one."
  },
  {
   "property": "C150",
   "status": "partial",
   "theorems": [
    "C150_coefficient_accuracy",
    "C150_p_value_is_a_number_partial",
    "C150_constant_y_refuted"
   ],
   "note": "Coefficient: within n/2^46 of the exact one up to 2^20 observations, at most 1, equal to 1 exactly for a constant y. The variance is positive (the p-value a number) up to 16000 observations if y is not constant. False if y is constant: the exact variance is 0 (p-value 0, an edge in the graph, C44), but with five observations the computed one is negative, the p-value nan and there is no edge. Missing: more than 16000 observations, and how accurate the p-value is."
  },
  {
   "property": "C151",
   "status": "proved",
   "theorems": [
    "C151_one_bad_value_isolates",
    "C151_complete_pairs_unaffected"
   ],
   "note": "Values are rational numbers, the two infinities or nan; arithmetic on the finite ones is exact."
  },
  {
   "property": "C152",
   "status": "partial",
   "theorems": [
    "C152_graph",
    "C152_gaussian_parameters_refuted",
    "C152_devmedil_lse_refuses",
    "C152_devmedil_mle_refuted",
    "C152_complete_data",
    "C152_complete_fit"
   ],
   "note": "Holds for the estimated graph of GaussianMCM; false for its parameters: one such value makes the objective nan everywhere, so weights and error variances of all measurements do not depend on the recorded values, and nothing is refused. DevMedil: method lse refuses (ValueError), method mle does not and its objective is nowhere a number."
  },
  {
   "property": "C153",
   "status": "proved",
   "theorems": [
    "C153_statistic_bound",
    "C153_no_edges_in_small_samples",
    "C153_bound_is_reached"
   ],
   "note": "Exact arithmetic. The critical value chi2.ppf(1 - level, 1) is a parameter; that it is 3.84... at level 0.05 is not proved."
  },
  {
   "property": "C154",
   "status": "partial",
   "theorems": [
    "C154_statistic_accuracy",
    "C154_decisions",
    "C154_symmetric",
    "C154_constant_measurement",
    "C154_units_refuted",
    "C154_no_overflow",
    "C154_large_units_refuted",
    "C154_arithmetic_is_ieee"
   ],
   "note": "IEEE binary64 with gradual underflow. The statistic is within n^2 K / 2^46 of the exact one if the mean distances of both measurements are at least 2^-400, K = 8 H + 2 H2 + 42 for summation depths H and H2. Symmetry and isolation of constant measurements hold without condition. False for the unit of measurement: if all values are below 2^-600 the products underflow and no edge is ever found, although the exact graph does not depend on the unit. With overflow, infinities and nan: measurements up to 2^400 in size do not overflow anywhere (up to 2^26 observations); with mean distances from 2^514 on no edge is ever found. The arithmetic with infinities and nan is proved equal to Flocq's bit-level IEEE 754 operations (C154_arithmetic_is_ieee)."
  },
  {
   "property": "C155",
   "status": "partial",
   "theorems": [
    "C155_decisions",
    "C155_simple_graph",
    "C155_constant_partial",
    "C155_constant_refuted",
    "C155_no_overflow",
    "C155_large_values_refuted"
   ],
   "note": "binary64 with gradual underflow, overflow, infinities and nan included: nothing overflows for values up to 2^400, and a measurement with two observations that differ by 2^514 has no edge whatever the data, although exact arithmetic joins it with everything it is correlated with. np.cov and np.corrcoef are modelled operation by operation; summation orders are arbitrary trees, the logarithm any function accurate to 2^-49 relative. Decisions agree when the strength differs from the threshold by at least K B^4 / (2^42 v) + 2^-43, K = 2H + 2H2 + 10, for values of size at most B and variances at least v. The part about constants is false: five observations of 2^53 - 1 in two columns (their computed mean is 2^53 - 2) are reported dependent (C155_constant_refuted; numpy adds fewer than 8 values one after the other). True for constants whose multiples up to n are representable (C155_constant_partial)."
  },
  {
   "property": "C156",
   "status": "partial",
   "theorems": [
    "C156_without_gpu",
    "C156_gpu_refuted",
    "C156_left_on_the_cpu"
   ],
   "note": "False on every machine with a GPU: no fit succeeds. Masks are plain attributes and hidden layers sit in a plain dict, so Module.to leaves them on the CPU and the first pass raises RuntimeError; with num_epochs = 0 the files are written and Tensor.numpy raises TypeError. Without GPU (or after setting the attribute device to the CPU) fit is the one of NeuralModel.v (refinement). torch's device rules are modelled: pointwise operations need one device, except with scalars without dimensions on the CPU; functional.linear needs one device; Module.to moves registered parameters only."
  },
  {
   "property": "C157",
   "status": "partial",
   "theorems": [
    "C157_logged_number_refuted"
   ],
   "note": "False whenever there is a hidden layer (default: one): the exact logged number and the exact number of weights are given, the difference are the weights and biases of the hidden layers."
  },
  {
   "property": "C158",
   "status": "partial",
   "theorems": [
    "C158_random_split_partial",
    "C158_explicit_split_rounded",
    "C158_timestamps_refuted",
    "C158_overflow",
    "C158_conversion_is_ieee"
   ],
   "note": "The loader converts to single precision. With the random split the standardised values are passed with an error of at most sqrt(n)/2^24 and never overflow (unless sklearn takes a varying column for a constant, see C78). False with explicit split_idcs, where raw values are used (C77): datasets that round alike give the same run, e.g. times in seconds since 1970 within 64 s are all equal. Arithmetic of the network and the scaler is exact in the model. Infinities arise exactly for values of size at least 2^128 - 2^103."
  },
  {
   "property": "C159",
   "status": "partial",
   "theorems": [
    "C159_infinite_refused",
    "C159_random_split_refuted",
    "C159_explicit_split",
    "C159_unused_rows_partial",
    "C159_standardised",
    "C159_complete_data",
    "C159_network",
    "C159_raises_partial"
   ],
   "note": "Infinite values are refused (ValueError). False for nan: the scaler lets it pass (and standardises the recorded values as if they were all), and with the random split one nan anywhere makes all training or all validation losses and errors nan, for every network and optimizer, unless torch's SVD raises (then fit raises in the first epoch). Explicit split_idcs that avoid incomplete rows avoid the problem. On complete data the model is the one of NcfaModel.v/NeuralModel.v (refinement). Assumed of torch: the spectral norm of a matrix with nan is not a number."
  },
  {
   "property": "C160",
   "status": "partial",
   "theorems": [
    "C160_sampled_moments",
    "C160_fitted_variances_partial",
    "C160_fitted_variances_refuted",
    "C160_warning"
   ],
   "note": "False in general: fit does not bound error variances (C50), and numpy's SVD method draws negative ones with their absolute value, so after every best fit of some data with positive definite covariance a sampled measurement varies more than the data, by exactly twice |v|. True for measurements with nonnegative error variance. numpy gives only a RuntimeWarning, exactly if some variance is below -tol/(2-tol), tol=1e-8. SVD modelled as any routine that returns a singular value decomposition over the reals."
  },
  {
   "property": "C161",
   "status": "partial",
   "theorems": [
    "C161_units_iff",
    "C161_common_unit",
    "C161_units_refuted"
   ],
   "note": "False in general: a dataset with positive definite covariance, four measurements of one latent, for which every best fit before and every best fit after doubling one measurement imply different covariances. Exact condition (weights nonzero on the structure): best in all units if and only if all covariances of measurements with a common parent are reproduced exactly. Always true for a common factor. Existence of best fits in the example by C135."
  },
  {
   "property": "C162",
   "status": "partial",
   "theorems": [
    "C162_unit_is_penalty",
    "C162_units_refuted",
    "C162_unpenalised"
   ],
   "note": "False with any penalty, however small, for every dataset with two correlated measurements: in some units the only best model has no influences, in others every best model has some. Exact relation: multiplying the data by c is the same as dividing both penalties by c^3. True without penalties and with as many latents as measurements, even for different factors per measurement. The likelihood (method='mle') has no best parameters at all (C114)."
  },
  {
   "property": "C163",
   "status": "proved",
   "theorems": [
    "C163_best_iff_best_in_groups",
    "C163_groups_separate"
   ],
   "note": ""
  },
  {
   "property": "C164",
   "status": "proved",
   "theorems": [
    "C164_always_iff",
    "C164_separates",
    "C164_combines",
    "C164_one_more_measurement"
   ],
   "note": ""
  },
  {
   "property": "C165",
   "status": "partial",
   "theorems": [
    "C165_sfd_adds",
    "C165_abs_distance_adds",
    "C165_distance_adds_partial",
    "C165_distance_at_most_partial",
    "C165_distance_adds_refuted"
   ],
   "note": "True for both numbers of sfd and for the distance of absolute weights. False for min_perm_squared_l2_dist when weights are negative: the best order can give a latent the name of a latent of the unrelated group, and the distance is then less than the sum (never more); true if no weight is negative. Exact rationals; equal numbers of estimated and true latents in each group."
  },
  {
   "property": "C166",
   "status": "partial",
   "theorems": [
    "C166_dcov_statistic",
    "C166_dcov_not_connected",
    "C166_gauss_not_connected",
    "C166_xicor_refuted"
   ],
   "note": "True for dcov_fast (critical value not negative) and for the graph of GaussianMCM: the distance covariance, respectively the covariance, is 0; the statistic of dcov_fast is then -1/2 instead of 0 (cf. C40, C70). False for xicor: ties in the first measurement are broken by position, so that for every level there is a sample with independent, non-constant columns that are connected. Exact arithmetic."
  },
  {
   "property": "C167",
   "status": "partial",
   "theorems": [
    "C167_xicor_connects",
    "C167_dcov_copies_refuted",
    "C167_gauss_copies",
    "C167_gauss_copies_refuted"
   ],
   "note": "True for xicor, and more generally whenever the later measurement never decreases (or never increases) as the earlier one increases. False for dcov_fast: if one observation differs from all others, the statistic of a measurement and its copy is 1 - 1/(2(n-1)), below every critical value of at least 1, whatever n (true for two values taken equally often, C153). False for GaussianMCM: copies are connected exactly if their sample variance exceeds 1 - n^(-1/n), which depends on the units. Exact arithmetic."
  },
  {
   "property": "C168",
   "status": "partial",
   "theorems": [
    "C168_estimated_graph",
    "C168_gauss_graph",
    "C168_fewer_latents",
    "C168_fewer_necessary",
    "C168_fewer_found_partial",
    "C168_every_graph_is_left",
    "C168_lost_answer_refuted"
   ],
   "note": "The graph and the number of latents are proved (for the exact search on the graphs of C143, where it is right; graphs of dcov_fast, dcov_big, xicor and GaussianMCM; with given p-values the user selects the rows and columns). False for the existence of an answer: every measured graph is what is left of one for which the heuristic recovers the structure in every order, including those for which it raises TypeError in every order."
  },
  {
   "property": "C169",
   "status": "partial",
   "theorems": [
    "C169_minimum_cover",
    "C169_heuristic_shares",
    "C169_heuristic_extends",
    "C169_heuristic_always_iff",
    "C169_search_shares_partial",
    "C169_xicor_graph",
    "C169_xicor_heuristic"
   ],
   "note": "The heuristic: proved for all graphs (up to the order of the latents and of set iteration), and together with xicor for data with enough observations in which copies are next to each other. The exact search: on the graphs of C143 only. With dcov_fast and GaussianMCM copies need not be connected (C167)."
  },
  {
   "property": "C170",
   "status": "partial",
   "theorems": [
    "C170_distance_covariance_nonneg",
    "C170_dcov_keeps_connections",
    "C170_dcov_limit",
    "C170_gauss_refuted"
   ],
   "note": "Proved for dcov_fast, with the fact behind it that the distance covariance of two samples is never negative. False for GaussianMCM: np.cov divides by n - 1, so counting both of two observations twice can remove the connection. Nothing is proved about xicor. What a distance covariance of zero means: C171. Exact arithmetic."
  },
  {
   "property": "C171",
   "status": "proved",
   "theorems": [
    "C171_zero_iff_independent",
    "C171_dcov_finds_dependence"
   ],
   "note": "Exact arithmetic on rational data; chi-square quantiles are arbitrary positive numbers. For a dataset without repetitions see C153 and C167: the number of observations can be too small for any connection."
  },
  {
   "property": "C172",
   "status": "proved",
   "theorems": [
    "C172_covariance_matrix",
    "C172_cauchy_schwarz",
    "C172_connection_needs_variation",
    "C172_nothing_to_find"
   ],
   "note": "Exact arithmetic on rational data; holds although dcov drops the diagonal of the centred distances and counts each pair once (C40), because every entry is a sum of products over the same pairs. Chi-square quantiles are arbitrary positive numbers. For binary64 arithmetic see C154."
  }
 ]
}