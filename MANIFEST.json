{
 "claims": [
  {
   "property": "C01",
   "status": "proved",
   "theorems": [
    "C01_sgd_one_visit_per_epoch"
   ],
   "note": "for all batch sizes > 0 and function counts > 0"
  },
  {
   "property": "C02",
   "status": "proved",
   "theorems": [
    "C02_sgd_max_iterations",
    "C02_sgd_terminates",
    "C02_sgd_zero_functions_undefined"
   ],
   "note": "NumFunctions() = 0 is shown to be undefined behaviour"
  },
  {
   "property": "C03",
   "status": "proved",
   "theorems": [
    "C03_sgd_exact_objective",
    "C03_sgd_running_objective",
    "C03_sgd_last_pass_refuted",
    "C03_sgd_exact_always_refuted"
   ],
   "note": "the two _refuted theorems show that the exceptions in the statement are real"
  },
  {
   "property": "C04",
   "status": "proved",
   "theorems": [
    "C04_sgd_callback_protocol",
    "C04_sgd_begin_and_end"
   ],
   "note": ""
  },
  {
   "property": "C05",
   "status": "proved",
   "theorems": [
    "C05_sgd_stop_request_stops"
   ],
   "note": ""
  },
  {
   "property": "C06",
   "status": "proved",
   "theorems": [
    "C06_dispatch",
    "C06_evaluate_with_gradient",
    "C06_begin_end_reach_all",
    "C06_every_callback_invoked_refuted"
   ],
   "note": "the refuted theorem shows the short-circuit is observable"
  },
  {
   "property": "C07",
   "status": "proved",
   "theorems": [
    "C07_early_stop_at_min_loss",
    "C07_early_stop_binary64"
   ],
   "note": "patience 0 behaves like patience 1"
  },
  {
   "property": "C08",
   "status": "proved",
   "theorems": [
    "C08_store_best_coordinates"
   ],
   "note": ""
  },
  {
   "property": "C09",
   "status": "proved",
   "theorems": [
    "C09_clip_by_value",
    "C09_gradient_clipping_policy",
    "C09_clip_by_norm",
    "C09_euclid_homogeneous"
   ],
   "note": "clip by norm is in exact real arithmetic, for any absolutely homogeneous norm (arma::norm of a matrix is the spectral norm)"
  },
  {
   "property": "C10",
   "status": "proved",
   "theorems": [
    "C10_methods_agree",
    "C10_supplied_methods_kept",
    "C10_supplied_methods_kept_mixed_refuted"
   ],
   "note": "All combinations of supplied methods and forms. The _refuted theorem shows that a const Evaluate next to a non-const EvaluateWithGradient is replaced by the synthesised method."
  },
  {
   "property": "C11",
   "status": "proved",
   "theorems": [
    "C11_gradient_descent",
    "C11_gradient_descent_terminates",
    "C11_returned_value_is_final_refuted",
    "C11_categorical_overload",
    "C11_callbacks_heard"
   ],
   "note": "Complete trace of a run for every arithmetic, function and callback pack; termination; which point the returned value belongs to."
  },
  {
   "property": "C12",
   "status": "proved",
   "theorems": [
    "C12_coordinate_descent",
    "C12_cyclic_round_robin",
    "C12_greedy",
    "C12_greedy_steepest_refuted",
    "C12_callbacks_heard"
   ],
   "note": "Any policy, arithmetic and callbacks. The _refuted theorem records that greedy descent ignores negative partial derivatives."
  },
  {
   "property": "C13",
   "status": "proved",
   "theorems": [
    "C13_grid_search",
    "C13_grid_complete"
   ],
   "note": "Evaluates the whole grid once, in lexicographic order; first strict minimum; zeros when nothing is below the largest value; throws for non-categorical dimensions. Holds for every number type with the order laws, including binary64 with NaN."
  },
  {
   "property": "C14",
   "status": "proved",
   "theorems": [
    "C14_spsa",
    "C14_spsa_value",
    "C14_zero_iterations",
    "C14_spsa_terminates"
   ],
   "note": "Over the reals (exact arithmetic), for every power function, random bits and callbacks."
  },
  {
   "property": "C15",
   "status": "proved",
   "theorems": [
    "C15_annealing",
    "C15_move_size_le_maximum_refuted"
   ],
   "note": "Any ordered number type incl. doubles; finding: initMoveCoef above maxMoveCoef is not capped."
  },
  {
   "property": "C16",
   "status": "proved",
   "theorems": [
    "C16_differential_evolution",
    "C16_too_small_population_rejected",
    "C16_keeps_the_shape_refuted",
    "C16_random_members_distinct_refuted"
   ],
   "note": "Any ordered number type incl. doubles. Findings: an empty iterate when no initial objective is below DBL_MAX; the two random members may coincide; candidates rejected mid-generation by a stop request and improvements below the tolerance are not returned."
  },
  {
   "property": "C17",
   "status": "proved",
   "theorems": [
    "C17_cne",
    "C17_parameters",
    "C17_empty_elite_rejected_refuted",
    "C17_not_worse_than_start_refuted",
    "C17_no_generation_refuted"
   ],
   "note": "Any ordered number type incl. doubles, any sort_index. Findings: numElite wraps when no elite is selected and the size is odd; index(0) on an empty vector without a generation; the start is not in the population; children pairs overlap."
  },
  {
   "property": "C18",
   "status": "proved",
   "theorems": [
    "C18_pso",
    "C18_returns_the_best_seen",
    "C18_horizon_checked",
    "C18_lbest_is_a_policy",
    "C18_lbest_uses_both_neighbours_refuted",
    "C18_initial_positions",
    "C18_scalar_bounds_refuted",
    "C18_value_matches_point_refuted",
    "C18_zero_horizon_refuted"
   ],
   "note": "Model/PSO.v over any velocity policy; LBestUpdate and DefaultInit modelled separately; refutations record the code's deviations"
  },
  {
   "property": "C19",
   "status": "proved",
   "theorems": [
    "C19_full_selection_sums_everything",
    "C19_random_selection",
    "C19_cmaes",
    "C19_not_worse_than_start",
    "C19_returns",
    "C19_random_selection_not_worse_refuted",
    "C19_single_member_refuted",
    "C19_vector_iterates",
    "C19_matrix_iterates_refuted",
    "C19_zero_batch_refuted"
   ],
   "note": "covariance adaptation and linear algebra are parameters of the model (Model/CMAES.v); C65 proves what CMAES and ActiveCMAES put there"
  },
  {
   "property": "C20",
   "status": "proved",
   "theorems": [
    "C20_in_box",
    "C20_identity_inside",
    "C20_continuous",
    "C20_defined",
    "C20_defined_everywhere_refuted",
    "C20_mixed_bounds_refuted"
   ],
   "note": "exact reals: rounding is not modelled"
  },
  {
   "property": "C21",
   "status": "proved",
   "theorems": [
    "C21_pop_cmaes",
    "C21_not_worse_than_any_run",
    "C21_cmaes_result_seen",
    "C21_best_of_all_evaluations_refuted",
    "C21_value_is_the_objective_refuted",
    "C21_stop_request_ends_optimization_refuted",
    "C21_budget_counts_evaluations_refuted"
   ],
   "note": "counters are naturals (no wrap-around)"
  },
  {
   "property": "C22",
   "status": "proved",
   "theorems": [
    "C22_most_recent_pairs",
    "C22_older_pairs_forgotten",
    "C22_zero_basis_refuted"
   ],
   "note": "any element type, any initial buffer contents"
  },
  {
   "property": "C23",
   "status": "proved",
   "theorems": [
    "C23_direction_is_bfgs",
    "C23_descent",
    "C23_bfgs_matrix",
    "C23_always_descent_refuted"
   ],
   "note": "exact reals: rounding is not modelled"
  },
  {
   "property": "C24",
   "status": "proved",
   "theorems": [
    "C24_line_search",
    "C24_accepted_decrease",
    "C24_value_is_at_iterate_refuted",
    "C24_not_above_start_refuted"
   ],
   "note": "the decrease bound is over the reals"
  },
  {
   "property": "C25",
   "status": "proved",
   "theorems": [
    "C25_lbfgs",
    "C25_returns",
    "C25_values_decrease",
    "C25_fresh_call_refuted",
    "C25_value_at_iterate_refuted",
    "C25_not_worse_than_start_refuted",
    "C25_callbacks_heard"
   ],
   "note": "iteration counter is a natural (no wrap-around)"
  },
  {
   "property": "C26",
   "status": "proved",
   "theorems": [
    "C26_evaluate",
    "C26_gradient",
    "C26_optimize",
    "C26_returns",
    "C26_true_means_feasible_refuted",
    "C26_constraint_callback_refuted",
    "C26_iterations_refuted"
   ],
   "note": "inner optimizer is a parameter of the loop theorem; the refutations instantiate it with the modelled L-BFGS"
  },
  {
   "property": "C27",
   "status": "proved",
   "theorems": [
    "C27_run",
    "C27_returns",
    "C27_stays_in_set",
    "C27_gap_is_a_certificate",
    "C27_line_search",
    "C27_value_at_iterate_refuted",
    "C27_line_search_nan_refuted",
    "C27_callbacks_heard"
   ],
   "note": "set membership and the certificate are over the reals; the run theorem holds for every number type; in binary64 the line search can leave NaN"
  },
  {
   "property": "C28",
   "status": "proved",
   "theorems": [
    "C28_lpball",
    "C28_groups",
    "C28_wrong_p",
    "C28_empty",
    "C28_fraction_refuted",
    "C28_negative_refuted"
   ],
   "note": "Real arithmetic; arma::normalise and arma::norm take an unsigned integer exponent, so non-integer p is truncated (refuted for p = 3/2)."
  },
  {
   "property": "C29",
   "status": "proved",
   "theorems": [
    "C29_l1",
    "C29_l1_refuted",
    "C29_l1_division",
    "C29_l0",
    "C29_l0_best",
    "C29_l0_returns",
    "C29_l0_bad"
   ],
   "note": "l1 over the reals, l0 for every number type; sorting is a parameter with its specification."
  },
  {
   "property": "C30",
   "status": "proved",
   "theorems": [
    "C30_coordinatewise",
    "C30_vanilla",
    "C30_momentum",
    "C30_nesterov",
    "C30_quasi_hyperbolic",
    "C30_zero_momentum"
   ],
   "note": "exact arithmetic"
  },
  {
   "property": "C31",
   "status": "proved",
   "theorems": [
    "C31_adam",
    "C31_amsgrad",
    "C31_padam",
    "C31_adamax",
    "C31_optimistic_adam",
    "C31_qhadam",
    "C31_adabelief",
    "C31_yogi",
    "C31_nadam",
    "C31_ranges",
    "C31_constant_gradient",
    "C31_adam_constant_gradient"
   ],
   "note": "exact arithmetic; epsilon placement of the code made explicit"
  },
  {
   "property": "C32",
   "status": "proved",
   "theorems": [
    "C32_adagrad",
    "C32_adasqrt",
    "C32_rmsprop",
    "C32_adadelta",
    "C32_smorms3",
    "C32_wngrad",
    "C32_wngrad_run"
   ],
   "note": "exact arithmetic"
  },
  {
   "property": "C33",
   "status": "proved",
   "theorems": [
    "C33_rate_is_clipped",
    "C33_bounds_converge",
    "C33_gamma_accessor_refuted"
   ],
   "note": "exact arithmetic; the accessor claim is refuted"
  },
  {
   "property": "C34",
   "status": "proved",
   "theorems": [
    "C34_range",
    "C34_schedule",
    "C34_phases",
    "C34_restart",
    "C34_restart_constant_period",
    "C34_in_sgd",
    "C34_restart_refuted",
    "C34_decreasing_within_phase_refuted"
   ],
   "note": "cos over the reals for the range and restart statements; the schedule for any arithmetic"
  },
  {
   "property": "C35",
   "status": "proved",
   "theorems": [
    "C35_snapshots",
    "C35_at_most_requested",
    "C35_mean",
    "C35_at_most_requested_refuted",
    "C35_too_many_requested_refuted"
   ],
   "note": "snapshots of the first Optimize call on a fresh policy"
  },
  {
   "property": "C36",
   "status": "proved",
   "theorems": [
    "C36_epoch",
    "C36_all_functions",
    "C36_no_lost_update",
    "C36_progress",
    "C36_run",
    "C36_single_thread_stop",
    "C36_stop_refuted",
    "C36_value_refuted",
    "C36_backoff"
   ],
   "note": "Sequentially consistent interleaving of gradient evaluations, atomic subtractions and loads/stores of the stop flag; a gradient is any function of the history."
  },
  {
   "property": "C37",
   "status": "proved",
   "theorems": [
    "C37_constant_step",
    "C37_exponential_backoff",
    "C37_backoff_non_increasing",
    "C37_zero_first_epoch"
   ],
   "note": "exact arithmetic for the powers of beta"
  },
  {
   "property": "C38",
   "status": "proved",
   "theorems": [
    "C38_meaning",
    "C38_irreflexive",
    "C38_asymmetric",
    "C38_transitive",
    "C38_members",
    "C38_nan_refuted"
   ],
   "note": "for every element type with the order laws of floating point"
  },
  {
   "property": "C39",
   "status": "proved",
   "theorems": [
    "C39_sort",
    "C39_first",
    "C39_unique",
    "C39_within",
    "C39_nan_refuted"
   ],
   "note": "n is populationSize in NSGA2 and the whole table in AGEMOEA"
  },
  {
   "property": "C40",
   "status": "proved",
   "theorems": [
    "C40_report",
    "C40_small",
    "C40_match_refuted",
    "C40_no_generation_refuted",
    "C40_no_population_refuted",
    "C40_nan_refuted",
    "C40_evaluations",
    "C40_objectives",
    "C40_crossover_refuted"
   ],
   "note": "the naive claims (front matches set, least value returned) are false of the code; counterexamples proved"
  },
  {
   "property": "C41",
   "status": "proved",
   "theorems": [
    "C41_report",
    "C41_rejects",
    "C41_self",
    "C41_weighted",
    "C41_tchebycheff",
    "C41_pbi_refuted",
    "C41_pareto_refuted",
    "C41_objectives_refuted",
    "C41_columns_refuted",
    "C41_mating_refuted"
   ],
   "note": "All settings, objectives, policies, random streams and callbacks. Refuted: that ParetoSet() is non-dominated, that the value is the least over it, that more objectives than individuals is safe, that later columns of the iterate are evolved."
  },
  {
   "property": "C42",
   "status": "proved",
   "theorems": [
    "C42_binomial",
    "C42_partitions",
    "C42_lattice",
    "C42_simplex",
    "C42_throws",
    "C42_one_objective_refuted",
    "C42_bbs",
    "C42_dirichlet"
   ],
   "note": "64-bit wrap-around in the binomial is modelled; exactness is proved while the products fit. Columns sum to 1 + m*epsilon."
  },
  {
   "property": "C43",
   "status": "proved",
   "theorems": [
    "C43_igd",
    "C43_igd_zero",
    "C43_igd_plus",
    "C43_igd_plus_zero",
    "C43_igd_plus_le",
    "C43_epsilon",
    "C43_epsilon_zero_refuted",
    "C43_empty_refuted",
    "C43_igd_plus_better",
    "C43_epsilon_better",
    "C43_igd_better_refuted"
   ],
   "note": "Over the reals, with all distances at most the greatest representable number; pow as x^y on non-negative reals."
  },
  {
   "property": "C44",
   "status": "proved",
   "theorems": [
    "C44_any",
    "C44_tidy",
    "C44_owner",
    "C44_copy_refuted",
    "C44_overwrite_refuted",
    "C44_null_refuted"
   ],
   "note": "Heap of typed objects; copying an optimiser is the implicit member-wise copy."
  },
  {
   "property": "C45",
   "status": "proved",
   "theorems": [
    "C45_index",
    "C45_size",
    "C45_inverse",
    "C45_dot",
    "C45_kron",
    "C45_sparse",
    "C45_length_refuted"
   ],
   "note": "Over the reals with sqrt2 the real square root of two."
  },
  {
   "property": "C46",
   "status": "proved",
   "theorems": [
    "C46_augmented_value",
    "C46_augmented_gradient",
    "C46_unsymmetric_gradient_refuted",
    "C46_constraint_value",
    "C46_returned_value",
    "C46_returned_value_refuted"
   ],
   "note": "Over exact reals; AugLagrangian is represented by the calls it makes. The returned value can belong to another point than the R returned (finding)."
  },
  {
   "property": "C47",
   "status": "proved",
   "theorems": [
    "C47_validation",
    "C47_direction",
    "C47_step_length",
    "C47_tau_one_refuted",
    "C47_run",
    "C47_value_refuted",
    "C47_callbacks",
    "C47_end_refuted"
   ],
   "note": "Over exact reals, with Armadillo's chol, inv, eig_sym, syl and solve as oracles with their contracts (shown to be satisfiable). Findings: no EndOptimization on convergence; 0 is returned when no step was taken."
  },
  {
   "property": "C48",
   "status": "proved",
   "theorems": [
    "C48_two_variables",
    "C48_more_variables",
    "C48_n_variables",
    "C48_logistic",
    "C48_away_from_kinks",
    "C48_epsilon",
    "C48_matyas_refuted",
    "C48_fw_test_refuted",
    "C48_rastrigin_refuted",
    "C48_eggholder_refuted",
    "C48_gockenbach_refuted"
   ],
   "note": "Over the reals. Softmax regression and the Lovasz theta problem are not modelled."
  },
  {
   "property": "C49",
   "status": "proved",
   "theorems": [
    "C49_orders",
    "C49_sphere",
    "C49_styblinski_tang",
    "C49_schwefel",
    "C49_sgd_test",
    "C49_sparse_test",
    "C49_logistic",
    "C49_generalized_rosenbrock",
    "C49_generalized_rosenbrock_refuted",
    "C49_rastrigin_refuted"
   ],
   "note": "Over the reals."
  },
  {
   "property": "C50",
   "status": "proved",
   "theorems": [
    "C50_two_variables",
    "C50_more_variables",
    "C50_n_variables",
    "C50_easom",
    "C50_styblinski_tang",
    "C50_mc_cormick",
    "C50_plane_refuted",
    "C50_drop_wave_refuted",
    "C50_schwefel_refuted"
   ],
   "note": "Over the reals, decimal literals exact."
  },
  {
   "property": "C51",
   "status": "proved",
   "theorems": [
    "C51_lookahead",
    "C51_returns",
    "C51_inner_limit",
    "C51_zero_refuted",
    "C51_inner_stop_refuted",
    "C51_value_refuted",
    "C51_convex_rate"
   ],
   "note": "Any base optimizer (a function of its state and the history), instantiated with the SGD model. Refuted: that a stop request inside an inner run stops Lookahead, that k = 0 means no inner steps, that the value without exactObjective belongs to the final iterate."
  },
  {
   "property": "C52",
   "status": "proved",
   "theorems": [
    "C52_adam_phase",
    "C52_sgd_phase",
    "C52_fresh_run_starts_with_adam_refuted"
   ],
   "note": "exact arithmetic"
  },
  {
   "property": "C53",
   "status": "proved",
   "theorems": [
    "C53_svrg",
    "C53_returns",
    "C53_zero_batch_refuted",
    "C53_average",
    "C53_unbiased",
    "C53_bb",
    "C53_inner_limit_refuted",
    "C53_value_refuted"
   ],
   "note": "SVRGUpdate with any decay policy. Refuted: innerIterations may be exceeded by the last batch; the value returned without exactObjective is that of the last snapshot; batchSize = 0 divides by zero."
  },
  {
   "property": "C54",
   "status": "proved",
   "theorems": [
    "C54_sarah",
    "C54_sarah_returns",
    "C54_sarah_zero_batch_refuted",
    "C54_sarah_mean",
    "C54_sarah_drift",
    "C54_sarah_full_batch_refuted",
    "C54_sarah_plus_told_refuted",
    "C54_katyusha",
    "C54_katyusha_returns",
    "C54_katyusha_zero_batch_refuted",
    "C54_convex_combination",
    "C54_katyusha_mean",
    "C54_katyusha_mean_refuted",
    "C54_snapshot_weights_refuted",
    "C54_leaves_minimum_refuted",
    "C54_full_gradient_point_refuted"
   ],
   "note": "Loops, traces and update rules for any Num; estimator means over the reals."
  },
  {
   "property": "C55",
   "status": "proved",
   "theorems": [
    "C55_bigbatch",
    "C55_covers",
    "C55_never_shrinks",
    "C55_size_after",
    "C55_overshoot",
    "C55_grown_gradient_refuted",
    "C55_single_never_grows",
    "C55_two_variance_refuted",
    "C55_adaptive_moves_twice_refuted"
   ],
   "note": "Partial correctness: a line search that never succeeds does not return. Norm and the growth increment are oracles."
  },
  {
   "property": "C56",
   "status": "proved",
   "theorems": [
    "C56_policy",
    "C56_no_false_alarm",
    "C56_relaxed_average",
    "C56_negative_threshold_refuted",
    "C56_spalera",
    "C56_ends",
    "C56_first_epoch_refuted",
    "C56_negative_objective_refuted"
   ],
   "note": "Policy over the reals for any call sequence; the optimizer for any number type. Rates: exp and the power are parameters (exp is the real exponential in C56_policy)."
  },
  {
   "property": "C57",
   "status": "proved",
   "theorems": [
    "C57_iqn",
    "C57_ends",
    "C57_newton_step",
    "C57_gap_zero",
    "C57_uneven_batches_refuted",
    "C57_secant",
    "C57_posdef",
    "C57_column_refuted"
   ],
   "note": "the aggregate statement is over the real numbers; the linear solver is an oracle assumed to solve"
  },
  {
   "property": "C58",
   "status": "proved",
   "theorems": [
    "C58_clip_range",
    "C58_eve",
    "C58_eve_terminates",
    "C58_eve_run",
    "C58_stopped_run_returns_pass_sum_refuted"
   ],
   "note": "path and coefficient in exact arithmetic; C58_eve_run in any arithmetic"
  },
  {
   "property": "C59",
   "status": "proved",
   "theorems": [
    "C59_sgd",
    "C59_lbfgs",
    "C59_auglag",
    "C59_auglag_default",
    "C59_auglag_members",
    "C59_svrg",
    "C59_sarah",
    "C59_katyusha",
    "C59_spalera",
    "C59_demon_refuted",
    "C59_wngrad_refuted",
    "C59_swats_refuted",
    "C59_sgdr_refuted",
    "C59_snapshot_refuted",
    "C59_lbfgs_refuted",
    "C59_auglag_refuted",
    "C59_sa_refuted",
    "C59_inner_iterations_refuted",
    "C59_bigbatch_refuted",
    "C59_pso",
    "C59_parallel_backoff",
    "C59_parallel_backoff_refuted",
    "C59_pso_bounds_refuted",
    "C59_pso_static_refuted"
   ],
   "note": "Positive theorems quantify over every history of calls; the refuted ones exhibit a first call after which the second differs. Optimizers whose Optimize() changes no member (GradientDescent, CD, SPSA, DE, CNE, FrankWolfe, PrimalDual, Eve, GridSearch) are functions of their arguments in the model, so there is nothing to prove for them. CMAES, NSGA2, MOEAD: persistence of counters and bounds is described in DESIGN.md, not stated here."
  },
  {
   "property": "C60",
   "status": "proved",
   "theorems": [
    "C60_sgd",
    "C60_eve",
    "C60_gradient_descent",
    "C60_cd",
    "C60_frank_wolfe",
    "C60_lbfgs",
    "C60_aug_lagrangian",
    "C60_parallel_sgd",
    "C60_primal_dual",
    "C60_svrg",
    "C60_sarah",
    "C60_katyusha",
    "C60_lookahead",
    "C60_iqn",
    "C60_spalera",
    "C60_bigbatch",
    "C60_cmaes",
    "C60_spsa_refuted",
    "C60_sa_refuted",
    "C60_linesearch_refuted",
    "C60_demon_refuted"
   ],
   "note": "Equality with the run under any out-of-reach limit; four _refuted theorems for optimisers whose documentation says the same."
  },
  {
   "property": "C61",
   "status": "proved",
   "theorems": [
    "C61_sgd",
    "C61_eve",
    "C61_gradient_descent",
    "C61_spsa",
    "C61_frank_wolfe",
    "C61_coordinate_descent",
    "C61_pso",
    "C61_parallel_sgd",
    "C61_nsga2",
    "C61_moead",
    "C61_svrg",
    "C61_sarah",
    "C61_katyusha",
    "C61_bigbatch",
    "C61_spalera",
    "C61_sa",
    "C61_de",
    "C61_cne",
    "C61_cmaes",
    "C61_lbfgs",
    "C61_iqn",
    "C61_auglag",
    "C61_lookahead",
    "C61_primal_dual",
    "C61_first_refuted",
    "C61_pop_cmaes_refuted",
    "C61_lookahead_refuted"
   ],
   "note": "GridSearch makes neither call. The inner optimizer of the augmented Lagrangian is a parameter, so its own Begin/End calls are one event of the model."
  },
  {
   "property": "C62",
   "status": "proved",
   "theorems": [
    "C62_ftml_follows_the_leader",
    "C62_ftml_counter_initialised_refuted",
    "C62_demon_coefficient",
    "C62_demon_range_always_refuted",
    "C62_demon_schedule",
    "C62_demon_reaches_zero_refuted",
    "C62_demon_is_momentum_refuted"
   ],
   "note": "exact arithmetic"
  },
  {
   "property": "C63",
   "status": "proved",
   "theorems": [
    "C63_sgd_moves_by_policy"
   ],
   "note": ""
  },
  {
   "property": "C64",
   "status": "proved",
   "theorems": [
    "C64_report",
    "C64_ends",
    "C64_elite",
    "C64_scores",
    "C64_extremes",
    "C64_small",
    "C64_iterate_refuted",
    "C64_front_refuted",
    "C64_no_generation_refuted",
    "C64_no_population_refuted"
   ],
   "note": "Whole of AGEMOEA::Optimize modelled; pow, log, arma::solve, randu and std::sort are arguments."
  },
  {
   "property": "C65",
   "status": "proved",
   "theorems": [
    "C65_weights",
    "C65_learning_rates",
    "C65_covariance",
    "C65_samples",
    "C65_update",
    "C65_returns",
    "C65_active_covariance",
    "C65_active_update",
    "C65_active_paths",
    "C65_published_path_refuted",
    "C65_active_repair_refuted",
    "C65_active_few_members_refuted"
   ],
   "note": "Real arithmetic; chol and eig_sym are arguments with their contracts as hypotheses (shown satisfiable for one variable); a positive step size is assumed at the start."
  },
  {
   "property": "C66",
   "status": "proved",
   "theorems": [
    "C66_func_sq",
    "C66_atoms",
    "C66_update_span",
    "C66_first_gap",
    "C66_span_run",
    "C66_update_full_correction",
    "C66_line_search",
    "C66_span_descends_refuted",
    "C66_span_feasible_refuted",
    "C66_prune_cheapest_refuted",
    "C66_full_correction_improves_refuted"
   ],
   "note": "Proved over the reals for any solver, index_min and sort meeting their contracts; four naive claims refuted."
  },
  {
   "property": "C67",
   "status": "proved",
   "theorems": [
    "C67_print_loss",
    "C67_timer_stop",
    "C67_query_front",
    "C67_report",
    "C67_report_reused",
    "C67_truncated_column",
    "C67_progress_bar",
    "C67_bar",
    "C67_bar_totals",
    "C67_query_rate_refuted",
    "C67_report_safe_refuted",
    "C67_reached_refuted",
    "C67_percentage_refuted",
    "C67_truncated_matrix_refuted",
    "C67_bar_length_refuted",
    "C67_wide_bar_refuted",
    "C67_bar_loss_refuted",
    "C67_report_extremes"
   ],
   "note": "Report and QueryFront for any number type; ProgressBar over the reals; eight naive claims refuted."
  },
  {
   "property": "C68",
   "status": "proved",
   "theorems": [
    "C68_agree_two",
    "C68_agree_three",
    "C68_zdt1",
    "C68_zdt2",
    "C68_zdt3",
    "C68_zdt4",
    "C68_zdt6",
    "C68_dtlz1",
    "C68_dtlz2",
    "C68_dtlz3",
    "C68_dtlz4",
    "C68_dtlz5",
    "C68_dtlz6",
    "C68_dtlz7",
    "C68_maf1",
    "C68_maf3",
    "C68_maf4",
    "C68_maf5",
    "C68_maf6",
    "C68_schaffer",
    "C68_fonseca",
    "C68_front_zdt1",
    "C68_front_zdt2",
    "C68_front_zdt3",
    "C68_front_zdt4",
    "C68_front_zdt6",
    "C68_front_dtlz1",
    "C68_dtlz_objectives",
    "C68_dtlz_seen_refuted",
    "C68_dtlz7_half_refuted",
    "C68_dtlz5_all_refuted",
    "C68_maf2_refuted",
    "C68_maf4_refuted",
    "C68_maf5_refuted",
    "C68_front_dtlz2_refuted"
   ],
   "note": "Real arithmetic. ZDT3 and DTLZ7: necessary condition only, and that is what the statement says; MAF6 with I < 2 and MAF2: no optimality theorem claimed."
  },
  {
   "property": "C69",
   "status": "proved",
   "theorems": [
    "C69_descends",
    "C69_gradients_vanish",
    "C69_tolerance_means_small_gradient",
    "C69_evaluations_bounded",
    "C69_convex_rate",
    "C69_convex_approaches",
    "C69_linear_rate",
    "C69_any_step_size_descends_refuted"
   ],
   "note": "Exact reals (RNum); smooth_on, convex_on, strongly_convex_on in Spec/ConvergeSpec.v; the runs are those of the gradient-descent model of C11."
  },
  {
   "property": "C70",
   "status": "proved",
   "theorems": [
    "C70_classic_rate",
    "C70_each_step_descends_refuted"
   ],
   "note": "Exact reals; the runs are those of the Frank-Wolfe model of C27 with rule_classic."
  },
  {
   "property": "C71",
   "status": "proved",
   "theorems": [
    "C71_sgd_regret",
    "C71_sgd_passes",
    "C71_adagrad_regret"
   ],
   "note": "Exact reals; runs of the SGD model with the vector form of the update policies; NoDecay."
  },
  {
   "property": "C72",
   "status": "proved",
   "theorems": [
    "C72_de",
    "C72_cne",
    "C72_pso",
    "C72_lbest",
    "C72_cmaes",
    "C72_grid_search",
    "C72_increasing",
    "C72_tolerance_refuted"
   ],
   "note": "Relational proof between the two runs; the refuted theorem shows the tolerance condition is needed."
  },
  {
   "property": "C73",
   "status": "proved",
   "theorems": [
    "C73_adam",
    "C73_amsgrad",
    "C73_optimistic_adam",
    "C73_qhadam",
    "C73_nadam",
    "C73_nadamax",
    "C73_adamax",
    "C73_yogi",
    "C73_adagrad",
    "C73_rmsprop",
    "C73_adasqrt",
    "C73_wngrad",
    "C73_run",
    "C73_within_step_refuted",
    "C73_any_rates_refuted",
    "C73_adabelief_refuted"
   ],
   "note": "exact arithmetic; a run of SGD with a constant step size (NoDecay). AdaDelta, SMORMS3 (C32), AdaBound, SWATS and Padam are not covered by this bound."
  },
  {
   "property": "C74",
   "status": "proved",
   "theorems": [
    "C74_evaluate",
    "C74_probabilities",
    "C74_nonnegative",
    "C74_gradient",
    "C74_batch_gradient",
    "C74_convex",
    "C74_stationary_is_minimum",
    "C74_partial_gradient",
    "C74_singles",
    "C74_batch_evaluate_throws",
    "C74_shuffle_throws",
    "C74_partial_last_throws",
    "C74_batch_evaluate_refuted",
    "C74_partial_gradient_intercept_refuted",
    "C74_shuffle_refuted"
   ],
   "note": "exact arithmetic; exp and ln are the real functions"
  },
  {
   "property": "C75",
   "status": "proved",
   "theorems": [
    "C75_crowding",
    "C75_survivors",
    "C75_no_loss",
    "C75_worse_child_refuted",
    "C75_copied_best_refuted"
   ],
   "note": "Statement rephrased after the refuted claims: the children's objectives are never evaluated, so they rank with the best."
  },
  {
   "property": "C76",
   "status": "proved",
   "theorems": [
    "C76_objective",
    "C76_trace_constraint",
    "C76_edge_constraint",
    "C76_gradient",
    "C76_gradient_refuted",
    "C76_initial_rows",
    "C76_initial_trace",
    "C76_initial_point_refuted",
    "C76_cross_in_tray",
    "C76_cross_sign_refuted",
    "C76_holder",
    "C76_schaffer_n4"
   ],
   "note": "Exact arithmetic; matrices as functions with sizes. The naive claims (Gradient is the gradient of Evaluate, Gradient accepts the initial point, cross-in-tray ignores signs) are refuted."
  },
  {
   "property": "C77",
   "status": "proved",
   "theorems": [
    "C77_sgd",
    "C77_momentum",
    "C77_adam",
    "C77_rates",
    "C77_ftml",
    "C77_unscaled",
    "C77_demon_refuted"
   ],
   "note": "C77_sgd lifts the per-coordinate statement about arbitrary gradient sequences (follows) to whole SGD runs; no decay policy. DemonSGD is refuted."
  },
  {
   "property": "C78",
   "status": "proved",
   "theorems": [
    "C78_outcomes",
    "C78_unbiased",
    "C78_bias",
    "C78_unbiased_refuted",
    "C78_never_worse",
    "C78_never_worse_refuted",
    "C78_average_rate"
   ],
   "note": "Model/SPSA.v; exact arithmetic; averages are over the explicit list of all coin outcomes (Spec/CoinSpec.v)."
  },
  {
   "property": "C79",
   "status": "proved",
   "theorems": [
    "C79_descends",
    "C79_random_rate",
    "C79_cyclic_rate",
    "C79_choices",
    "C79_greedy_rate_refuted"
   ],
   "note": "Model/CD.v; exact arithmetic; the random numbers of RandomDescent are the quantified feature sequence."
  },
  {
   "property": "C80",
   "status": "proved",
   "theorems": [
    "C80_gradient_descent",
    "C80_lbfgs",
    "C80_sgd",
    "C80_adam_refuted",
    "C80_reorder",
    "C80_reorder_gd"
   ],
   "note": "Real arithmetic for rotations (rounding breaks them); any arithmetic for reorderings. arma::norm(g, 2) in L-BFGS is the Euclidean norm, as for column vectors."
  },
  {
   "property": "C81",
   "status": "proved",
   "theorems": [
    "C81_doubles",
    "C81_gradient_descent",
    "C81_coordinate_descent",
    "C81_parallel_sgd",
    "C81_lookahead",
    "C81_sgd",
    "C81_eve",
    "C81_big_batch",
    "C81_spalera",
    "C81_svrg",
    "C81_sarah",
    "C81_katyusha",
    "C81_iqn",
    "C81_spsa",
    "C81_lbfgs",
    "C81_spsa_perturbed_refuted",
    "C81_lbfgs_infinite_refuted"
   ],
   "note": "Proved for the models of the fourteen optimizers; the two _refuted theorems delimit what SPSA and L-BFGS do not check."
  },
  {
   "property": "C82",
   "status": "proved",
   "theorems": [
    "C82_momentum_regret",
    "C82_nesterov_regret",
    "C82_qh_regret",
    "C82_adam_progress_refuted",
    "C82_amsgrad_progress"
   ],
   "note": "Over the reals. The momentum bounds use a shadow point that moves by plain gradient steps; Adam and AMSGrad are followed pass by pass on 10x, -x, -x."
  },
  {
   "property": "C83",
   "status": "proved",
   "theorems": [
    "C83_svrg",
    "C83_sarah"
   ],
   "note": "Over the reals, for the models of SVRG (no_decay) and SARAH/SARAH+ of C53 and C54; deterministic, for every order. Example C83_case: a concrete sum of two quadratics, with runs of both."
  },
  {
   "property": "C84",
   "status": "proved",
   "theorems": [
    "C84_momentum",
    "C84_qhsgd",
    "C84_adam",
    "C84_qhadam",
    "C84_full_batch_sgd",
    "C84_full_batch_svrg",
    "C84_qhadam_adam_refuted",
    "C84_qhadam_rmsprop_refuted",
    "C84_qhadam_nadam_refuted"
   ],
   "note": "The three _refuted theorems show that the equivalences doc/optimizers.md claims for QHAdam are false of the code."
  },
  {
   "property": "C85",
   "status": "proved",
   "theorems": [
    "C85_sgd",
    "C85_sgd_log",
    "C85_gd",
    "C85_cd",
    "C85_lbfgs",
    "C85_spsa",
    "C85_spsa_refuted",
    "C85_sa",
    "C85_sa_refuted",
    "C85_de",
    "C85_de_refuted",
    "C85_cne",
    "C85_cne_refuted"
   ],
   "note": "Each theorem is about the list of calls and writes of a run; a second part shows that this list gives the trace and the final iterate of the model's run. Other optimizers are not covered."
  },
  {
   "property": "C86",
   "status": "proved",
   "theorems": [
    "C86_near_the_minimiser",
    "C86_interpolation",
    "C86_any_accuracy",
    "C86_reaches_the_minimiser_refuted"
   ],
   "note": "Exact real arithmetic; the naive claim that constant-step SGD reaches the minimiser is refuted for every number of passes."
  },
  {
   "property": "C87",
   "status": "proved",
   "theorems": [
    "C87_epoch",
    "C87_elements",
    "C87_one_thread",
    "C87_deterministic",
    "C87_sparse_test_function",
    "C87_shared_element_refuted",
    "C87_too_few_threads_refuted"
   ],
   "note": "Exact equality over any number type. Callbacks that ask to stop are excluded in the statements about whole runs (C36 shows that a request may be lost or not, depending on the schedule). One evaluation of a gradient may read each element at a different time of the epoch."
  },
  {
   "property": "C88",
   "status": "proved",
   "theorems": [
    "C88_near_the_minimiser",
    "C88_interpolation",
    "C88_any_accuracy",
    "C88_same_step_size_refuted"
   ],
   "note": "Real arithmetic (no rounding); the step size is the constant policy. The counterexample is over the integers, for every number of epochs."
  },
  {
   "property": "C89",
   "status": "proved",
   "theorems": [
    "C89_no_further_than_the_steps",
    "C89_backoff_steps_are_summable",
    "C89_backoff_stays_near_the_start",
    "C89_sparse_test_function",
    "C89_backoff_converges_refuted"
   ],
   "note": "Real arithmetic. The documented convergence rate of ExponentialBackoff is refuted by C89_backoff_converges_refuted."
  },
  {
   "property": "C90",
   "status": "proved",
   "theorems": [
    "C90_every_epoch",
    "C90_converges",
    "C90_harmonic_steps",
    "C90_vanishing_steps_suffice_refuted"
   ],
   "note": "Real arithmetic; every thread runs to the end of its share."
  },
  {
   "property": "C91",
   "status": "proved",
   "theorems": [
    "C91_bounded_rise",
    "C91_zero_draw_refuted"
   ],
   "note": "Real arithmetic; the acceptance test uses exp, the move sizes any function for log."
  },
  {
   "property": "C92",
   "status": "proved",
   "theorems": [
    "C92_any_step_size",
    "C92_one_function",
    "C92_plain_sgd_refuted"
   ],
   "note": "Exact arithmetic; std::pow(norm, 2) is the sum of squares. Batches must be the whole objective."
  },
  {
   "property": "C93",
   "status": "proved",
   "theorems": [
    "C93_any_step_size",
    "C93_search_ends",
    "C93_returns"
   ],
   "note": "Over the reals. Whole batches only: on smaller batches the search tests the batch, not the objective (C55)."
  },
  {
   "property": "C94",
   "status": "proved",
   "theorems": [
    "C94_line_search_exact",
    "C94_rate",
    "C94_not_quadratic_refuted"
   ],
   "note": "Over the reals. Quadratic: the gradient is affine along segments of the set."
  },
  {
   "property": "C95",
   "status": "proved",
   "theorems": [
    "C95_returned",
    "C95_convex",
    "C95_success_reported_refuted"
   ],
   "note": "Over the reals. The inner optimizer is an arbitrary function of the history, its state, the multipliers, the penalty parameter and the start; C95_returned assumes its accuracy on the augmented Lagrangian, for penalty parameters above 500000 only, and C95_convex that it is exact. C95_success_reported_refuted shows that a converging run may never return true."
  },
  {
   "property": "C96",
   "status": "proved",
   "theorems": [
    "C96_rate",
    "C96_violation_never_grows",
    "C96_solution_kept_refuted"
   ],
   "note": "Over the reals. The inner optimizer is an arbitrary function that ends at an exact minimiser of the augmented Lagrangian; that an inexact one may end anywhere is C26_true_means_feasible_refuted, and that the call need not report the success is C95_success_reported_refuted. C96_solution_kept_refuted: the first iteration may leave the solution."
  }
 ]
}
