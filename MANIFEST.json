{"claims": [
 {"property": "C01", "status": "proved", "theorems": ["C01_terminates_population", "C01_nit_population", "C01_small_maxiter", "C01_maxiter_one", "C01_terminates_cma", "C01_nit_cma", "C01_no_iteration_cma", "C01_maxiter_zero_cma"], "note": ""},
 {"property": "C02", "status": "proved", "theorems": ["C02_nfev_population", "C02_nfev_cma"], "note": "serial and joblib evaluation (with MPI the calls are made by all ranks together)"},
 {"property": "C03", "status": "proved", "theorems": ["C03_callbacks_population", "C03_callbacks_cma"], "note": ""},
 {"property": "C04", "status": "proved", "theorems": ["C04_status_population", "C04_xtol_deferred", "C04_xtol_immediate", "C04_status_cma", "C04_xtol_cma"], "note": ""},
 {"property": "C05", "status": "proved", "theorems": ["C05_best_population", "C05_binary64"], "note": "de, cpso, pso, na; serial and joblib evaluation"},
 {"property": "C06", "status": "proved", "theorems": ["C06_monotone_population", "C06_binary64"], "note": ""},
 {"property": "C07", "status": "proved", "theorems": ["C07_deferred_ftol"], "note": ""},
 {"property": "C08", "status": "proved", "theorems": ["C08_immediate_stop", "C08_ftol_reached_but_not_reported"], "note": "the second is a computed binary64 run"},
 {"property": "C09", "status": "proved", "theorems": ["C09_nan_poison", "C09_run"], "note": ""},
 {"property": "C10", "status": "proved", "theorems": ["C10_after_initial", "C10_all", "C10_exact", "C10_binary64", "C10_C11_C13_hypotheses"], "note": ""},
 {"property": "C11", "status": "proved", "theorems": ["C11_cpso", "C11_pso", "C11_binary64_overshoot", "C11_needs_shrink"], "note": "exact arithmetic; one-ulp overshoot in binary64"},
 {"property": "C12", "status": "proved", "theorems": ["C12_cmaes", "C12_vdcma", "C12_binary64_overshoot"], "note": "exact arithmetic, NaN coordinates not excluded; one-ulp overshoot in binary64"},
 {"property": "C13", "status": "proved", "theorems": ["C13_na", "C13_fixed_coordinates", "C13_binary64_overshoot"], "note": "exact arithmetic; the second in every arithmetic; one-ulp overshoot in binary64"},
 {"property": "C14", "status": "proved", "theorems": ["C14_stratified", "C14_returned", "C14_binary64_below"], "note": "exact arithmetic; the binary64 run below the stratum is a computed counterexample"},
 {"property": "C15", "status": "proved", "theorems": ["C15_de", "C15_cpso", "C15_pso", "C15_na", "C15_cmaes", "C15_vdcma", "C15_shares", "C15_adds_zero", "C15_adds_zero_real", "C15_hypotheses", "C15_runs", "C15_minus_zero"], "note": "objective a function of the point alone; for MPI the value must satisfy x + 0 = x = 0 + x, which in binary64 means x is not -0.0 (C15_minus_zero shows the run with -0.0); deferred updating, or immediate with workers=1 backend loky/threading"},
 {"property": "C16", "status": "proved", "theorems": ["C16_pso_is_cpso", "C16_binary64"], "note": ""},
 {"property": "C17", "status": "proved", "theorems": ["C17_restart", "C17_binary64", "C17_marker_returned"], "note": ""},
 {"property": "C18", "status": "proved", "theorems": ["C18_shape_population", "C18_no_result", "C18_rows_pso", "C18_maxiter_one", "C18_shape_cma", "C18_rows_cma", "C18_members_cma"], "note": "C18_rows_cma: constraints=None; C18_members_cma: every constraints option"},
 {"property": "C19", "status": "proved", "theorems": ["C19_na_rows", "C19_de_rows", "C19_de_mismatch", "C19_na_first_slice"], "note": ""},
 {"property": "C20", "status": "proved", "theorems": ["C20_too_few", "C20_too_few_index_error", "C20_enough", "C20_two_individuals", "C20_too_few_run"], "note": "Exact error for return_all=False; with return_all and maxiter < 2 recording raises IndexError too (C18)."},
 {"property": "C21", "status": "proved", "theorems": ["C21_trials", "C21_runs"], "note": "Runs that return, serial and joblib evaluation."},
 {"property": "C22", "status": "proved", "theorems": ["C22_rejected_de", "C22_rejected_cpso", "C22_rejected_pso", "C22_rejected_na", "C22_rejected_cmaes", "C22_rejected_vdcma", "C22_rejected_mcmc", "C22_rejected_hmc", "C22_accepted_de", "C22_accepted_cpso", "C22_accepted_pso", "C22_accepted_na", "C22_accepted_cmaes", "C22_accepted_vdcma", "C22_accepted_mcmc", "C22_accepted_hmc", "C22_nan_rejected", "C22_nan_sigma", "C22_infinite_bound"], "note": ""},
 {"property": "C23", "status": "proved", "theorems": ["C23_two_modes_de", "C23_two_modes_cpso", "C23_evolution_de", "C23_unknown_backend_de", "C23_unknown_backend_cpso", "C23_unknown_backend_other", "C23_no_backend_error", "C23_runs"], "note": ""},
 {"property": "C24", "status": "proved", "theorems": ["C24_unchanged", "C24_overwritten", "C24_de_changes_x0", "C24_unchanged_any"], "note": ""},
 {"property": "C25", "status": "proved", "theorems": ["C25_propagates", "C25_no_other", "C25_genuine"], "note": "all eight solvers"},
 {"property": "C26", "status": "proved", "theorems": ["C26_last_generation", "C26_better_point_not_returned_cmaes", "C26_better_point_not_returned_vdcma", "C26_best_rank", "C26_callback", "C26_penalised_run_returns_worst", "C26_best_rank_hypotheses"], "note": "C26_last_generation: constraints=None; C26_best_rank, C26_callback: every constraints option, one machine; the counterexamples are computed binary64 runs"},
 {"property": "C27", "status": "proved", "theorems": ["C27_weights", "C27_mueff", "C27_rates", "C27_cma", "C27_no_memory", "C27_one_parent"], "note": "exact arithmetic"},
 {"property": "C28", "status": "proved", "theorems": ["C28_update", "C28_symm", "C28_start", "C28_diagonal", "C28_every_generation", "C28_example", "C28_run", "cmaes_start", "C28_hypotheses"], "note": "exact arithmetic; C28_run is on all states visited by all runs (cmaes_start ties the start state to cmaes itself)"},
 {"property": "C29", "status": "proved", "theorems": ["C29_measured_against_zero", "C29_no_stagnation_stop", "C29_runs", "C29_hypotheses"], "note": ""},
 {"property": "C30", "status": "proved", "theorems": ["pen_safe", "C30_weights", "C30_states", "C30_fun", "C30_growth", "C30_lower_bound", "C30_asymmetry", "C30_hypotheses", "C30_fun_is_not_the_objective", "C30_states_vdcma", "C30_fun_vdcma", "C30_states_vdcma_hypotheses"], "note": "pen_safe and C30_weights are about one call of the penalty, which cmaes and vdcma share; C30_states, C30_fun, C30_growth and C30_lower_bound are about whole runs of cmaes, C30_states_vdcma and C30_fun_vdcma about whole runs of vdcma whose mean moves in every iteration (exact arithmetic, not MPI, objective with finite values)"},
 {"property": "C31", "status": "proved", "theorems": ["vd_update_fin", "C31_positive", "C31_step", "C31_low_dim", "low_rates", "C31_still", "vdcma_prefix", "C31_hypotheses"], "note": "Exact (extended-real) arithmetic. vd_update_fin: the update of vdcma from every finite state with positive scaling and non-zero direction stays finite, changes each component by at most 70 percent and keeps the direction non-zero. C31_positive: in every run with finite arguments whose first direction is not zero, while the mean moves, the scaling after iteration j lies in [0.3^j, 1.7^j]. C31_step: each iteration changes each component by at most 70 percent. C31_low_dim: for ndim <= 5 scaling and direction are never changed, in every run. C31_still: if the mean stands still exactly the injected points are NaN (so the premise on the mean is needed). vdcma_prefix ties the visited states to vdcma itself."},
 {"property": "C32", "status": "proved", "theorems": ["C32_chain_mcmc", "C32_run"], "note": ""},
 {"property": "C33", "status": "proved", "theorems": ["C33_rule", "C33_detailed_balance", "C33_downhill", "C33_mcmc_decisions", "C33_hmc_decisions"], "note": "exact arithmetic for the rule and detailed balance"},
 {"property": "C34", "status": "proved", "theorems": ["C34_best_mcmc", "C34_start_not_reported", "C34_infinite_fun"], "note": ""},
 {"property": "C35", "status": "proved", "theorems": ["C35_returns", "C35_raises", "C35_run"], "note": ""},
 {"property": "C36", "status": "proved", "theorems": ["C36_reject_mcmc", "C36_reject_hmc", "C36_run"], "note": ""},
 {"property": "C37", "status": "proved", "theorems": ["C37_chain_hmc", "C37_run"], "note": ""},
 {"property": "C38", "status": "proved", "theorems": ["C38_recursion", "C38_run"], "note": ""},
 {"property": "C39", "status": "proved", "theorems": ["C39_reversible_any_gradient", "C39_reversible"], "note": ""},
 {"property": "C40", "status": "proved", "theorems": ["C40_central", "C40_exact_quadratic", "C40_not_restored", "C40_mean_value", "C40_error_lipschitz", "C40_error_second", "C40_error_attained", "C40_accuracy"], "note": ""},
 {"property": "C43", "status": "proved", "theorems": ["C43_unknown_method", "C43_unknown_sampler", "C43_bad_option", "C43_bad_sampler_option", "C43_no_options", "C43_direct", "C43_direct_sampler", "C43_de", "C43_cpso", "C43_pso", "C43_na", "C43_cmaes", "C43_vdcma", "C43_mcmc", "C43_hmc", "C43_example", "C43_wrong_options"], "note": "Options with values of the documented types; a value of another type is outside the model."},
 {"property": "C45", "status": "proved", "theorems": ["C45_direct_na", "C45_minimize_na"], "note": ""},
 {"property": "C44", "status": "proved", "theorems": ["C44_seed_de", "C44_seed_cpso", "C44_seed_pso", "C44_seed_na", "C44_seed_cmaes", "C44_seed_vdcma", "C44_seed_mcmc", "C44_seed_hmc"], "note": ""},
 {"property": "C46", "status": "proved", "theorems": ["C46_de", "C46_hypotheses", "C46_others_disagree", "C46_cmaes_leaves_early"], "note": "objective and callback assumed to return on every rank (a rank that raises leaves the others waiting); the other methods do not have the property: C46_others_disagree (pso, na, cmaes, vdcma), C46_cmaes_leaves_early (a rank leaves the loop while rank 0 waits)"},
 {"property": "C47", "status": "proved", "theorems": ["C47_cmaes", "C47_vdcma", "C47_cmaes_real", "C47_vdcma_real", "C47_reads_memory", "C47_hypotheses"], "note": "C47_reads_memory: with Penalize and x0 outside the box two contents of the memory give two results"},
 {"property": "C48", "status": "proved", "theorems": ["C48_nan_accepted_mcmc", "C48_run"], "note": ""},
 {"property": "C49", "status": "proved", "theorems": ["C49_mcmc_terminates", "C49_mcmc_diverges", "C49_hmc_raises", "C49_hmc_terminates"], "note": ""},
 {"property": "C50", "status": "proved", "theorems": ["C50_callbacks_mcmc", "C50_callbacks_hmc", "C50_no_callback", "C50_silent_mcmc", "C50_silent_hmc", "C50_silent_runs"], "note": ""},
 {"property": "C51", "status": "proved", "theorems": ["C51_stepsize_mcmc", "C51_stepsize_hmc", "C51_run"], "note": ""},
 {"property": "C52", "status": "proved", "theorems": ["C52_de", "C52_cpso", "C52_pso", "C52_na", "C52_cmaes", "C52_vdcma", "C52_mcmc", "C52_run", "C52_hmc", "C52_hmc_run"], "note": "A given x0 array is rectangular; eigh returns matrices of the size it is given (EighRows)."},
 {"property": "C53", "status": "proved", "theorems": ["C53_x0_first", "C53_na_x0_first"], "note": "every arithmetic for de, cpso, pso; na in exact arithmetic"},
 {"property": "C54", "status": "proved", "theorems": ["C54_cmaes", "rates_enough", "C28_hypotheses", "C54_vdcma", "C54_one_parent_moves", "C54_vdcma_one_parent", "C65_vdcma_penalize_hypotheses"], "note": "exact (extended-real) arithmetic; cmaes: eigh assumed to return positive finite eigenvalues and finite vectors for a symmetric positive definite matrix (EighPD); vdcma: C54_vdcma for the runs in which the first direction is not zero and the mean moves in every iteration (Moves), which C54_one_parent_moves proves of every run with one parent (muperc*popsize < 2) and normal draws that are finite and not zero; without Moves the claim is false (C31_still)"},
 {"property": "C55", "status": "proved", "theorems": ["C55_na", "C55_hypotheses", "C55_fixed_axis"], "note": "exact arithmetic; C55_fixed_axis: with lower = upper in one variable a computed run leaves the cell"},
 {"property": "C56", "status": "proved", "theorems": ["C56_only_user_exceptions", "C56_returns", "C56_exact", "C56_return_all_small", "C56_hypotheses", "C56_maxiter_one", "C56_maxiter_one_plain", "C56_verbosity_two", "C56_exact_returns", "C56_infinite_bound", "C56_infinite_bound_plain", "C56_na_overflow"], "note": "C56_only_user_exceptions and C56_returns for every arithmetic, with the number of recorded rows, of parents (na) and of restarted particles (cpso) required to be defined; C56_returns not for na, which may raise OverflowError outside exact arithmetic; C56_exact and C56_exact_returns without these conditions, na included, in exact arithmetic"},
 {"property": "C57", "status": "proved", "theorems": ["C57_flight", "C57_flight_pso", "C57_binary64", "C57_hypotheses", "C57_runs"], "note": "every arithmetic; with competition the number of restarted particles is required to be below popsize (RestartLaw), which holds in binary64 (C57_binary64: popsize <= 2^53, exp never negative) and in exact arithmetic; backend not mpi"},
 {"property": "C58", "status": "proved", "theorems": ["C58_adaptation", "C58_binary64", "C58_hypotheses", "C58_runs", "C58_penalized_runs", "C58_below_box", "C58_below_box_hypotheses"], "note": "every arithmetic; eigh and np.empty return arrays of the right shape, at most popsize parents (holds in binary64 for popsize <= 2^53, C58_binary64); sums run left to right, backend not mpi; C58_below_box (no growth of a weight below the box) in exact arithmetic"},
 {"property": "C59", "status": "proved", "theorems": ["C59_adaptation", "C59_binary64", "C59_hypotheses", "C59_runs"], "note": "every arithmetic; np.empty returns arrays of the right shape, at most popsize parents (holds in binary64 for popsize <= 2^53, C59_binary64); sums run left to right, backend not mpi"},
 {"property": "C60", "status": "proved", "theorems": ["C60_de", "C60_cpso", "C60_pso", "C60_na", "C60_cmaes", "C60_vdcma", "C60_increasing", "DemoEnv_OrderOnly", "C60_runs", "C60_cma_hypotheses", "C60_cma_stops_earlier"], "note": "every arithmetic; g has to keep the order on the values that the objective takes (and on ftol; with competition also 1e30 = g 1e30); np.argsort of vectors ordered alike is the same (OrderOnly; not needed for de); backend not mpi; cmaes and vdcma with constraints=None and up to the moment one of the two runs stops"},
 {"property": "C61", "status": "proved", "theorems": ["C61_mcmc", "C61_hmc", "C61_constant", "C61_runs"], "note": "every arithmetic: g has to keep order and differences of the values that the objective takes, and +inf; C61_constant: adding any real constant does so in exact arithmetic; C61_runs: binary64 runs with an integer-valued objective"},
 {"property": "C62", "status": "proved", "theorems": ["C62_de", "C62_cpso", "C62_pso", "C62_na", "C62_cmaes", "C62_vdcma", "C62_mcmc", "C62_hmc", "C62_callback", "C62_scallback", "C62_runs", "C62_binary64", "C62_samplers_binary64", "C62_competition_depends_on_units", "C62_status_depends_on_units", "C62_hmc_needs_the_step"], "note": "exact arithmetic (with infinities and nan), backend other than mpi; cpso with competition only for a shift of the origin (C62_competition_depends_on_units: the swarm radius is a length), na only with lower < upper on every axis, hmc with one unit of length for all axes and for the finite-difference step (C62_hmc_needs_the_step); C62_callback: every callback has its counterpart in the new units; C62_runs, C62_binary64, C62_samplers_binary64: runs that meet the hypotheses"},
 {"property": "C63", "status": "proved", "theorems": ["C63_de", "C63_cpso", "C63_pso", "C63_na", "C63_cmaes", "C63_vdcma", "C63_budget_de", "C63_budget_cpso", "C63_budget_pso", "C63_budget_na", "C63_budget_cmaes", "C63_budget_vdcma", "C63_ftol_de", "C63_ftol_cpso", "C63_ftol_pso", "C63_ftol_na", "C63_ftol_cmaes", "C63_ftol_vdcma", "C63_mcmc", "C63_hmc", "C63_arithmetic", "C63_runs", "C63_hypotheses", "C63_competition_needed", "C63_room_needed", "C63_chains"], "note": "changing maxiter in cpso only without competition (C63_competition_needed: restarts look at it/maxiter); with return_all both maxiter >= 2 (C63_room_needed), cmaes and vdcma maxiter >= 1; mcmc with at least one variable; C63_ftol needs an order (C63_arithmetic: exact arithmetic and binary64 have it), C63_budget for cmaes and vdcma only 0 <= 0; C63_runs, C63_hypotheses, C63_chains: runs that meet the hypotheses"},
 {"property": "C64", "status": "proved", "theorems": ["C64_de", "C64_cpso", "C64_pso", "C64_na", "C64_cmaes", "C64_vdcma", "C63_runs", "C63_hypotheses"], "note": "the code differs from its documentation here ('Solution tolerance for termination'); with return_all maxiter >= 2 for de, cpso, pso and na, maxiter >= 1 for cmaes and vdcma; C63_runs has the two labels for the same stop in de, na, cmaes and vdcma"},
 {"property": "C65", "status": "proved", "theorems": ["C65_cmaes", "C65_vdcma", "C65_cmaes_returns", "C65_vdcma_returns", "C65_hmc", "C65_hmc_returns", "C65_mcmc", "C65_mcmc_returns", "C65_penalize_exact", "C65_penalize_returns", "C65_penalize_hypotheses", "C65_hypotheses", "C65_penalize_raises", "C65_eigh_raises", "C65_conditions_needed", "C65_penalize_vdcma", "C65_penalize_vdcma_returns", "C65_vdcma_penalize_hypotheses"], "note": "cmaes, vdcma: at least one variable, popsize >= 1 (vdcma >= 2), maxiter >= 1, and with return_all ceil(verbosity*popsize) <= popsize; that Penalize raises no ValueError is proved for cmaes, and for the runs of vdcma whose mean moves in every iteration, in exact arithmetic with finite values, and C65_penalize_raises has runs with NaN values where it does; C65_conditions_needed has the calls left out"},
 {"property": "C66", "status": "proved", "theorems": ["C66_unwatched", "C66_same_search", "C66_no_rescue", "C66_only_own", "C66_passive", "C66_counter_harmless", "C66_hypotheses", "C66_callback_stops", "C66_return_all_stops", "C66_harmless_needed", "C66_verbosity_stops"], "note": "all eight entry points; the callback may keep a memory of its own but may not touch the random generator, the objective's state or the order in which joblib runs tasks (C66_harmless_needed: without that the claim is false); a callback that modifies the arrays it is handed is outside the model (callbacks receive values)"},
 {"property": "C67", "status": "proved", "theorems": ["C67_in_step", "C67_hypotheses"], "note": "all six optimizers; user code on each rank must return and leave the shared generator alone, and np.empty must hand out the same values on both ranks (C47 says when its contents matter at all); equality of the final generators is claimed for equal initial generators only. Why the seed is needed: C46_others_disagree"},
 {"property": "C68", "status": "proved", "theorems": ["C68_de", "C68_cpso", "C68_no_competition", "C68_pso", "C68_na", "C68_cmaes", "C68_vdcma", "C68_mcmc", "C68_hmc", "C68_common_numbers", "C68_common_samples", "C68_logs", "C68_different_searches", "C68_sampler_logs", "C68_competition_varies"], "note": "all eight entry points; user code must not draw from numpy's generator itself. For cpso with competition the number of restarted particles after each iteration is zero or the one the formula gives, and does depend on the objective (C68_competition_varies). One normal deviate / one double is one draw: how numpy's legacy generator turns words into deviates is not modelled"},
 {"property": "C69", "status": "proved", "theorems": ["C69_replay", "C69_full", "C69_stuck", "C69_hypotheses", "C69_rest_on_the_wall"], "note": "exact arithmetic, pso, constraints='Shrink', finite bounds, initial swarm in the box, one worker (the order of the evaluations is the order of the particles). C69_rest_on_the_wall is a binary64 run (both updating modes) in which the whole swarm comes to rest on a wall away from the minimum of x + y"},
 {"property": "C70", "status": "proved", "theorems": ["C70_cmaes", "C70_vdcma", "C70_target", "C70_binary64", "C70_hypotheses", "C70_runs"], "note": "every arithmetic; eigh and np.empty return arrays of the right shape, at most popsize parents (holds in binary64 for popsize <= 2^53, C70_binary64); backend not mpi; the reasons are those in the code: the window of -5 and the values of -7 include unused zeros of the history array, vdcma looks at the variances before the update"},
 {"property": "C71", "status": "proved", "theorems": ["C71_equations", "C71_quadratic", "C71_inward", "C71_bounded", "C71_hypotheses", "C71_angle"], "note": "C71_equations: every arithmetic, jac None (C38: a callable jac recurses for ever); the sum of squares runs from the left. C71_quadratic, C71_inward, C71_bounded: exact arithmetic, separable quadratic objective without state, finite draws, not 'Reject' (C36: then nothing is ever accepted)"},
 {"property": "C72", "status": "proved", "theorems": ["C72_walks", "C72_first_axis", "C72_in_cell", "C72_hypotheses"], "note": "exact arithmetic, lower < upper for every variable, x0 (if given) within the bounds, not MPI. When the walk stands exactly on the border of the cell the interval may be only a part of the section (the limit that equals the current coordinate is used for both ends, na/_na.py:293-297), therefore the premise of the last clause of Draw; C72_first_axis: never on the first axis"},
 {"property": "C73", "status": "proved", "theorems": ["C73_closed", "C73_frozen_de", "C73_grid", "C73_recombination", "C73_hull", "C73_frozen_cpso", "C73_frozen_pso", "C73_hypotheses", "C73_hypotheses_pso", "C73_needs_recombination", "C73_collapsed_de", "C73_collapsed_cpso", "C73_collapsed_runs"], "note": "C73_closed holds for every arithmetic; the others in exact arithmetic; not MPI. de with constraints='Random': only frozen coordinates within the bounds (points outside are redrawn). cpso: without competition. With 'Shrink' the swarm has to start within finite bounds"},
 {"property": "C74", "status": "proved", "theorems": ["C74_cmaes", "C74_generations", "C74_vdcma", "C74_hypotheses", "C74_vdcma_hypotheses"], "note": "exact arithmetic, not MPI; vdcma: the step size only (its statuses -3 and -8 also depend on the variances)"},
 {"property": "C75", "status": "proved", "theorems": ["C75_mcmc", "C75_hmc", "C75_mcmc_hypotheses", "C75_hmc_hypotheses"], "note": "both number systems (exact extended reals and binary64), through the laws in WallLaws that are proved for both; np.log of a draw is assumed negative (LogNeg, proved in exact arithmetic); numpy's default error handling (inf - inf gives NaN and no exception)"},
 {"property": "C76", "status": "proved", "theorems": ["C76_split", "C76_size", "C76_balanced", "C76_rounds", "C76_calls", "C76_nfev", "C76_least", "C76_least_cma", "C76_hypotheses"], "note": "all six optimizers, every number system; the collectives only have to keep the shape of their buffers (EnvOK); C76_nfev takes ranks that return after the same number of iterations (which C67 gives); C76_least needs numeric initial values and, with competitivity, values below 1e30, as C05 does"},
 {"property": "C77", "status": "proved", "theorems": ["C77_cmaes", "C77_vdcma", "C77_hypotheses_cmaes", "C77_hypotheses_vdcma", "C77_applies"], "note": "backends other than MPI; both number systems (any with the laws of NanArith: ENan, FNan); numpy's contract that the percentiles and the median of an array with a NaN are NaN (NanQuantiles); the condition that the list of spreads keeps twenty entries is computed for the run and holds always in exact arithmetic (exact_window)"},
 {"property": "C78", "status": "proved", "theorems": ["C78_de", "C78_pso", "C78_cpso", "C78_nan_answers", "C78_runs"], "note": "backends other than MPI; return_all=False (the recorded values differ, of course); any number system with OrdLaws, binary64 and the extended reals among them; cpso with competition needs the level to be at least the 1e30 that a restart writes; the random stream is the same and does not depend on the values returned"},
 {"property": "C79", "status": "proved", "theorems": ["C79_optimizers", "C79_mcmc", "C79_hmc", "C79_unseen", "C79_unseen_mcmc", "C79_unseen_hmc", "C79_needle", "C79_no_certificate", "C79_missed", "C79_parted_run"], "note": "any number system, any updating mode and backend; on an MPI rank the answers of the collectives are those of the environment, the same in both runs; C79_no_certificate in exact arithmetic, where a box has infinitely many points"},
 {"property": "C80", "status": "proved", "theorems": ["C80_resume", "C80_runs", "C80_hypotheses", "C80_not_immediate", "C80_not_pso"], "note": "de with deferred updating (also forced by workers), serial or joblib evaluation, return_all=False, a callback given; any number system (NaN and ties included); objective and callback must not change anything (generator, own state)"},
 {"property": "C81", "status": "proved", "theorems": ["C81_mcmc", "C81_hmc", "C81_memoryless", "C81_runs", "C81_hypotheses", "C81_mid_sweep"], "note": "return_all=True; any number system (NaN included); objective and callback must not change anything (generator, own state); mcmc: (maxiter - 1) a multiple of the number of blocks; a stepsize array, which the call modifies, has to be passed afresh; x and fun of the long result are not related (mcmc does not count the first sample among the candidates)"},
 {"property": "C82", "status": "proved", "theorems": ["C82_mcmc", "C82_hmc", "C82_runs"], "note": "number systems in which a sum with a NaN is NaN (binary64 and the extended reals, instances EWall/FWall); hmc with jac=None; complements C75, which says how a NaN coordinate arises in hmc"},
 {"property": "C83", "status": "proved", "theorems": ["C83_cpso", "C83_pso", "C83_runs"], "note": "cpso without competition; one worker (evaluations in the order of the particles), not MPI; number systems with WallLaws (binary64 and the extended reals); the least initial value must be attained once"},
 {"property": "C41", "status": "proved", "theorems": ["C41_sphere", "C41_quartic", "C41_rastrigin", "C41_rosenbrock", "C41_griewank", "C41_ackley", "C41_ackley_strict", "e_literal_small", "e_literal_close", "C41_styblinski_tang", "C41_styblinski_negative", "C41_ones", "C41_sphere_binary64", "C41_quartic_binary64", "C41_rosenbrock_binary64", "C41_griewank_binary64", "C41_rastrigin_binary64", "C41_binary64_hypotheses", "C41_sphere_any_order", "C41_quartic_any_order", "C41_rosenbrock_any_order", "C41_griewank_any_order", "C41_rastrigin_any_order", "C41_orders_differ"], "note": "the seven benchmark functions over the reals, every dimension; np.pi is an arbitrary constant, so also its rounded value is covered; ackley of a zero-dimensional point is outside (ZeroDivisionError); C41_ones reproduces the exact ones of the test values; the C41_*_binary64 theorems: also with every operation rounded (binary64, NaN and infinite coordinates included) sphere, quartic, rosenbrock, griewank and rastrigin are never below 0, the last two if the platform's cos never leaves [-1, 1]; these sum from left to right as the model does, the C41_*_any_order theorems hold for any order and parentheses of the sums and products (so for numpy's pairwise one); fused multiply-add is not modelled"},
 {"property": "C42", "status": "proved", "theorems": ["C42_access", "C42_repr", "C42_optimize_result", "C42_sample_result", "C42_run"], "note": "programs are arbitrary sequences of item and attribute writes and deletes; names are sequences of code points, the set of names found on the dict class and the printing of values are arbitrary"}
]}
