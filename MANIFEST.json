{"claims": [
 {"property": "C01", "status": "proved", "theorems": ["C01_recorded_complete", "C01_recorded_complete_exact", "C01_matrix_applicable"], "note": "every recorded individual and the reported entry, any arithmetic; hypotheses discharged in exact arithmetic and by the matrices the code builds"},
 {"property": "C02", "status": "proved", "theorems": ["C02_recorded_within_capacity"], "note": "exact arithmetic, tolerance 1e-6 as in the code"},
 {"property": "C03", "status": "proved", "theorems": ["C03_recorded_cost", "C03_recorded_cost_integral"], "note": "the cost may exceed the length by the penalty of overloads below 1e-6; exact for integral data"},
 {"property": "C04", "status": "proved", "theorems": ["C04_recorded_improve"], "note": "exact arithmetic"},
 {"property": "C05", "status": "proved", "theorems": ["C05_evaluate_correct", "C05_evaluate_history_free"], "note": "exact arithmetic; history independence for any arithmetic"},
 {"property": "C06", "status": "proved", "theorems": ["C06_order_crossover", "C06_crossover_permutation"], "note": ""},
 {"property": "C07", "status": "proved", "theorems": ["C07_split_partition", "C07_split_partition_any_arithmetic", "C07_unlimited_partition_any_arithmetic", "C07_state_reachable", "C10_bellman_serves_all"], "note": "both split algorithms; exact arithmetic total, any arithmetic partial correctness"},
 {"property": "C08", "status": "proved", "theorems": ["C08_linear_split_near_optimal", "C08_linear_split_optimal_on_grid"], "note": "exact arithmetic; tolerance 1e-6 of the code accounted for, exact on grid data"},
 {"property": "C09", "status": "proved", "theorems": ["C09_limited_split_near_optimal", "C09_limited_split_optimal_on_grid"], "note": "exact arithmetic; tolerance accounted for"},
 {"property": "C10", "status": "proved", "theorems": ["C10_bellman_split_near_optimal", "C10_bellman_serves_all", "C10_initial_state"], "note": "exact arithmetic for optimality, any arithmetic for conservation"},
 {"property": "C11", "status": "proved", "theorems": ["C11_sort_routes_permutes", "C11_sort_routes_by_angle"], "note": ""},
 {"property": "C12", "status": "proved", "theorems": ["C12_reached_states", "C12_moves", "C12_swap_star", "C12_neighbours_applicable"], "note": ""},
 {"property": "C13", "status": "proved", "theorems": ["C13_delta_exact"], "note": ""},
 {"property": "C14", "status": "proved", "theorems": ["C14_never_worse", "C14_same_customers"], "note": ""},
 {"property": "C15", "status": "proved", "theorems": ["C15_terminates"], "note": ""},
 {"property": "C16", "status": "proved", "theorems": ["C16_cache_not_stale", "C16_cost_exact"], "note": ""},
 {"property": "C17", "status": "proved", "theorems": ["C17_three_best"], "note": ""},
 {"property": "C18", "status": "proved", "theorems": ["C18_reached", "C18_ruin", "C18_recreate", "C18_recreate_returns"], "note": "Conservation in any arithmetic (any Num instance), any random stream and hash order; that recreate returns is proved in exact arithmetic (in floats it panics only if a sort key is NaN or every insertion cost is not below f64::MAX)."},
 {"property": "C19", "status": "proved", "theorems": ["C19_strings_inside", "C19_one_route"], "note": "Any arithmetic; the hypothesis reals_below_one says that a random number below 1 times the bound, rounded down, is below the route length."},
 {"property": "C20", "status": "proved", "theorems": ["C20_consistent", "C20_steps"], "note": "Exact arithmetic, every reachable state of the object."},
 {"property": "C21", "status": "proved", "theorems": ["C21_greedy"], "note": "Exact arithmetic; also describes the fallback when no touched route can take the customer."},
 {"property": "C22", "status": "proved", "theorems": ["C22_never_worse", "C22_returns"], "note": "Exact arithmetic, penalty not updated by the search (mutation mode)."},
 {"property": "C23", "status": "proved", "theorems": ["C23_iteration_schedule", "C23_completes_on_time", "C23_time_schedule", "C23_time_series", "C23_time_restarted"], "note": "Over the real numbers with the true exponential function (standard library axioms of the reals); completion count in any arithmetic. The end value is -8.1e-18 times the start temperature: within 1e-17 of zero. The schedule driven by the clock, over any series of updates, is C23_time_series; C23_time_restarted covers the restart of a used one (its completion flag stays; no caller restarts a used one)."},
 {"property": "C24", "status": "partial", "theorems": ["C24_first_reference_refuted", "C24_first_reference_partial"], "note": "Refuted: load clones current_solution before evaluate, so the first move is judged against the cost of the previously accepted solution (INFINITY on a new object). The partial theorem says what the reference is, and that it is right from the second move on."},
 {"property": "C25", "status": "proved", "theorems": ["subpopulation_sizes_bounded", "subpopulation_never_emptied", "addition_never_panics", "subpopulations_separate_feasibility"], "note": "All histories of additions and penalty re-evaluations; library binary search and sort under their contract (met by library_contract_met). Panic-freedom in exact arithmetic."},
 {"property": "C26", "status": "proved", "theorems": ["diversity_table_exact", "diversity_reads_in_range"], "note": "All histories; generic arithmetic."},
 {"property": "C27", "status": "partial", "theorems": ["survivor_selection_removes", "addition_keeps_elites", "addition_keeps_cost_order_partial", "penalty_update_restores_cost_order_partial", "cheapest_kept_refuted"], "note": "Positions: the first member and the first num_elites non-clones are never removed (proved). That the first is the cheapest holds when costs are equal or at least the tolerance apart; refuted otherwise (tolerant comparison is not transitive)."},
 {"property": "C28", "status": "partial", "theorems": ["better_individual_kept_partial", "better_individual_kept_refuted"], "note": "Refuted: a strictly better individual at broken-pairs distance zero from a member is dropped as a clone. Proved when no member is at distance zero."},
 {"property": "C29", "status": "partial", "theorems": ["broken_pairs_self", "broken_pairs_bounded", "broken_pairs_separates_partial", "broken_pairs_symmetric_refuted", "broken_pairs_positive_refuted"], "note": "Zero on itself, bounded; symmetry and positivity refuted; separation proved when the second solution uses its last route."},
 {"property": "C30", "status": "proved", "theorems": ["tournament_returns_fittest"], "note": "Exact arithmetic for the fitness comparison."},
 {"property": "C31", "status": "proved", "theorems": ["C31_update", "C31_direction", "C31_initial", "C31_always", "C31_float_range", "C31_float_direction", "C31_float_initial"], "note": "Exact arithmetic along whole runs; double precision (Flocq binary64, NaN and infinities included) for every update and the initial value."},
 {"property": "C32", "status": "partial", "theorems": ["C32_lower_bound", "C32_needed", "C32_feasible_exists_partial", "C32_feasible_exists_fifth_partial", "C32_feasible_exists_refuted", "C32_fifth_refuted"], "note": "a feasible solution with the chosen fleet exists when no demand exceeds a fifth of the capacity; for any larger part it is refuted"},
 {"property": "C33", "status": "proved", "theorems": ["C33_stops", "C33_stays_stopped", "C33_not_early", "C33_iteration_limit", "C33_time_limit", "C33_run", "C33_run_ends"], "note": "any arithmetic"},
 {"property": "C34", "status": "partial", "theorems": ["C34_one_customer_refuted", "C34_one_customer_iteration_refuted", "C34_crossover_ends"], "note": "refuted for one customer; with two or more it ends unless the stream repeats one value for ever"},
 {"property": "C35", "status": "proved", "theorems": ["C35_square_symmetric_exact", "C35_storage_irrelevant", "C35_zero_diagonal", "C35_zero_diagonal_lazy", "C35_row_queries", "C35_lower_row_read_back", "C35_maximum"], "note": "any arithmetic with symmetric squares; maximum and lazy diagonal in exact arithmetic"},
 {"property": "C36", "status": "proved", "theorems": ["C36_nearest_neighbours", "C36_applies"], "note": "lazysort assumed to return a sorted permutation (contract met by insertion sort)"},
 {"property": "C37", "status": "partial", "theorems": ["C37_slice_in_row_partial", "C37_slice_in_bounds_refuted"], "note": "holds when granularity <= row width; refuted for every instance with a smaller width (default: fewer than 22 nodes): out of bounds read"},
 {"property": "C38", "status": "proved", "theorems": ["C38_mapping_preserves", "C38_mapping_succeeds"], "note": ""},
 {"property": "C39", "status": "partial", "theorems": ["C39_taken_out", "C39_subproblem", "C39_merged", "C39_merged_cost", "C39_loadable_partial", "C39_loadable_refuted"], "note": "Conservation, merge and exact cost change proved for all arithmetic/random/hash orders; the route-count half is false (refuted, with a whole decomposition round that panics) and its exact condition is C39_loadable_partial."},
 {"property": "C40", "status": "partial", "theorems": ["C40_best_is_recorded_partial", "C40_best_is_recorded_refuted"], "note": "holds without ruin and recreate, refuted with it"},
 {"property": "C41", "status": "partial", "theorems": ["C41_sector_encloses_partial", "C41_sector_encloses_refuted", "C41_overlap_iff_common_angle", "C41_enclosed_iff_on_arc"], "note": "fails when angle 0 comes first (sentinel); proved for every sequence starting with a nonzero angle"},
 {"property": "C42", "status": "partial", "theorems": ["C42_strict_orders", "C42_eq_reflexive_symmetric", "C42_lte_gte", "C42_lte_excludes_gt_partial", "C42_lte_negates_gt_refuted"], "note": "lte is not the negation of gt exactly at difference 1e-6"},
 {"property": "C43", "status": "proved", "theorems": ["C43_read_back", "C43_missing_rejected", "C43_distances"], "note": "All layouts and orders of the parts; number reading (str::parse::<f64>) is a parameter. Examples C43_*_refuted show what is accepted beyond the claim: truncated last section, node numbers ignored, wrapped matrix rows."},
 {"property": "C44", "status": "proved", "theorems": ["C44_printed", "C44_unambiguous", "C44_determines", "C44_file", "C44_rounded"], "note": "Grammar in Spec/Output.v; the text determines the non-empty routes and the rounded cost."},
 {"property": "C45", "status": "partial", "theorems": ["C45_defaults", "C45_file_overrides", "C45_unknown_ignored", "C45_bad_file_rejected", "C45_arguments_partial", "C45_merged_partial", "C45_time_limit_refuted", "C45_rounding_refuted"], "note": "File over defaults, unknown keys, wrong types and given options proved for all files and argument lists. 'Only when given' is false for the time limit (always 10 s without -t), for round_distances (always true) and for the solution path default: refuted. serde/clap conversions are modelled by a table."},
 {"property": "C46", "status": "proved", "theorems": ["C46_shuffle_permutes", "C46_sample", "C46_range", "C46_range_onto"], "note": ""},
 {"property": "C47", "status": "partial", "theorems": ["C47_reproducible_refuted", "C47_program_refuted", "C47_reproducible_partial"], "note": "Refuted: the hash set of ruined routes is seeded with RandomState::new() even in deterministic mode; witnesses with two hash orders, for one search and for the whole program (one seed, two solution files of different cost). Proved where it holds: without ruin and recreate (and without decomposition) the solution file of a seeded run does not depend on clock, hash order or unseeded numbers."},
 {"property": "C48", "status": "proved", "theorems": ["C48_evaluation_exact"], "note": "Flocq binary64 instance of the model's evaluation; axioms are those of the standard library's reals."},
 {"property": "C49", "status": "proved", "theorems": ["C49_restart"], "note": "any arithmetic"},
 {"property": "C50", "status": "proved", "theorems": ["no_two_members_at_distance_zero"], "note": "All histories; generic arithmetic."},
 {"property": "C51", "status": "proved", "theorems": ["C51_no_panic"], "note": "exact arithmetic"},
 {"property": "C52", "status": "proved", "theorems": ["C52_solution_file", "C52_solution_file_integral"], "note": "Exact arithmetic; runs with and without decomposition. The instance file is any file of the format specified for C43, the distances are those of the file, always rounded (C45)."},
 {"property": "C53", "status": "proved", "theorems": ["C53_no_panic", "C53_decomposed_partial"], "note": "Exact arithmetic. Loops whose length depends on the random stream, and the solver loop itself, may exceed the bound given to the model (EFuel). C53_decomposed_partial is what remains true beyond the claim, with decomposition: the only panics are those of C55."},
 {"property": "C54", "status": "proved", "theorems": ["C54_recorded", "C54_recorded_improve", "C54_recorded_integral"], "note": "Exact arithmetic; subproblems larger than the neighbourhoods (otherwise C55_small_parts_refuted)."},
 {"property": "C55", "status": "partial", "theorems": ["C55_solution", "C55_not_worse", "C55_not_worse_integral", "C55_panics_partial", "C55_infeasible_refuted", "C55_misfit_refuted", "C55_small_parts_refuted"], "note": "Wholeness and monotonicity proved. 'No round panics' is refuted three times; C55_panics_partial says that with subproblems larger than the neighbourhoods a call panics only in a round that starts above capacity or whose merged solution has not one route per vehicle."},
 {"property": "C56", "status": "partial", "theorems": ["C56_iterations_uncounted", "C56_stops", "C56_not_early", "C56_run", "C56_run_ends"], "note": "The time limit is respected, exactly; the iteration limit is not: the counter never moves (C56_iterations_uncounted, a limit of zero excepted)."},
 {"property": "C57", "status": "proved", "theorems": ["C57_run_ends", "C57_decomposed_run_ends", "C57_bound_irrelevant", "C57_program_ends", "C57_total_correctness", "C57_decomposed_program_ends"], "note": "In exact arithmetic, for symmetric distances and a depot without demand (files always give symmetric distances). Random numbers: none is followed by more than B numbers equal to it modulo a number of customers that occurs. One customer is excluded (C34)."},
 {"property": "C58", "status": "proved", "theorems": ["C58_float_run"], "note": "IEEE binary64 via Flocq. Undecomposed runs; C64 has the decomposed ones."},
 {"property": "C59", "status": "proved", "theorems": ["C59_solution_file_doubles", "C64_solution_file"], "note": "Binary64 by Flocq; square root and rounding of the standard library are the IEEE operations; exp, ln, atan2 arbitrary. C64_solution_file covers runs with decomposition."},
 {"property": "C60", "status": "proved", "theorems": ["C60_local_optimum", "C60_empty_routes", "C60_swap_star", "C60_depot_moves_dead", "C60_front_refuted", "C60_empty_refuted"], "note": "Exact rationals. The refuted theorems show the two kinds of improving steps the code does not try: putting a customer first in a route (the moves meant for this are called with the wrong node, C60_depot_moves_dead), and opening an empty route when SWAP* is off or the first pass finds nothing."},
 {"property": "C61", "status": "proved", "theorems": ["C61_anytime", "C61_no_worse", "C61_clock_free", "C61_program_clock"], "note": "C61_no_worse in exact arithmetic; the others for every arithmetic. Runs without decomposition; time-based elite education excepted as stated."},
 {"property": "C62", "status": "partial", "theorems": ["C62_no_panic_doubles", "C62_elite_default", "C62_program_doubles", "C62_elite_refuted", "C64_program_partial"], "note": "proved for elite education off or limited by iterations and short enough (elite_fits; C62_elite_default: 3 million moves with the multipliers 1.2 and 0.85); refuted without that bound (C62_elite_refuted: overflow, then panic in recreate); decomposed runs: C64_program_partial"},
 {"property": "C63", "status": "partial", "theorems": ["C63_cheapest_partial", "C63_cheapest_refuted"], "note": "False as stated: the whole new overload is charged, not its increase (C63_cheapest_refuted). The partial theorem gives the exact slack: the old overload of the other route."},
 {"property": "C64", "status": "partial", "theorems": ["C64_recorded", "C64_solution", "C64_round", "C64_panics_partial", "C64_infeasible_refuted", "C64_misfit_refuted", "C64_solution_file", "C64_program_partial"], "note": "Recorded solutions, rounds and the solution file: proved in full for binary64 (C64_recorded, C64_round, C64_solution_file). Partial because of panics: all that remain are characterised (C64_panics_partial, C64_program_partial) and both kinds happen (C64_infeasible_refuted, C64_misfit_refuted)."},
 {"property": "C65", "status": "proved", "theorems": ["C65_every_instance", "C65_true_length", "C65_solution_file", "C65_true_cost", "C65_nearest_refuted"], "note": "C65_nearest_refuted shows that the sharper claim (nearest integer), which holds for integral coordinates (C59), fails with fractions. C62_program_doubles, C64_solution_file and C64_program_partial have the same hypothesis rounded_instance."},
 {"property": "C66", "status": "partial", "theorems": ["C66_never_worse", "C66_terminates", "C66_endless", "C66_terminates_refuted", "C66_program_ends_refuted"], "note": "doubles, integral symmetric data of moderate size; for larger numbers termination is refuted, down to the program"},
 {"property": "C67", "status": "proved", "theorems": ["C67_local_optimum", "C67_empty_routes", "C67_swap_star", "C67_feasible_neighbours", "C67_feasible_exchanges"], "note": "doubles, integral symmetric data of moderate size; SWAP* part under the triangle inequality, as the code's skipping of pairs requires it"},
 {"property": "C68", "status": "proved", "theorems": ["C68_recent_verdicts", "C68_penalty_changes"], "note": "any arithmetic; what the adaptation means in exact arithmetic and in doubles is C31"},
 {"property": "C69", "status": "proved", "theorems": ["C69_near_optimal", "C69_unlimited", "C69_resplit"], "note": "Linear split in binary64 on integral instances of moderate size (split_sizes): within 2e-6 per piece and customer of every admissible cut, in true cost. Counterpart of C08 (exact arithmetic). The Bellman variant is C71; larger numbers are not covered."},
 {"property": "C70", "status": "proved", "theorems": ["C70_run_ends", "C70_always_ends", "C70_program_ends", "C70_total_correctness"], "note": "For integral data. Beyond the sizes of C66 it is false (C66_program_ends_refuted). Without decomposition."},
 {"property": "C71", "status": "proved", "theorems": ["C71_bellman_near_optimal", "C71_unlimited", "C71_resplit"], "note": "Bellman split in binary64 on integral instances of moderate size (split_sizes), capacity factor finite in [0, 2^100]: within 4e-7 per customer of every admissible cut within the enlarged capacity, in true cost. Cuts with a piece beyond the enlarged capacity are not compared, as the code does not look at them."},
 {"property": "C72", "status": "partial", "theorems": ["C72_linear_fresh", "C72_series", "C72_bellman_refuted"], "note": "Proved for the linear split (the default) in any arithmetic. False of the Bellman split (linear_split = false): witness in C72_bellman_refuted; by C71 its result is near-optimal, whatever the tables, when a cut within the enlarged capacity exists."}
]}
