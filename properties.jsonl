{"id": "C01", "title": "Every recorded solution visits each customer exactly once", "statement": "Whenever the genetic solver records a solution in its search history (the entry that is later printed or written to the solution file), the routes of that entry together contain every customer 1..dim-1 exactly once and nothing else.", "quantifier": "all instances, all configurations of the modelled options, all random streams, all clock readings, all numbers of iterations, any behaviour of floating point arithmetic", "why_tests_cant": "a run exercises one random stream; loss or duplication of a customer can need a rare sequence of moves", "anchors": ["src/solver/genetic/genetic.rs: GeneticAlgorithm::iterate, update_best", "src/solver/history.rs: SearchHistory::add", "src/solver/improvement/ruin_recreate/mod.rs: RuinRecreate::update_best"]}
{"id": "C02", "title": "Every recorded solution respects the vehicle capacity", "statement": "Every route of every solution recorded in the search history carries a load of at most the vehicle capacity plus the comparison tolerance 1e-6.", "quantifier": "all instances, configurations, random streams, clocks and iteration counts", "why_tests_cant": "feasibility must hold for each of the unboundedly many solutions a run may record", "anchors": ["src/solver/genetic/genetic.rs: update_best", "src/solver/evaluate.rs: SolutionEvaluation::evaluate", "src/solver/improvement/ruin_recreate/mod.rs: update_best, is_feasible"]}
{"id": "C03", "title": "The cost recorded with a solution is the length of its routes", "statement": "The cost stored in a history entry is the total distance of its routes, up to the penalty charged for an overload below the tolerance 1e-6.", "quantifier": "all instances, random streams, iteration counts (exact arithmetic)", "why_tests_cant": "costs are maintained incrementally by several components; agreement must hold after every history of updates", "anchors": ["src/solver/history.rs: HistoricSolution", "src/solver/evaluate.rs: evaluate, route_cost", "src/solver/genetic/genetic.rs: update_best"]}
{"id": "C04", "title": "Recorded costs strictly improve and only the last solution keeps its routes", "statement": "Successive entries of the search history have strictly decreasing costs (each lower than the previous one by more than 1e-6), best_cost is the cost of the last entry, and only the last entry retains its routes.", "quantifier": "all sequences of updates issued by the solver", "why_tests_cant": "monotonicity is a property of the whole history, produced by two independent writers (genetic cycle, ruin and recreate)", "anchors": ["src/solver/history.rs: add, remove_previous_data, last_entry", "src/solver/genetic/genetic.rs: update_best"]}
{"id": "C05", "title": "Evaluation computes the true cost, feasibility and adjacency of a solution", "statement": "For any list of routes, evaluating it yields per-route distance and overload, total penalised cost and feasibility as defined by the routes alone; for a complete solution the predecessor and successor of every customer are its neighbours on its route, whatever the evaluation object held before.", "quantifier": "all lists of routes, all penalties, all earlier contents of the evaluation object", "why_tests_cant": "the object is reused without being cleared, so correctness is about every earlier history", "anchors": ["src/solver/evaluate.rs: SolutionEvaluation::evaluate, reset, route_cost"]}
{"id": "C06", "title": "Order crossover produces a permutation", "statement": "The child of a crossover contains exactly the customers of the parents; inside the (cyclic) crossover zone it equals the first parent, outside it holds the remaining customers in the order of the second parent.", "quantifier": "all parents that are permutations of each other, all zones including wrapped ones", "why_tests_cant": "wrap-around boundaries have quadratically many cases for each length", "anchors": ["src/solver/genetic/genetic.rs: crossover, crossover_ox"]}
{"id": "C07", "title": "Splitting a giant tour partitions it into consecutive routes", "statement": "After a split every customer of the giant tour is on exactly one route, every route is a consecutive piece of the tour, the number of non-empty routes is at most the allowed fleet, and the solution has exactly num_vehicles (possibly empty) routes.", "quantifier": "all giant tours, all demands, distances and penalties, all fleet limits", "why_tests_cant": "depends on the predecessor table being well-founded for every outcome of the comparisons", "anchors": ["src/solver/genetic/split.rs: Split::run, split, split_limited_fleet"]}
{"id": "C08", "title": "The linear split is optimal", "statement": "The linear-time split finds, for a giant tour, a segmentation of minimum penalised cost (non-negative demands and penalty, exact comparisons); with the 1e-6 tolerance the excess is bounded.", "quantifier": "all giant tours, all distances, all non-negative demands, all penalties", "why_tests_cant": "optimality compares against exponentially many segmentations", "anchors": ["src/solver/genetic/split.rs: split (linear_split), propagate, dominates, dominates_right"]}
{"id": "C09", "title": "The limited-fleet split is optimal among segmentations using at most the allowed number of routes", "statement": "When the unlimited split uses too many routes the fallback returns a segmentation with at most max_vehicles routes of minimum penalised cost among those.", "quantifier": "all giant tours, distances, non-negative demands, penalties and fleet limits", "why_tests_cant": "optimality compares against exponentially many segmentations", "anchors": ["src/solver/genetic/split.rs: split_limited_fleet"]}
{"id": "C10", "title": "The Bellman split is optimal among routes within the enlarged capacity and never drops customers", "statement": "With linear_split disabled the split is optimal among segmentations whose routes carry at most split_capacity_factor times the capacity, and the resulting solution still serves every customer.", "quantifier": "all giant tours, demands, distances, penalties, fleet limits", "why_tests_cant": "the failure needs a fleet limit that no segmentation meets", "anchors": ["src/solver/genetic/split.rs: split, split_limited_fleet (non-linear branches), run"]}
{"id": "C11", "title": "Sorting routes only permutes them and rebuilds the giant tour", "statement": "Sorting the routes of an individual yields a permutation of the same routes ordered by polar angle with empty routes last, and the giant tour becomes the concatenation of the routes.", "quantifier": "all individuals whose giant tour has one entry per routed customer, all angles", "why_tests_cant": "permutations of arbitrary length", "anchors": ["src/solver/genetic/individual.rs: Individual::sort_routes"]}
{"id": "C12", "title": "Local search moves keep the route lists intact", "statement": "Each of the nine local search moves and SWAP* relinks the routes so that, as doubly linked lists, they again run from their own start depot to their own end depot, contain every customer exactly once between them, and no null pointer is dereferenced or cycle created.", "quantifier": "all solutions, all pairs of nodes to which the search applies the move, any behaviour of floating point arithmetic", "why_tests_cant": "pointer surgery has many adjacency special cases, for routes of every length", "anchors": ["src/solver/improvement/moves/*.rs: perform", "src/solver/improvement/linked_list.rs: link_nodes, insert_node, forward_reverse, backward_reverse, replace_end_depot", "src/solver/improvement/local_search.rs: update_route"]}
{"id": "C13", "title": "The predicted cost change of a move is its real cost change", "statement": "For each of the nine moves, the delta computed before a move is performed equals the change in total penalised cost caused by performing it.", "quantifier": "all solutions, all node pairs for which the move is not skipped, symmetric distances, any penalty (exact arithmetic)", "why_tests_cant": "adjacency, same-route and depot special cases for every route length", "anchors": ["src/solver/improvement/moves/relocation.rs: delta", "src/solver/improvement/moves/swap.rs: delta", "src/solver/improvement/moves/two_opt.rs: delta"]}
{"id": "C14", "title": "Local search never returns a worse solution", "statement": "Local search returns a solution with the same customers whose penalised cost, under the penalty used by the search, is at most that of its input.", "quantifier": "all input solutions, all random streams, all subsets of enabled moves", "why_tests_cant": "the search path depends on the random stream and can have any length", "anchors": ["src/solver/improvement/local_search.rs: LocalSearch::run, search, update_individual"]}
{"id": "C15", "title": "Local search terminates", "statement": "Local search stops after finitely many moves for every input: the number of performed moves is bounded by the initial penalised cost divided by the tolerance.", "quantifier": "all input solutions, all random streams (exact arithmetic, non-negative distances and penalty)", "why_tests_cant": "termination is a statement about all executions", "anchors": ["src/solver/improvement/local_search.rs: search"]}
{"id": "C16", "title": "SWAP* evaluates exchanges and relocations exactly", "statement": "When SWAP* performs a move, the cost it computed from cached insertion positions is the real change in penalised cost, and the cache is never stale when it is read.", "quantifier": "all pairs of routes, all histories of earlier moves", "why_tests_cant": "staleness depends on the interleaving of moves and cache refreshes", "anchors": ["src/solver/improvement/moves/swap_star.rs: SwapStar::run", "src/solver/improvement/local_search.rs: preprocess_insertions, cheapest_insert_and_removal"]}
{"id": "C17", "title": "The three best insertion positions are tracked correctly", "statement": "After offering any sequence of insertion positions the record holds the three cheapest ones in ascending order of cost.", "quantifier": "all sequences of offered positions", "why_tests_cant": "all lengths and orders of input", "anchors": ["src/solver/improvement/preprocess.rs: ThreeBestInserts::add, reset"]}
{"id": "C18", "title": "Ruin followed by recreate conserves customers", "statement": "A ruin step removes customers from routes into the unassigned list without losing or duplicating any, and the recreate step puts every unassigned customer back on exactly one route.", "quantifier": "all solutions, all random streams, all hash iteration orders", "why_tests_cant": "string removal boundaries depend on random positions and lengths", "anchors": ["src/solver/improvement/ruin_recreate/ruin.rs: ruin_route, run", "src/solver/improvement/ruin_recreate/recreate.rs: GreedyBlink::run"]}
{"id": "C19", "title": "String removal stays inside the route", "statement": "The ruin step never indexes outside a route or underflows: the removed string has the drawn length, lies inside the route, and (string procedure) contains the chosen customer.", "quantifier": "all route lengths, positions, drawn lengths and random values", "why_tests_cant": "index arithmetic over all lengths and draws", "anchors": ["src/solver/improvement/ruin_recreate/ruin.rs: ruin_route, run"]}
{"id": "C20", "title": "Ruin and recreate keep route distances, loads and customer locations consistent", "statement": "After any number of ruin and recreate steps each route's stored distance and overload equal those of its node list and each customer's stored location is where it is.", "quantifier": "all solutions, random streams and numbers of steps (exact arithmetic)", "why_tests_cant": "incremental updates accumulate over unbounded histories", "anchors": ["src/solver/improvement/ruin_recreate/node.rs: Route::remove, add, delta_distance", "src/solver/improvement/ruin_recreate/mod.rs: evaluate, from, load"]}
{"id": "C21", "title": "Recreate inserts within capacity at the cheapest position whenever it can", "statement": "When some already touched route can take the customer within capacity, recreate inserts it into such a route, at a position whose extra distance is within the tolerance of the cheapest such position.", "quantifier": "all partial solutions, all orders of unassigned customers", "why_tests_cant": "all partial solutions", "anchors": ["src/solver/improvement/ruin_recreate/recreate.rs: GreedyBlink::run"]}
{"id": "C22", "title": "Ruin and recreate search never loses the solution it was given", "statement": "The best solution reported after a ruin and recreate search with fixed penalty costs at most as much as the solution loaded into it.", "quantifier": "all loaded solutions, random streams, schedules and numbers of iterations", "why_tests_cant": "simulated annealing accepts worse solutions; the claim is about every trajectory", "anchors": ["src/solver/improvement/ruin_recreate/mod.rs: load, search, get_best_solution, update_best"]}
{"id": "C23", "title": "The annealing schedule cools monotonically and completes on time", "statement": "The temperature of the iteration schedule starts at the start temperature, decreases with every update, ends (within rounding of a constant) at zero, and the schedule reports completion exactly after the configured number of updates.", "quantifier": "all start temperatures and iteration counts, all numbers of updates", "why_tests_cant": "monotonicity over a continuum of parameters", "anchors": ["src/solver/improvement/ruin_recreate/schedule.rs: IterationSchedule"]}
{"id": "C24", "title": "The first ruin and recreate move is judged against the loaded solution", "statement": "After loading a solution, the acceptance test of the first move compares against the cost of that solution.", "quantifier": "all pairs of consecutively loaded solutions", "why_tests_cant": "needs a particular history of two loads", "anchors": ["src/solver/improvement/ruin_recreate/mod.rs: load, search"]}
{"id": "C25", "title": "Subpopulations stay within their size bounds and are never emptied", "statement": "After any sequence of additions a subpopulation has fewer than min_population_size + population_lambda members, and once non-empty it stays non-empty.", "quantifier": "all sequences of added individuals, all configurations with a positive minimum size and lambda", "why_tests_cant": "unbounded histories of additions and survivor selections", "anchors": ["src/solver/genetic/population.rs: SubPopulation::add_individual, natural_selection, remove_individual"]}
{"id": "C26", "title": "The diversity table always describes exactly the current members", "statement": "After any sequence of additions and removals, with at least two members, every member has one diversity record per other member, sorted ascending, holding the broken-pairs distance of that pair; hence clone checks and diversity averages never index out of range.", "quantifier": "all histories of additions", "why_tests_cant": "consistency over unbounded histories", "anchors": ["src/solver/genetic/population.rs: update_diversity, add_diversity, remove_diversity, individual_is_clone, average_broken_pairs_distance"]}
{"id": "C27", "title": "Survivor selection keeps the best and the elites", "statement": "Survivor selection never removes the first (cheapest) member and, if it removes a non-clone, never one of the num_elites cheapest members.", "quantifier": "all subpopulations larger than num_elites, all diversity values", "why_tests_cant": "all combinations of ranks", "anchors": ["src/solver/genetic/population.rs: natural_selection, update_fitness"]}
{"id": "C28", "title": "A strictly better solution offered to a subpopulation is kept", "statement": "When an individual strictly cheaper than every member is added, it is in the subpopulation afterwards.", "quantifier": "all subpopulations and individuals", "why_tests_cant": "needs a particular pair of solutions at broken-pairs distance zero", "anchors": ["src/solver/genetic/population.rs: add_individual, individual_is_clone", "src/solver/genetic/individual.rs: calculate_broken_pairs_distance"]}
{"id": "C29", "title": "Broken-pairs distance behaves like a distance", "statement": "The broken-pairs distance is zero between identical solutions, lies between 0 and twice the number of customers, is symmetric, and is positive for different solutions.", "quantifier": "all pairs of evaluated solutions", "why_tests_cant": "all pairs of solutions", "anchors": ["src/solver/genetic/individual.rs: calculate_broken_pairs_distance"]}
{"id": "C30", "title": "Parent selection returns a fittest sampled member", "statement": "Tournament selection on a non-empty population returns a member of the population whose biased fitness is minimal among the sampled members.", "quantifier": "all populations, tournament sizes >= 1, random draws", "why_tests_cant": "all populations and draws", "anchors": ["src/solver/genetic/population.rs: tournament, get_parent"]}
{"id": "C31", "title": "The capacity penalty stays in range and moves in the right direction", "statement": "Every penalty update leaves the penalty in [0.0001, 10000000], raises it (up to the cap) when too few recent individuals were feasible, lowers it (down to the floor) when too many were, and leaves an in-range penalty unchanged otherwise; the initial penalty lies in [0.0001, 10000].", "quantifier": "all histories, all multipliers, all float values including NaN and infinities", "why_tests_cant": "IEEE corner cases", "anchors": ["src/solver/genetic/genetic.rs: update_penalty", "src/solver/context.rs: initial_penalty, reset_penalty"]}
{"id": "C32", "title": "The fleet is large enough", "statement": "The number of vehicles chosen at start is at least the bin packing lower bound, its total capacity covers the total demand, and whenever each customer fits a vehicle a feasible solution with that fleet exists.", "quantifier": "all demands and capacities", "why_tests_cant": "existence over all packings", "anchors": ["src/solver/context.rs: vehicle_lower_bound, initial_num_vehicles, setup"]}
{"id": "C33", "title": "The solver stops when told to and stays stopped", "statement": "Once the time limit or the iteration limit is reached the next iterate call terminates the algorithm without changing its results, and it stays terminated; with an iteration limit set, at most that many genetic iterations are performed.", "quantifier": "all clocks, all call sequences, all instances", "why_tests_cant": "absorbing state over all histories", "anchors": ["src/solver/genetic/genetic.rs: iterate, terminated", "src/solver/context.rs: terminate, next_iteration", "src/solver/solver.rs: Solver::run"]}
{"id": "C34", "title": "A genetic iteration finishes for every instance", "statement": "Selecting the crossover zone terminates for every instance with at least one customer.", "quantifier": "all instances with at least one customer, all random streams", "why_tests_cant": "non-termination cannot be observed by a test", "anchors": ["src/solver/genetic/genetic.rs: crossover"]}
{"id": "C35", "title": "Distance queries agree however the matrix is stored", "statement": "Distances are symmetric with zero diagonal and the same for precomputed and on-demand storage, for single and row queries; an explicit lower-row matrix is read back entry by entry; the reported maximum is within the tolerance of the true maximum.", "quantifier": "all coordinate lists, all sizes, all index pairs", "why_tests_cant": "all sizes and indices", "anchors": ["src/models/matrix.rs: DistanceMatrixBuilder::build, DistanceMatrix::get, get_vec, max"]}
{"id": "C36", "title": "Neighbour lists hold the nearest customers", "statement": "The neighbour list of a node contains distinct customers, not the node itself and not the depot, and no customer left out is closer than one that is listed.", "quantifier": "all distance matrices and all nodes", "why_tests_cant": "all matrices", "anchors": ["src/models/matrix.rs: CorrelationMatrix::new, get"]}
{"id": "C37", "title": "Reading the neighbour list during local search stays in bounds", "statement": "Taking the first local_search_granularity neighbours of a node reads only that node's row.", "quantifier": "all instance sizes and granularities", "why_tests_cant": "unchecked raw memory access", "anchors": ["src/models/matrix.rs: top_slice_mut, slice_mut", "src/solver/improvement/local_search.rs: search"]}
{"id": "C38", "title": "Subproblem extraction preserves distances and demands", "statement": "In the context built from a customer mapping, distances and demands between sub-customers equal those of the original customers they stand for.", "quantifier": "all mappings and matrices", "why_tests_cant": "all mappings", "anchors": ["src/models/matrix.rs: DistanceMatrix::from_mapping, Matrix::from_mapping", "src/models/problem.rs: Problem::from_mapping", "src/solver/context.rs: from_mapping"]}
{"id": "C39", "title": "Decomposition and merge conserve customers and keep the solution loadable", "statement": "Splitting a solution into a subproblem and a remainder and merging any complete solution of the subproblem back yields a solution with every customer exactly once, and with the number of routes the rest of the solver requires.", "quantifier": "all solutions, seeds, hash orders, and all complete sub-solutions", "why_tests_cant": "all selections and sub-solutions", "anchors": ["src/solver/genetic/decomposition.rs: decompose_global, finish, iterate", "src/solver/improvement/ruin_recreate/mod.rs: RuinRecreateSolution::load"]}
{"id": "C40", "title": "The best solution kept by the genetic algorithm is the best one recorded", "statement": "Whenever the search history holds a solution, the genetic algorithm's own best solution exists and has the recorded best cost (this is what a decomposed run merges back).", "quantifier": "all executions", "why_tests_cant": "needs the improvement to be found by ruin and recreate first", "anchors": ["src/solver/genetic/genetic.rs: update_best, educate, best_solution", "src/solver/improvement/ruin_recreate/mod.rs: update_best", "src/solver/genetic/decomposition.rs: run"]}
{"id": "C41", "title": "A circle sector encloses every angle it was extended with", "statement": "After extending a fresh sector with any sequence of angles it encloses each of them, and two sectors overlap exactly if some angle is enclosed by both.", "quantifier": "all sequences of angles in [0,65536), all pairs of sectors", "why_tests_cant": "all sequences of angles", "anchors": ["src/models/circle_sector.rs: extend, is_enclosed, overlaps"]}
{"id": "C42", "title": "Tolerant comparisons are consistent", "statement": "approx_lt/gt are strict orders refining < and >, approx_eq is reflexive and symmetric, lte/gte are their reflexive versions, and lte is the negation of gt.", "quantifier": "all numbers", "why_tests_cant": "boundary values", "anchors": ["src/utils/comparison.rs: FloatCompare"]}
{"id": "C43", "title": "Instance files are read back as written", "statement": "Parsing a well-formed instance file (any spacing of blanks, tabs and colons) yields the dimension, capacity, coordinates, demands and lower-row matrix that were written; a file lacking a required section is rejected.", "quantifier": "all instances and layouts", "why_tests_cant": "all texts", "anchors": ["src/utils/parser.rs: ProblemParser::parse and parse_*"]}
{"id": "C44", "title": "The printed solution determines the solution", "statement": "The text printed for a solution lists exactly the non-empty routes in order, numbered consecutively from 1, followed by the rounded cost, and can be read back unambiguously.", "quantifier": "all solutions", "why_tests_cant": "all solutions", "anchors": ["src/solver/history.rs: Display for HistoricSolution", "src/utils/serializer.rs: write_solution_file"]}
{"id": "C45", "title": "Configuration sources are merged with the documented precedence", "statement": "Values in the YAML file override defaults, unknown keys are ignored, and command line arguments override the file only when they are given.", "quantifier": "all configurations, files and argument lists", "why_tests_cant": "all combinations", "anchors": ["src/config.rs: update, update_from_args", "src/cli.rs: Args::parse", "src/main.rs"]}
{"id": "C46", "title": "Shuffling and sampling draw without loss", "statement": "Shuffling yields a permutation, sampling k elements yields k elements forming a sub-multiset of the input, and range draws stay in range.", "quantifier": "all inputs and random streams", "why_tests_cant": "all random streams", "anchors": ["src/utils/random.rs: shuffle, sample_from_vec, range_usize"]}
{"id": "C47", "title": "A deterministic run is reproducible", "statement": "With deterministic set and a fixed seed the recreate step yields the same solution on every run.", "quantifier": "all instances and seeds, all hash iteration orders of the runtime", "why_tests_cant": "hash seeds vary between processes", "anchors": ["src/solver/improvement/ruin_recreate/mod.rs: RuinRecreateSolution::new", "src/solver/improvement/ruin_recreate/recreate.rs: GreedyBlink::run", "src/utils/random.rs: random_state"]}
{"id": "C48", "title": "Floating point evaluation is exact on integral data", "statement": "If distances, demands and capacity are integers and totals stay below 2^53, the double precision evaluation computes exactly the mathematical distances and overloads, and the feasibility flag is exactly load <= capacity on every route.", "quantifier": "all integral instances below the bound, all solutions", "why_tests_cant": "rounding behaviour over all inputs", "anchors": ["src/solver/evaluate.rs: evaluate", "src/utils/comparison.rs: approx_gt"]}
{"id": "C49", "title": "Restart after stagnation keeps the results", "statement": "When the search restarts after too many iterations without improvement, the search history is unchanged and the next iterations start from an empty population; the stagnation counter never underflows.", "quantifier": "all executions", "why_tests_cant": "needs very long runs", "anchors": ["src/solver/genetic/genetic.rs: reset, iterate"]}
{"id": "C50", "title": "A subpopulation never holds two members at recorded broken-pairs distance zero", "statement": "After any history of additions, survivor selections and penalty updates, no two members of a subpopulation are at broken-pairs distance zero (measured from the older to the newer), so survivor selection in a normal run never meets a clone and always removes by biased fitness.", "quantifier": "all histories of additions and penalty updates", "why_tests_cant": "consistency over unbounded histories", "anchors": ["src/solver/genetic/population.rs: SubPopulation::add_individual, individual_is_clone, natural_selection"]}
{"id": "C51", "title": "No panics in the solver loop", "statement": "In exact arithmetic, on a proper instance and with a configuration whose sizes are positive and a granularity the neighbour lists can serve, no call of iterate panics or reads out of bounds, in any reachable state; it returns a new state (or a loop whose length depends on the random stream is still running).", "quantifier": "all instances, configurations, random streams, clocks, reachable states", "why_tests_cant": "needs every index, unwrap, assertion and subtraction on every path of the whole solver", "anchors": ["src/solver/genetic/genetic.rs: iterate", "src/solver/genetic/population.rs", "src/solver/genetic/split.rs", "src/solver/improvement/local_search.rs", "src/solver/improvement/ruin_recreate/"]}
{"id": "C52", "title": "The solution file is right", "statement": "Given a file describing a sensible CVRPLIB instance and an accepted configuration, with or without decomposition, when the program ends it has written, at the path of the -s option (or output.sol), either nothing or the text of one solution of that instance: every customer in exactly one of the numbered routes, no route above capacity (up to 1e-6; exactly, if demands and capacity are integral), and a cost line that is the rounding of the length of these routes in the rounded distances of the instance (exactly that length, if integral).", "quantifier": "all instance files, configuration files, command lines, random streams, hash orders, clocks, run lengths", "why_tests_cant": "end-to-end statement over all inputs and all stochastic runs; needs parser, matrices, whole solver and printer to agree on node numbers, distances and demands", "anchors": ["src/main.rs", "src/utils/parser.rs", "src/solver/context.rs", "src/models/matrix.rs", "src/solver/genetic/genetic.rs", "src/solver/history.rs", "src/utils/serializer.rs", "src/solver/genetic/decomposition.rs"]}
{"id": "C53", "title": "The program does not panic on accepted input", "statement": "In exact arithmetic, with a file describing a sensible instance, an accepted configuration with positive population sizes, finite numbers a granularity that the neighbour lists can serve and a decompose_limit above the number of customers (for decomposed runs see C55), the program never panics and never reads out of bounds: it writes its file, or one of its loops is still running.", "quantifier": "all instance files, configuration files, command lines, random streams, hash orders, clocks, run lengths", "why_tests_cant": "needs every unwrap, index and subtraction on every path from main to the serializer", "anchors": ["src/main.rs", "src/config.rs", "src/utils/parser.rs", "src/solver/context.rs", "src/solver/solver.rs"]}
{"id": "C54", "title": "Decomposed runs record only right solutions", "statement": "In a run with decomposition, every solution in the search history, whether from the construction, from ruin and recreate or merged from a subproblem, serves every customer exactly once within capacity (up to 1e-6), carries its true penalised cost (its length, if data are integral), and each recorded solution is cheaper than the one before.", "quantifier": "all instances, configurations, random streams, hash orders, clocks, run lengths", "why_tests_cant": "needs the renaming of nodes, the two matrices, the nested genetic algorithm and the merge to agree over unbounded rounds", "anchors": ["src/solver/genetic/decomposition.rs", "src/solver/history.rs"]}
{"id": "C55", "title": "A decomposition round keeps the solution whole, makes it no worse, and does not fail", "statement": "Between any two calls of iterate the current solution of a decomposed run serves every customer exactly once; a round that starts from a feasible solution ends in one that is feasible and no more expensive; and no round panics or reads out of bounds.", "quantifier": "all instances, configurations, reachable states, random streams, hash orders, clocks", "why_tests_cant": "depends on what an arbitrary run of the nested genetic algorithm returns", "anchors": ["src/solver/genetic/decomposition.rs: decompose_cycle, improve_global_solution", "src/solver/genetic/genetic.rs"]}
{"id": "C56", "title": "Decomposed runs respect the limits", "statement": "A decomposed run ends at the first call of iterate after the time limit or the iteration limit is reached, and not before; while the clock advances the run ends.", "quantifier": "all configurations, clocks, executions", "why_tests_cant": "all clocks and run lengths", "anchors": ["src/solver/genetic/decomposition.rs: iterate", "src/solver/context.rs: terminate", "src/solver/solver.rs: run"]}
{"id": "C57", "title": "Every run ends, and with a right file", "statement": "On any sensible instance, with any accepted configuration that is not degenerate, the program ends: no loop (local search, ruin and recreate, the drawing of crossover zones, the construction in decomposed mode, the run itself) goes on for ever once the clock passes the time limit and the random numbers do not repeat one value for ever. The file it leaves is then the one described in C52; in decomposed mode a panic described in C55 is the only other end.", "quantifier": "all instances, files, configurations, random streams that keep changing, hash orders, clocks that reach the limit", "why_tests_cant": "a test that stops says nothing about another seed, and one that hangs says nothing about for ever; needs a measure for every loop", "anchors": ["src/main.rs", "src/solver/solver.rs: run", "src/solver/improvement/local_search.rs: run", "src/solver/genetic/genetic.rs: crossover_ox", "src/solver/improvement/ruin_recreate/ruin_recreate.rs: run", "src/solver/genetic/decomposition.rs: improve_global_solution"]}
{"id": "C58", "title": "Double precision does not matter on integral data", "statement": "In IEEE double precision, on an instance whose distances, demands and capacity are natural numbers with sums below 2^53 (every instance whose distances are rounded), every solution recorded in a whole run of the genetic algorithm (also with elite education, where the penalty can grow to infinity) serves every customer exactly once, respects the capacity exactly (not only up to the tolerance), has exactly its integer length as cost although the evaluation adds penalty terms, and is shorter by at least one unit than the one recorded before it; the reported solution is the last and shortest.", "quantifier": "all integral instances, configurations, random streams, hash orders, clocks, values of exp and atan2, all reachable states", "why_tests_cant": "rounding errors, NaN or a wrong use of the tolerance can show up in any of the sums of any run; needs an invariant over the whole run in binary64", "anchors": ["src/solver/evaluate.rs", "src/solver/improvement/ruin_recreate/solution.rs", "src/solver/genetic/genetic.rs", "src/solver/history.rs", "src/utils/comparison.rs"]}
{"id": "C59", "title": "The solution file is exact in double precision", "statement": "When the program, computing in IEEE double precision, ends on an instance file with integral coordinates (up to 2^22 in absolute value) or a triangular matrix, and integral demands and capacity, the file it writes is empty (nothing was recorded) or holds one solution that serves every customer exactly once in non-empty routes, no route above capacity, and the number in the line Cost is exactly the sum of the distances along these routes, where the distance of two nodes is the integer nearest to their true real Euclidean distance (or matrix entry); no solution recorded in the run is shorter.", "quantifier": "all instance files, configurations without decomposition, command lines, seeds, random streams, hash orders, clocks, values of exp, ln and atan2", "why_tests_cant": "the rounding of a square root, a product or a sum can go wrong for single values of the coordinates in any position of the whole pipeline, and tests compare the program with itself", "anchors": ["src/main.rs", "src/utils/parser.rs", "src/models/matrix.rs", "src/utils/serializer.rs", "src/solver/genetic/genetic.rs", "src/solver/evaluate.rs"]}
{"id": "C60", "title": "The local search ends in a local optimum", "statement": "When a local search run returns, no enabled move (relocate one or two customers, swap one or two, 2-opt inside and between routes) of any customer and any of its neighbours in the correlation row saves more than the tolerance on the returned solution under the search penalty; with SWAP* on and at least one move performed, neither does opening an empty route; with SWAP* on and distances that obey the triangle inequality, no exchange of two customers (or change of route of one) between two routes with overlapping sectors saves more than three tolerances, whatever places they take. Putting a customer first in a route is not among the moves tried, and empty routes are not tried with SWAP* off or in a run without any other improvement.", "quantifier": "all problems, solutions, configurations, penalties, random streams, hash orders, neighbour matrices", "why_tests_cant": "the search skips pairs by time stamps, by cached best insertion places and by a lower bound; a wrongly skipped pair shows only as a slightly worse solution on some instance", "anchors": ["src/solver/improvement/local_search.rs", "src/solver/improvement/moves/mod.rs", "src/solver/improvement/moves/swap_star.rs"]}
{"id": "C61", "title": "More time never hurts, and the clock only decides when to stop", "statement": "Two runs from the same start, of which the second is allowed at least the time and the iterations of the first, record the same improvements in the same order up to the end of the first, so the reported cost of the longer run is not worse; while the time limit is not reached, the clock and the limit do not influence the search at all, and a seeded program writes the same solution file. (Elite education with a time-based schedule is excepted: its cooling depends on the clock.)", "quantifier": "all problems, configurations, clocks, limits, random streams, hash orders", "why_tests_cant": "two runs at different speeds can be compared only on a few instances and machines; the clock is read in many places", "anchors": ["src/solver/genetic/genetic.rs: iterate, log", "src/solver/improvement/ruin_recreate/schedule.rs", "src/main.rs: run_solver"]}
{"id": "C62", "title": "No panics in double precision", "statement": "On instances with integral demands, capacity and (rounded) distances, with finite coordinates and settings that are not degenerate (positive population parameters, finite numbers), the program, computing in IEEE double precision, never panics, unwraps nothing that is missing, compares no NaN and indexes nothing out of bounds: it writes the solution file. The penalty stays finite and non-negative. Elite education, which multiplies the penalty without clamping it, must be limited by iterations and short enough for its multipliers; with the multipliers the program comes with, 3 million moves are short enough. Without that bound the penalty overflows and ruin and recreate panics.", "quantifier": "all integral instances, configurations, command lines, random streams, clocks, hash orders, values of ln, atan2 (not NaN)", "why_tests_cant": "NaN and infinities arise only from rare combinations of magnitudes over thousands of penalty updates; no run of a test comes near them", "anchors": ["src/solver/improvement/ruin_recreate/mod.rs: search", "src/solver/improvement/ruin_recreate/recreate.rs", "src/solver/genetic/population.rs: partial_cmp().unwrap()", "src/solver/genetic/genetic.rs: iterate", "src/main.rs"]}
{"id": "C63", "title": "A customer without room in the ruined routes goes where the penalised cost grows least", "statement": "When no ruined or already used route can take a waiting customer within capacity, recreate puts it at the place, over all routes, where the penalised cost of the whole solution is smallest, up to the tolerance. (False: the code charges a route's whole new overload instead of its increase. What holds: another place can be cheaper by at most the penalty for the overload that its route had before.)", "quantifier": "all solutions, all random streams, all orders of waiting customers, all non-negative penalties", "why_tests_cant": "the choice depends on overloads that exist only in intermediate infeasible solutions; the final cost shows nothing", "anchors": ["src/solver/improvement/ruin_recreate/recreate.rs: GreedyBlink::run (second loop)"]}
{"id": "C64", "title": "Decomposed runs are exact in double precision", "statement": "On integral instances, a decomposed run in IEEE double precision records only solutions that serve every customer once within the capacity, with exactly their length as cost, each shorter than the one before; a round from a solution within capacity first comes to one that is within capacity and not longer; the solution file holds the shortest recorded solution and its exact length. The run does not panic. (The last sentence is false: a round that starts from a solution above capacity can panic, and one whose merged solution has another number of routes than there are vehicles does.)", "quantifier": "all integral instances with lengths and loads below 2^53 and their scale, all accepted configurations with subproblems larger than the neighbourhoods, all random streams, hash orders and clocks, all numbers of rounds", "why_tests_cant": "rounding depends on the penalty, which is scaled by 10^6 and back while the first solution is built, and on the sub-solver's runs; a test sees one history of roundings", "anchors": ["src/solver/genetic/decomposition.rs: DecomposedGeneticAlgorithm::iterate, Decomposition", "src/main.rs"]}
{"id": "C65", "title": "Fractional coordinates in double precision", "statement": "Whatever the fractions in the coordinates (up to 2^22 in size), if demands and capacity are integers then the program in IEEE double precision works with a symmetric matrix of integers, each within 1/2 + 2^-26 of the Euclidean distance; the solution file serves every customer once within the capacity, and the number in its line Cost is exactly the length in these integers, and so the true length of its routes up to 1/2 + 2^-26 for each customer and each route. (That each integer is the one nearest to the true distance is false.)", "quantifier": "all Euclidean instances of 2 to 2^27 nodes with finite coordinates of at most 2^22 and integral demands of total below 2^53, all accepted configurations, decomposed or not, all random streams, hash orders and clocks", "why_tests_cant": "differences, squares, their sum and its root are each rounded, and subnormal numbers have no relative error bound; a test sees single pairs of points", "anchors": ["src/models/matrix.rs: euclidian, DistanceMatrix", "src/main.rs"]}
{"id": "C66", "title": "Local search in double precision", "statement": "In IEEE double precision the local search never makes a solution worse and ends: every move it carries out lowers the true penalised cost (in real numbers) by at least 5e-7, as long as longest distance times (nodes + 8) plus the largest possible penalty is at most 5e8. (That it ends for every instance is false: with two customers 1.9e9 away from each other and from the depot the rounding of two sums makes the same relocation look like an improvement for ever, and the program does not return, whatever its time limit. The model's move counter is unbounded; the code's is an i32, so with SWAP* switched on this describes the first 2^31 moves.)", "quantifier": "all integral symmetric instances of that size, all penalties, configurations, random streams, hash orders and starting solutions; the refutation holds for all random streams, hash orders and bounds on the number of passes", "why_tests_cant": "an endless loop caused by rounding depends on the last bits of sums of costs and penalties; a test that does not hang on its data says nothing about other magnitudes", "anchors": ["src/solver/improvement/local_search.rs: search, run", "src/solver/improvement/moves/mod.rs", "src/utils/comparison.rs"]}
{"id": "C67", "title": "Local optimum in double precision", "statement": "In IEEE double precision the solution returned by the local search is a local optimum: no enabled move of a customer and one of its neighbours, and (once a move has been performed with SWAP* on) no opening of an empty route, lowers its true penalised cost by more than 1.5e-6; with SWAP* on and the triangle inequality no exchange of two customers or relocation of one between two routes with overlapping sectors lowers it by more than 3.1e-6, whatever places they take. If the solution is within capacity, no such neighbour within capacity is shorter at all.", "quantifier": "all integral symmetric instances of moderate size (longest distance times (nodes + 8) plus the largest possible penalty at most 5e8), all penalties, configurations, random streams, hash orders and starting solutions", "why_tests_cant": "a missed improvement only shows when all neighbours of the result are enumerated, for every instance; here rounding could hide one in any of the sums compared", "anchors": ["src/solver/improvement/local_search.rs: search, run", "src/solver/improvement/moves/mod.rs", "src/solver/improvement/moves/swap_star.rs", "src/utils/comparison.rs"]}
{"id": "C68", "title": "The penalty follows the children", "statement": "In a run of the genetic algorithm the feasibility history always holds the verdicts on the last hundred children made since the start or the last restart (initial ones included, repaired copies and solutions handed in excluded, filled up with favourable ones), and the penalty changes only in elite education (after which it is the initial one again), in the first genetic iteration after a start or restart, and then in every iteration whose number is a multiple of the update interval; there it is adapted to the share of favourable verdicts, the child of that iteration included.", "quantifier": "all instances, configurations with an update interval of at least 1, random streams, clocks, run lengths, any arithmetic", "why_tests_cant": "which children count and when the penalty is adapted is a property of the whole history of a run, across restarts and elite education", "anchors": ["src/solver/genetic/genetic.rs: iterate, update_penalty, reset, educate, repair", "src/solver/genetic/population.rs: add_individual, history_fraction", "src/solver/improvement/ruin_recreate/mod.rs: search"]}
{"id": "C69", "title": "The split is near-optimal in double precision", "statement": "On an instance of whole numbers of moderate size (twice the number of nodes times the longest distance plus the penalty on the whole demand at most 2*10^8, every customer wanting something, penalty at least 1/100000), the linear split carried out in IEEE double precision returns a cut of the giant tour into at most the allowed number of routes whose true penalised cost, computed without any rounding, exceeds that of no other such cut by more than two millionths per piece of that cut and customer; the rounding errors of the running costs do not accumulate in the queue of candidate predecessors.", "quantifier": "all instances of that size, all giant tours, all penalties in that range, all fleet limits, all tables left by earlier splits", "why_tests_cant": "the tolerance of 1e-6 and the rounding errors interact along the whole queue; a test cannot compare with all exponentially many cuts of all tours", "anchors": ["src/solver/genetic/split.rs: run, split, split_limited_fleet, propagate, dominates, dominates_right", "src/utils/comparison.rs"]}
{"id": "C70", "title": "A run, and the program, in double precision ends", "statement": "On an instance of whole numbers, carried out in IEEE double precision, once the clock passes the time limit the genetic algorithm comes to its end: there is one bound on the lengths of all its loops (local search passes, ruin-and-recreate moves, draws in the crossover, calls of iterate) with which every run terminates without panicking or getting stuck, for all random numbers that keep varying and all library functions within their contracts, unless the capacity penalty outside elite education exceeds a tenth of a value at which the instance is of moderate size (C66). If the instance is of moderate size with the penalty 10^8, above all if all customers fit into one vehicle, there is no such exception. The same holds of the program as a whole without decomposition: on an instance file of that size and sensible settings it writes the same file for every large enough bound on its loops, and this file is empty or holds one feasible solution with its exact rounded cost.", "quantifier": "all instances of that size, all reached states, all libraries, clocks, random streams and fuel values above the bound", "why_tests_cant": "a test cannot tell a slow run from an endless one, and C66 exhibits instances on which the local search never ends because of rounding", "anchors": ["src/solver/genetic/genetic.rs: iterate, educate, repair, update_penalty, reset", "src/solver/improvement/local_search.rs: run", "src/solver/solver.rs: run", "src/main.rs: main"]}
{"id": "C71", "title": "The Bellman split is near-optimal in double precision", "statement": "With linear_split = false, on an instance of whole numbers of moderate size (as in C69) and a finite split_capacity_factor between 0 and 2^100, the split carried out in IEEE double precision returns a cut of the giant tour into at most the allowed number of routes whose true penalised cost, computed without any rounding, exceeds that of no other such cut with pieces within the capacity times the factor by more than four ten-millionths per customer. In particular re-splitting a feasible solution with a factor of at least 1 never loses more than that.", "quantifier": "all instances of that size, all giant tours, all penalties in that range, all capacity factors, all fleet limits, all tables left by earlier splits", "why_tests_cant": "rounding errors of the running cost, the sentinel 10^30 and the early exit at 10^29 interact over all predecessors; a test cannot compare with all exponentially many cuts of all tours", "anchors": ["src/solver/genetic/split.rs: run, split (the non-linear branch), split_limited_fleet (the non-linear branch)"]}
{"id": "C72", "title": "A split does not depend on earlier splits", "statement": "The individual that Split::run returns depends on the giant tour, the penalty and the limit on routes only, although the splitter keeps its path-cost and predecessor tables between runs and does not clear all of them.", "quantifier": "all instances, all arithmetics, all tours, all limits, all tables left by any earlier splits", "why_tests_cant": "a test splits a few tours in a few orders; stale cells matter only for particular pairs of tours and limits", "anchors": ["src/solver/genetic/split.rs: run, reset, split, split_limited_fleet"]}
