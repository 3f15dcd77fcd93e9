# Formal model of hybridcvrp: design

## 1. Overall approach

The model is a set of total, executable Gallina functions written function by function after the Rust
source. Every definition names the file and lines it models and every simplification.

* **Numbers.** The code computes with `f64`. The model is *generic in the arithmetic*: a record `Num`
  (`Num.v`) lists the operations used (`+ - * /`, `<`, `<=`, `==`, `max`, `min`, constants), **without laws**.
  Structural properties (no customer lost, pointers intact, sizes bounded, ...) are proved for *every* `Num`,
  so they hold for IEEE doubles, NaN included. Quantitative properties (costs, deltas, optimality) are proved
  for the exact instance `NumQ` (rationals). `NumR` (reals) is used where the exponential function matters (C23).
  `NumF` is IEEE binary64 built from Flocq's operations; it is used for the penalty (C31, NaN and infinities
  included), for the exactness of evaluations on integral data (C48) and for whole runs and the whole program on integral data (C58, C59, C62, C64), also with fractions in the coordinates (C65),
  for the local search (C66, C67), for the split (C69 linear, C71 Bellman) and for the end of a whole run (C70).
* **Infinity.** Fields that start as `f64::INFINITY`/`f64::MAX` have type `option F` (`None` = infinite); the
  comparison `x < INFINITY` is an operation of `Num` so that NaN and overflow are still visible in `NumF`.
* **Randomness, clock, hash order.** An execution is parameterised by an arbitrary stream of draws
  (`nat -> N`) and an arbitrary clock; theorems quantify over all of them. Hash set iteration order is a
  shuffle by a further arbitrary stream, so all orders are covered.
* **Errors.** Rust panics, unchecked out-of-bounds accesses / null dereferences and exhausted fuel are explicit
  values of `res` (`Err EPanic`, `Err EUB`, `Err EFuel`). Nothing is totalised silently unless the comment says so.
* **Pointers.** The local search heap is a map from node identities (customer i, start depot r, end depot r) to
  node records with `succ`/`pred`; moves are written with the same link operations as the code, and are proved to
  refine operations on lists of customers.

Directories under `rocq/theories`:

* `Model/` - the code, one file per source file or group of files; no proofs.
* `Spec/` - what is demanded, in terms of lists, sums, permutations; the data types of the model are used, its
  functions only where a statement is about reaching states (`ga_reached`, `ls_reached`, `rr_reached`, ...).
* `Proofs/` - lemmas.
* `Properties/` - the theorems named in MANIFEST.json, each followed by `Print Assumptions`, and concrete cases
  meeting their hypotheses.

## 2. Plan per property

| id | what is modelled | how it is proved |
|----|------------------|------------------|
| C01 | whole genetic loop: split, crossover, local search, ruin & recreate, populations, history | invariant over `iterate`, any `Num` |
| C02 | same | invariant (recorded entries carry a true feasibility flag) |
| C03 | same, `NumQ` | invariant + evaluation theorem |
| C04 | `SearchHistory`, both writers | invariant over executions, `NumQ` |
| C05 | `evaluate` | induction over routes; independence of previous content |
| C06 | `crossover_ox` | induction on the fill loop |
| C07 | `Split::run` | predecessor table well-founded for any `Num` |
| C08 | linear split with deque | queue invariant, `NumQ`; exactness on a lattice, error bound in general |
| C09 | `split_limited_fleet` | layered version of C08 |
| C10 | Bellman branches | induction over start cells; layered version for the limited fleet; conservation for any `Num` |
| C11 | `sort_routes` | insertion sort lemmas, any `Num` |
| C12 | heap, link operations, nine moves, SWAP* | doubly linked segment reasoning, any `Num` |
| C13 | `delta` of the nine moves | algebra over `NumQ` on the list view |
| C14 | `LocalSearch::run` | C12 + C13, induction over the search |
| C15 | same | measure: cost divided by tolerance |
| C16 | SWAP*, insertion cache | cache invariant tied to `last_modified` |
| C17 | `ThreeBestInserts` | induction on offers |
| C18 | ruin, recreate | permutation invariant, any `Num` |
| C19 | `ruin_route` | arithmetic on indices |
| C20 | `Route::{remove,add}`, `evaluate` | invariant, `NumQ` |
| C21 | `GreedyBlink::run` | induction over candidate scan |
| C22 | `RuinRecreate::{load,search}` | invariant on best solution |
| C23 | `IterationSchedule` | real analysis (standard library `R`) |
| C24 | `load`/`search` | refutation witness |
| C25-C28 | `SubPopulation` | invariants over add sequences; C28 refuted by witness |
| C29 | `calculate_broken_pairs_distance` | bounds, identity; symmetry and separation refuted |
| C30 | `tournament` | induction over draws |
| C31 | `update_penalty`, `initial_penalty` | case analysis; invariant over runs (exact); every update in binary64 (Flocq) |
| C32 | `Context::setup` | arithmetic; a first-fit packing for demands up to a fifth of the capacity (`FirstFit.v`), refuted for any larger part |
| C33,C49 | state machine of `iterate` | invariants |
| C34 | zone selection loop | positive for >= 2 customers (for fair streams), refuted for 1 |
| C35-C38 | matrices | indices into flat storage; C37 refuted for small instances |
| C39,C40 | decomposition | permutation invariant; refutations by witness |
| C41 | circle sector | modular arithmetic; refuted for angle 0 |
| C42 | comparisons | linear arithmetic; complement law refuted at the boundary |
| C43,C44 | parser, display | round-trip theorems |
| C45 | config/cli | finite map model; precedence refuted |
| C46 | random utilities | permutation lemmas |
| C47 | recreate with two hash orders; `main` | refutation witnesses, for one search and for the whole program (two solution files of costs 34 and 32 from one seed); without ruin and recreate: simulation in which the two states differ only in ruin and recreate, up to the solution file |
| C48 | `evaluate` in binary64 | Flocq: sums of integers below 2^53 are exact |
| C50 | populations hold no two members at distance zero | invariant over additions |
| C51 | whole genetic loop does not panic or read out of bounds | invariant over `iterate`, exact arithmetic |
| C52 | the solution file holds a complete, feasible, correctly priced solution of the instance in the input file | parser, matrices, solver and printer theorems composed, exact arithmetic |
| C53 | the program does not panic on accepted input | composition with C51; with decomposition the panics that remain are characterised |
| C54,C55 | decomposed algorithm: construction, rounds with nested genetic algorithm, merge | invariant over `iterate` of `DecomposedGeneticAlgorithm` (`Proofs/Dga*.v`), exact arithmetic; panics refuted by witness |
| C56 | its limits | clock lemma for every procedure below `iterate`, any `Num`; iteration limit refuted |
| C57 | the program as a whole, all loops | a measure per loop, gathered in one bound that works for every seed, hash order and clock (`GaBound.v`, `GaEnds.v`, `DgaEnds.v`); outcomes do not depend on the bound once it is not reached, any `Num` (`FuelMore.v`); exact arithmetic, symmetric distances, depot without demand |
| C58 | the genetic algorithm in binary64 | the invariant of `GaInv.v` for `NumF`: every cached distance and load of ruin and recreate is the exact integer (`FloatRun.v`), penalties outside elite education are finite, the 1e30 of the split stays out of reach of everything it is compared with; random reals below one stay below the bound they are multiplied with after rounding; elite education can multiply the penalty up to infinity: then the cost of a feasible solution is NaN, which is below nothing, so that nothing is recorded |
| C59 | the program as a whole in binary64 | C58 between the parser and the printer: the square root of an integer below 2^47 is not rounded past the middle between two integers, so that `sqrt().round()` is the integer nearest to the true Euclidean distance (`FloatStart.v`); the float formula for the fleet size is at least the lower bound; the printed `u64` is the exact length |
| C60 | `LocalSearch::search`, nine moves, SWAP* | time-stamp invariant of the search (pairs settled since the last change of their routes); every solution one move away is one whose delta was computed and is exact (C13); SWAP* is complete: three best places are enough, and the pairs left out by the bound cannot be better (triangle inequality) |
| C61 | `GeneticAlgorithm::iterate`, `log`, `terminate`, `main` | two runs in lockstep: after the clock was read a call does not look at it again (the schedules of ruin and recreate count iterations unless elite education is time-based); the history only grows |
| C62 | the genetic algorithm and the program in binary64 | the conditions `fine` of `GaInv.v` (everything compared is comparable, ruin and recreate finds a place) hold for all penalties up to 2^900 (`FloatFine.v`); the penalty of elite education is followed by the number of its changes (`level`), one per 1000 moves; refuted without the bound on them |
| C63 | `GreedyBlink::run`, second loop | exact arithmetic; refuted (`C63_cheapest_refuted`), true up to the overload the other route already has; follows from `greedy_other` |
| C64 | the decomposed algorithm and the program with decomposition in binary64 | the invariant of `DgaInv.v` for `NumF` (`DgaFloat.v`, `DgaFloatInv.v`): a subproblem of integral data is integral and its runs are as exact as C58 says, construction and merging keep every load and length the exact integer although the penalty is multiplied by 10^6 and divided again; the panics of C55 remain and happen in doubles too |
| C65 | the program in binary64 on coordinates with fractions | C59, C62 and C64 only need that the rounded distances are integers (`rounded_instance`), which every Euclidean instance with coordinates up to 2^22 meets (`C65_every_instance`); error analysis of `sqrt(dx*dx + dy*dy)` with relative and subnormal errors (`FloatDistance.v`); the rounding error of a tour, leg by leg |
| C66 | `LocalSearch::run` in binary64 | every quantity of the nine moves and SWAP* is within 16 * 2^-25 of its exact value at moderate sizes (`FloatMove.v`, `FloatDelta.v`), less than the tolerance 1e-6, so that a move that looks improving is one (`FloatLs.v`); refuted for larger numbers by an instance on which every solution has a move that looks improving (`FloatHang.v`), taken through construction, split and schedule up to the program; that the whole program ends in binary64 is not claimed (C57 is for exact arithmetic): the penalty grows up to 10^7 and repair multiplies it by 10 |
| C67 | local optimum of `LocalSearch::run` in binary64 | the trace of C60 (`ls_run_settled`, any arithmetic) with the error bounds of C66: what does not look improving saves at most 1.5e-6 (`FloatOptimum.v`), for SWAP* 3.1e-6: the positions kept are exactly the cheapest because insertion costs are exact integers, the bound that skips pairs loses at most two tolerances (`FloatStar.v`); within capacity costs are integers, so nothing is shorter at all |
| C68 | the penalty through `GeneticAlgorithm::iterate` | states are indexed by the epoch (since the last restart): number of iterations, verdicts on the children so far (`Spec/PenaltyTrace.v`); the history, the iteration of the next update and the flag of ruin and recreate are an invariant of every part of `iterate` (`GaPenalty.v`), in any arithmetic |
| C69 | the linear split in binary64 | the queue invariant of C08 with rounding: sorted by the cost without overload, and of neighbours the second is not dearer under overload by more than one rounding error; that relation holds between neighbours only and is re-established, not added up, when elements between them are dropped, because a unit of demand costs more penalty than the tolerance (`FloatSplitQueue.v`); cells are near the true cost of their best predecessor, layers and traceback as in C08, a run in `FloatSplitRun.v` |
| C70 | a whole run in binary64 ends | the invariant of `GaInv.v` with a predicate on the penalties with which the local search is known to end (`iterate_tame`); C66 for these, at the penalty and at ten times the penalty, and the remaining bounds as in C57 (`FloatEnds.v`); the way out is a reached state whose penalty is too high; the program on instance files, with the contents of the file from C65 (`P_FloatTotal.v`) |
| C71 | the Bellman split in binary64 | a cell of the table is the initial 10^30 or lies within one rounding error of its predecessor's cell plus the true cost of the last piece; a cell that some cut within the enlarged capacity reaches is not 10^30, because no sum of real costs comes near it; in the limited tables the early exit at 10^29 loses nothing, since a cut into k pieces of x customers can be shortened to any number of customers between k and x (`FloatBellman.v`), a run in `FloatBellmanRun.v` |
| C72 | `Split::run` called again and again | two runs side by side from arbitrary tables (`SplitFresh.v`): the linear split writes every cell before it reads it, column 0 of the later rows is never read; **finding**: false of the Bellman split when no cut of the tour into the allowed number of routes stays within the enlarged capacity: the predecessors are then read from cells no one has written, a new splitter puts all customers on one route, a used one does something else (`C72_bellman_refuted`, with the default factor of 1.5) |

## 3. Trusted base

1. Coq 8.16.1's kernel (with its virtual machine, used by `vm_compute` in examples and witnesses).
2. Axioms. `Print Assumptions` follows every theorem in `Properties/`; its output appears in the build log.
   * All theorems are *closed under the global context*, except:
   * `C23_iteration_schedule`, `C31_float_range`, `C31_float_direction`, `C31_float_initial`, `C48_evaluation_exact`,
     `C58_float_run`, `C59_solution_file_doubles`, `C62_no_panic_doubles`, `C62_elite_default`, `C62_program_doubles`,
     `C62_elite_refuted`, `C64_recorded`, `C64_solution`, `C64_round`, `C64_panics_partial`, `C64_infeasible_refuted`,
     `C64_misfit_refuted`, `C64_solution_file`, `C64_program_partial`, `C65_every_instance`, `C65_solution_file`,
     `C65_true_cost`, `C65_nearest_refuted`, `C66_never_worse`, `C66_terminates`, `C66_endless`, `C66_terminates_refuted`,
     `C66_program_ends_refuted`, `C67_local_optimum`, `C67_empty_routes`, `C67_swap_star`, `C67_feasible_neighbours`,
     `C67_feasible_exchanges`, `C69_near_optimal`, `C69_unlimited`, `C69_resplit`, `C71_bellman_near_optimal`, `C71_unlimited`, `C71_resplit`,
     `C70_run_ends`, `C70_always_ends`,
     `C70_program_ends`, `C70_total_correctness`:
     `ClassicalDedekindReals.sig_not_dec`, `ClassicalDedekindReals.sig_forall_dec`,
     `FunctionalExtensionality.functional_extensionality_dep`, `Classical_Prop.classic`;
   * `C23_time_schedule`, `C23_time_restarted`, `C23_time_series`: the first three of these; `C65_true_length`: the second and the third.

   These are the axioms of the standard library's real numbers. There are no others, and none of our own.
3. The model itself: that the Gallina functions do what the Rust code does (section 4), and that the properties and
   the definitions in `Spec/` say what the English sentences say.
4. The contracts of library functions, stated as definitions and used as hypotheses, with an instance proved to meet
   them: `slice::sort_by` and `slice::binary_search_by` (`Spec/Library.v`; `rust_lib_ok`), sorting of the correlation
   rows (`lsort`), `f64::exp`, `atan2`, `sqrt`, `round` (arbitrary functions unless a theorem states a bound).
5. What serde_yaml and clap do (`Model/ConfigFile.v`, see below), and Rust's `str`/`char` functions (`Model/Text.v`).

## 4. What is modelled

| source | model | remarks |
|--------|-------|---------|
| `solver/evaluate.rs`, `models/problem.rs` (data) | `Evaluate.v` | everything |
| `solver/genetic/individual.rs` | `Individual.v`, `Population.v` (ordering, distance) | everything |
| `solver/genetic/split.rs` | `Split.v` | both modes, unlimited and limited fleet; tables as functions of their indices, the only index that can leave them is checked |
| `solver/genetic/population.rs` | `Population.v` | everything but `focus_diversity` (written once, never read) |
| `solver/genetic/genetic.rs` | `Genetic.v`, `Crossover.v` | messages, `diversity` (printed only), fields that are never read left out |
| `solver/genetic/decomposition.rs` | `Decomposition.v` | messages left out |
| `solver/context.rs`, `solver/history.rs`, `solver/solver.rs` | `World.v`, `Genetic.v`, `Decomposition.v` | time stamps and log messages left out |
| `solver/improvement/linked_list.rs` | `LinkedList.v` | pointers are (vector, index); null and walks in cycles are errors |
| `solver/improvement/local_search.rs`, `preprocess.rs`, `moves/*.rs` | `LocalSearch.v` | nine moves, SWAP*, caches |
| `solver/improvement/ruin_recreate/*.rs` | `RuinRecreate.v`, `Schedule.v` | both schedules |
| `models/matrix.rs` | `Matrix.v` | dense, lower row and lazy storage, correlation, mapping |
| `models/circle_sector.rs` | `Sector.v` | everything |
| `utils/comparison.rs`, `utils/random.rs` | `Num.v`, `Prelude.v`, `Random.v` | the generator is an arbitrary stream of draws; `gen_range` is a remainder of a draw (every value can occur, C46) |
| `utils/parser.rs` | `Parser.v`, `Text.v` | from the bytes of the file on; opening and reading the file left out |
| `utils/serializer.rs`, `Display` of a solution | `Display.v` | the text written, not the writing |
| `config.rs`, `cli.rs`, `main.rs` (configuration) | `ConfigFile.v` | YAML as a value; serde as a table of fields and types; clap has cut the line into options |
| `main.rs`, `solver/context.rs` (new, setup), `models/problem.rs` | `Main.v` | the file system is a function from paths to bytes and the result is the text to be written; logger left out; infinite values of the numbers the solver reads left out |

Simplifications that matter to the reading of the theorems:

* `usize`/`u64` are `nat` (unbounded); no counter in the modelled code gets near 2^64 on instances that fit in memory.
  Numbers read from files are bounded explicitly (`parse_u64`).
* `move_count` of the local search and the time stamps taken from it are `i32` in the code and `Z` in the model. The counter
  is reset in every run: model and code agree as long as a single run of the local search performs fewer than 2^31 moves (beyond
  that a debug build panics, a release build wraps around).
* Indexing (`v[i]`) out of range is `Err EPanic`, unchecked reading (`get_unchecked`, raw pointers) is `Err EUB`.
  Freed memory cannot be reached: the vectors nodes point into are never resized after construction.
* Loops without an obvious bound carry fuel; running out is the error `EFuel`, and the theorems say when that does not
  happen (C15, C33, C34, C51, C57).
* The clock is an arbitrary function from readings to seconds; theorems that need it to advance say so.
* `NumQ` is exact: theorems about costs (C03, C08-C10, C13-C16, C20-C22, ...) are about the algorithm, not about
  rounding. Theorems stated `forall N : Num` hold for doubles. In `NumQ` division by zero is 0.

Not modelled: `wasm/mod.rs` (not part of the default build, and out of date, see finding 22), `benches/`, logging (`env_logger`), reading and writing
of files, and the statistical quality of the random generator.

## 5. Findings

Places where a property that a user would expect is false of the code, each with a machine-checked witness
(`..._refuted`) or, for those marked (o), an observation made while reading:

1. **C24** `RuinRecreate::load` copies the current solution before evaluating it: the first move after a load is
   compared with the cost of the previously accepted solution (infinite on a new object).
2. **C27, C28** The tolerant comparison of individuals is not transitive: the first member of a subpopulation need not
   be the cheapest. An individual that is strictly better than all members, but at broken-pairs distance zero from one
   of them, is dropped as a clone.
3. **C29** The broken-pairs distance is not symmetric, and can be zero for different solutions.
4. **C32** The number of vehicles computed from the total demand need not admit any feasible solution. It does when no demand exceeds a fifth of the capacity, and a fifth is the largest such part.
5. **C34** With a single customer `crossover` never returns (two different cut points are drawn from one position).
6. **C37** If the granularity exceeds the row width of the correlation matrix (with default settings: fewer than 22
   nodes), slices of neighbours run into the next row, and past the end of the matrix for the last one: unchecked read
   out of bounds.
7. **C39** Merging a subproblem's solution with fewer (or more) used routes than were taken out gives a solution that
   the next `RuinRecreate::load` rejects with a failed assertion; `de_round_example` is a whole round that panics.
8. **C40** The best solution kept by the genetic algorithm itself need not be the recorded one: improvements by ruin and
   recreate are recorded only. A decomposition takes the former, hence loses such improvements.
9. **C41** The circle sector uses 0 as "not initialised": an angle 0 that comes first is forgotten.
10. **C42** `approx_lte` is not the negation of `approx_gt` at a difference of exactly the tolerance.
11. **C45** Without `-t` the time limit of the configuration file is always replaced by 10 s; `round_distances` is
    always set to true (`is_present` of an option with a default value), so `-r false` and the file have no effect.
    `config.yml` contains keys that no field reads (`ruin_alpha`, `blink_probability`).
12. **C47** Deterministic mode is not deterministic: the hash set of ruined routes is seeded by `RandomState::new()`.
    Two runs with one seed write solution files of different costs (`C47_program_refuted`).
13. **C60** The moves meant to put `u` at the front of a neighbour's route are called with `v` instead of its
    predecessor (local_search.rs:200-203), so they repeat moves that have just failed (`C60_depot_moves_dead`); a run
    ends although such a move saves (`C60_front_refuted`). Empty routes are tried from the second pass on, and passes
    are only counted with SWAP* on: a run keeps an overfull route next to an unused vehicle if the first pass finds
    nothing else, or always with SWAP* off (`C60_empty_refuted`).
14. **C55, C56** In decomposed mode `max_iterations` is never reached (the iteration counter of the whole problem is
    never advanced, `C56_iterations_uncounted`) and the penalty is never updated; `best_solution.unwrap()` panics if a
    subproblem's run finds no feasible solution (`C55_infeasible_refuted`), a round whose merged solution has not one
    route per vehicle panics (`C55_misfit_refuted`, cf. 7), and with `decomposed_problem_min_size` at most the
    granularity the subproblem's local search reads out of bounds (`C55_small_parts_refuted`, cf. 6).
15. **C62** Elite education multiplies the penalty every 1000 moves and does not clamp it. With infeasible solutions
    throughout (a customer above the capacity is enough) it grows to infinity, no insertion cost is below `f64::MAX`
    any more and `recreate` panics with "No best route found" (`C62_elite_refuted`). With the multiplier 1.2 this takes about
    3.9 million moves: elite education in the time-based mode, or with a large factor.
16. **C63** When no ruined route has room, `recreate` charges a route's whole overload after the insertion, not its
    increase, so that routes which are overloaded anyway are avoided (`C63_cheapest_refuted`).
17. **C65** With fractions in the coordinates a rounded distance is not always the integer nearest to the Euclidean distance of the
    coordinates that were read (`C65_nearest_refuted`: (0, 0) and (0.7, 2.4)). It is within 1/2 + 2^-26 of it.
18. **C66** The local search has no limit on passes, and the time is only looked at between iterations. A move within one
    route compares the sum of two rounded route costs with twice a rounded cost. From sizes of about 10^9 on the error exceeds the tolerance
    1e-6: with two customers at distance 1.9e9 from each other and from the depot, whose demands exceed the capacity
    together, relocating a customer looks like a gain of 1.9e-6 in either direction (`C66_endless`), and the program never ends
    (`C66_program_ends_refuted`, with SWAP* on and off). The move counter is an `i32` (section 4): with SWAP* off no decision on
    this path depends on it and a release build loops for ever; with SWAP* on the loop may end after 2^31 moves, when the time
    stamps have become wrong, and a debug build panics there; either way long after any time limit has passed unnoticed.
19. (o) `num_diversity_closest = 0` makes a diversity NaN and the following `partial_cmp().unwrap()` panic;
    `min_population_size = 0` and `initial_individuals = 0` panic too. C51 states the conditions under which nothing
    of this kind happens.
20. (o) A recorded solution with an overload below the tolerance 1e-6 is recorded as feasible with a cost above its
    length (C03 states the exact bound).
21. (o) The parser ignores node numbers and `DEPOT_SECTION`, and accepts a file whose last section is cut off.
22. (o) `wasm/mod.rs` does not type-check against the rest of the crate: it puts `i32` into the `f64` fields of `Coordinate`,
    `Node` and `Vehicle`, calls `ProblemBuilder::build`, which takes no argument, with one, and uses `EPSILON` without importing it.
23. **C72** With `linear_split = false`, a tour that cannot be cut into the allowed number of routes within
    `split_capacity_factor` times the capacity is split along predecessors that this split never wrote: a new splitter
    puts all customers on one route, a used one follows an earlier tour (`C72_bellman_refuted`).

## 6. Testing the theorems

`seeded/LOG.jsonl` has one line per wrong program tried: the definition edited, the edit, the claim it breaks, what
failed to prove, and which theorems were tightened because of it.
