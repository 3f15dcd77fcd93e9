(** The genetic algorithm and the solver loop.  Models src/solver/genetic/genetic.rs,
    src/solver/context.rs:45-99 and src/solver/solver.rs.

    Left out: [diversified_start] and [diversify] (never read), [diversity] (only printed), the
    log and history messages.  [reset] makes a new population; the seeds of its hash maps are
    not drawn from the generator (random.rs:61-67). *)
From Coq Require Import List Arith NArith ZArith Bool.
From Verif.Model Require Import Num Prelude Evaluate Individual Config Crossover Split Matrix Population
  LocalSearch World Schedule RuinRecreate.
Import ListNotations.
Open Scope res_scope.

Section Genetic.
  Context {N : Num}.
  Variable L : lib.
  Variable p : problem.
  Variable c : config.
  Variable E : env.
  (** [Config::log_interval], and [max_distance] of the distance matrix (matrix.rs:351-353) *)
  Variable log_interval : nat.
  Variable max_distance : option F.
  (** Bound of the loops that need not end: drawing the end of the crossover zone, the passes of
      the local search, the rounds of a ruin and recreate search. *)
  Variable fuel : nat.

  (** ** The context *)

  (** src/models/problem.rs:62-67: [max_by] keeps the later of equal values; [partial_cmp] panics
      as soon as a NaN is compared *)
  Definition max_demand : res (option F) :=
    match map (p_demand p) (seq 0 (p_dim p)) with
    | [] => Ok None
    | d :: ds =>
        if (1 <=? length ds) && existsb fisnan (d :: ds) then Err EPanic
        else Ok (Some (fold_left (fun m x => if x <:? m then m else x) ds d))
    end.

  (** context.rs:94-99 *)
  Definition initial_penalty (distance demand : option F) : F :=
    match distance, demand with
    | Some distance, Some demand => fmax (flit 1 10000) (fmin (flit 10000 1) (distance /: demand))
    | _, _ => flit 100 1
    end.

  (** context.rs:74-78 *)
  Definition reset_penalty (w : world) : res world :=
    d <- max_demand ;;
    Ok (set_w_pen w (initial_penalty max_distance d)).

  (** context.rs:50-52 and 62-68 *)
  Definition terminate (w : world) : bool * world :=
    let '(t, w) := now E w in
    ((c_time_limit c <=? ffloor t)
     || match c_max_iterations c with Some m => m <=? w_iter w | None => false end, w).

  (** context.rs:70-72 *)
  Definition next_iteration (w : world) : world := set_w_iter w (w_iter w + 1).

  (** ** The state: genetic.rs:8-36 *)
  Inductive ga_state := Created | EliteEducation | Initialization | Cycle | Terminated.

  Record ga := mkGA {
    ga_st : ga_state;
    ga_pop : population;
    ga_ls : lsearch;
    ga_rr : rrstate;
    ga_split : split_state;
    ga_iterations : nat;
    ga_next_penalty : nat;
    ga_next_log : nat;
    ga_child : individual;
    ga_num_init : nat;
    ga_best_sol : option individual;
    ga_best_iter : nat;
    ga_cur_best : option F
  }.
  Definition set_st (g : ga) x := mkGA x (ga_pop g) (ga_ls g) (ga_rr g) (ga_split g)
    (ga_iterations g) (ga_next_penalty g) (ga_next_log g) (ga_child g) (ga_num_init g) (ga_best_sol g)
    (ga_best_iter g) (ga_cur_best g).
  Definition set_gpop (g : ga) x := mkGA (ga_st g) x (ga_ls g) (ga_rr g) (ga_split g)
    (ga_iterations g) (ga_next_penalty g) (ga_next_log g) (ga_child g) (ga_num_init g) (ga_best_sol g)
    (ga_best_iter g) (ga_cur_best g).
  Definition set_ls (g : ga) x := mkGA (ga_st g) (ga_pop g) x (ga_rr g) (ga_split g)
    (ga_iterations g) (ga_next_penalty g) (ga_next_log g) (ga_child g) (ga_num_init g) (ga_best_sol g)
    (ga_best_iter g) (ga_cur_best g).
  Definition set_rr (g : ga) x := mkGA (ga_st g) (ga_pop g) (ga_ls g) x (ga_split g)
    (ga_iterations g) (ga_next_penalty g) (ga_next_log g) (ga_child g) (ga_num_init g) (ga_best_sol g)
    (ga_best_iter g) (ga_cur_best g).
  Definition set_split (g : ga) x := mkGA (ga_st g) (ga_pop g) (ga_ls g) (ga_rr g) x
    (ga_iterations g) (ga_next_penalty g) (ga_next_log g) (ga_child g) (ga_num_init g) (ga_best_sol g)
    (ga_best_iter g) (ga_cur_best g).
  Definition set_iterations (g : ga) x := mkGA (ga_st g) (ga_pop g) (ga_ls g) (ga_rr g) (ga_split g)
    x (ga_next_penalty g) (ga_next_log g) (ga_child g) (ga_num_init g) (ga_best_sol g)
    (ga_best_iter g) (ga_cur_best g).
  Definition set_next_penalty (g : ga) x := mkGA (ga_st g) (ga_pop g) (ga_ls g) (ga_rr g) (ga_split g)
    (ga_iterations g) x (ga_next_log g) (ga_child g) (ga_num_init g) (ga_best_sol g)
    (ga_best_iter g) (ga_cur_best g).
  Definition set_next_log (g : ga) x := mkGA (ga_st g) (ga_pop g) (ga_ls g) (ga_rr g) (ga_split g)
    (ga_iterations g) (ga_next_penalty g) x (ga_child g) (ga_num_init g) (ga_best_sol g)
    (ga_best_iter g) (ga_cur_best g).
  Definition set_child (g : ga) x := mkGA (ga_st g) (ga_pop g) (ga_ls g) (ga_rr g) (ga_split g)
    (ga_iterations g) (ga_next_penalty g) (ga_next_log g) x (ga_num_init g) (ga_best_sol g)
    (ga_best_iter g) (ga_cur_best g).
  Definition set_num_init (g : ga) x := mkGA (ga_st g) (ga_pop g) (ga_ls g) (ga_rr g) (ga_split g)
    (ga_iterations g) (ga_next_penalty g) (ga_next_log g) (ga_child g) x (ga_best_sol g)
    (ga_best_iter g) (ga_cur_best g).
  Definition set_best_sol (g : ga) x := mkGA (ga_st g) (ga_pop g) (ga_ls g) (ga_rr g) (ga_split g)
    (ga_iterations g) (ga_next_penalty g) (ga_next_log g) (ga_child g) (ga_num_init g) x
    (ga_best_iter g) (ga_cur_best g).
  Definition set_current (g : ga) iter cost := mkGA (ga_st g) (ga_pop g) (ga_ls g) (ga_rr g) (ga_split g)
    (ga_iterations g) (ga_next_penalty g) (ga_next_log g) (ga_child g) (ga_num_init g) (ga_best_sol g)
    iter cost.

  (** genetic.rs:39-60.  [corr] is the correlation matrix; the two streams stand for the hash
      seeds of the local search and of ruin and recreate. *)
  Definition ga_new (corr : matrix nat) (ls_hash rr_hash : rng) (w : world) : ga * world :=
    let '(child, r) := ind_random p (c_num_vehicles c) 0 (w_rng w) in
    (mkGA Created (pop_new c) (ls_new p corr ls_hash) (rr_new p c rr_hash) split_new 0 0 0 child 0 None 0 None,
     set_w_rng w r).

  (** ** Recording: genetic.rs:245-264 *)
  Definition update_best (g : ga) (w : world) : ga * world :=
    let cost := penalized_cost (ga_child g) in
    if is_feasible (ga_child g) && oapprox_lt cost (ga_cur_best g) then
      let g := set_current g (ga_iterations g) cost in
      if oapprox_lt (ga_cur_best g) (h_best (w_hist w)) then
        (set_best_sol g (Some (ga_child g)), set_w_hist w (hist_add (w_hist w) (ga_child g)))
      else (g, w)
    else (g, w).

  (** ** Education: genetic.rs:174-207 *)

  (** src/solver/improvement/local_search.rs:138-147 on the child *)
  Definition run_ls (mult : F) (g : ga) (w : world) : res (ga * world) :=
    '(s, i, r) <- ls_run p c (w_pen w *: mult) fuel (w_pen w) (ga_ls g) (ga_child g) (w_rng w) ;;
    Ok (set_child (set_ls g s) i, set_w_rng w r).

  (** genetic.rs:185-187; the correlation matrix is the one the local search works on *)
  Fixpoint rr_until (k : nat) (corr : matrix nat) (st : rrstate) (w : world) : res (rrstate * world) :=
    if rr_complete st then Ok (st, w)
    else match k with
         | O => Err EFuel
         | S k => '(st, w) <- rr_search p c E corr st w ;; rr_until k corr st w
         end.

  (** genetic.rs:183-189 *)
  Definition run_rr (g : ga) (w : world) : res (ga * world) :=
    '(st, w) <- rr_load E (ga_rr g) (ga_child g) w ;;
    '(st, w) <- rr_until fuel (s_corr (ga_ls g)) st w ;;
    i <- rr_get_best_solution p (w_pen w) st (ga_child g) ;;
    Ok (set_child (set_rr g st) i, w).

  (** genetic.rs:192-203, the body: the child is repaired, recorded, added, and put back *)
  Definition repair (g : ga) (w : world) : res (ga * world) :=
    let unrepaired := ga_child g in
    '(g, w) <- (if c_ls_enabled c then run_ls (flit 10 1) g w else Ok (g, w)) ;;
    '(g, w) <- (if is_feasible (ga_child g) then
                  let '(g, w) := update_best g w in
                  po <- pop_add L c (ga_pop g) (ga_child g) false ;;
                  Ok (set_gpop g po, w)
                else Ok (g, w)) ;;
    Ok (set_child g unrepaired, w).

  Definition educate (g : ga) (w : world) : res (ga * world) :=
    '(g, w) <- (if c_ls_enabled c then run_ls f1 g w else Ok (g, w)) ;;
    let '(rnd, r) := real p (w_rng w) in
    let w := set_w_rng w r in
    '(g, w) <- (if c_rr_mutation c && (rnd <:? c_rr_probability c) then run_rr g w else Ok (g, w)) ;;
    '(g, w) <- (if negb (is_feasible (ga_child g)) then
                  let '(x, r) := real p (w_rng w) in
                  let w := set_w_rng w r in
                  if x <:? c_repair_probability c then repair g w else Ok (g, w)
                else Ok (g, w)) ;;
    Ok (update_best g w).

  (** ** Penalty: genetic.rs:141-172 *)
  Definition clamp_penalty (pen : F) : F := fmax (flit 1 10000) (fmin (flit 10000000 1) pen).
  Definition next_penalty_value (fraction pen : F) : F :=
    let target := c_feasibility_proportion_target c in
    let pen := if fraction <:? (target -: flit 5 100) then pen *: c_penalty_inc_multiplier c
               else if (target +: flit 5 100) <:? fraction then pen *: c_penalty_dec_multiplier c
               else pen in
    clamp_penalty pen.
  Definition update_penalty (g : ga) (w : world) : res (ga * world) :=
    let g := set_next_penalty g (ga_next_penalty g + c_penalty_update_interval c) in
    let pen := next_penalty_value (history_fraction (ga_pop g)) (w_pen w) in
    po <- pop_reevaluate L p pen (ga_pop g) ;;
    Ok (set_gpop g po, set_w_pen w pen).

  (** ** Log: genetic.rs:209-243 *)

  (** population.rs:113-132 *)
  Definition sub_diversity (s : subpop) : res F :=
    let size := Nat.min (length (sp_pop s)) (c_min_population_size c) in
    total <- foldm (fun t i => d <- average_bpd s i size ;; Ok (t +: d)) (firstn size (sp_pop s)) f0 ;;
    Ok (if 0 <? size then total /: fnat size else flit (-1) 1).

  (** [iterations - best_iteration] panics on underflow (in a build with overflow checks) *)
  Definition ga_log (g : ga) (w : world) : res (ga * world) :=
    let g := set_next_log g (ga_next_log g + log_interval) in
    let '(_, w) := now E w in
    if ga_iterations g <? ga_best_iter g then Err EPanic
    else
      _ <- sub_diversity (po_feas (ga_pop g)) ;;
      _ <- sub_diversity (po_infeas (ga_pop g)) ;;
      Ok (g, w).

  (** ** Restart: genetic.rs:266-277 *)
  Definition ga_reset (g : ga) : ga :=
    mkGA Created (pop_new c) (ga_ls g) (ga_rr g) (ga_split g) (ga_iterations g) (ga_iterations g)
         (ga_iterations g) (ga_child g) 0 (ga_best_sol g) (ga_iterations g) None.

  (** genetic.rs:285-287 and 279-283 *)
  Definition add_individual (g : ga) (i : individual) : res ga :=
    po <- pop_add L c (ga_pop g) i false ;;
    Ok (set_gpop g po).
  Definition add_initial (g : ga) (i : individual) (w : world) : res (ga * world) :=
    g <- add_individual g i ;;
    Ok (update_best (set_child g i) w).

  (** The child is split: genetic.rs:293, 319, 363 *)
  Definition run_split (g : ga) (w : world) (max_routes : nat) : res ga :=
    '(st, i) <- split_run p c (w_pen w) (ga_split g) (ga_child g) max_routes ;;
    Ok (set_child (set_split g st) i).

  (** genetic.rs:289-297 *)
  Definition create_initial_individual (g : ga) (w : world) : res (individual * ga * world) :=
    let '(new_child, r) := ind_random p (c_num_vehicles c) (ga_num_init g) (w_rng w) in
    let w := set_w_rng w r in
    let old_child := ga_child g in
    let g := set_child g new_child in
    g <- run_split g w (c_num_vehicles c) ;;
    '(g, w) <- educate g w ;;
    Ok (ga_child g, set_child g old_child, w).

  (** genetic.rs:62-139: the zone is drawn, the child gets the genotype of the order crossover
      and an empty phenotype (individual.rs:22-30) *)
  Definition make_child (g : ga) (one two : individual) (r : rng) : res (individual * rng) :=
    '(geno, r) <- crossover fuel (i_geno one) (i_geno two) r ;;
    Ok (mkInd (po_count (ga_pop g)) geno [] None se_new, r).

  (** ** One call of iterate: genetic.rs:301-387 *)

  (** genetic.rs:306-325 *)
  Definition it_created (g : ga) (w : world) : res (ga * world) :=
    if c_elite_education c && (c_elite_education_problem_size_limit c <? p_dim p - 1) then
      let g := set_st g EliteEducation in
      g <- run_split g w (c_num_vehicles c) ;;
      '(g, w) <- educate g w ;;
      let '(st, w) := setup_elite_education p c E (ga_rr g) w in
      '(st, w) <- rr_load E st (ga_child g) w ;;
      Ok (set_rr g st, w)
    else Ok (set_st g Initialization, w).

  (** genetic.rs:326-340 *)
  Definition it_elite (g : ga) (w : world) : res (ga * world) :=
    if negb (rr_complete (ga_rr g)) then
      '(st, w) <- rr_search p c E (s_corr (ga_ls g)) (ga_rr g) w ;;
      Ok (set_rr g st, w)
    else
      let g := set_st g Initialization in
      i <- rr_get_best_solution p (w_pen w) (ga_rr g) (ga_child g) ;;
      let g := set_child g i in
      let '(g, w) := update_best g w in
      g <- add_individual g (ga_child g) ;;
      let g := set_rr g (setup_mutation p c (ga_rr g)) in
      w <- reset_penalty w ;;
      ga_log g w.

  (** genetic.rs:341-350 *)
  Definition it_init (g : ga) (w : world) : res (ga * world) :=
    if ga_num_init g <? c_initial_individuals c then
      '(new_child, g, w) <- create_initial_individual g w ;;
      po <- pop_add L c (ga_pop g) new_child true ;;
      Ok (set_num_init (set_gpop g po) (ga_num_init g + 1), w)
    else Ok (set_st g Cycle, w).

  (** genetic.rs:352-383; [iterations - best_iteration] as in [ga_log] *)
  Definition it_cycle (g : ga) (w : world) : res (ga * world) :=
    let w := next_iteration w in
    '(one, r) <- tournament (c_tournament_size c) (ga_pop g) (w_rng w) ;;
    '(two, r) <- tournament (c_tournament_size c) (ga_pop g) r ;;
    '(child, r) <- make_child g one two r ;;
    let w := set_w_rng w r in
    let g := set_child g child in
    g <- run_split g w (num_nonempty_routes one) ;;
    '(g, w) <- educate g w ;;
    po <- pop_add L c (ga_pop g) (ga_child g) true ;;
    let g := set_gpop g po in
    '(g, w) <- (if ga_next_penalty g <=? ga_iterations g then update_penalty g w else Ok (g, w)) ;;
    '(g, w) <- (if ga_next_log g <=? ga_iterations g then ga_log g w else Ok (g, w)) ;;
    g <- (if ga_iterations g <? ga_best_iter g then Err EPanic
          else Ok (if c_max_iterations_without_improvement c <? ga_iterations g - ga_best_iter g
                   then ga_reset g else g)) ;;
    Ok (set_iterations g (ga_iterations g + 1), w).

  Definition ga_iterate (g : ga) (w : world) : res (ga * world) :=
    let '(stop, w) := terminate w in
    let g := if stop then set_st g Terminated else g in
    match ga_st g with
    | Created => it_created g w
    | EliteEducation => it_elite g w
    | Initialization => it_init g w
    | Cycle => it_cycle g w
    | Terminated => Ok (g, w)
    end.

  (** genetic.rs:388-390 *)
  Definition ga_terminated (g : ga) : bool := match ga_st g with Terminated => true | _ => false end.

  (** src/solver/solver.rs:25-30: at most [k] calls *)
  Fixpoint solver_run (k : nat) (g : ga) (w : world) : res (ga * world) :=
    if ga_terminated g then Ok (g, w)
    else match k with
         | O => Err EFuel
         | S k => '(g, w) <- ga_iterate g w ;; solver_run k g w
         end.
End Genetic.
