(** The program.  Models src/main.rs, src/solver/context.rs:20-48 (new, setup),
    src/models/problem.rs:40-75 and the access to the fields of the configuration.

    Left out: the logger, and the files themselves: [read] gives the bytes of the instance file at
    a path, the result is the text for the solution file. *)
From Coq Require Import Ascii String List Arith NArith ZArith Bool.
From Verif.Model Require Import Num Prelude Evaluate Individual Config Crossover Split Matrix Population
  LocalSearch World Schedule RuinRecreate Genetic Decomposition Text Parser Display ConfigFile.
Import ListNotations.
Open Scope res_scope.

Section Main.
  Context {N : Num}.
  Variable L : lib.

  (** ** The fields of the configuration

      The structure has a value of the right type for every field (C45), so that the errors here
      cannot occur; except that an infinite value of a number the solver reads is left out. *)
  Definition get_u64 (f : fields) (name : string) : res nat :=
    match lookup (txt name) f with Some (VInt z) => Ok (Z.to_nat z) | _ => Err EPanic end.
  Definition get_opt_u64 (f : fields) (name : string) : res (option nat) :=
    match lookup (txt name) f with
    | Some (VInt z) => Ok (Some (Z.to_nat z)) | Some VNull => Ok None | _ => Err EPanic
    end.
  Definition get_bool (f : fields) (name : string) : res bool :=
    match lookup (txt name) f with Some (VBool b) => Ok b | _ => Err EPanic end.
  Definition get_f64 (f : fields) (name : string) : res F :=
    match lookup (txt name) f with Some (VFloat (Some x)) => Ok x | _ => Err EPanic end.
  Definition get_string (f : fields) (name : string) : res text :=
    match lookup (txt name) f with Some (VString t) => Ok t | _ => Err EPanic end.
  Definition get_opt_string (f : fields) (name : string) : res (option text) :=
    match lookup (txt name) f with
    | Some (VString t) => Ok (Some t) | Some VNull => Ok None | _ => Err EPanic
    end.

  (** The fields the solver reads.  [num_vehicles] is the number chosen by [setup]
      (context.rs:45-48), not that of the configuration. *)
  Definition config_of (f : fields) (num_vehicles : nat) : res config :=
    max_iterations <- get_opt_u64 f "max_iterations" ;;
    without_improvement <- get_u64 f "max_iterations_without_improvement" ;;
    time_limit <- get_u64 f "time_limit" ;;
    min_population_size <- get_u64 f "min_population_size" ;;
    initial_individuals <- get_u64 f "initial_individuals" ;;
    population_lambda <- get_u64 f "population_lambda" ;;
    num_elites <- get_u64 f "num_elites" ;;
    num_diversity_closest <- get_u64 f "num_diversity_closest" ;;
    feasibility_proportion_target <- get_f64 f "feasibility_proportion_target" ;;
    tournament_size <- get_u64 f "tournament_size" ;;
    repair_probability <- get_f64 f "repair_probability" ;;
    split_capacity_factor <- get_f64 f "split_capacity_factor" ;;
    linear_split <- get_bool f "linear_split" ;;
    ls_enabled <- get_bool f "ls_enabled" ;;
    granularity <- get_u64 f "local_search_granularity" ;;
    relocate_single <- get_bool f "relocate_single" ;;
    relocate_double <- get_bool f "relocate_double" ;;
    relocate_double_reverse <- get_bool f "relocate_double_reverse" ;;
    swap_one_with_one <- get_bool f "swap_one_with_one" ;;
    swap_two_with_one <- get_bool f "swap_two_with_one" ;;
    swap_two_with_two <- get_bool f "swap_two_with_two" ;;
    two_opt_intra_reverse <- get_bool f "two_opt_intra_reverse" ;;
    two_opt_inter_reverse <- get_bool f "two_opt_inter_reverse" ;;
    two_opt_inter <- get_bool f "two_opt_inter" ;;
    swap_star <- get_bool f "swap_star" ;;
    penalty_update_interval <- get_u64 f "penalty_update_interval" ;;
    penalty_inc_multiplier <- get_f64 f "penalty_inc_multiplier" ;;
    penalty_dec_multiplier <- get_f64 f "penalty_dec_multiplier" ;;
    average_ruin_cardinality <- get_u64 f "average_ruin_cardinality" ;;
    max_ruin_string_length <- get_u64 f "max_ruin_string_length" ;;
    rr_mutation <- get_bool f "rr_mutation" ;;
    rr_probability <- get_f64 f "rr_probability" ;;
    rr_gamma <- get_f64 f "rr_gamma" ;;
    rr_start_temp <- get_f64 f "rr_start_temp" ;;
    elite_education <- get_bool f "elite_education" ;;
    elite_education_problem_size_limit <- get_u64 f "elite_education_problem_size_limit" ;;
    elite_education_gamma <- get_f64 f "elite_education_gamma" ;;
    elite_education_start_temp <- get_f64 f "elite_education_start_temp" ;;
    elite_education_time_based <- get_bool f "elite_education_time_based" ;;
    elite_education_time_fraction <- get_f64 f "elite_education_time_fraction" ;;
    Ok (mkConfig max_iterations without_improvement num_vehicles time_limit
          min_population_size initial_individuals population_lambda num_elites num_diversity_closest
          feasibility_proportion_target tournament_size repair_probability
          split_capacity_factor linear_split
          ls_enabled granularity relocate_single relocate_double relocate_double_reverse
          swap_one_with_one swap_two_with_one swap_two_with_two
          two_opt_intra_reverse two_opt_inter_reverse two_opt_inter swap_star
          penalty_update_interval penalty_inc_multiplier penalty_dec_multiplier
          average_ruin_cardinality max_ruin_string_length rr_mutation rr_probability rr_gamma rr_start_temp
          elite_education elite_education_problem_size_limit elite_education_gamma
          elite_education_start_temp elite_education_time_based elite_education_time_fraction).

  (** ** What the program is run with: functions of the libraries, the generators with and without
      seed, the hash orders (of the local search, of ruin and recreate, and of the decompositions),
      and the bounds of the loops *)
  Record outside := mkOutside {
    x_parse_f64 : text -> option F;
    x_utf8 : text -> bool;
    x_sqrt : F -> F;
    x_round : F -> F;
    x_sort : list (nat * F) -> list (nat * F);
    x_atan2 : F -> F -> F;
    x_ln : F -> F;
    x_real : BinNums.N -> F;
    (** problem.rs:69-75: (((y.atan2(x) / PI) * 32768.0).round() as i32).rem_euclid(65536) *)
    x_angle : F -> F -> Z;
    x_env : env;
    x_random : option nat -> rng;
    x_ls_hash : rng;
    x_rr_hash : rng;
    x_hashes : nat -> rng * rng * rng;
    x_fuel : nat
  }.
  Variable X : outside.

  (** problem.rs:9-60, with the distances of matrix.rs:305-317.  The indices used by the solver are
      below the number of nodes, where [dm_get] does not fail and [nth] does not need its default. *)
  Definition problem_of (pa : parsed) (d : dmatrix) : problem :=
    let nodes := pa_nodes pa in
    let at_ i := nth i nodes (mkNode (f0, f0) f0) in
    let angle i := x_angle X (snd (n_coord (at_ i)) -: snd (n_coord (at_ 0)))
                             (fst (n_coord (at_ i)) -: fst (n_coord (at_ 0))) in
    mkProblem (length nodes)
      (fun i j => match dm_get (x_sqrt X) (x_round X) d i j with Ok v => v | Err _ => f0 end)
      (fun i => n_demand (at_ i)) (fun i => n_coord (at_ i)) (pa_cap pa) (fun _ => [])
      (x_atan2 X) (x_real X) (x_ln X) angle.

  (** context.rs:9-48: the problem, the matrices, the configuration after [setup] and the world *)
  Record context := mkContext {
    x_problem : problem;
    x_config : config;
    x_dist : dmatrix;
    x_corr : cmatrix;
    x_world : world
  }.
  Definition context_new (pa : parsed) (f : fields) : res context :=
    deterministic <- get_bool f "deterministic" ;;
    seed <- get_u64 f "seed" ;;
    limit <- get_u64 f "precompute_distance_size_limit" ;;
    rounded <- get_bool f "round_distances" ;;
    '(d, cm) <- provider_new (x_sqrt X) (x_round X) (x_sort X) (pa_nodes pa) limit rounded (pa_matrix pa) ;;
    let p := problem_of pa d in
    let random := x_random X (if deterministic : bool then Some seed else None) in
    c <- config_of f (initial_num_vehicles p) ;;
    pen <- get_f64 f "penalty_capacity" ;;
    w <- reset_penalty p (dm_max d) (mkWorld pen hist_new 0 random 0) ;;
    Ok (mkContext p c d cm w).

  (** main.rs:33-53; problem.rs:53-55 *)
  Definition run_solver (f : fields) (x : context) : res world :=
    decompose_limit <- get_u64 f "decompose_limit" ;;
    min_size <- get_u64 f "decomposed_problem_min_size" ;;
    log_interval <- get_u64 f "log_interval" ;;
    let p := x_problem x in
    let c := x_config x in
    let fuel := x_fuel X in
    if decompose_limit <=? p_dim p - 1 then
      let '(d, w) := dga_new p c (cm_store (x_corr x)) (x_ls_hash X) (x_rr_hash X) (x_world x) in
      '(_, w) <- dga_run L p c (x_env X) log_interval fuel (x_sqrt X) (x_round X) (x_sort X) (x_dist x)
                   min_size (x_hashes X) fuel d w ;;
      Ok w
    else
      let '(g, w) := ga_new p c (cm_store (x_corr x)) (x_ls_hash X) (x_rr_hash X) (x_world x) in
      '(_, w) <- solver_run L p c (x_env X) log_interval (dm_max (x_dist x)) fuel fuel g w ;;
      Ok w.

  (** main.rs: the path and the contents of the solution file, if one is written
      (serializer.rs:6-19) *)
  Definition program (read : text -> text) (yaml : value) (cl : command_line) : res (option (text * text)) :=
    f <- main_config yaml cl ;;
    path <- get_string f "instance_path" ;;
    pa <- parse (x_parse_f64 X) (x_utf8 X) (read path) ;;
    x <- context_new pa f ;;
    w <- run_solver f x ;;
    out <- get_opt_string f "solution_path" ;;
    Ok (match out with Some out => Some (out, solution_file (w_hist w)) | None => None end).
End Main.
