(** The decomposed genetic algorithm.  Models src/solver/genetic/decomposition.rs,
    src/solver/context.rs:101-114 (from_mapping) and src/models/problem.rs:77-85.

    Left out: the printed messages. *)
From Coq Require Import List Arith NArith ZArith Bool.
From Verif.Model Require Import Num Prelude Evaluate Individual Config Crossover Split Matrix Population
  LocalSearch World Schedule RuinRecreate Genetic.
Import ListNotations.
Open Scope res_scope.

Section Decomposition.
  Context {N : Num}.
  Variable L : lib.
  Variable p : problem.
  Variable c : config.
  Variable E : env.
  Variable log_interval : nat.
  Variable fuel : nat.
  (** The distance matrix of the whole problem, with the functions it needs (Matrix.v), and
      [Config::decomposed_problem_min_size] *)
  Variable sqrt_ round_ : F -> F.
  Variable lsort : list (nat * F) -> list (nat * F).
  Variable dm : dmatrix.
  Variable min_size : nat.
  (** The hash orders of the [k]-th decomposition: of the selected routes, and of the local search
      and ruin and recreate of its genetic algorithm *)
  Variable hashes : nat -> rng * rng * rng.

  (** ** Selecting routes *)

  (** decomposition.rs:187-192: the route of every customer *)
  Definition mark_route (t : list nat) (kr : nat * list nat) : res (list nat) :=
    foldm (fun t customer => seti t customer (fst kr)) (snd kr) t.
  Definition route_for_customer (dim : nat) (ph : list (list nat)) : res (list nat) :=
    foldm mark_route (combine (seq 0 (length ph)) ph) (repeat 0 dim).

  (** decomposition.rs:214-227.  Hash sets are duplicate-free lists in order of insertion. *)
  Fixpoint select (route_for : list nat) (ph : list (list nat)) (neighbors customers routes : list nat) :
      res (list nat * list nat) :=
    match neighbors with
    | [] => Ok (customers, routes)
    | n :: neighbors =>
        if min_size <=? length customers then Ok (customers, routes)
        else
          k <- geti route_for n ;;
          route <- geti ph k ;;
          if mem k routes then select route_for ph neighbors customers routes
          else select route_for ph neighbors (fold_left (fun s x => set_insert x s) route customers)
                 (set_insert k routes)
    end.

  (** decomposition.rs:236-243: the customers of the selected routes are numbered from 1 *)
  Definition renumber_customer (s : list nat * nat * list nat) (customer : nat) : res (list nat * nat * list nat) :=
    let '(mapping, index, out) := s in
    mapping <- seti mapping index customer ;;
    Ok (mapping, index + 1, out ++ [index]).
  Definition renumber_route (s : list nat * nat * list (list nat)) (route : list nat) :
      res (list nat * nat * list (list nat)) :=
    let '(mapping, index, out) := s in
    '(mapping, index, route) <- foldm renumber_customer route (mapping, index, []) ;;
    Ok (mapping, index, out ++ [route]).

  (** decomposition.rs:246 *)
  Definition extra_empty_routes (n : nat) : nat := fround (fnat n /: flit 10 1 +: flit 2 1).

  (** decomposition.rs:186-281: the solution of the subproblem, the mapping from its nodes to the
      nodes of the problem, and what is left of the solution.  [corr] is the correlation matrix as
      the local search left it. *)
  Definition decompose_global (corr : matrix nat) (global : individual) (hash r : rng) :
      res (individual * list nat * individual * rng) :=
    route_for <- route_for_customer (p_dim p) (i_pheno global) ;;
    '(seed, r) <- range_usize 0 (length (i_geno global)) r ;;
    near <- m_slice corr seed 0 (m_cols corr) ;;
    '(customers, routes) <- select route_for (i_pheno global) (seed :: near) [] [] ;;
    let '(order, _) := shuffle routes hash in
    ph <- mapm (geti (i_pheno global)) order ;;
    '(mapping, _, ph) <- foldm renumber_route ph (repeat 0 (length customers + 1), 1, []) ;;
    let sub := mkInd 0 (concat ph) (ph ++ repeat [] (extra_empty_routes (length ph))) None se_new in
    let rest := set_pheno (set_geno global (filter (fun x => negb (mem x customers)) (i_geno global)))
      (map snd (filter (fun kr => negb (mem (fst kr) routes))
                       (combine (seq 0 (length (i_pheno global))) (i_pheno global)))) in
    Ok (sub, mapping, rest, r).

  (** ** The subproblem: context.rs:101-114, problem.rs:77-85, matrix.rs:355-379.  [nth] with the
      default 0 stands for [mapping[i]]; the indices are below [length mapping] where it is used,
      and the entries are nodes, because they were taken from the solution. *)
  Definition sub_problem (mapping : list nat) : problem :=
    let at_ i := nth i mapping 0 in
    mkProblem (length mapping) (fun i j => p_dist p (at_ i) (at_ j)) (fun i => p_demand p (at_ i))
      (fun i => p_coord p (at_ i)) (p_cap p) (fun _ => []) (o_atan2 p) (o_real p) (o_ln p)
      (fun i => o_polar p (at_ i)).

  (** decomposition.rs:150-155 *)
  Definition sub_config : config :=
    mkConfig (Some (2 * 1000)) (c_max_iterations_without_improvement c) (c_num_vehicles c) (c_time_limit c)
      (c_min_population_size c) (c_initial_individuals c) (c_population_lambda c) (c_num_elites c)
      (c_num_diversity_closest c) (c_feasibility_proportion_target c) (c_tournament_size c)
      (c_repair_probability c) (c_split_capacity_factor c) (c_linear_split c) (c_ls_enabled c) (c_granularity c)
      (c_relocate_single c) (c_relocate_double c) (c_relocate_double_reverse c) (c_swap_one_with_one c)
      (c_swap_two_with_one c) (c_swap_two_with_two c) (c_two_opt_intra_reverse c) (c_two_opt_inter_reverse c)
      (c_two_opt_inter c) (c_swap_star c) (c_penalty_update_interval c) (c_penalty_inc_multiplier c)
      (c_penalty_dec_multiplier c) (c_average_ruin_cardinality c) (c_max_ruin_string_length c) (c_rr_mutation c)
      (c_rr_probability c) (c_rr_gamma c) (c_rr_start_temp c) false (c_elite_education_problem_size_limit c)
      (c_elite_education_gamma c) (c_elite_education_start_temp c) (c_elite_education_time_based c)
      (c_elite_education_time_fraction c).

  (** context.rs:101-114: the configuration (with its penalty) and the random generator are
      copied, the history and the iteration counter are new, the clock goes on *)
  Definition sub_world (w : world) (r : rng) : world := mkWorld (w_pen w) hist_new 0 r (w_clock w).

  (** ** One decomposition *)

  (** decomposition.rs:133-147: the subproblem's data and its evaluated solution *)
  Definition decomposition_new (corr : matrix nat) (global : individual) (hash : rng) (w : world) :
      res (individual * list nat * individual * (dmatrix * cmatrix) * world) :=
    '(sub, mapping, rest, r) <- decompose_global corr global hash (w_rng w) ;;
    let w := set_w_rng w r in
    mats <- provider_from_mapping sqrt_ round_ lsort dm mapping ;;
    sub <- sort_routes (sub_problem mapping) sub ;;
    sub <- ind_evaluate (sub_problem mapping) (w_pen w) sub ;;
    Ok (sub, mapping, rest, mats, w).

  (** decomposition.rs:149-167: [unwrap] panics if the algorithm found no feasible solution *)
  Definition decomposition_run (sub : individual) (mapping : list nat) (mats : dmatrix * cmatrix)
      (ls_hash rr_hash : rng) (w : world) : res (individual * nat) :=
    let sp := sub_problem mapping in
    let '(g, w) := ga_new sp sub_config (cm_store (snd mats)) ls_hash rr_hash w in
    '(g, w) <- add_initial L sub_config g sub w ;;
    '(g, w) <- solver_run L sp sub_config E log_interval (dm_max (fst mats)) fuel fuel g w ;;
    match ga_best_sol g with
    | Some best => Ok (best, w_clock w)
    | None => Err EPanic
    end.

  (** decomposition.rs:169-184 *)
  Definition decomposition_finish (pen : F) (solution : individual) (mapping : list nat) (rest : individual) :
      res individual :=
    routes <- mapm (mapm (geti mapping)) (i_pheno solution) ;;
    let ph := i_pheno rest ++ filter (fun route => negb (length route =? 0)) routes in
    global <- sort_routes p (set_geno (set_pheno rest ph) (concat ph)) ;;
    ind_evaluate p pen global.

  (** ** The algorithm: decomposition.rs:14-34 *)
  Inductive dga_state := DNotInitialized | DCycle | DTerminated.

  (** [d_round] counts the decompositions (it only selects the hash orders) *)
  Record dga := mkDGA { d_st : dga_state; d_sol : individual; d_ga : ga; d_round : nat }.

  Definition dga_new (corr : matrix nat) (ls_hash rr_hash : rng) (w : world) : dga * world :=
    let '(i, r) := ind_random p (c_num_vehicles c) 0 (w_rng w) in
    let '(g, w) := ga_new p c corr ls_hash rr_hash (set_w_rng w r) in
    (mkDGA DNotInitialized i g 0, w).

  (** mod.rs:162-164 and 269-274 of ruin_recreate *)
  Definition rr_set_acceptance (st : rrstate) (a : acceptance) : rrstate :=
    mkRR (rr_sol st) (rr_cur st) (rr_best st) a (rr_update_penalty st) (rr_hash st).
  Definition rr_best_cost (st : rrstate) : option F :=
    match rr_best st with Some b => so_cost b | None => None end.
  (** the reset of the schedule at decomposition.rs:53 and 99 *)
  Definition rr_reset (st : rrstate) (w : world) : rrstate * world :=
    let '(a, w) := acc_reset E (rr_acc st) w in (rr_set_acceptance st a, w).

  (** [approx_gte] on costs, [None] being INFINITY; finite numbers are below INFINITY *)
  Definition oapprox_gte (a b : option F) : bool :=
    match a, b with
    | Some a, Some b => approx_gte a b
    | None, _ => true
    | Some _, None => false
    end.

  (** decomposition.rs:51-61 *)
  Fixpoint improve_global (k : nat) (g : ga) (w : world) : res (ga * world) :=
    match k with
    | O => Err EFuel
    | S k =>
        let cost_before := rr_best_cost (ga_rr g) in
        let '(st, w) := rr_reset (ga_rr g) w in
        '(st, w) <- rr_until p c E fuel (s_corr (ga_ls g)) st w ;;
        i <- rr_get_best_solution p (w_pen w) st (ga_child g) ;;
        let g := set_child (set_rr g st) i in
        if oapprox_gte (rr_best_cost st) cost_before then Ok (g, w) else improve_global k g w
    end.

  (** decomposition.rs:36-66 *)
  Definition create_global_solution (g : ga) (w : world) : res (individual * ga * world) :=
    let '(child, r) := ind_random p (c_num_vehicles c) 0 (w_rng w) in
    let w := set_w_rng w r in
    let w := set_w_pen w (w_pen w *: flit 1000000 1) in
    g <- run_split p c (set_child g child) w (c_num_vehicles c) ;;
    '(g, w) <- educate L p c E fuel g w ;;
    let g := set_rr g (rr_set_acceptance (ga_rr g) (AIter (is_new (flit 10 1) (100 * 1000)))) in
    '(st, w) <- rr_load E (ga_rr g) (ga_child g) w ;;
    '(g, w) <- improve_global fuel (set_rr g st) w ;;
    let w := set_w_pen w (w_pen w /: flit 1000000 1) in
    child <- ind_evaluate p (w_pen w) (ga_child g) ;;
    Ok (child, g, w).

  (** decomposition.rs:78-111 *)
  Definition decompose_cycle (d : dga) (w : world) : res (dga * world) :=
    let '(route_hash, ls_hash, rr_hash) := hashes (d_round d) in
    '(sub, mapping, rest, mats, w) <- decomposition_new (s_corr (ga_ls (d_ga d))) (d_sol d) route_hash w ;;
    '(best, clock) <- decomposition_run sub mapping mats ls_hash rr_hash (sub_world w (w_rng w)) ;;
    let w := mkWorld (w_pen w) (w_hist w) (w_iter w) (w_rng w) clock in
    global <- decomposition_finish (w_pen w) best mapping rest ;;
    let '(g, w) := update_best (set_child (d_ga d) global) w in
    let '(st, w) := rr_reset (ga_rr g) w in
    '(st, w) <- rr_load E st (ga_child g) w ;;
    '(st, w) <- rr_until p c E fuel (s_corr (ga_ls g)) st w ;;
    i <- rr_get_best_solution p (w_pen w) st (ga_child g) ;;
    let '(g, w) := update_best (set_child (set_rr g st) i) w in
    Ok (mkDGA DCycle (ga_child g) g (d_round d + 1), w).

  (** decomposition.rs:69-118 *)
  Definition dga_iterate (d : dga) (w : world) : res (dga * world) :=
    let '(stop, w) := terminate c E w in
    let d := if stop then mkDGA DTerminated (d_sol d) (d_ga d) (d_round d) else d in
    match d_st d with
    | DNotInitialized =>
        '(i, g, w) <- create_global_solution (d_ga d) w ;;
        Ok (mkDGA DCycle i g (d_round d), w)
    | DCycle => decompose_cycle d w
    | DTerminated => Ok (d, w)
    end.

  (** decomposition.rs:120-122, solver.rs:25-30 *)
  Definition dga_terminated (d : dga) : bool := match d_st d with DTerminated => true | _ => false end.
  Fixpoint dga_run (k : nat) (d : dga) (w : world) : res (dga * world) :=
    if dga_terminated d then Ok (d, w)
    else match k with
         | O => Err EFuel
         | S k => '(d, w) <- dga_iterate d w ;; dga_run k d w
         end.
End Decomposition.
