(** Configuration values read by the modelled solver code: src/config.rs:11-86.
    Fields of [Config] that only concern file names, logging, seeding or are never read are
    left out here ([penalty_capacity] is mutable and therefore part of the world state, see
    World.v).  The merge of configuration sources is modelled in ConfigFile.v. *)
From Verif.Model Require Import Num.

Section Config.
  Context {N : Num}.
  Record config := mkConfig {
    c_max_iterations : option nat;
    c_max_iterations_without_improvement : nat;
    c_num_vehicles : nat;
    c_time_limit : nat;
    (* genetic algorithm *)
    c_min_population_size : nat;
    c_initial_individuals : nat;
    c_population_lambda : nat;
    c_num_elites : nat;
    c_num_diversity_closest : nat;
    c_feasibility_proportion_target : F;
    c_tournament_size : nat;
    c_repair_probability : F;
    (* split *)
    c_split_capacity_factor : F;
    c_linear_split : bool;
    (* local search *)
    c_ls_enabled : bool;
    c_granularity : nat;
    c_relocate_single : bool;
    c_relocate_double : bool;
    c_relocate_double_reverse : bool;
    c_swap_one_with_one : bool;
    c_swap_two_with_one : bool;
    c_swap_two_with_two : bool;
    c_two_opt_intra_reverse : bool;
    c_two_opt_inter_reverse : bool;
    c_two_opt_inter : bool;
    c_swap_star : bool;
    (* penalties *)
    c_penalty_update_interval : nat;
    c_penalty_inc_multiplier : F;
    c_penalty_dec_multiplier : F;
    (* ruin and recreate *)
    c_average_ruin_cardinality : nat;
    c_max_ruin_string_length : nat;
    c_rr_mutation : bool;
    c_rr_probability : F;
    c_rr_gamma : F;
    c_rr_start_temp : F;
    (* elite education *)
    c_elite_education : bool;
    c_elite_education_problem_size_limit : nat;
    c_elite_education_gamma : F;
    c_elite_education_start_temp : F;
    c_elite_education_time_based : bool;
    c_elite_education_time_fraction : F
  }.
End Config.
