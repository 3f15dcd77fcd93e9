(** Specification of reproducibility: what may differ between two runs. *)
From Coq Require Import List Arith NArith ZArith Bool.
From Verif.Model Require Import Num Prelude Evaluate Individual Config World Main.
Import ListNotations.

Section Spec.
  Context {N : Num}.

  (** The configuration with other limits of time and of the number of iterations *)
  Definition with_limits (c : config) (t : nat) (m : option nat) : config :=
    mkConfig m (c_max_iterations_without_improvement c) (c_num_vehicles c) t
      (c_min_population_size c) (c_initial_individuals c) (c_population_lambda c) (c_num_elites c)
      (c_num_diversity_closest c) (c_feasibility_proportion_target c) (c_tournament_size c)
      (c_repair_probability c) (c_split_capacity_factor c) (c_linear_split c) (c_ls_enabled c) (c_granularity c)
      (c_relocate_single c) (c_relocate_double c) (c_relocate_double_reverse c) (c_swap_one_with_one c)
      (c_swap_two_with_one c) (c_swap_two_with_two c) (c_two_opt_intra_reverse c) (c_two_opt_inter_reverse c)
      (c_two_opt_inter c) (c_swap_star c) (c_penalty_update_interval c) (c_penalty_inc_multiplier c)
      (c_penalty_dec_multiplier c) (c_average_ruin_cardinality c) (c_max_ruin_string_length c) (c_rr_mutation c)
      (c_rr_probability c) (c_rr_gamma c) (c_rr_start_temp c) (c_elite_education c)
      (c_elite_education_problem_size_limit c) (c_elite_education_gamma c) (c_elite_education_start_temp c)
      (c_elite_education_time_based c) (c_elite_education_time_fraction c).

  (** The [k]-th reading of the clock is past the time limit. *)
  Definition past (t : nat) (E : env) (k : nat) : bool := t <=? ffloor (e_clock E k).

  (** [n] iterations are the most. *)
  Definition capped (m : option nat) (n : nat) : bool := match m with Some m => m <=? n | None => false end.

  (** The elite education is used, and its length is a part of the time limit. *)
  Definition timed_education (p : problem) (c : config) : bool :=
    c_elite_education c && (c_elite_education_problem_size_limit c <? p_dim p - 1) && c_elite_education_time_based c.

  (** Ruin and recreate is not used. *)
  Definition no_ruin (p : problem) (c : config) : bool :=
    negb (c_rr_mutation c) && negb (c_elite_education c && (c_elite_education_problem_size_limit c <? p_dim p - 1)).

  (** The program run elsewhere: another clock and exponential function, other random numbers where
      no seed is given, other hash orders where the code does not seed the hash. *)
  Definition elsewhere (X : outside) (E : env) (random : option nat -> rng) (rr_hash : rng) (hashes : nat -> rng * rng * rng) : outside :=
    mkOutside (x_parse_f64 X) (x_utf8 X) (x_sqrt X) (x_round X) (x_sort X) (x_atan2 X) (x_ln X) (x_real X) (x_angle X)
      E random (x_ls_hash X) rr_hash hashes (x_fuel X).
End Spec.
