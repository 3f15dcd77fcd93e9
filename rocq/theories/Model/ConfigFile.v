(** The configuration: defaults, configuration file, command line.  Models src/config.rs, src/cli.rs
    and src/main.rs:21-27.

    The YAML file is given as the value that serde_yaml reads from it.  serde's conversions between
    the structure and YAML values are modelled by a table of field names and types: the structure
    is the list of its fields as YAML values, [decode] says which YAML values are accepted for a
    type and what they become.  clap (version 2) has already cut the command line into options. *)
From Coq Require Import Ascii String List Arith NArith ZArith Bool.
From Verif.Model Require Import Num Prelude Text.
Import ListNotations.
Open Scope res_scope.

Section ConfigFile.
  Context {N : Num}.

  (** serde_yaml::Value; a float [None] is infinity *)
  Inductive value :=
  | VNull
  | VBool (b : bool)
  | VInt (z : Z)
  | VFloat (x : option F)
  | VString (t : text)
  | VSeq (l : list value)
  | VMap (m : list (value * value)).

  Inductive kind := KBool | KU64 | KF64 | KString | KOptU64 | KOptString.

  (** config.rs:11-86: u64 and usize have the same range *)
  Definition schema : list (text * kind) := [
    (txt "instance_path", KString);
    (txt "solution_path", KOptString);
    (txt "time_limit", KU64);
    (txt "bks", KF64);
    (txt "max_iterations", KOptU64);
    (txt "max_iterations_without_improvement", KU64);
    (txt "num_vehicles", KU64);
    (txt "log_interval", KU64);
    (txt "precompute_distance_size_limit", KU64);
    (txt "round_distances", KBool);
    (txt "decompose_limit", KU64);
    (txt "decomposed_problem_min_size", KU64);
    (txt "deterministic", KBool);
    (txt "seed", KU64);
    (txt "min_population_size", KU64);
    (txt "initial_individuals", KU64);
    (txt "population_lambda", KU64);
    (txt "num_elites", KU64);
    (txt "num_diversity_closest", KU64);
    (txt "feasibility_proportion_target", KF64);
    (txt "tournament_size", KU64);
    (txt "repair_probability", KF64);
    (txt "split_capacity_factor", KF64);
    (txt "linear_split", KBool);
    (txt "local_search_granularity", KU64);
    (txt "dynamic_granularity", KBool);
    (txt "granularity_min", KU64);
    (txt "ls_enabled", KBool);
    (txt "relocate_single", KBool);
    (txt "relocate_double", KBool);
    (txt "relocate_double_reverse", KBool);
    (txt "swap_one_with_one", KBool);
    (txt "swap_two_with_one", KBool);
    (txt "swap_two_with_two", KBool);
    (txt "two_opt_intra_reverse", KBool);
    (txt "two_opt_inter_reverse", KBool);
    (txt "two_opt_inter", KBool);
    (txt "swap_star", KBool);
    (txt "penalty_capacity", KF64);
    (txt "penalty_update_interval", KU64);
    (txt "penalty_inc_multiplier", KF64);
    (txt "penalty_dec_multiplier", KF64);
    (txt "average_ruin_cardinality", KU64);
    (txt "max_ruin_string_length", KU64);
    (txt "rr_mutation", KBool);
    (txt "rr_probability", KF64);
    (txt "rr_gamma", KF64);
    (txt "rr_final_temp", KF64);
    (txt "rr_start_temp", KF64);
    (txt "rr_diversify", KBool);
    (txt "elite_education", KBool);
    (txt "elite_education_problem_size_limit", KU64);
    (txt "elite_education_gamma", KF64);
    (txt "elite_education_final_temp", KF64);
    (txt "elite_education_start_temp", KF64);
    (txt "elite_education_time_based", KBool);
    (txt "elite_education_time_fraction", KF64)].

  Definition fields := list (text * value).

  (** config.rs:89-166 *)
  Definition config_default : fields := [
    (txt "instance_path", VString []);
    (txt "solution_path", VNull);
    (txt "time_limit", VInt 60);
    (txt "bks", VFloat None);
    (txt "max_iterations", VNull);
    (txt "max_iterations_without_improvement", VInt 20000);
    (txt "num_vehicles", VInt 1000000);
    (txt "log_interval", VInt 100);
    (txt "precompute_distance_size_limit", VInt 2000);
    (txt "round_distances", VBool true);
    (txt "decompose_limit", VInt 3000);
    (txt "decomposed_problem_min_size", VInt 200);
    (txt "deterministic", VBool false);
    (txt "seed", VInt 1);
    (txt "min_population_size", VInt 25);
    (txt "initial_individuals", VInt 100);
    (txt "population_lambda", VInt 40);
    (txt "num_elites", VInt 4);
    (txt "num_diversity_closest", VInt 5);
    (txt "feasibility_proportion_target", VFloat (Some (flit 2 10)));
    (txt "tournament_size", VInt 2);
    (txt "repair_probability", VFloat (Some (flit 5 10)));
    (txt "split_capacity_factor", VFloat (Some (flit 15 10)));
    (txt "linear_split", VBool true);
    (txt "local_search_granularity", VInt 20);
    (txt "dynamic_granularity", VBool false);
    (txt "granularity_min", VInt 10);
    (txt "ls_enabled", VBool true);
    (txt "relocate_single", VBool true);
    (txt "relocate_double", VBool true);
    (txt "relocate_double_reverse", VBool false);
    (txt "swap_one_with_one", VBool true);
    (txt "swap_two_with_one", VBool true);
    (txt "swap_two_with_two", VBool true);
    (txt "two_opt_intra_reverse", VBool true);
    (txt "two_opt_inter_reverse", VBool true);
    (txt "two_opt_inter", VBool true);
    (txt "swap_star", VBool true);
    (txt "penalty_capacity", VFloat (Some (flit 100 1)));
    (txt "penalty_update_interval", VInt 10);
    (txt "penalty_inc_multiplier", VFloat (Some (flit 12 10)));
    (txt "penalty_dec_multiplier", VFloat (Some (flit 85 100)));
    (txt "average_ruin_cardinality", VInt 10);
    (txt "max_ruin_string_length", VInt 10);
    (txt "rr_mutation", VBool true);
    (txt "rr_probability", VFloat (Some (flit 1 1)));
    (txt "rr_gamma", VFloat (Some (flit 1 1)));
    (txt "rr_final_temp", VFloat (Some (flit 1 1)));
    (txt "rr_start_temp", VFloat (Some (flit 10 1)));
    (txt "rr_diversify", VBool true);
    (txt "elite_education", VBool false);
    (txt "elite_education_problem_size_limit", VInt 1);
    (txt "elite_education_gamma", VFloat (Some (flit 1000 1)));
    (txt "elite_education_final_temp", VFloat (Some (flit 1 1)));
    (txt "elite_education_start_temp", VFloat (Some (flit 50 1)));
    (txt "elite_education_time_based", VBool false);
    (txt "elite_education_time_fraction", VFloat (Some (flit 2 100)))].

  (** Deserialize: [None] is an error.  An integer is accepted for a float. *)
  Definition in_u64 (z : Z) : bool := ((0 <=? z) && (z <? 2 ^ 64))%Z.
  Definition decode (k : kind) (v : value) : option value :=
    match k, v with
    | KBool, VBool b => Some v
    | KU64, VInt z => if in_u64 z then Some v else None
    | KF64, VFloat x => Some v
    | KF64, VInt z => Some (VFloat (Some (flit z 1)))
    | KString, VString t => Some v
    | KOptU64, VNull => Some VNull
    | KOptU64, VInt z => if in_u64 z then Some v else None
    | KOptString, VNull => Some VNull
    | KOptString, VString t => Some v
    | _, _ => None
    end.

  Fixpoint lookup (name : text) (f : fields) : option value :=
    match f with
    | [] => None
    | (k, v) :: f => if text_eqb k name then Some v else lookup name f
    end.
  Fixpoint set_field (name : text) (v : value) (f : fields) : fields :=
    match f with
    | [] => []
    | (k, x) :: f => if text_eqb k name then (k, v) :: f else (k, x) :: set_field name v f
    end.

  (** config.rs:201-205: only keys that are strings and names of fields have an effect *)
  Definition patch (f : fields) (kv : value * value) : fields :=
    match fst kv with
    | VString name => set_field name (snd kv) f
    | _ => f
    end.
  (** config.rs:210 *)
  Definition decode_field (f : fields) (nk : text * kind) : res (text * value) :=
    match lookup (fst nk) f with
    | Some v => match decode (snd nk) v with Some v => Ok (fst nk, v) | None => Err EPanic end
    | None => Err EPanic
    end.
  (** config.rs:196-211 *)
  Definition update (f : fields) (values : value) : res fields :=
    match values with
    | VMap mapping => mapm (decode_field (fold_left patch mapping f)) schema
    | _ => Err EPanic
    end.

  (** ** Command line: cli.rs:4-10 and 14-50.  [None]: the option is not given. *)
  Record command_line := mkCL {
    cl_instance : text;
    cl_solution : option text;
    cl_iterations : option text;
    cl_time_limit : option text;
    cl_rounded : option text
  }.
  Record args := mkArgs {
    a_instance_path : text;
    a_solution_path : option text;
    a_time_limit : option BinNums.N;
    a_max_iterations : option BinNums.N;
    a_rounded : bool
  }.
  (** [value_of] of an option with and without a default value; [is_present] is true as soon as
      there is a value, be it the default *)
  Definition value_or (o : option text) (default : string) : option text :=
    match o with Some t => Some t | None => Some (txt default) end.
  Definition parse_option (o : option text) : res (option BinNums.N) :=
    match o with
    | None => Ok None
    | Some t => match parse_u64 t with Some n => Ok (Some n) | None => Err EPanic end
    end.
  (** cli.rs:52-77 *)
  Definition args_parse (cl : command_line) : res args :=
    max_iterations <- parse_option (cl_iterations cl) ;;
    time_limit <- parse_option (value_or (cl_time_limit cl) "10") ;;
    let rounded := match value_or (cl_rounded cl) "true" with Some _ => true | None => false end in
    Ok (mkArgs (cl_instance cl) (value_or (cl_solution cl) "output.sol") time_limit max_iterations rounded).

  (** config.rs:214-224 *)
  Definition opt_u64 (name : string) (o : option BinNums.N) (f : fields) : fields :=
    match o with Some n => set_field (txt name) (VInt (Z.of_N n)) f | None => f end.
  Definition update_from_args (f : fields) (a : args) : fields :=
    let f := set_field (txt "instance_path") (VString (a_instance_path a)) f in
    let f := set_field (txt "solution_path")
               (match a_solution_path a with Some t => VString t | None => VNull end) f in
    let f := opt_u64 "max_iterations_without_improvement" (a_max_iterations a) f in
    let f := opt_u64 "time_limit" (a_time_limit a) f in
    set_field (txt "round_distances") (VBool (a_rounded a)) f.

  (** main.rs:21-27 with config.rs:181-188 *)
  Definition main_config (yaml : value) (cl : command_line) : res fields :=
    f <- update config_default yaml ;;
    a <- args_parse cl ;;
    Ok (update_from_args f a).
End ConfigFile.
