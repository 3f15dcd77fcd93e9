(** What is demanded of the genetic algorithm. *)
From Coq Require Import List Arith NArith QArith Permutation.
From Verif.Model Require Import Num Prelude Evaluate Individual Config Split Matrix Population LocalSearch
  World Schedule RuinRecreate Genetic.
From Verif.Spec Require Import Solution Population LocalSearch RuinRecreate.
Import ListNotations.
Local Open Scope nat_scope.

Section Spec.
  Context {N : Num}.
  Variable L : lib.
  Variable p : problem.
  Variable c : config.
  Variable E : env.
  Variable log_interval : nat.
  Variable max_distance : option F.
  Variable fuel : nat.

  (** The context after [setup]: the penalty is the initial one, nothing is recorded. *)
  Definition set_up (w : world) : Prop :=
    (exists d, max_demand p = Ok d /\ w_pen w = initial_penalty max_distance d) /\
    w_hist w = hist_new /\ w_iter w = 0.

  (** Every state of the algorithm between two calls: created in the world [w0], given initial
      solutions, iterated. *)
  Inductive ga_reached (w0 : world) : ga -> world -> Prop :=
  | gr_new corr ls_hash rr_hash g w : neighbours_ok p c corr -> rows_ok p corr ->
      ga_new p c corr ls_hash rr_hash w0 = (g, w) -> ga_reached w0 g w
  | gr_initial g w i g' w' : ga_reached w0 g w -> ga_st g = Created ->
      serves_all_once (p_dim p) (i_pheno i) -> i_geno i = concat (i_pheno i) ->
      (exists e, evaluate p (w_pen w) e (i_pheno i) = Ok (i_eval i)) ->
      num_nonempty_routes i <= c_num_vehicles c ->
      add_initial L c g i w = Ok (g', w') -> ga_reached w0 g' w'
  | gr_iterate g w g' w' : ga_reached w0 g w ->
      ga_iterate L p c E log_interval max_distance fuel g w = Ok (g', w') -> ga_reached w0 g' w'.

  (** A number of calls of [iterate]; [n] of them performed a genetic iteration: they were made
      in the state [Cycle] and did not just terminate the algorithm. *)
  Inductive ga_calls : nat -> ga -> world -> ga -> world -> Prop :=
  | gc_none g w : ga_calls 0 g w g w
  | gc_other n g w g1 w1 g2 w2 : ga_iterate L p c E log_interval max_distance fuel g w = Ok (g1, w1) ->
      ga_st g <> Cycle \/ ga_st g1 = Terminated ->
      ga_calls n g1 w1 g2 w2 -> ga_calls n g w g2 w2
  | gc_cycle n g w g1 w1 g2 w2 : ga_iterate L p c E log_interval max_distance fuel g w = Ok (g1, w1) ->
      ga_st g = Cycle -> ga_st g1 <> Terminated ->
      ga_calls n g1 w1 g2 w2 -> ga_calls (1 + n) g w g2 w2.

  (** The penalties between the searches: the initial one and the results of updates. *)
  Definition run_penalty (pen : F) : Prop :=
    (exists d, pen = initial_penalty max_distance d) \/ (exists x, pen = clamp_penalty x).

  (** What is needed of an arithmetic, of the oracles and of a configuration: random reals are below one,
      0 is not below 0 - 1e-6, and the 1e30 of the split exceeds what it is compared with. *)
  Record run_ok : Prop := {
    go_reals : reals_below_one p;
    go_zero : approx_lt f0 f0 = false;
    go_dim : 2 <= p_dim p;
    go_fleet : 1 <= c_num_vehicles c /\ vehicle_lower_bound p <= c_num_vehicles c;
    go_gran : 1 <= c_granularity c;
    go_split : if c_linear_split c
      then forall pen g i, run_penalty pen -> Permutation g (seq 1 (p_dim p - 1)) -> 1 <= i < length g ->
             dominates p pen g reset_row0 0 i = true
      else flit (10 ^ 29)%Z 1 <:? fbig = true
  }.

  (** Some number of calls of [iterate]. *)
  Inductive ga_iterates : nat -> ga -> world -> ga -> world -> Prop :=
  | gi_none g w : ga_iterates 0 g w g w
  | gi_more n g w g1 w1 g2 w2 : ga_iterate L p c E log_interval max_distance fuel g w = Ok (g1, w1) ->
      ga_iterates n g1 w1 g2 w2 -> ga_iterates (1 + n) g w g2 w2.

  (** The history after the given individuals were recorded in order. *)
  Definition recorded (h0 : history) (is : list individual) (h : history) : Prop :=
    h = fold_left hist_add is h0.

  (** The solution that is printed and written: the last entry. *)
  Definition reported (h : history) (e : entry) : Prop := exists l, h_entries h = l ++ [e].
End Spec.

(** An instance and a configuration the solver is made for, in exact arithmetic.  The last bound
    keeps every cost below the 1e30 that the split uses as infinity. *)
Record instance_ok (p : @problem NumQ) (c : @config NumQ) : Prop := {
  io_dim : 2 <= p_dim p;
  io_fleet : 1 <= c_num_vehicles c /\ @vehicle_lower_bound NumQ p <= c_num_vehicles c;
  io_cap : (0 < p_cap p)%Q;
  io_dem : forall a, a < p_dim p -> (0 <= p_demand p a)%Q;
  io_dist : forall a b, a < p_dim p -> b < p_dim p -> (0 <= p_dist p a b)%Q;
  io_sym : forall a, a < p_dim p -> (p_dist p 0%nat a == p_dist p a 0%nat)%Q;
  io_depot : (p_dist p 0%nat 0%nat == 0)%Q;
  io_small : exists top : Q, (forall a b, a < p_dim p -> b < p_dim p -> (p_dist p a b <= top)%Q) /\
    (top * inject_Z (Z.of_nat (p_dim p)) + inject_Z (10 ^ 7) * route_load (p_demand p) (seq 1 (p_dim p - 1))
     < inject_Z (10 ^ 30))%Q;
  io_real : forall d, (0 <= o_real p d /\ o_real p d < 1)%Q;
  io_gran : 1 <= c_granularity c;
  io_mult : (0 <= c_penalty_inc_multiplier c /\ 0 <= c_penalty_dec_multiplier c)%Q
}.

(** What is needed for every loop to end.  Random numbers: none is followed by more than [B]
    numbers that are all equal to it modulo [m], for the numbers [m] of customers that occur. *)
Definition varied (n B : nat) (draws : nat -> BinNums.N) : Prop :=
  forall m, 2 <= m < n -> forall i, exists j, i < j <= i + B /\
    N.modulo (draws j) (N.of_nat m) <> N.modulo (draws i) (N.of_nat m).
(** The clock: at its reading number [last], and from then on, the time limit has passed. *)
Definition time_up {N : Num} (c : config) (E : env) (last : nat) : Prop :=
  forall t, last <= t -> c_time_limit c <= ffloor (e_clock E t).
(** The local search is only known to improve in each step if the distances are symmetric and the
    depot has no demand. *)
Definition symmetric (p : @problem NumQ) : Prop :=
  (forall a b, a < p_dim p -> b < p_dim p -> (p_dist p a b == p_dist p b a)%Q) /\ (p_demand p 0 == 0)%Q.
(** Settings that are not degenerate. *)
Definition workable {N : Num} (c : config) : Prop :=
  1 <= c_num_diversity_closest c /\ 1 <= c_min_population_size c /\
  1 <= c_initial_individuals c /\ 1 <= c_tournament_size c.
