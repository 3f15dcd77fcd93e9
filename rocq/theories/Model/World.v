(** The mutable context of a run: the capacity penalty, the search history, the iteration
    counter, the random generator and the clock.  Models src/solver/history.rs and the mutable
    parts of src/solver/context.rs. *)
From Coq Require Import List Arith NArith ZArith Bool.
From Verif.Model Require Import Num Prelude Evaluate Individual Config.
Import ListNotations.
Open Scope res_scope.

Section World.
  Context {N : Num}.

  (** Functions of the environment: f64::exp, and the clock.  [e_clock k] is the time in seconds
      since [SearchHistory::start_time] seen by the [k]-th reading (Instant::elapsed). *)
  Record env := mkEnv { e_exp : F -> F; e_clock : nat -> F }.

  (** history.rs:11-17 and 47-52; time stamps are left out.  [None] is INFINITY. *)
  Record entry := mkEntry { he_routes : list (list nat); he_cost : option F }.

  (** history.rs:66-79; messages, the start time (see [e_clock]) and log_new_best are left out. *)
  Record history := mkHist { h_entries : list entry; h_best : option F }.

  (** history.rs:81-90 *)
  Definition hist_new : history := mkHist [] None.

  (** history.rs:92-96: the routes of the last entry are emptied *)
  Fixpoint remove_previous_data (l : list entry) : list entry :=
    match l with
    | [] => []
    | [e] => [mkEntry [] (he_cost e)]
    | e :: l => e :: remove_previous_data l
    end.

  (** history.rs:98-123 *)
  Definition hist_add (h : history) (i : individual) : history :=
    mkHist (remove_previous_data (h_entries h) ++ [mkEntry (i_pheno i) (penalized_cost i)])
           (penalized_cost i).

  (** context.rs:9-17: the penalty (config.penalty_capacity), the history, the iteration
      counter, the generator, and the number of clock readings so far *)
  Record world := mkWorld {
    w_pen : F;
    w_hist : history;
    w_iter : nat;
    w_rng : rng;
    w_clock : nat
  }.
  Definition set_w_pen (w : world) x := mkWorld x (w_hist w) (w_iter w) (w_rng w) (w_clock w).
  Definition set_w_hist (w : world) x := mkWorld (w_pen w) x (w_iter w) (w_rng w) (w_clock w).
  Definition set_w_iter (w : world) x := mkWorld (w_pen w) (w_hist w) x (w_rng w) (w_clock w).
  Definition set_w_rng (w : world) x := mkWorld (w_pen w) (w_hist w) (w_iter w) x (w_clock w).

  (** A reading of the clock *)
  Definition now (E : env) (w : world) : F * world :=
    (e_clock E (w_clock w), mkWorld (w_pen w) (w_hist w) (w_iter w) (w_rng w) (S (w_clock w))).

  (** src/utils/random.rs:31-33 *)
  Definition real (p : problem) (r : rng) : F * rng :=
    let '(d, r) := draw r in (o_real p d, r).
End World.
