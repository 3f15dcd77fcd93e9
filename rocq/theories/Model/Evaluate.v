(** Problem data and solution evaluation.
    Models src/models/problem.rs (data), src/solver/evaluate.rs. *)
From Coq Require Import List Arith NArith ZArith Bool.
From Verif.Model Require Import Num Prelude.
Import ListNotations.
Open Scope res_scope.

Section Evaluate.
  Context {N : Num}.

  (** Immutable problem data: src/models/problem.rs:49-60 (Problem), the distance matrix of
      src/models/matrix.rs as a function (the storage itself is modelled in Matrix.v), and the
      neighbour lists of the correlation matrix.
      [p_coord i] is (lng, lat).  Transcendental functions and the random real numbers are
      parameters: [o_atan2] is f64::atan2, [o_real d] is the value of [Random::real] for raw
      draw [d], [o_ln] is f64::ln, [o_polar i] is the polar angle Problem::get_angle of node i. *)
  Record problem := mkProblem {
    p_dim : nat;
    p_dist : nat -> nat -> F;
    p_demand : nat -> F;
    p_coord : nat -> F * F;
    p_cap : F;
    p_near : nat -> list nat;
    o_atan2 : F -> F -> F;
    o_real : BinNums.N -> F;
    o_ln : F -> F;
    o_polar : nat -> Z
  }.

  (** src/solver/evaluate.rs:5-7 *)
  Definition route_cost (distance overload penalty : F) : F :=
    distance +: penalty *: fmax f0 overload.

  (** src/solver/evaluate.rs:9-14 *)
  Record route_eval := mkRE { re_distance : F; re_overload : F; re_cost : F }.

  (** src/solver/evaluate.rs:30-43; [se_cost = None] is the initial INFINITY. *)
  Record sol_eval := mkSE {
    se_cost : option F;
    se_feasible : bool;
    se_routes : list route_eval;
    se_pred : list nat;
    se_succ : list nat
  }.

  (** src/solver/evaluate.rs:45-54 SolutionEvaluation::new *)
  Definition se_new : sol_eval := mkSE None false [] [] [].

  (** src/solver/evaluate.rs:17-19 RouteEvaluation::is_feasible *)
  Definition re_is_feasible (r : route_eval) : bool := approx_lte (re_overload r) f0.

  (** State of the inner loop (evaluate.rs:84-102): last node, load, distance, predecessors,
      successors. *)
  Definition eval_step (p : problem)
      (s : nat * F * F * list nat * list nat) (node : nat) :
      res (nat * F * F * list nat * list nat) :=
    let '(last, load, dist, preds, succs) := s in
    if node <? p_dim p then
      let dist := dist +: p_dist p last node in
      let load := load +: p_demand p node in
      preds <- seti preds node last ;;
      succs <- seti succs last node ;;
      Ok (node, load, dist, preds, succs)
    else Err EPanic (* nodes[node] out of range *).

  (** One route (evaluate.rs:82-125).  The route evaluations are rebuilt instead of being
      overwritten in place: [reset] resizes the vector to the number of routes and every entry
      is written, so the old entries are never visible. *)
  Definition eval_route (p : problem) (pen : F)
      (s : list route_eval * F * bool * list nat * list nat) (route : list nat) :
      res (list route_eval * F * bool * list nat * list nat) :=
    let '(res_, total, feas, preds, succs) := s in
    '(last, load, dist, preds, succs) <-
       foldm (eval_step p) route (0, f0, f0, preds, succs) ;;
    succs <- seti succs last 0 ;;
    let dist := dist +: p_dist p last 0 in
    let overload := load -: p_cap p in
    let cost := route_cost dist overload pen in
    Ok (res_ ++ [mkRE dist overload cost], total +: cost,
        (if approx_gt overload f0 then false else feas), preds, succs).

  (** src/solver/evaluate.rs:60-128 [reset] and [evaluate]: the vectors of predecessors and
      successors are resized, not cleared. *)
  Definition evaluate (p : problem) (pen : F) (e : sol_eval) (solution : list (list nat)) :
      res sol_eval :=
    let preds := resize (se_pred e) (p_dim p) 0 in
    let succs := resize (se_succ e) (p_dim p) 0 in
    '(res_, total, feas, preds, succs) <-
       foldm (eval_route p pen) solution ([], f0, true, preds, succs) ;;
    Ok (mkSE (Some total) feas res_ preds succs).
End Evaluate.
