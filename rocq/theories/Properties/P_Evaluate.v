(** C05: evaluation.  C11: sorting of routes. *)
From Coq Require Import List Arith ZArith QArith Bool Permutation Sorted Lia.
From Verif.Model Require Import Num Prelude Evaluate Individual.
From Verif.Spec Require Import Solution.
From Verif.Proofs Require Import Lists QNum EvalFacts SplitStruct EvalThms.
From Verif.Properties Require Import ExampleData.
Import ListNotations.

(** For any list of routes over nodes of the problem and whatever the evaluation object [e]
    held before, evaluation succeeds and yields, per route, the driven distance and the overload;
    the total penalised cost; feasibility; and, when the routes serve every customer once, the
    two neighbours of every customer. *)
Theorem C05_evaluate_correct (p : @problem NumQ) (pen : Q) (e : @sol_eval NumQ) (routes : list (list nat)) :
  (0 < p_dim p)%nat ->
  (forall n, In n (concat routes) -> (n < p_dim p)%nat) ->
  exists e', @evaluate NumQ p pen e routes = Ok e' /\
    (exists c, se_cost e' = Some c /\
       c == total_penalized (p_dist p) (p_demand p) (p_cap p) pen routes) /\
    (se_feasible e' = true <-> within_capacity (p_demand p) (p_cap p) (1 # 1000000) routes) /\
    Forall2 (fun (r : list nat) (ev : @route_eval NumQ) =>
       re_distance ev == route_length (p_dist p) r /\
       re_overload ev == route_load (p_demand p) r - p_cap p /\
       re_cost ev == route_penalized (p_dist p) (p_demand p) (p_cap p) pen r)
      routes (se_routes e') /\
    (serves_all_once (p_dim p) routes -> forall r a b, In r routes -> consecutive r a b ->
       (b <> 0%nat -> nth_error (se_pred e') b = Some a) /\
       (a <> 0%nat -> nth_error (se_succ e') a = Some b)).
Proof. exact (evaluate_correct p pen e routes). Qed.
Print Assumptions C05_evaluate_correct.

Example C05_nonvacuous :
  (0 < p_dim ex_p)%nat /\
  (forall n, In n (concat [[1; 2]; []; [4; 3; 5]]%nat) -> (n < p_dim ex_p)%nat) /\
  serves_all_once (p_dim ex_p) [[1; 2]; []; [4; 3; 5]]%nat /\
  consecutive [4; 3; 5]%nat 3 5 /\
  total_penalized (p_dist ex_p) (p_demand ex_p) (p_cap ex_p) 10 [[1; 2]; []; [4; 3; 5]]%nat == 46.
Proof.
  repeat split.
  - simpl. lia.
  - simpl. intros n H. repeat (destruct H as [<-|H]; [lia|]). destruct H.
  - apply NoDup_Permutation.
    + repeat constructor; simpl; intuition discriminate.
    + apply seq_NoDup.
    + intros x. simpl. intuition.
  - exists [0; 4]%nat, [0]%nat. reflexivity.
Qed.

(** The result does not depend on what the evaluation object held before, as far as the cost,
    feasibility and routes are concerned, in any arithmetic. *)
Theorem C05_evaluate_history_free (N : Num) (p : problem) (pen : F) (e1 e2 : sol_eval)
    (routes : list (list nat)) r1 r2 :
  evaluate p pen e1 routes = Ok r1 -> evaluate p pen e2 routes = Ok r2 ->
  (0 < p_dim p)%nat -> (forall n, In n (concat routes) -> (n < p_dim p)%nat) ->
  se_cost r1 = se_cost r2 /\ se_feasible r1 = se_feasible r2 /\ se_routes r1 = se_routes r2 /\
  (serves_all_once (p_dim p) routes ->
   forall c, (0 < c < p_dim p)%nat ->
     nth_error (se_pred r1) c = nth_error (se_pred r2) c /\
     nth_error (se_succ r1) c = nth_error (se_succ r2) c).
Proof. exact (evaluate_history_free p pen e1 e2 routes r1 r2). Qed.
Print Assumptions C05_evaluate_history_free.

Example C05_history_free_nonvacuous :
  exists r1 r2,
    @evaluate NumQ ex_p 10 (@mkSE NumQ (Some 5) true [] [7; 7; 7; 7; 7; 7; 7; 7]%nat [3]%nat) [[1; 2]; []; [4; 3; 5]]%nat = Ok r1 /\
    @evaluate NumQ ex_p 10 se_new [[1; 2]; []; [4; 3; 5]]%nat = Ok r2.
Proof. eexists _, _. split; vm_compute; reflexivity. Qed.

(** Sorting an individual's routes: the routes are permuted, the giant tour becomes their
    concatenation and nothing else changes; any arithmetic. *)
Theorem C11_sort_routes_permutes (N : Num) (p : problem) (ind ind' : individual) :
  length (i_geno ind) = length (concat (i_pheno ind)) ->
  sort_routes p ind = Ok ind' ->
  Permutation (i_pheno ind') (i_pheno ind) /\ i_geno ind' = concat (i_pheno ind') /\
  i_number ind' = i_number ind /\ i_fitness ind' = i_fitness ind /\ i_eval ind' = i_eval ind.
Proof. exact (sort_routes_spec p ind ind'). Qed.
Print Assumptions C11_sort_routes_permutes.

(** In exact arithmetic, with an [atan2] that respects equality and stays below 10, sorting
    always succeeds; the non-empty routes come first, by increasing polar angle of their
    barycentre around the depot, and the empty routes last. *)
Theorem C11_sort_routes_by_angle (p : @problem NumQ) (ind : @individual NumQ) :
  (forall y x y' x', y == y' -> x == x' -> o_atan2 p y x == o_atan2 p y' x') ->
  (forall y x, o_atan2 p y x < 10) ->
  length (i_geno ind) = length (concat (i_pheno ind)) ->
  exists ind' front k, @sort_routes NumQ p ind = Ok ind' /\
    i_pheno ind' = front ++ repeat [] k /\ Forall (fun r => r <> []) front /\
    StronglySorted (fun r s => barycentre_angle (o_atan2 p) (p_coord p) r
                               <= barycentre_angle (o_atan2 p) (p_coord p) s) front.
Proof. exact (sort_routes_sorted p ind). Qed.
Print Assumptions C11_sort_routes_by_angle.

Example C11_nonvacuous :
  (forall y x, o_atan2 ex_p y x < 10) /\
  (forall y x y' x', y == y' -> x == x' -> o_atan2 ex_p y x == o_atan2 ex_p y' x') /\
  let ind := @mkInd NumQ 0 [1; 2; 4; 3; 5]%nat [[4; 3]; []; [1; 2]; [5]]%nat None se_new in
  length (i_geno ind) = length (concat (i_pheno ind)) /\
  exists ind', @sort_routes NumQ ex_p ind = Ok ind' /\
    i_pheno ind' = [[1; 2]; [5]; [4; 3]; []]%nat /\ i_geno ind' = [1; 2; 5; 4; 3]%nat.
Proof.
  repeat split.
  - intros y x. simpl. destruct (Qle_bool 0 x); reflexivity.
  - intros y x y' x' _ H. simpl.
    destruct (Qle_bool 0 x) eqn:E1, (Qle_bool 0 x') eqn:E2; try reflexivity.
    + apply Qle_bool_iff in E1. rewrite H in E1. apply Qle_bool_iff in E1. congruence.
    + apply Qle_bool_iff in E2. rewrite <- H in E2. apply Qle_bool_iff in E2. congruence.
  - eexists. split; [vm_compute; reflexivity|]. split; reflexivity.
Qed.
