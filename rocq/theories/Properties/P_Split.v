(** C07 - C10: splitting a giant tour. *)
From Coq Require Import List Arith ZArith QArith Permutation Lia Lqa.
From Verif.Model Require Import Num Prelude Evaluate Individual Config.
From Verif.Model Require Import Split.
From Verif.Spec Require Import Solution.
From Verif.Spec Require Split.
From Verif.Proofs Require Import QNum SplitStruct SplitQueue SplitOpt SplitPart SplitThms BellmanOpt SplitMain.
From Verif.Properties Require Import ExampleData.
Import ListNotations.
Import Spec.Split.

(** C07.  Exact arithmetic: a split (linear algorithm) of any giant tour succeeds and yields a
    partition of the tour into consecutive pieces, at most max(max_vehicles, lower bound) of them
    non-empty, in exactly num_vehicles routes that serve every customer once.  [st] is the state
    left behind by any earlier splits ([C07_state_reachable]). *)
Theorem C07_split_partition (p : @problem NumQ) (pen : Q) (c : @config NumQ) st
    (ind : @individual NumQ) (mv : nat) :
  split_data (p_dim p) (p_dist p) (p_demand p) (p_cap p) pen (i_geno ind) -> sp_wf st ->
  c_linear_split c = true -> (1 <= mv)%nat ->
  (Nat.max mv (vehicle_lower_bound p) <= c_num_vehicles c)%nat ->
  exists st' ind', @split_run NumQ p c pen st ind mv = Ok (st', ind') /\ sp_wf st' /\
    partitioned_into (i_geno ind) (i_pheno ind') (Nat.max mv (vehicle_lower_bound p)) /\
    length (i_pheno ind') = c_num_vehicles c /\
    serves_all_once (p_dim p) (i_pheno ind') /\
    i_geno ind' = concat (i_pheno ind').
Proof. exact (split_run_partition p pen c st ind mv). Qed.
Print Assumptions C07_split_partition.

(** Any arithmetic (in particular floating point): whenever the split run returns, the result is
    such a partition.  [big_enough] is the only fact about numbers needed: the code's 1e30 beats
    the cost of serving a prefix of the tour with one route. *)
Theorem C07_split_partition_any_arithmetic {N : Num} (p : problem) (pen : F) (c : config) st
    (ind : individual) (mv : nat) :
  c_linear_split c = true -> sp_wf st ->
  (0 < p_dim p)%nat -> Permutation (i_geno ind) (seq 1 (p_dim p - 1)) ->
  big_enough p pen (i_geno ind) -> (1 <= mv)%nat ->
  (Nat.max mv (vehicle_lower_bound p) <= c_num_vehicles c)%nat ->
  forall st' ind', split_run p c pen st ind mv = Ok (st', ind') ->
    sp_wf st' /\
    partitioned_into (i_geno ind) (i_pheno ind') (Nat.max mv (vehicle_lower_bound p)) /\
    length (i_pheno ind') = c_num_vehicles c /\
    serves_all_once (p_dim p) (i_pheno ind') /\
    i_geno ind' = concat (i_pheno ind').
Proof. exact (split_run_generic p pen c st ind mv). Qed.
Print Assumptions C07_split_partition_any_arithmetic.

(** Without fleet limit both algorithms partition the tour, whatever the arithmetic does. *)
Theorem C07_unlimited_partition_any_arithmetic {N : Num} (p : problem) (pen : F) (c : config) st
    (tour : list nat) (mv : nat) :
  length tour = (p_dim p - 1)%nat -> sp_wf st ->
  exists st' routes, split_unlimited p c pen st tour mv = Ok (st', routes, length (filter (fun r => negb (length r =? 0)) routes) <=? mv)%nat /\
    sp_wf st' /\ partitioned_into tour routes (p_dim p - 1) /\ (c_num_vehicles c <= length routes)%nat.
Proof. exact (split_unlimited_partition p pen c st tour mv). Qed.
Print Assumptions C07_unlimited_partition_any_arithmetic.

(** The states in which splits run: a new splitter, and any state left by a split. *)
Theorem C07_state_reachable {N : Num} : sp_wf split_new /\
  forall p c pen st ind mv st' ind', sp_wf st ->
    length (i_geno ind) = (p_dim p - 1)%nat -> c_linear_split c = true ->
    split_run p c pen st ind mv = Ok (st', ind') ->
    (1 <= Nat.max mv (vehicle_lower_bound p))%nat -> big_enough p pen (i_geno ind) -> sp_wf st'.
Proof. exact split_state_reachable. Qed.
Print Assumptions C07_state_reachable.

(** C08.  The linear split without fleet limit costs at most n(n-1)/2 * 1e-6 more than any
    segmentation of the tour into consecutive routes ... *)
Theorem C08_linear_split_near_optimal (p : @problem NumQ) (pen : Q) (tour : list nat)
    (c : @config NumQ) st (mv : nat) :
  split_data (p_dim p) (p_dist p) (p_demand p) (p_cap p) pen tour -> c_linear_split c = true ->
  exists st' routes ok, @split_unlimited NumQ p c pen st tour mv = Ok (st', routes, ok) /\
    segmentation tour (rev routes) /\
    forall segs, segmentation tour segs ->
      total_penalized (p_dist p) (p_demand p) (p_cap p) pen routes
      <= total_penalized (p_dist p) (p_demand p) (p_cap p) pen segs
         + inject_Z (Z.of_nat ((p_dim p - 1) * (p_dim p - 2) / 2)) * (1 # 1000000).
Proof. exact (linear_near_optimal p pen tour c st mv). Qed.
Print Assumptions C08_linear_split_near_optimal.

(** ... and is exactly optimal when the data lie on a grid of at least 1e-6, for example when
    all distances, demands, the capacity and the penalty are integers. *)
Theorem C08_linear_split_optimal_on_grid (p : @problem NumQ) (pen : Q) (tour : list nat)
    (c : @config NumQ) st (mv : nat) :
  split_data (p_dim p) (p_dist p) (p_demand p) (p_cap p) pen tour -> c_linear_split c = true ->
  on_grid (p_dim p) (p_dist p) (p_demand p) (p_cap p) pen ->
  exists st' routes ok, @split_unlimited NumQ p c pen st tour mv = Ok (st', routes, ok) /\
    segmentation tour (rev routes) /\
    forall segs, segmentation tour segs ->
      total_penalized (p_dist p) (p_demand p) (p_cap p) pen routes
      <= total_penalized (p_dist p) (p_demand p) (p_cap p) pen segs.
Proof. exact (linear_optimal_grid p pen tour c st mv). Qed.
Print Assumptions C08_linear_split_optimal_on_grid.

(** C09.  The whole split costs at most n^2 * 1e-6 more than any segmentation into at most
    max(max_vehicles, lower bound) routes; the cost it reports is its true penalised cost. *)
Theorem C09_limited_split_near_optimal (p : @problem NumQ) (pen : Q) (c : @config NumQ) st
    (ind : @individual NumQ) (mv : nat) :
  split_data (p_dim p) (p_dist p) (p_demand p) (p_cap p) pen (i_geno ind) -> sp_wf st ->
  c_linear_split c = true -> (1 <= mv)%nat ->
  (Nat.max mv (vehicle_lower_bound p) <= c_num_vehicles c)%nat ->
  exists st' ind' cost, @split_run NumQ p c pen st ind mv = Ok (st', ind') /\
    partitioned_into (i_geno ind) (i_pheno ind') (Nat.max mv (vehicle_lower_bound p)) /\
    penalized_cost ind' = Some cost /\
    cost == total_penalized (p_dist p) (p_demand p) (p_cap p) pen (i_pheno ind') /\
    forall segs, segmentation (i_geno ind) segs ->
      (length segs <= Nat.max mv (vehicle_lower_bound p))%nat ->
      cost <= total_penalized (p_dist p) (p_demand p) (p_cap p) pen segs
              + inject_Z (Z.of_nat ((p_dim p - 1) * (p_dim p - 1))) * (1 # 1000000).
Proof. exact (limited_near_optimal p pen c st ind mv). Qed.
Print Assumptions C09_limited_split_near_optimal.

Theorem C09_limited_split_optimal_on_grid (p : @problem NumQ) (pen : Q) (c : @config NumQ) st
    (ind : @individual NumQ) (mv : nat) :
  split_data (p_dim p) (p_dist p) (p_demand p) (p_cap p) pen (i_geno ind) -> sp_wf st ->
  on_grid (p_dim p) (p_dist p) (p_demand p) (p_cap p) pen ->
  c_linear_split c = true -> (1 <= mv)%nat ->
  (Nat.max mv (vehicle_lower_bound p) <= c_num_vehicles c)%nat ->
  exists st' ind' cost, @split_run NumQ p c pen st ind mv = Ok (st', ind') /\
    partitioned_into (i_geno ind) (i_pheno ind') (Nat.max mv (vehicle_lower_bound p)) /\
    penalized_cost ind' = Some cost /\
    cost == total_penalized (p_dist p) (p_demand p) (p_cap p) pen (i_pheno ind') /\
    forall segs, segmentation (i_geno ind) segs ->
      (length segs <= Nat.max mv (vehicle_lower_bound p))%nat ->
      cost <= total_penalized (p_dist p) (p_demand p) (p_cap p) pen segs.
Proof. exact (limited_optimal_grid p pen c st ind mv). Qed.
Print Assumptions C09_limited_split_optimal_on_grid.

(** C10.  With the Bellman algorithm the whole split, with or without the fleet limit, costs at
    most n * penalty * 1e-6 more than any segmentation into at most max(max_vehicles, lower bound)
    routes of load at most factor * capacity, and every customer is served exactly once even when
    no such segmentation exists. *)
Theorem C10_bellman_split_near_optimal (p : @problem NumQ) (pen : Q) (c : @config NumQ) st
    (ind : @individual NumQ) (mv : nat) :
  split_data (p_dim p) (p_dist p) (p_demand p) (p_cap p) pen (i_geno ind) -> sp_bwf st ->
  tour_weight (p_dist p) (p_demand p) pen (i_geno ind) <= inject_Z (10 ^ 29) ->
  c_linear_split c = false -> (1 <= mv)%nat ->
  (Nat.max mv (vehicle_lower_bound p) <= c_num_vehicles c)%nat ->
  exists st' ind' cost, @split_run NumQ p c pen st ind mv = Ok (st', ind') /\ sp_bwf st' /\
    partitioned_into (i_geno ind) (i_pheno ind') (Nat.max mv (vehicle_lower_bound p)) /\
    length (i_pheno ind') = c_num_vehicles c /\
    serves_all_once (p_dim p) (i_pheno ind') /\
    penalized_cost ind' = Some cost /\
    cost == total_penalized (p_dist p) (p_demand p) (p_cap p) pen (i_pheno ind') /\
    forall segs, segmentation (i_geno ind) segs ->
      (length segs <= Nat.max mv (vehicle_lower_bound p))%nat ->
      (forall r, In r segs -> route_load (p_demand p) r <= p_cap p * c_split_capacity_factor c) ->
      cost <= total_penalized (p_dist p) (p_demand p) (p_cap p) pen segs
              + inject_Z (Z.of_nat (p_dim p - 1)) * (pen * (1 # 1000000)).
Proof. exact (split_run_bellman_optimal p pen c st ind mv). Qed.
Print Assumptions C10_bellman_split_near_optimal.

(** No customer is ever dropped, in any arithmetic with 1e29 < 1e30. [sp_bwf] holds initially
    ([C10_initial_state]) and after every split. *)
Theorem C10_bellman_serves_all {N : Num} (p : problem) (pen : F) (c : config) st
    (ind : individual) (mv : nat) :
  flit (10 ^ 29) 1 <:? fbig = true ->
  c_linear_split c = false -> sp_bwf st ->
  (0 < p_dim p)%nat -> Permutation (i_geno ind) (seq 1 (p_dim p - 1)) -> (1 <= mv)%nat ->
  (Nat.max mv (vehicle_lower_bound p) <= c_num_vehicles c)%nat ->
  forall st' ind', split_run p c pen st ind mv = Ok (st', ind') ->
    sp_bwf st' /\
    partitioned_into (i_geno ind) (i_pheno ind') (Nat.max mv (vehicle_lower_bound p)) /\
    length (i_pheno ind') = c_num_vehicles c /\
    serves_all_once (p_dim p) (i_pheno ind') /\
    i_geno ind' = concat (i_pheno ind').
Proof. exact (split_run_bellman_generic p pen c st ind mv). Qed.
Print Assumptions C10_bellman_serves_all.

Theorem C10_initial_state {N : Num} : sp_bwf split_new.
Proof. exact split_new_bwf. Qed.
Print Assumptions C10_initial_state.

(** Five customers of 0.76 capacity each and four vehicles: no segmentation into four routes
    within 1.5 times the capacity exists.  The traceback runs through cells that were never
    reached, but still ends with one route that serves everybody. *)
Definition c10_p : @problem NumQ := @mkProblem NumQ 6
  (fun i j => Qabs.Qabs (inject_Z (Z.of_nat i) - inject_Z (Z.of_nat j)))
  (fun i => match i with O => 0 | _ => 76 end)
  (fun i => (inject_Z (Z.of_nat i), 0)) 100
  (fun i => filter (fun j => negb (Nat.eqb i j)) [1; 2; 3; 4; 5]%nat)
  (fun y x => 0) (fun d => (Z.of_N d) # 1000) (fun x => x - 1) (fun i => Z.of_nat i).
Definition c10_ind : @individual NumQ := @mkInd NumQ 0 [1; 2; 3; 4; 5]%nat (repeat [] 7) None se_new.

Example C10_unreachable_fleet :
    split_data (p_dim c10_p) (p_dist c10_p) (p_demand c10_p) (p_cap c10_p) 100 (i_geno c10_ind) /\
    tour_weight (p_dist c10_p) (p_demand c10_p) 100 (i_geno c10_ind) <= inject_Z (10 ^ 29) /\
    (Nat.max 4 (vehicle_lower_bound c10_p) <= 7)%nat /\
    match @split_run NumQ c10_p (ex_cfg 7 false) 100 split_new c10_ind 4 with
    | Ok (_, i) => i_pheno i = [[1; 2; 3; 4; 5]; []; []; []; []; []; []]%nat | _ => False end.
Proof.
  split; [|split; [|split]].
  - constructor.
    + cbn; lia.
    + apply Permutation_refl.
    + lra.
    + cbn; lra.
    + intros [|a] _; cbn; lra.
    + intros a b _ _. apply Qabs.Qabs_nonneg.
    + intros a _. cbn [p_dist c10_p]. rewrite Qabs.Qabs_Qminus. reflexivity.
    + reflexivity.
    + apply Qltb_lt. vm_compute. reflexivity.
  - apply Qle_bool_iff. vm_compute. reflexivity.
  - vm_compute. lia.
  - vm_compute. reflexivity.
Qed.

(** Concrete instances. *)
Definition ex_ind : @individual NumQ := @mkInd NumQ 0 [2; 5; 1; 3; 4]%nat (repeat [] 5) None se_new.

Example C07_C09_nonvacuous :
  split_data (p_dim ex_p) (p_dist ex_p) (p_demand ex_p) (p_cap ex_p) 10 (i_geno ex_ind) /\
  on_grid (p_dim ex_p) (p_dist ex_p) (p_demand ex_p) (p_cap ex_p) 10 /\
  c_linear_split (ex_cfg 5 true) = true /\
  (Nat.max 2 (vehicle_lower_bound ex_p) <= c_num_vehicles (ex_cfg 5 true))%nat /\
  match @split_run NumQ ex_p (ex_cfg 5 true) 10 split_new ex_ind 2 with
  | Ok (_, i) => i_pheno i = [[2; 5; 1]; [3; 4]; []; []; []]%nat | _ => False end.
Proof.
  split; [|split; [|split; [|split]]].
  - constructor.
    + cbn; lia.
    + apply NoDup_Permutation; try (repeat constructor; simpl; intuition discriminate).
      intros x; simpl; intuition.
    + lra.
    + cbn; lra.
    + intros a _. do 6 (destruct a; [cbn; lra|]). destruct a; cbn; lra.
    + intros a b _ _. apply Qabs.Qabs_nonneg.
    + intros a _. cbn [p_dist ex_p]. rewrite Qabs.Qabs_Qminus. reflexivity.
    + reflexivity.
    + apply Qltb_lt. vm_compute. reflexivity.
  - exists 1. split; [lra|]. split; [|split].
    + intros a b Ha Hb. cbn in Ha, Hb.
      assert (G : forallb (fun a => forallb (fun b => Z.eqb (Zpos (Qden (p_dist ex_p a b))) 1) (seq 0 6)) (seq 0 6) = true)
        by (vm_compute; reflexivity).
      rewrite forallb_forall in G. specialize (G a ltac:(apply in_seq; lia)).
      rewrite forallb_forall in G. specialize (G b ltac:(apply in_seq; lia)). apply Z.eqb_eq in G.
      exists (Qnum (p_dist ex_p a b)). destruct (p_dist ex_p a b) as [x y]. cbn [Qnum Qden] in *.
      injection G as ->. unfold inject_Z. ring.
    + intros a Ha. exists (Qnum (10 * p_demand ex_p a)). cbn in Ha. do 6 (destruct a; [reflexivity|]). lia.
    + exists 80%Z. reflexivity.
  - reflexivity.
  - vm_compute. lia.
  - vm_compute. reflexivity.
Qed.

(** The Bellman algorithm on the same tour with one vehicle less than it wants, and an admissible
    segmentation it is compared with. *)
Example C10_nonvacuous :
  c_linear_split (ex_cfg 5 false) = false /\
  match @split_run NumQ ex_p (ex_cfg 5 false) 10 split_new ex_ind 2 with
  | Ok (_, i) => i_pheno i = [[2; 5; 1]; [3; 4]; []; []; []]%nat | _ => False end /\
  tour_weight (p_dist ex_p) (p_demand ex_p) 10 (i_geno ex_ind) <= inject_Z (10 ^ 29) /\
  (forall r, In r [[2; 5]; [1; 3; 4]]%nat ->
     route_load (p_demand ex_p) r <= p_cap ex_p * c_split_capacity_factor (ex_cfg 5 false)).
Proof.
  split; [reflexivity|]. split; [vm_compute; reflexivity|]. split.
  - apply Qle_bool_iff. vm_compute. reflexivity.
  - intros r Hr. apply Qle_bool_iff. cbn [In] in Hr. intuition subst; vm_compute; reflexivity.
Qed.
