(** C60: the local search ends in a local optimum of the moves it tries. *)
From Coq Require Import List Arith NArith ZArith QArith Qabs Bool Lia Lqa Permutation.
From Verif.Model Require Import Num Prelude Evaluate Individual Config Sector Random Matrix LinkedList LocalSearch.
From Verif.Spec Require Import Solution LocalSearch LocalOptimum.
From Verif.Proofs Require Import Lists QNum EvalFacts EvalThms LsState LsMoves LsDelta LsStar LsStarQ
  LsSearch LsRun LsRunQ LsHistory LsOptimum.
From Verif.Properties Require Import ExampleData P_LocalSearch.
Import ListNotations.
Open Scope nat_scope.

(** Whatever the random stream: no enabled move of a customer [u] and one of its neighbours [v]
    saves more than the tolerance on the returned solution. *)
Theorem C60_local_optimum (p : @problem NumQ) (c : @config NumQ) (pen epen : Q) fuel (s : @lsearch NumQ)
    (i : @individual NumQ) r s' i' r' :
  (p_demand p 0%nat == 0)%Q -> (0 < p_dim p) -> 0 < c_granularity c ->
  (forall i j, i < p_dim p -> j < p_dim p -> (p_dist p i j == p_dist p j i)%Q) ->
  usable p c s -> length (i_pheno i) = c_num_vehicles c -> serves_all_once (p_dim p) (i_pheno i) ->
  @ls_run NumQ p c pen fuel epen s i r = Ok (s', i', r') ->
  forall m u v sol', enabled c m = true -> 0 < u < p_dim p -> In v (near c (s_corr s) u) ->
    neighbour (i_pheno i') sol' m u v ->
    (total_penalized (p_dist p) (p_demand p) (p_cap p) pen (i_pheno i')
     <= total_penalized (p_dist p) (p_demand p) (p_cap p) pen sol' + (1 # 1000000))%Q.
Proof.
  intros D0 DP GP SY U HL SV E m u v sol' EM Hu I NB.
  pose proof (usable_ready p c zero_not_lt_Q s DP GP U) as R.
  destruct (ls_run_settled _ _ _ _ _ _ _ _ _ _ _ _ zero_not_lt_Q GP DP R HL SV E)
    as (rs & n & lc & H & _ & P & _ & [O1 _ _] & _).
  pose proof (cost_perm p pen _ _ P) as C. unfold total_penalized in *.
  pose proof (optimum_pair p c pen D0 SY DP s' rs H m u v sol' (O1 u v Hu I) EM (neighbour_perm _ _ _ P _ _ _ NB)) as L.
  unfold total_penalized in L. lra.
Qed.
Print Assumptions C60_local_optimum.

(** With SWAP* switched on, if the run has performed a move at all: opening an empty route with
    an enabled move saves nothing either. *)
Theorem C60_empty_routes (p : @problem NumQ) (c : @config NumQ) (pen epen : Q) fuel (s : @lsearch NumQ)
    (i : @individual NumQ) r s' i' r' :
  (p_demand p 0%nat == 0)%Q -> (0 < p_dim p) -> 0 < c_granularity c ->
  (forall i j, i < p_dim p -> j < p_dim p -> (p_dist p i j == p_dist p j i)%Q) ->
  usable p c s -> length (i_pheno i) = c_num_vehicles c -> serves_all_once (p_dim p) (i_pheno i) ->
  @ls_run NumQ p c pen fuel epen s i r = Ok (s', i', r') -> c_swap_star c = true -> (0 < s_count s')%Z ->
  forall m u sol', enabled c m = true -> 0 < u < p_dim p -> opens (i_pheno i') sol' m u ->
    (total_penalized (p_dist p) (p_demand p) (p_cap p) pen (i_pheno i')
     <= total_penalized (p_dist p) (p_demand p) (p_cap p) pen sol' + (1 # 1000000))%Q.
Proof.
  intros D0 DP GP SY U HL SV E SS CN m u sol' EM Hu NB.
  pose proof (usable_ready p c zero_not_lt_Q s DP GP U) as R.
  destruct (ls_run_settled _ _ _ _ _ _ _ _ _ _ _ _ zero_not_lt_Q GP DP R HL SV E)
    as (rs & n & lc & H & _ & P & K & [_ O2 _] & L0).
  pose proof (cost_perm p pen _ _ P) as C. unfold total_penalized in *.
  pose proof (optimum_empty p c pen D0 SY DP s' rs H m u sol' (O2 (L0 SS ltac:(lia)) u Hu) EM (opens_perm _ _ _ P _ _ NB)) as L.
  unfold total_penalized in L. lra.
Qed.
Print Assumptions C60_empty_routes.

(** With SWAP* switched on and distances that satisfy the triangle inequality: no exchange of two
    customers between two routes whose sectors overlap, and no change of route of one customer,
    saves more than three tolerances, whatever places the customers take.  (The pairs that the
    code leaves out by its bound are not better, the three best places are enough.) *)
Theorem C60_swap_star (p : @problem NumQ) (c : @config NumQ) (pen epen : Q) fuel (s : @lsearch NumQ)
    (i : @individual NumQ) r s' i' r' :
  (p_demand p 0%nat == 0)%Q -> (0 < p_dim p) -> 0 < c_granularity c ->
  (forall i j k, i < p_dim p -> j < p_dim p -> k < p_dim p -> (p_dist p i k <= p_dist p i j + p_dist p j k)%Q) ->
  usable p c s -> length (i_pheno i) = c_num_vehicles c -> serves_all_once (p_dim p) (i_pheno i) ->
  @ls_run NumQ p c pen fuel epen s i r = Ok (s', i', r') -> c_swap_star c = true ->
  forall l1 l2 sol', l1 <> [] -> l2 <> [] -> overlaps (sector_of p l1) (sector_of p l2) = true ->
    exchange (i_pheno i') sol' l1 l2 ->
    (total_penalized (p_dist p) (p_demand p) (p_cap p) pen (i_pheno i')
     <= total_penalized (p_dist p) (p_demand p) (p_cap p) pen sol' + (3 # 1000000))%Q.
Proof.
  intros D0 DP GP TR U HL SV E SS l1 l2 sol' N1 N2 OV NB.
  pose proof (usable_ready p c zero_not_lt_Q s DP GP U) as R.
  destruct (ls_run_settled _ _ _ _ _ _ _ _ _ _ _ _ zero_not_lt_Q GP DP R HL SV E)
    as (rs & n & lc & H & CA & P & _ & [_ _ O3] & _).
  pose proof (cost_perm p pen _ _ P) as C.
  pose proof (optimum_exchange p c pen D0 DP TR s' rs H CA (O3 SS) l1 l2 sol' N1 N2 OV (exchange_perm _ _ _ P _ _ NB)) as L.
  unfold total_penalized in *. lra.
Qed.
Print Assumptions C60_swap_star.

(** Any arithmetic: the second series of moves of a pair, meant to put [u] directly behind the
    depot in front of [v], is called with [v] itself; nothing of it is ever performed. *)
Theorem C60_depot_moves_dead (N : Num) (p : problem) (c : config) (pen : F) (s : lsearch) u v :
  try_moves p pen (neighbor_moves c) s u v = Ok None -> try_moves p pen (depot_moves c) s u v = Ok None.
Proof. rewrite !try_moves_none. intros H m I. apply H, depot_in; auto. Qed.
Print Assumptions C60_depot_moves_dead.

(** ** What the search leaves undone *)

(** Node 0 is the depot; distances are the sum of the differences of the coordinates. *)
Definition lo_x (i : nat) : Q := nth i [0; 5; 10; 20; 20; 10]%Q 0%Q.
Definition lo_y (i : nat) : Q := nth i [0; 2; 1; 1; -1; -1]%Q 0%Q.
Definition lo_p (dim : nat) (cap : Q) : @problem NumQ := @mkProblem NumQ
  dim
  (fun i j => Qabs (lo_x i - lo_x j) + Qabs (lo_y i - lo_y j))%Q
  (fun i => if i =? 0 then 0%Q else 1%Q)
  (fun i => (lo_x i, lo_y i))
  cap
  (fun i => filter (fun j => negb (Nat.eqb i j)) (seq 1 (dim - 1)))
  (fun y x => if Qle_bool 0 x then 0%Q else 3%Q)
  (fun d => ((Z.of_N d) # 1000)%Q)
  (fun x => (x - 1)%Q)
  (fun i => Z.of_nat i).
(** The default configuration with a chosen fleet, granularity and SWAP* switched on or off *)
Open Scope Q_scope.
Definition lo_cfg (nv gran : nat) (star : bool) : @config NumQ := @mkConfig NumQ
  None (20 * 1000) nv 60
  25 100 40 4 5 (2 # 10) 2 (5 # 10)
  (3 # 2) true
  true gran true true true true true true true true true star
  10 (12 # 10) (85 # 100)
  10 10 true 1 1 10
  false 1 1000 50 false (2 # 100).
Close Scope Q_scope.
Definition lo_corr (dim : nat) : matrix nat := mkMatrix dim (dim - 2)
  (concat (map (fun i => firstn (dim - 2) (filter (fun j => negb (Nat.eqb i j)) (seq 1 (dim - 1)))) (seq 0 dim))).
Definition lo_start (dim : nat) (cap : Q) : @lsearch NumQ := ls_new (lo_p dim cap) (lo_corr dim) ls_rng.

Definition neighbours_okb {N : Num} (p : problem) (c : config) (m : matrix nat) : bool :=
  (c_granularity c <=? m_cols m) && (length (m_data m) =? p_dim p * m_cols m) &&
  forallb (fun u => forallb (fun v => (0 <? v) && (v <? p_dim p) && negb (v =? u)) (near c m u)) (seq 1 (p_dim p - 1)).
Lemma neighbours_okb_ok {N : Num} (p : problem) (c : config) (m : matrix nat) :
  neighbours_okb p c m = true -> neighbours_ok p c m.
Proof.
  unfold neighbours_okb. rewrite !andb_true_iff, forallb_forall, Nat.leb_le, Nat.eqb_eq. intros ((A & B) & C).
  split; auto. split; auto. intros u v Hu I.
  assert (Iu : In u (seq 1 (p_dim p - 1))) by (apply in_seq; lia). specialize (C u Iu). rewrite forallb_forall in C.
  specialize (C v I). rewrite !andb_true_iff, !Nat.ltb_lt, negb_true_iff, Nat.eqb_neq in C. lia.
Qed.
Fact lo_usable6 star : usable (lo_p 6 9) (lo_cfg 1 4 star) (lo_start 6 9).
Proof. apply us_new, neighbours_okb_ok. destruct star; vm_compute; reflexivity. Qed.
Fact lo_usable3 star : usable (lo_p 3 1) (lo_cfg 2 1 star) (lo_start 3 1).
Proof. apply us_new, neighbours_okb_ok. destruct star; vm_compute; reflexivity. Qed.
Fact lo_sym dim cap i j : (p_dist (lo_p dim cap) i j == p_dist (lo_p dim cap) j i)%Q.
Proof. cbn [p_dist lo_p]. rewrite (Qabs_Qminus (lo_x i)), (Qabs_Qminus (lo_y i)). reflexivity. Qed.
Fact lo_triangle dim cap i j k :
  (p_dist (lo_p dim cap) i k <= p_dist (lo_p dim cap) i j + p_dist (lo_p dim cap) j k)%Q.
Proof.
  cbn [p_dist lo_p].
  pose proof (Qabs_triangle (lo_x i - lo_x j) (lo_x j - lo_x k)) as X.
  pose proof (Qabs_triangle (lo_y i - lo_y j) (lo_y j - lo_y k)) as Y.
  assert (EX : (lo_x i - lo_x j + (lo_x j - lo_x k) == lo_x i - lo_x k)%Q) by lra. rewrite EX in X.
  assert (EY : (lo_y i - lo_y j + (lo_y j - lo_y k) == lo_y i - lo_y k)%Q) by lra. rewrite EY in Y. lra.
Qed.

(** The front of a route: customer 2 is a neighbour of customer 1 and comes first in its route;
    all moves are switched on.  The run keeps the route 2 3 4 5 1 although putting 1 in front
    of 2 saves 2. *)
Theorem C60_front_refuted : forall star,
  exists p c (pen : Q) (s : @lsearch NumQ) (i : @individual NumQ) r s' i' r' u v A B,
    @ls_run NumQ p c pen 50 pen s i r = Ok (s', i', r') /\
    usable p c s /\ (forall m, enabled c m = true) /\ c_swap_star c = star /\ 
    serves_all_once (p_dim p) (i_pheno i) /\ length (i_pheno i) = c_num_vehicles c /\
    0 < u < p_dim p /\ In v (near c (s_corr s) u) /\
    i_pheno i' = [v :: A ++ u :: B] /\
    (total_penalized (p_dist p) (p_demand p) (p_cap p) pen [u :: v :: A ++ B] + 2
     <= total_penalized (p_dist p) (p_demand p) (p_cap p) pen (i_pheno i'))%Q.
Proof.
  intros star. exists (lo_p 6 9), (lo_cfg 1 4 star), 10%Q, (lo_start 6 9), (ls_ind [[2; 3; 4; 5; 1]]), ls_rng.
  assert (G : match @ls_run NumQ (lo_p 6 9) (lo_cfg 1 4 star) 10%Q 50 10%Q (lo_start 6 9) (ls_ind [[2; 3; 4; 5; 1]]) ls_rng with
              | Ok (_, i', _) => i_pheno i' = [[2; 3; 4; 5; 1]] | Err _ => False end)
    by (destruct star; vm_compute; reflexivity).
  destruct (@ls_run _ _ _ _ _ _ _ _) as [[[s' i'] r']|]; [|destruct G].
  exists s', i', r', 1, 2, [3; 4; 5], []. split; auto. split; [apply lo_usable6|]. split; [intros []; reflexivity|].
  split; [reflexivity|]. split.
  { apply NoDup_Permutation; [repeat constructor; cbn; lia|apply seq_NoDup|]. intros x. rewrite in_seq. cbn. lia. }
  split; [reflexivity|]. split; [cbn; lia|]. split; [cbn; auto|]. split; [exact G|].
  rewrite G. vm_compute. discriminate.
Qed.
Print Assumptions C60_front_refuted.

(** Empty routes: two customers that do not fit into one vehicle, a second vehicle without
    customers.  The run keeps both customers in the overfull route, with SWAP* on or off. *)
Theorem C60_empty_refuted : forall star,
  exists p c (pen : Q) (s : @lsearch NumQ) (i : @individual NumQ) r s' i' r' u B,
    @ls_run NumQ p c pen 50 pen s i r = Ok (s', i', r') /\
    usable p c s /\ (forall m, enabled c m = true) /\ c_swap_star c = star /\
    serves_all_once (p_dim p) (i_pheno i) /\ length (i_pheno i) = c_num_vehicles c /\
    i_pheno i' = [u :: B; []] /\
    opens (i_pheno i') [B; [u]] RelocateSingle u /\
    (total_penalized (p_dist p) (p_demand p) (p_cap p) pen [B; [u]] + 900
     <= total_penalized (p_dist p) (p_demand p) (p_cap p) pen (i_pheno i'))%Q.
Proof.
  intros star. exists (lo_p 3 1), (lo_cfg 2 1 star), 1000%Q, (lo_start 3 1), (ls_ind [[1; 2]; []]), ls_rng.
  assert (G : match @ls_run NumQ (lo_p 3 1) (lo_cfg 2 1 star) 1000%Q 50 1000%Q (lo_start 3 1) (ls_ind [[1; 2]; []]) ls_rng with
              | Ok (_, i', _) => i_pheno i' = [[1; 2]; []] | Err _ => False end)
    by (destruct star; vm_compute; reflexivity).
  destruct (@ls_run _ _ _ _ _ _ _ _) as [[[s' i'] r']|]; [|destruct G].
  exists s', i', r', 1, [2]. split; auto. split; [apply lo_usable3|]. split; [intros []; reflexivity|].
  split; [reflexivity|]. split.
  { apply NoDup_Permutation; [repeat constructor; cbn; lia|apply seq_NoDup|]. intros x. rewrite in_seq. cbn. lia. }
  split; [reflexivity|]. split; [exact G|]. rewrite G. split.
  - exists [], [2], []. auto.
  - vm_compute. discriminate.
Qed.
Print Assumptions C60_empty_refuted.

(** ** Examples *)

(** The run of [ls_run_example]: nine moves performed, SWAP* on, all hypotheses met, and a
    neighbour of the result (customer 4 behind customer 1, in another route). *)
Definition lo_run := @ls_run NumQ ex_p (ls_cfg 3 4) 10%Q 50 10%Q ls_start (ls_ind [[5; 4; 2; 3; 1]; []; []]) ls_rng.
Example C60_nonvacuous :
  usable ex_p (ls_cfg 3 4) ls_start /\ c_swap_star (ls_cfg 3 4) = true /\
  match lo_run with
  | Ok (s', i', _) =>
      (0 <? s_count s')%Z = true /\ i_pheno i' = [[2; 5; 1]; [4; 3]; []] /\
      overlaps (sector_of ex_p [2; 5; 1]) (sector_of ex_p [4; 3]) = true
  | Err _ => False
  end /\
  In 1 (near (ls_cfg 3 4) ls_corr 4) /\
  neighbour [[2; 5; 1]; [4; 3]; []] [[2; 5; 1; 4]; [3]; []] RelocateSingle 4 1 /\
  opens [[2; 5; 1]; [4; 3]; []] [[2; 5; 1]; [3]; [4]] RelocateSingle 4 /\
  exchange [[2; 5; 1]; [4; 3]; []] [[2; 3; 5]; [1; 4]; []] [2; 5; 1] [4; 3].
Proof.
  split; [apply us_new, neighbours_okb_ok; vm_compute; reflexivity|]. split; [reflexivity|].
  split; [vm_compute; auto|]. split; [cbn; auto|]. split; [|split].
  - apply (re_other _ _ _ _ _ [] [3] [2; 5] [] [[]]); [apply perm_swap|apply perm_swap].
  - exists [], [3], [[2; 5; 1]]. split.
    + apply (Permutation_app_comm [[2; 5; 1]] [[4; 3]; []]).
    + apply (Permutation_app_comm [[2; 5; 1]] [[3]; [4]]).
  - apply (ex_two _ _ _ _ 1 3 [2; 5] [] [4] [] [2] [5] [] [4] [[]]); auto.
Qed.
