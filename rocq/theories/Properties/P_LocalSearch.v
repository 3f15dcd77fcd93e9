(** C12 - C17: local search and SWAP*. *)
From Coq Require Import List Arith NArith ZArith QArith Bool Lia Lqa Permutation Sorted.
From Verif.Model Require Import Num Prelude Evaluate Individual Config Sector Random Matrix LinkedList LocalSearch.
From Verif.Spec Require Import Solution LocalSearch.
From Verif.Proofs Require Import Lists QNum EvalFacts EvalThms MatrixFacts LinkFacts LsState LsMoves LsEffect LsDelta
  LsStar LsStarQ LsSearch LsRun LsRunQ LsHistory.
From Verif.Properties Require Import ExampleData.
Import ListNotations.
Open Scope nat_scope.

(** ** C12 *)

(** In every state that the search can reach, for any arithmetic in which 0 < 0 - eps is false:
    the routes are proper doubly linked lists from their start depot to their end depot that
    contain every customer exactly once, with the right positions and cumulated values. *)
Theorem C12_reached_states (N : Num) (p : problem) (c : config) (pen : F) (s : lsearch) :
  approx_lt f0 f0 = false -> reached p c pen s -> exists rs, holds p c pen s rs.
Proof. intros Z R. destruct (reached_sound p c Z pen s R) as (_ & rs & H & _). eauto. Qed.
Print Assumptions C12_reached_states.

(** Each of the nine moves, on every pair of nodes to which the search applies it: computing the
    change succeeds, and if the move is then performed it succeeds too and leaves proper routes
    that differ from the old ones exactly as described by [moved]. *)
Theorem C12_moves (N : Num) (p : problem) (c : config) (pen : F) (s : lsearch) rs m u v :
  approx_lt f0 f0 = false -> holds p c pen s rs -> applicable p c rs m (PN u) v ->
  exists d, delta p pen m s (PN u) v = Ok d /\
    (approx_lt d f0 = true ->
     exists s' rs', perform p pen m (set_count s (s_count s + 1)%Z) (PN u) v = Ok s' /\
       holds p c pen s' rs' /\ moved c rs rs' m (PN u) v).
Proof.
  intros Z H AP.
  assert (exists d, delta p pen m s (PN u) v = Ok d) as [d E].
  { destruct (delta_cases p c pen s rs H m u v AP) as [E|(? & ? & ? & ? & d & E & _)]; eauto. }
  exists d. split; auto. intros L.
  destruct (move_step p c Z pen s rs m u v d H AP E L) as (r1 & r2 & l1 & l2 & s' & _ & _ & _ & _ & E' & ST & M).
  eexists s', _. split; [exact E'|]. split; [apply ST|exact M].
Qed.
Print Assumptions C12_moves.

(** SWAP* on any two different routes of any reachable state *)
Theorem C12_swap_star (N : Num) (p : problem) (c : config) (pen : F) (s : lsearch) rs r1 r2 :
  approx_lt f0 f0 = false -> reached p c pen s -> holds p c pen s rs ->
  r1 < c_num_vehicles c -> r2 < c_num_vehicles c -> r1 <> r2 ->
  exists s' b, swap_star_run p pen s r1 r2 = Ok (s', b) /\
    if b : bool then exists rs', holds p c pen s' rs' /\ (exchanged c rs rs' r1 r2 \/ exchanged c rs rs' r2 r1)
    else holds p c pen s' rs.
Proof.
  intros Z R H H1 H2 NE. destruct (reached_sound p c Z pen s R) as (_ & rs0 & H0 & C0).
  assert (C : caches p c s rs).
  { destruct C0 as [C1 C2 C3]. constructor; auto. intros r n Hr M.
    rewrite (holds_same p c pen s rs rs0 H H0 r Hr). auto. }
  destruct (swap_star_run_ok p c pen s rs r1 r2 H C H1 H2 NE)
    as (s1 & P & C1 & [E|(s' & b & l1 & l2 & d & E & ST & L & SP)]).
  - exists s1, false. split; auto. eapply holds_view; [apply prepared_view|]; eauto.
  - exists s', true. split; auto. eexists. split; [apply SP|]. eapply star_exchanged; eauto.
Qed.
Print Assumptions C12_swap_star.

(** ** C13 *)

(** Exact arithmetic: a non-zero change computed for a move is the change in total penalised
    cost caused by performing it. *)
Theorem C13_delta_exact (p : @problem NumQ) (c : @config NumQ) (pen : Q) (s : @lsearch NumQ) rs m u v (d : @F NumQ) :
  (p_demand p 0%nat == 0)%Q -> (0 < p_dim p) ->
  (forall i j, i < p_dim p -> j < p_dim p -> (p_dist p i j == p_dist p j i)%Q) ->
  holds p c pen s rs -> applicable p c rs m (PN u) v ->
  @delta NumQ p pen m s (PN u) v = Ok d -> ~ (d == 0)%Q ->
  exists s' rs', @perform NumQ p pen m s (PN u) v = Ok s' /\ holds p c pen s' rs' /\ moved c rs rs' m (PN u) v /\
    (d == total_penalized (p_dist p) (p_demand p) (p_cap p) pen (all_routes c rs')
          - total_penalized (p_dist p) (p_demand p) (p_cap p) pen (all_routes c rs))%Q.
Proof.
  intros D0 DP SY H AP E NZ.
  destruct (delta_cases p c pen s rs H m u v AP) as [E0|(r1 & r2 & l1 & l2 & d' & E' & EF)].
  - exfalso. apply NZ. rewrite E0 in E. injection E as <-. reflexivity.
  - rewrite E' in E. injection E as ->.
    destruct (perform_ok p c pen s rs H m u v r1 r2 l1 l2 d EF) as (s' & EP & ST).
    eexists s', _. split; [exact EP|]. split; [apply ST|]. split.
    + eapply effect_moved; eauto. apply (h_serves _ _ _ _ _ H).
    + exact (effect_exact p c pen D0 SY DP s rs m u v r1 r2 l1 l2 d H EF).
Qed.
Print Assumptions C13_delta_exact.

(** ** C14 *)

(** Whatever the random stream and the enabled moves: if the run returns, it returns a solution
    of the same problem that costs no more under the penalty used by the search. *)
Theorem C14_never_worse (p : @problem NumQ) (c : @config NumQ) (pen epen : Q) fuel (s : @lsearch NumQ)
    (i : @individual NumQ) r s' i' r' :
  (p_demand p 0%nat == 0)%Q -> (0 < p_dim p) -> 0 < c_granularity c ->
  (forall i j, i < p_dim p -> j < p_dim p -> (p_dist p i j == p_dist p j i)%Q) ->
  usable p c s -> length (i_pheno i) = c_num_vehicles c -> serves_all_once (p_dim p) (i_pheno i) ->
  @ls_run NumQ p c pen fuel epen s i r = Ok (s', i', r') ->
  serves_all_once (p_dim p) (i_pheno i') /\ i_geno i' = concat (i_pheno i') /\
  length (i_pheno i') = c_num_vehicles c /\
  @evaluate NumQ p epen (i_eval i) (i_pheno i') = Ok (i_eval i') /\
  (total_penalized (p_dist p) (p_demand p) (p_cap p) pen (i_pheno i')
   <= total_penalized (p_dist p) (p_demand p) (p_cap p) pen (i_pheno i))%Q.
Proof.
  intros D0 DP GP SY U HL SV E.
  pose proof (usable_ready p c zero_not_lt_Q s DP GP U) as R.
  destruct (ls_run_partial_ok p c pen zero_not_lt_Q GP DP _ _ _ _ _ _ _ _ R HL SV E)
    as (_ & _ & rs & n & lc & T & K & (P & P1 & P2 & P3 & P4 & _) & _).
  split; auto. split; auto. split; auto. split.
  - rewrite P4. apply evaluate_eq; auto. intros m Hm. eapply Permutation_in in Hm; [|exact P2].
    apply in_seq in Hm. lia.
  - destruct (ls_never_worse p c pen D0 SY DP GP _ _ _ _ _ _ _ _ R HL SV E) as (k & _ & L).
    assert (0 <= inject_Z (Z.of_nat k))%Q by (change 0%Q with (inject_Z 0); rewrite <- Zle_Qle; lia).
    lra.
Qed.
Print Assumptions C14_never_worse.

(** The same in any arithmetic, without the cost: the result is a finished solution of the same
    customers, reached by improving steps only. *)
Theorem C14_same_customers (N : Num) (p : problem) (c : config) (pen epen : F) fuel (s : lsearch)
    (i : individual) r s' i' r' :
  approx_lt f0 f0 = false -> 0 < p_dim p -> 0 < c_granularity c ->
  usable p c s -> length (i_pheno i) = c_num_vehicles c -> serves_all_once (p_dim p) (i_pheno i) ->
  ls_run p c pen fuel epen s i r = Ok (s', i', r') ->
  serves_all_once (p_dim p) (i_pheno i') /\ i_geno i' = concat (i_pheno i') /\
  length (i_pheno i') = c_num_vehicles c /\ evaluate p epen (i_eval i) (i_pheno i') = Ok (i_eval i').
Proof.
  intros Z DP GP U HL SV E.
  pose proof (usable_ready p c Z s DP GP U) as R.
  destruct (ls_run_partial_ok p c pen Z GP DP _ _ _ _ _ _ _ _ R HL SV E)
    as (_ & _ & rs & n & lc & T & K & (P & P1 & P2 & P3 & P4 & _) & _).
  split; auto. split; auto. split; auto.
  rewrite P4. apply evaluate_eq; auto. intros m Hm. eapply Permutation_in in Hm; [|exact P2].
  apply in_seq in Hm. lia.
Qed.
Print Assumptions C14_same_customers.

(** ** C15 *)

(** The run returns (it does not run out of fuel and never panics) as soon as the allowed number
    of passes exceeds cost / tolerance, and the number of performed moves is at most the saved
    cost / tolerance. *)
Theorem C15_terminates (p : @problem NumQ) (c : @config NumQ) (pen epen : Q) fuel (s : @lsearch NumQ)
    (i : @individual NumQ) r :
  (p_demand p 0%nat == 0)%Q -> (0 < p_dim p) -> 0 < c_granularity c ->
  (forall i j, i < p_dim p -> j < p_dim p -> (p_dist p i j == p_dist p j i)%Q) ->
  (forall i j, i < p_dim p -> j < p_dim p -> (0 <= p_dist p i j)%Q) -> (0 <= pen)%Q ->
  usable p c s -> length (i_pheno i) = c_num_vehicles c -> serves_all_once (p_dim p) (i_pheno i) ->
  (total_penalized (p_dist p) (p_demand p) (p_cap p) pen (i_pheno i) / (1 # 1000000)
   < inject_Z (Z.of_nat fuel))%Q ->
  exists s' i' r', @ls_run NumQ p c pen fuel epen s i r = Ok (s', i', r') /\
    (inject_Z (s_count s') <=
     (total_penalized (p_dist p) (p_demand p) (p_cap p) pen (i_pheno i)
      - total_penalized (p_dist p) (p_demand p) (p_cap p) pen (i_pheno i')) / (1 # 1000000))%Q.
Proof.
  intros D0 DP GP SY NN PN0 U HL SV LF.
  pose proof (usable_ready p c zero_not_lt_Q s DP GP U) as R.
  assert (LF' : (total_penalized (p_dist p) (p_demand p) (p_cap p) pen (i_pheno i)
                 < inject_Z (Z.of_nat fuel) * (1 # 1000000))%Q).
  { unfold Qdiv in LF. change (/ (1 # 1000000))%Q with 1000000%Q in LF. lra. }
  destruct (ls_terminates p c pen D0 SY DP GP fuel epen s i r R HL SV NN PN0 LF') as (s' & i' & r' & E & _).
  exists s', i', r'. split; auto.
  destruct (ls_never_worse p c pen D0 SY DP GP _ _ _ _ _ _ _ _ R HL SV E) as (k & -> & L).
  unfold Qdiv. change (/ (1 # 1000000))%Q with 1000000%Q. lra.
Qed.
Print Assumptions C15_terminates.

(** ** C16 *)

(** In every reachable state a cached record that the code would reuse (not older than the last
    change of its route) holds what a computation from the present route gives. *)
Theorem C16_cache_not_stale (N : Num) (p : problem) (c : config) (pen : F) (s : lsearch) rs r n :
  approx_lt f0 f0 = false -> reached p c pen s -> holds p c pen s rs -> r < c_num_vehicles c ->
  (r_mod (s_routes s r) <= t_calc (s_best s r n))%Z ->
  s_best s r n =
    fold_left (fun t e => tbi_add t (fst e) (snd e))
      (map (fun e => (dist p (fst e) (PN n) +: dist p (PN n) (snd e) -: dist p (fst e) (snd e), fst e)%num)
           (pairs (stops r (rs r))))
      (tbi_reset (t_calc (s_best s r n))).
Proof.
  intros Z R H Hr M. destruct (reached_sound p c Z pen s R) as (_ & rs0 & H0 & [C1 _ _]).
  rewrite (holds_same p c pen s rs rs0 H H0 r Hr). exact (C1 r n Hr M).
Qed.
Print Assumptions C16_cache_not_stale.

(** Exact arithmetic: the cost with which SWAP* chose the step it performs is the real change. *)
Theorem C16_cost_exact (p : @problem NumQ) (c : @config NumQ) (pen : Q) (s : @lsearch NumQ) rs r1 r2 s' :
  (p_demand p 0%nat == 0)%Q -> (0 < p_dim p) ->
  (forall i j, i < p_dim p -> j < p_dim p -> (p_dist p i j == p_dist p j i)%Q) ->
  reached p c pen s -> holds p c pen s rs ->
  r1 < c_num_vehicles c -> r2 < c_num_vehicles c -> r1 <> r2 ->
  @swap_star_run NumQ p pen s r1 r2 = Ok (s', true) ->
  exists s1 b (d : Q) rs', @swap_star_best NumQ p pen s r1 r2 = Ok (s1, b) /\ b_cost b = Some d /\
    holds p c pen s' rs' /\ (exchanged c rs rs' r1 r2 \/ exchanged c rs rs' r2 r1) /\
    (d == total_penalized (p_dist p) (p_demand p) (p_cap p) pen (all_routes c rs')
          - total_penalized (p_dist p) (p_demand p) (p_cap p) pen (all_routes c rs))%Q /\
    (d <= - (1 # 1000000))%Q.
Proof.
  intros D0 DP SY R H H1 H2 NE E. destruct (reached_sound p c zero_not_lt_Q pen s R) as (_ & rs0 & H0 & C0).
  assert (C : caches p c s rs).
  { destruct C0 as [C1 C2 C3]. constructor; auto. intros r n Hr M.
    rewrite (holds_same p c pen s rs rs0 H H0 r Hr). auto. }
  destruct (swap_star_run_full p c pen s rs r1 r2 H C H1 H2 NE)
    as (s1 & P & C1 & [E'|(s2 & b & l1 & l2 & d & E' & EB & EC & ST & L & SP)]); [congruence|].
  assert (s2 = s') by congruence. subst s2.
  exists s1, b, d. eexists. split; [exact EB|]. split; [exact EC|]. split; [apply SP|].
  split; [eapply star_exchanged; eauto|].
  assert (H' : holds p c pen s1 rs) by (eapply holds_view; [apply prepared_view|]; eauto).
  split; [exact (star_exact p c pen D0 s1 rs r1 r2 b l1 l2 d H' H1 H2 NE ST)|].
  apply approx_gte_Q_false in L. numq. lra.
Qed.
Print Assumptions C16_cost_exact.

(** ** C17 *)

(** The record after offering any sequence of (cost, position) to a reset record: [sl] is what it
    holds, in order; nothing that was left out is cheaper. *)
Theorem C17_three_best (L : list (Q * ptr)) (calc : Z) :
  exists sl R, 
    let t := fold_left (fun t (e : Q * ptr) => @tbi_add NumQ t (fst e) (snd e)) L (@tbi_reset NumQ calc) in
    let slot k := match nth_error sl k with Some (x, a) => (Some x, Some a) | None => (None, None) end in
    (t_one t = slot 0 /\ t_two t = slot 1 /\ t_three t = slot 2) /\
    Permutation (sl ++ R) L /\ length sl = Nat.min 3 (length L) /\
    StronglySorted (fun x y : Q * ptr => (fst x <= fst y)%Q) sl /\
    (forall y z, In y sl -> In z R -> (fst y <= fst z)%Q).
Proof.
  destruct (offered_best L calc) as (sl & R & (S1 & S2 & S3) & P & SS & CH & LL).
  exists sl, R. cbv zeta. split; [|auto].
  unfold offer, slots in *.
  split; [|split]; (eapply eq_trans; [first [exact S1|exact S2|exact S3]|]); destruct (nth_error sl _) as [[? ?]|]; auto.
Qed.
Print Assumptions C17_three_best.

(** ** The neighbour lists of the code meet the hypotheses above *)
Theorem C12_neighbours_applicable (N : Num) (p : problem) (c : config) (sqrt_ round_ : F -> F) lsort (d : dmatrix) g :
  sort_contract lsort -> 2 <= p_dim p -> dfun sqrt_ round_ d (p_dim p) g -> no_nan g (p_dim p) ->
  c_granularity c <= Nat.min 200 (p_dim p - 2) ->
  exists cm, correlation_new sqrt_ round_ lsort d = Ok cm /\ neighbours_ok p c (cm_store cm).
Proof.
  intros Hs H2 Hd Hn Hg. destruct (correlation_spec lsort sqrt_ round_ d _ g Hd Hs Hn H2) as (cm & E & Ew & Hm).
  exists cm. split; auto. pose proof Hm as (_ & Hc & Hl & _). split; [lia|]. split; [congruence|].
  intros u v Hu I.
  pose proof (mfun_row _ _ _ _ u (c_granularity c) Hm ltac:(lia) ltac:(lia)) as ER.
  unfold m_slice in ER. rewrite Nat.add_0_r in ER. destruct (_ <=? _); [|discriminate]. injection ER as ER.
  unfold near in I. rewrite ER in I. apply in_map_iff in I. destruct I as (k & <- & Hk). apply in_seq in Hk.
  destruct (nbrs_props lsort g (p_dim p) (cm_width cm) u Hs Hn ltac:(lia) ltac:(lia)) as (_ & HB & _).
  destruct (HB (nth k (nbrs lsort g (p_dim p) (cm_width cm) u) 0)) as [B1 B2].
  - apply nth_In. rewrite nbrs_length; auto; lia.
  - split; auto; lia.
Qed.
Print Assumptions C12_neighbours_applicable.

(** ** Examples *)

(** Six nodes, granularity 3, three vehicles; the neighbours of each customer by distance. *)
Open Scope Q_scope.
Definition ls_cfg (nv gran : nat) : @config NumQ := @mkConfig NumQ
  None (20 * 1000) nv 60
  25 100 40 4 5 (2 # 10) 2 (5 # 10)
  (3 # 2) true
  true gran true true true true true true true true true true
  10 (12 # 10) (85 # 100)
  10 10 true 1 1 10
  false 1 1000 50 false (2 # 100).
Close Scope Q_scope.
Definition ls_corr : matrix nat := mkMatrix 6 4
  [1;3;2;4;  2;3;4;5;  1;5;3;4;  4;1;2;5;  3;1;2;5;  2;1;3;4].
Definition ls_rng : rng := mkRng (fun k => N.of_nat (7 * k + 3)) 0.
Definition ls_ind (routes : list (list nat)) : @individual NumQ :=
  mkInd 0 (concat routes) routes None (@se_new NumQ).
Definition ls_start : @lsearch NumQ := ls_new ex_p ls_corr ls_rng.
Definition bad_routes : list (list nat) := [[1; 4]; [3; 2; 5]; []].

Fact ls_corr_ok : neighbours_ok ex_p (ls_cfg 3 3) ls_corr.
Proof.
  split; [cbn; lia|]. split; [reflexivity|]. intros u v Hu I. cbn in Hu.
  do 6 (destruct u as [|u]; [vm_compute in I; cbn [p_dim ex_p]; lia|]). lia.
Qed.

(** C12, C14, C15: the run on a bad solution performs nine moves and returns a cheaper one. *)
Example ls_run_example :
  match @ls_run NumQ ex_p (ls_cfg 3 4) 10%Q 50 10%Q ls_start (ls_ind [[5; 4; 2; 3; 1]; []; []]) ls_rng with
  | Ok (s', i', _) => Some (i_pheno i', s_count s', option_map Qred (se_cost (i_eval i')))
  | Err _ => None
  end = Some ([[2; 5; 1]; [4; 3]; []], 9%Z, Some 36%Q) /\
  (total_penalized (p_dist ex_p) (p_demand ex_p) (p_cap ex_p) 10 [[5; 4; 2; 3; 1]; []; []]%nat == 126)%Q.
Proof. split; vm_compute; reflexivity. Qed.
Example ls_usable : usable ex_p (ls_cfg 3 3) ls_start.
Proof. apply us_new. apply ls_corr_ok. Qed.

(** A loaded state, and moves on it *)
Definition loaded_state : @lsearch NumQ :=
  match load_individual ex_p (ls_cfg 3 3) 10%Q (ls_reset ls_start) [[1; 4]; [3; 2; 5]; []] with
  | Ok s => s
  | Err _ => ls_start
  end.
Example loaded_reached : reached ex_p (ls_cfg 3 3) 10%Q loaded_state.
Proof.
  assert (SV : serves_all_once (p_dim ex_p) [[1; 4]; [3; 2; 5]; []]).
  { apply NoDup_Permutation; [repeat constructor; cbn; lia|apply seq_NoDup|]. intros x. rewrite in_seq. cbn. lia. }
  destruct (load_ok ex_p (ls_cfg 3 3) 10%Q ls_start [[1; 4]; [3; 2; 5]; []]) as (_ & s' & E & _); auto.
  { apply ls_new_ready. apply ls_corr_ok. }
  unfold loaded_state. rewrite E.
  apply (re_new _ _ _ ls_corr ls_rng [[1; 4]; [3; 2; 5]; []]); auto. apply ls_corr_ok.
Qed.

(** C13: a worsening relocation and an improving exchange, with their real effect *)
Example delta_example :
  (match @delta NumQ ex_p 10%Q RelocateSingle loaded_state (PN 1) (PN 2) with Ok d => Some (Qred d) | Err _ => None end)
    = Some 22%Q /\
  (total_penalized (p_dist ex_p) (p_demand ex_p) (p_cap ex_p) 10 [[4]; [3; 2; 1; 5]; []]%nat
   - total_penalized (p_dist ex_p) (p_demand ex_p) (p_cap ex_p) 10 [[1; 4]; [3; 2; 5]; []]%nat == 22)%Q.
Proof. split; vm_compute; reflexivity. Qed.

(** C16: SWAP* exchanges customers 1 and 3 and computes the saving 10 *)
Example swap_star_example :
  (match @swap_star_run NumQ ex_p 10%Q loaded_state 0 1 with
   | Ok (s, b) => Some (b, collect 9 (s_links s) (Some (PS 0)), collect 9 (s_links s) (Some (PS 1)))
   | Err _ => None
   end) = Some (true, Ok [4; 3], Ok [2; 5; 1]) /\
  (match @swap_star_best NumQ ex_p 10%Q loaded_state 0 1 with
   | Ok (_, b) => option_map Qred (b_cost b)
   | Err _ => None
   end) = Some (-10)%Q /\
  (total_penalized (p_dist ex_p) (p_demand ex_p) (p_cap ex_p) 10 [[4; 3]; [2; 5; 1]; []]%nat
   - total_penalized (p_dist ex_p) (p_demand ex_p) (p_cap ex_p) 10 [[1; 4]; [3; 2; 5]; []]%nat == - 10)%Q.
Proof. split; [|split]; vm_compute; reflexivity. Qed.

(** C17 *)
Example three_best_example :
  let t := fold_left (fun t (e : Q * ptr) => @tbi_add NumQ t (fst e) (snd e))
             [(5%Q, PN 1); (2%Q, PN 2); (7%Q, PN 3); (1%Q, PN 4)] (@tbi_reset NumQ 0) in
  (t_one t, t_two t, t_three t) = ((Some 1%Q, Some (PN 4)), (Some 2%Q, Some (PN 2)), (Some 5%Q, Some (PN 1))).
Proof. vm_compute. reflexivity. Qed.

(** C37 in the search itself: with the default granularity 20 the row of a customer of a small
    instance is left; the search is handed the customer itself as its neighbour, and walking a
    route after such a move never ends. *)
Example C37_search_small_instance_refuted :
  match @ls_run NumQ ex_p (ls_cfg 3 20) 10%Q 50 10%Q ls_start (ls_ind [[5; 4; 2; 3; 1]; []; []]) ls_rng with
  | Ok _ => False
  | Err _ => True
  end.
Proof. vm_compute. exact I. Qed.
