(** Ruin and recreate (C18-C22, C24, C47). *)
From Coq Require Import List Arith NArith ZArith Bool Lia Permutation QArith Qabs Lqa.
From Verif.Model Require Import Num Prelude Evaluate Individual Config Matrix World Schedule RuinRecreate.
From Verif.Spec Require Import Solution Population RuinRecreate.
From Verif.Proofs Require Import Lists QNum EvalFacts EvalThms MatrixFacts RrRuin RrRuinRun RrRecreate RrRun RrQ RrMachine.
From Verif.Properties Require Import ExampleData P_Population.
Import ListNotations.
Open Scope nat_scope.

Local Definition any {N : Num} (_ : rroute) : Prop := True.
Local Lemma any_ready (N : Num) p c E st : reals_below_one p -> 2 <= p_dim p -> 0 < c_num_vehicles c ->
  rr_reached p c E st -> rr_best st <> None -> ready p c any st.
Proof. intros. apply (reached_ready p c E any); unfold any; auto. Qed.

(** ** C18 *)

(** In any arithmetic, in every state of the object after loading: the current, the accepted and
    the best solution serve every customer once, with the right stored locations. *)
Theorem C18_reached (N : Num) (p : problem) (c : config) (E : env) (st : rrstate) :
  reals_below_one p -> 2 <= p_dim p -> 0 < c_num_vehicles c ->
  rr_reached p c E st -> rr_best st <> None ->
  settled_sol p c (rr_sol st) /\ settled_sol p c (rr_cur st) /\
  exists b, rr_best st = Some b /\ settled_sol p c b.
Proof.
  intros B D V R HB. destruct (any_ready N p c E st B D V R HB) as (S1 & S2 & b & EB & SB).
  split; [apply S1|]. split; [apply S2|]. exists b. split; auto. apply SB.
Qed.
Print Assumptions C18_reached.

(** A ruin step succeeds, and every customer is then on one route or waiting once. *)
Theorem C18_ruin (N : Num) (p : problem) (c : config) (s : rsol) corr r :
  reals_below_one p -> 2 <= p_dim p -> settled_sol p c s -> rows_ok p corr ->
  exists s' r', ruin_run p c corr s r = Ok (s', r') /\ all_customers p s'.
Proof.
  intros B D S RO.
  destruct (ruin_run_ok p c any (fun _ _ _ _ _ _ => I) B corr s r) as (s' & r' & G & M & _); auto.
  { apply settled_mid; auto. apply Forall_forall. intros; exact I. }
  exists s', r'. split; auto. apply (mi_all _ _ _ _ M).
Qed.
Print Assumptions C18_ruin.

(** The recreate step that follows, if it returns, leaves a complete solution again. *)
Theorem C18_recreate (N : Num) (p : problem) (c : config) (pen : F) (s s1 s2 : rsol) corr r r1 hash r2 hash2 :
  reals_below_one p -> 2 <= p_dim p -> 0 < c_num_vehicles c -> settled_sol p c s -> rows_ok p corr ->
  ruin_run p c corr s r = Ok (s1, r1) -> recreate_run p pen s1 r1 hash = Ok (s2, r2, hash2) ->
  settled_sol p c s2.
Proof.
  intros B D V S RO G1 G2.
  destruct (ruin_run_ok p c any (fun _ _ _ _ _ _ => I) B corr s r) as (s' & r' & G & M & _); auto.
  { apply settled_mid; auto. apply Forall_forall. intros; exact I. }
  rewrite G1 in G. injection G as <- <-.
  apply (recreate_run_partial p c any (fun _ _ _ _ _ _ _ => I)) in G2; auto. apply G2.
Qed.
Print Assumptions C18_recreate.

(** In exact arithmetic it always returns. *)
Theorem C18_recreate_returns (p : @problem NumQ) (c : @config NumQ) (pen : Q) (s s1 : @rsol NumQ) corr r r1 hash :
  unit_reals p -> 2 <= p_dim p -> 0 < c_num_vehicles c -> settled_sol p c s -> rows_ok p corr ->
  ruin_run p c corr s r = Ok (s1, r1) ->
  exists s2 r2 hash2, recreate_run p pen s1 r1 hash = Ok (s2, r2, hash2) /\ settled_sol p c s2.
Proof.
  intros B D V S RO G1.
  destruct (ruin_run_ok p c any (fun _ _ _ _ _ _ => I) (below_Q p B) corr s r) as (s' & r' & G & M & _); auto.
  { apply settled_mid; auto. apply Forall_forall. intros; exact I. }
  rewrite G1 in G. injection G as <- <-.
  destruct (@recreate_run_total NumQ p c any (fun _ _ _ _ _ _ _ => I) pen s1 r1 hash M V (keysQ p) (roomQ p _ _)) as (s2 & r2 & h2 & G2).
  exists s2, r2, h2. split; auto.
  apply (recreate_run_partial p c any (fun _ _ _ _ _ _ _ => I)) in G2; auto. apply G2.
Qed.
Print Assumptions C18_recreate_returns.

(** ** C19 *)

(** Every ruin step of every reachable state succeeds (no index is out of range, nothing
    underflows).  It cuts strings of the drawn length (at least 1, at most the route's length)
    out of different routes, around neighbours of the seed customer; each string contains the
    neighbour, or, in the split variant, the neighbour is in the string or its kept part. *)
Theorem C19_strings_inside (N : Num) (p : problem) (c : config) (E : env) (st : rrstate) corr r :
  reals_below_one p -> 2 <= p_dim p -> 0 < c_num_vehicles c ->
  rr_reached p c E st -> rr_best st <> None -> rows_ok p corr ->
  exists s' r', ruin_run p c corr (rr_cur st) r = Ok (s', r') /\
    ruined_around p corr (routes_of (rr_cur st)) (routes_of s') (so_ruined s') (so_un s').
Proof.
  intros B D V R HB RO. destruct (any_ready N p c E st B D V R HB) as (_ & S2 & _).
  destruct (ruin_run_ok p c any (fun _ _ _ _ _ _ => I) B corr (rr_cur st) r) as (s' & r' & G & _ & _ & ks & seed & K1 & K2 & K3); auto.
  { apply settled_mid; apply S2. }
  rewrite (ss_ruined _ _ _ (proj1 S2)), (ss_un _ _ _ (proj1 S2)) in K3.
  exists s', r'. split; auto. exists ks, seed. auto.
Qed.
Print Assumptions C19_strings_inside.

(** One route: any string length between 1 and the length of the route, any random stream. *)
Theorem C19_one_route (N : Num) (p : problem) (s : rsol) node r lt rnd ro idx :
  nth_error (so_loc s) node = Some (r, idx) -> nth_error (so_routes s) r = Some ro ->
  nth_error (ro_nodes ro) idx = Some node -> 1 <= lt <= length (ro_nodes ro) ->
  exists s' rnd' nodes' removed, ruin_route p s node r lt rnd = Ok (s', rnd') /\
    cut node lt (ro_nodes ro) nodes' removed /\
    routes_of s' = upd (routes_of s) r nodes' /\ so_un s' = so_un s ++ removed /\
    length removed = lt.
Proof.
  intros H1 H2 H3 [H4 H5].
  destruct (ruin_route_ok p any (fun _ _ _ _ _ _ => I) s node r lt rnd ro idx H1 H2 H3 H4 H5)
    as (s' & rnd' & nodes' & rem & G & C & s1 & R & ->).
  eexists _, rnd', nodes', rem. split; [exact G|]. split; auto. split.
  - change (routes_of s1 = upd (routes_of s) r nodes'). eapply removed_routes; eauto.
  - split; [exact (rm_un _ _ _ _ _ _ R)|]. eapply cut_length; eauto.
Qed.
Print Assumptions C19_one_route.

(** ** C20 *)

(** Exact arithmetic: in every state of the object after loading, the stored distance and
    overload of every route are those of its nodes and every customer is where its stored
    location says. *)
Theorem C20_consistent (p : @problem NumQ) (c : @config NumQ) (E : @env NumQ) (st : @rrstate NumQ) :
  unit_reals p -> 2 <= p_dim p -> 0 < c_num_vehicles c ->
  rr_reached p c E st -> rr_best st <> None ->
  (exact_sol p (rr_sol st) /\ located (rr_sol st)) /\ (exact_sol p (rr_cur st) /\ located (rr_cur st)) /\
  exists b, rr_best st = Some b /\ exact_sol p b /\ located b.
Proof.
  intros B D V R HB.
  destruct (reached_ready p c E (exact_route p) (exact_remove p) (exact_add p) (exact_eval p) (below_Q p B) D V st R HB)
    as (S1 & S2 & b & EB & SB).
  assert (G : forall s, sound p c (exact_route p) s -> exact_sol p s /\ located s).
  { intros s [H1 H2]. split; [now apply exact_routes_Forall|apply H1]. }
  split; auto. split; auto. exists b. split; auto.
Qed.
Print Assumptions C20_consistent.

(** The same for single steps: ruin keeps distances and overloads exact (the locations of the
    routes it does not touch stay right), recreate makes everything exact, including the cost. *)
Theorem C20_steps (p : @problem NumQ) (c : @config NumQ) (pen : Q) (s : @rsol NumQ) corr r hash :
  unit_reals p -> 2 <= p_dim p -> 0 < c_num_vehicles c -> settled_sol p c s -> exact_sol p s -> rows_ok p corr ->
  exists s1 r1, @ruin_run NumQ p c corr s r = Ok (s1, r1) /\ exact_sol p s1 /\
    located_on (fun k => ~ In k (so_ruined s1)) s1 /\
  exists s2 r2 hash2, recreate_run p (pen : @F NumQ) s1 r1 hash = Ok (s2, r2, hash2) /\
    exact_sol p s2 /\ located s2 /\ exact_cost p pen s2.
Proof.
  intros B D V S X RO.
  destruct (ruin_run_ok p c (exact_route p) (exact_remove p) (below_Q p B) corr s r) as (s1 & r1 & G & M & _); auto.
  { apply settled_mid; auto. now apply exact_routes_Forall. }
  exists s1, r1. split; auto. split; [apply exact_routes_Forall, M|]. split; [apply M|].
  destruct (recreate_run_total p c (exact_route p) (exact_add p) pen s1 r1 hash M V (keysQ p) (roomQ p _ _)) as (s2 & r2 & h2 & G2).
  exists s2, r2, h2. split; auto.
  apply (recreate_run_partial p c (exact_route p) (exact_add p)) in G2; auto.
  destruct G2 as (A1 & A2 & A3 & _).
  apply exact_routes_Forall in A2. split; auto. split; [apply A1|]. now apply priced_exact.
Qed.
Print Assumptions C20_steps.

(** ** C21 *)

(** Exact arithmetic: recreate takes the waiting customers in some order and inserts each
    greedily (see [greedy]): within capacity into a touched route, at the cheapest place of all
    touched routes up to the tolerance, whenever there is a touched route that can take it. *)
Theorem C21_greedy (p : @problem NumQ) (c : @config NumQ) (pen : Q) (s s1 s2 : @rsol NumQ) corr r r1 hash r2 hash2 :
  unit_reals p -> 2 <= p_dim p -> 0 < c_num_vehicles c -> settled_sol p c s -> exact_sol p s -> rows_ok p corr ->
  ruin_run p c corr s r = Ok (s1, r1) -> recreate_run p (pen : @F NumQ) s1 r1 hash = Ok (s2, r2, hash2) ->
  exists un, Permutation un (so_un s1) /\
    greedily (p_dist p) (p_demand p) (p_cap p) pen (1 # 1000000) un (routes_of s1) (so_ruined s1) (routes_of s2).
Proof.
  intros B D V S X RO G1 G2.
  destruct (ruin_run_ok p c (exact_route p) (exact_remove p) (below_Q p B) corr s r) as (s' & r' & G & M & _); auto.
  { apply settled_mid; auto. now apply exact_routes_Forall. }
  rewrite G1 in G. injection G as <- <-.
  apply (recreate_run_partial p c (exact_route p) (exact_add p)) in G2; auto.
  destruct G2 as (_ & _ & _ & un & P & s3 & u3 & PL & ER). exists un. split; auto.
  apply placed_greedily in PL. unfold routes_of in *. rewrite ER in PL. exact PL.
Qed.
Print Assumptions C21_greedy.

(** ** C22 *)

(** Exact arithmetic, fixed penalty: whatever was loaded, whatever the random streams, the
    schedule and the number of searches, the best solution that is read back is complete and
    costs at most as much as the loaded one. *)
Theorem C22_never_worse (p : @problem NumQ) (c : @config NumQ) (E : @env NumQ) (st st1 st2 : @rrstate NumQ)
    (w w1 w2 : @world NumQ) (i j j' : @individual NumQ) :
  unit_reals p -> 2 <= p_dim p -> 0 < c_num_vehicles c ->
  rr_reached p c E st -> rr_update_penalty st = false ->
  finished p i -> length (i_pheno i) = c_num_vehicles c ->
  rr_load E st i w = Ok (st1, w1) -> rr_searches p c E st1 w1 st2 w2 ->
  length (i_pheno j) = c_num_vehicles c -> rr_get_best_solution p (w_pen w2) st2 j = Ok j' ->
  finished p j' /\ length (i_pheno j') = c_num_vehicles c /\ w_pen w2 = w_pen w /\
  (total_penalized (p_dist p) (p_demand p) (p_cap p) (w_pen w) (i_pheno j')
   <= total_penalized (p_dist p) (p_demand p) (p_cap p) (w_pen w) (i_pheno i))%Q.
Proof. intros B D V. now apply never_worse. Qed.
Print Assumptions C22_never_worse.

(** Loading, searching and reading back never fail in exact arithmetic. *)
Theorem C22_returns (p : @problem NumQ) (c : @config NumQ) (E : @env NumQ) (st : @rrstate NumQ)
    (w : @world NumQ) (i j : @individual NumQ) :
  unit_reals p -> 2 <= p_dim p -> 0 < c_num_vehicles c -> rr_reached p c E st ->
  finished p i -> length (i_pheno i) = c_num_vehicles c -> length (i_pheno j) = c_num_vehicles c ->
  exists st1 w1, rr_load E st i w = Ok (st1, w1) /\
    forall st2 w2, rr_searches p c E st1 w1 st2 w2 ->
      (forall corr, rows_ok p corr -> exists st3 w3, rr_search p c E corr st2 w2 = Ok (st3, w3)) /\
      forall pen, exists j', rr_get_best_solution p pen st2 j = Ok j'.
Proof.
  intros B D V R HF HL HJ.
  pose proof (reached_inv p c E (exact_route p) (exact_remove p) (exact_add p) (exact_eval p) (below_Q p B) D V st R) as [SH _].
  destruct (rr_load_ok p c E (exact_route p) (exact_eval p) D V st i w SH HF HL) as (st1 & w1 & G & LO).
  exists st1, w1. split; auto. intros st2 w2 HS.
  destruct (rr_searches_inv p c E (exact_route p) (exact_remove p) (exact_add p) (below_Q p B) D V (fun _ _ => True)
    ltac:(auto) ltac:(auto) st1 w1 st2 w2 HS (lo_ready _ _ _ _ _ _ _ _ _ LO) I) as [R2 _].
  split.
  - intros corr RO.
    destruct (rr_search_any p c E (exact_route p) (exact_remove p) (exact_add p) (below_Q p B) D V corr st2 w2 R2 RO)
      as [(st3 & w3 & G3 & _)|(e & _ & NB)]; eauto.
    exfalso. apply NB. split; [exact (anglesQ p)|]. split; [exact (keysQ p)|]. intro. apply roomQ.
  - intro pen. destruct R2 as (_ & _ & b & EB & SB). unfold rr_get_best_solution. rewrite EB.
    apply (rr_update_individual_total p c (exact_route p) D V); auto. exact (anglesQ p).
Qed.
Print Assumptions C22_returns.

(** ** Examples *)
Open Scope Q_scope.
Definition rr_p : @problem NumQ := @mkProblem NumQ (p_dim ex_p) (p_dist ex_p) (p_demand ex_p) (p_coord ex_p)
  (p_cap ex_p) (p_near ex_p) (o_atan2 ex_p) (fun d => Z.of_N (d mod 1000) # 1000) (o_ln ex_p) (o_polar ex_p).
Definition rr_env : @env NumQ := @mkEnv NumQ (fun x => 1 + x / 2) (fun k => inject_Z (Z.of_nat k)).
Close Scope Q_scope.
Definition rr_corr : matrix nat := mkMatrix 6 4
  [1;3;2;4;  2;3;5;4;  1;5;3;4;  1;4;2;5;  3;1;2;5;  2;1;3;4].
Definition rr_stream (a b : N) : rng :=
  mkRng (fun k => (a * N.of_nat k * N.of_nat k + b * N.of_nat (k + 1))%N) 0.
Definition rr_world (a b : N) : @world NumQ := @mkWorld NumQ 10%Q hist_new 0 (rr_stream a b) 0.

Fact rr_unit : unit_reals rr_p.
Proof.
  intro x. cbn [o_real rr_p]. assert (x mod 1000 < 1000)%N by (apply N.mod_lt; discriminate).
  generalize dependent (x mod 1000)%N. intros y H. unfold Qle, Qlt. cbn. lia.
Qed.
Fact rr_corr_ok : rows_ok rr_p rr_corr.
Proof.
  split; [reflexivity|]. intros u v Hu I. cbn in Hu.
  do 6 (destruct u as [|u]; [vm_compute in I; cbn [p_dim rr_p ex_p]; lia|]). lia.
Qed.
Fact rr_finished routes : once_check 6 routes = true -> finished rr_p (mk rr_p 10 routes).
Proof. intro H. apply mk_finished; auto. cbn. lia. Qed.

(** A loaded object *)
Definition rr_loaded_state (hash : rng) (w : @world NumQ) (routes : list (list nat)) : @rrstate NumQ :=
  match rr_load rr_env (rr_new rr_p (ex_cfg 3 true) hash) (mk rr_p 10 routes) w with
  | Ok (st, _) => st
  | Err _ => rr_new rr_p (ex_cfg 3 true) hash
  end.
Definition rr_routes (x : res (@rrstate NumQ * @world NumQ)) : option (list (list nat) * option (list (list nat)) * nat) :=
  match x with
  | Ok (st, w) => Some (routes_of (rr_sol st), option_map routes_of (rr_best st), length (h_entries (w_hist w)))
  | Err _ => None
  end.

Fact rr_loads hash w routes : once_check 6 routes = true -> length routes = 3 ->
  exists st' w', rr_load rr_env (rr_new rr_p (ex_cfg 3 true) hash) (mk rr_p 10 routes) w = Ok (st', w') /\
    rr_loaded_state hash w routes = st' /\ rr_reached rr_p (ex_cfg 3 true) rr_env st' /\ rr_best st' <> None.
Proof.
  intros H L.
  destruct (rr_load_ok rr_p (ex_cfg 3 true) rr_env (exact_route rr_p) (exact_eval rr_p)) with
    (st := rr_new rr_p (ex_cfg 3 true) hash) (i := mk rr_p 10 routes) (w := w) as (st' & w' & G & LO); auto.
  { cbn. lia. } { cbn. lia. }
  { apply shaped_new. }
  { now apply rr_finished. }
  exists st', w'. split; auto. unfold rr_loaded_state. rewrite G. split; auto. split.
  - eapply rr_loaded with (i := mk rr_p 10 routes); [apply rr_is_new|now apply rr_finished|exact L|exact G].
  - rewrite (lo_best _ _ _ _ _ _ _ _ _ LO). discriminate.
Qed.

(** C18 - C22: a loaded object, and a search that improves the solution it was given (cost 62) to
    one of cost 36, which goes to the history. *)
Example rr_state_example : rr_reached rr_p (ex_cfg 3 true) rr_env
    (rr_loaded_state (rr_stream 1 13) (rr_world 977 331) [[1; 5]; [2; 4]; [3]]) /\
  rr_best (rr_loaded_state (rr_stream 1 13) (rr_world 977 331) [[1; 5]; [2; 4]; [3]]) <> None.
Proof.
  destruct (rr_loads (rr_stream 1 13) (rr_world 977 331) [[1; 5]; [2; 4]; [3]]) as (st & w & _ & -> & R & B); auto.
Qed.
Example rr_search_example :
  rr_routes (rr_search rr_p (ex_cfg 3 true) rr_env rr_corr
    (rr_loaded_state (rr_stream 1 13) (rr_world 977 331) [[1; 5]; [2; 4]; [3]]) (rr_world 977 331))
  = Some ([[1; 5; 2]; [3; 4]; []], Some [[1; 2; 5]; [3; 4]; []], 1).
Proof. vm_compute. reflexivity. Qed.
Example rr_costs_example :
  Qeq_bool (total_penalized (p_dist rr_p) (p_demand rr_p) (p_cap rr_p) 10 [[1; 5]; [2; 4]; [3]]) 62 &&
  Qeq_bool (total_penalized (p_dist rr_p) (p_demand rr_p) (p_cap rr_p) 10 [[1; 2; 5]; [3; 4]; []]) 36 = true.
Proof. vm_compute. reflexivity. Qed.
(** C19: the split variant on the route 1 2 3 4 5 around customer 3 *)
Example ruin_route_example :
  match ruin_route rr_p (rr_sol (rr_loaded_state (rr_stream 1 13) (rr_world 977 331) [[1; 2; 3; 4; 5]; []; []]))
          3 0 2 (rr_stream 37 511) with
  | Ok (s, _) => Some (routes_of s, so_un s)
  | Err _ => None
  end = Some ([[2; 3; 4]; []; []], [5; 1]).
Proof. vm_compute. reflexivity. Qed.

(** ** C24: refuted *)

(** The object clones its current solution before the cost of the loaded solution is computed.
    The reference cost for the first move after loading is the cost of whatever solution was
    accepted last, here 36 although the loaded solution costs 62. *)
Theorem C24_first_reference_refuted :
  exists (p : @problem NumQ) (c : @config NumQ) (E : @env NumQ) (st : @rrstate NumQ) i w st1 w1,
    unit_reals p /\ rr_reached p c E st /\ finished p i /\ length (i_pheno i) = c_num_vehicles c /\
    rr_load E st i w = Ok (st1, w1) /\
    exists x : Q, so_cost (rr_cur st1) = Some (x : @F NumQ) /\
      (x + 20 < total_penalized (p_dist p) (p_demand p) (p_cap p) (w_pen w) (i_pheno i))%Q.
Proof.
  destruct (rr_loads (rr_stream 1 13) (rr_world 977 331) [[1; 2; 5]; [3; 4]; []]) as (st & w & G & ES & R & B); auto.
  set (i := mk rr_p 10 [[1; 5]; [2; 4]; [3]]).
  assert (HF : finished rr_p i) by now apply rr_finished.
  destruct (reached_inv rr_p (ex_cfg 3 true) rr_env (exact_route rr_p) (exact_remove rr_p) (exact_add rr_p)
    (exact_eval rr_p) (below_Q rr_p rr_unit)) with (st := st) as [SH _]; auto; try (cbn; lia).
  destruct (rr_load_ok rr_p (ex_cfg 3 true) rr_env (exact_route rr_p) (exact_eval rr_p)) with
    (st := st) (i := i) (w := rr_world 977 331) as (st' & w' & G' & LO); auto; try (cbn; lia).
  exists rr_p, (ex_cfg 3 true), rr_env, st, i, (rr_world 977 331), st', w'.
  split; [exact rr_unit|]. split; auto. split; auto. split; [reflexivity|]. split; auto.
  rewrite (lo_stale _ _ _ _ _ _ _ _ _ LO). rewrite <- ES. clear.
  eexists. split; [vm_compute; reflexivity|]. apply Qltb_lt. vm_compute. reflexivity.
Qed.
Print Assumptions C24_first_reference_refuted.

(** What holds: the stale cost is that of the solution accepted before loading (INFINITY on a
    new object), and from the second move on the reference is the accepted solution, whose cost
    is exact. *)
Theorem C24_first_reference_partial (N : Num) (p : problem) (c : config) (E : env) (st : rrstate) i w :
  reals_below_one p -> 2 <= p_dim p -> 0 < c_num_vehicles c -> rr_reached p c E st ->
  finished p i -> length (i_pheno i) = c_num_vehicles c ->
  exists st1 w1, rr_load E st i w = Ok (st1, w1) /\
    routes_of (rr_cur st1) = i_pheno i /\ so_cost (rr_cur st1) = so_cost (rr_sol st) /\
    rr_best st1 = Some (rr_sol st1) /\ so_cost (rr_sol st1) = Some (so_total (w_pen w) (rr_sol st1)) /\
    forall corr st2 w2, rows_ok p corr -> rr_move p c E corr st1 w1 = Ok (st2, w2) ->
      rr_cur st2 = rr_sol st2 /\ so_cost (rr_cur st2) = Some (so_total (w_pen w2) (rr_cur st2)).
Proof.
  intros B D V R HF HL.
  pose proof (reached_inv p c E any ltac:(unfold any; auto) ltac:(unfold any; auto) ltac:(unfold any; auto) B D V st R) as [SH _].
  destruct (rr_load_ok p c E any ltac:(unfold any; auto) D V st i w SH HF HL) as (st1 & w1 & G & LO).
  exists st1, w1. split; auto. pose proof (lo_sol _ _ _ _ _ _ _ _ _ LO) as LS.
  split; [unfold routes_of in *; now rewrite (lo_cur _ _ _ _ _ _ _ _ _ LO)|].
  split; [apply LO|]. split; [apply LO|]. split; [apply LO|].
  intros corr st2 w2 RO GM.
  destruct (rr_move_ok p c E any ltac:(unfold any; auto) ltac:(unfold any; auto) B D V corr st1 w1
    (lo_ready _ _ _ _ _ _ _ _ _ LO) RO) as [(st' & w' & cand & G' & _ & ST)|(e & G' & _)]; [|congruence].
  rewrite GM in G'. injection G' as <- <-.
  split; [apply ST|]. rewrite (st_cur _ _ _ _ _ _ _ _ _ _ ST), (st_pen _ _ _ _ _ _ _ _ _ _ ST), (lo_pen _ _ _ _ _ _ _ _ _ LO).
  destruct (st_cases _ _ _ _ _ _ _ _ _ _ ST) as (r0 & [(_ & A & _)|(_ & A & _)]).
  - rewrite A. apply (lo_priced _ _ _ _ _ _ _ _ _ LO).
  - rewrite A. pose proof (st_priced _ _ _ _ _ _ _ _ _ _ ST) as PC. rewrite (lo_pen _ _ _ _ _ _ _ _ _ LO) in PC. exact PC.
Qed.
Print Assumptions C24_first_reference_partial.

(** ** C47: refuted *)

(** The set of touched routes is a hash set with a randomly seeded hasher, whatever the
    configuration.  Its iteration order decides between equally cheap places, so two runs with
    the same seed differ: the same loaded solution, the same random stream, another hash order. *)
Definition c47_run (hash : rng) :=
  rr_routes (rr_search rr_p (ex_cfg 3 true) rr_env rr_corr
    (rr_loaded_state hash (rr_world 977 211) [[1; 2]; [5]; [3; 4]]) (rr_world 977 211)).
Theorem C47_reproducible_refuted :
  exists (p : @problem NumQ) (c : @config NumQ) (E : @env NumQ) corr i w hash1 hash2 st1 st2 wa wb sa sb wa' wb',
    unit_reals p /\ rows_ok p corr /\ finished p i /\ length (i_pheno i) = c_num_vehicles c /\
    rr_load E (rr_new p c hash1) i w = Ok (st1, wa) /\ rr_load E (rr_new p c hash2) i w = Ok (st2, wb) /\
    rr_search p c E corr st1 w = Ok (sa, wa') /\ rr_search p c E corr st2 w = Ok (sb, wb') /\
    ~ Permutation (routes_of (rr_sol sa)) (routes_of (rr_sol sb)).
Proof.
  set (h1 := rr_stream 1 13). set (h2 := rr_stream 2 13). set (w := rr_world 977 211).
  assert (OC : once_check 6 [[1; 2]; [5]; [3; 4]] = true) by reflexivity.
  destruct (rr_loads h1 w [[1; 2]; [5]; [3; 4]] OC eq_refl) as (st1 & wa & G1 & E1 & R1 & B1).
  destruct (rr_loads h2 w [[1; 2]; [5]; [3; 4]] OC eq_refl) as (st2 & wb & G2 & E2 & R2 & B2).
  assert (V1 : c47_run h1 = Some ([[3; 4]; []; [1; 2; 5]], Some [[3; 4]; []; [1; 2; 5]], 1)) by (vm_compute; reflexivity).
  assert (V2 : c47_run h2 = Some ([[1; 5; 2]; [3; 4]; []], Some [[1; 5; 2]; [3; 4]; []], 1)) by (vm_compute; reflexivity).
  unfold c47_run in V1, V2. fold w in V1, V2. rewrite E1 in V1. rewrite E2 in V2.
  destruct (rr_search rr_p (ex_cfg 3 true) rr_env rr_corr st1 w) as [[sa wa']|] eqn:SA; [|discriminate].
  destruct (rr_search rr_p (ex_cfg 3 true) rr_env rr_corr st2 w) as [[sb wb']|] eqn:SB; [|discriminate].
  cbn [rr_routes] in V1, V2. injection V1 as V1 _ _. injection V2 as V2 _ _.
  exists rr_p, (ex_cfg 3 true), rr_env, rr_corr, (mk rr_p 10 [[1; 2]; [5]; [3; 4]]), w, h1, h2, st1, st2, wa, wb, sa, sb, wa', wb'.
  split; [exact rr_unit|]. split; [exact rr_corr_ok|]. split; [now apply rr_finished|]. split; [reflexivity|].
  do 4 (split; [assumption|]). rewrite V1, V2. intro P.
  apply (Permutation_in [1; 2; 5]) in P; [|cbn; auto]. cbn in P.
  repeat (destruct P as [P|P]; [discriminate|]). exact P.
Qed.
Print Assumptions C47_reproducible_refuted.
