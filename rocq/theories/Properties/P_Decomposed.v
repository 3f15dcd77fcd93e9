(** The decomposed genetic algorithm as a whole: what it records, what a round does to the
    solution, when it stops (C54 - C56). *)
From Coq Require Import List Arith NArith ZArith Bool Lia Permutation QArith Qabs Qround Lqa.
From Verif.Model Require Import Num Prelude Evaluate Individual Config Crossover Split Matrix Population LocalSearch
  World Schedule RuinRecreate Genetic Decomposition.
From Verif.Spec Require Import Solution Library Population LocalSearch RuinRecreate Genetic Decomposition.
From Verif.Proofs Require Import Lists QNum EvalFacts EvalThms PopFacts RustLib MatrixFacts RrQ GaInv GaQ GaClock LsRunQ Fleet DgaInst DgaInv DgaClock.
From Verif.Properties Require Import ExampleData P_Genetic P_Decomposition.
Import ListNotations.
Open Scope nat_scope.

Section Exact.
Variable L : lib.
Variable p : @problem NumQ.
Variable c : @config NumQ.
Variable E : @env NumQ.
Variable li : nat.
Variable md : option (@F NumQ).
Variable fuel : nat.
Variable sqrt_ round_ : @F NumQ -> @F NumQ.
Variable lsort : list (nat * @F NumQ) -> list (nat * @F NumQ).
Variable dm : @dmatrix NumQ.
Variable min_size : nat.
Variable hashes : nat -> rng * rng * rng.
Variable gd : nat -> nat -> @F NumQ.
Local Notation d_ := (p_dist p).
Local Notation dem := (p_demand p).
Local Notation cap := (p_cap p).
Local Notation nv := (c_num_vehicles c).
Local Notation reached := (dga_reached L p c E li fuel sqrt_ round_ lsort dm min_size hashes).
Local Notation iterate := (dga_iterate L p c E li fuel sqrt_ round_ lsort dm min_size hashes).
Hypothesis library : lib_ok L.
Hypothesis sorts : sort_contract lsort.
(** the distance matrix the subproblems are built from has the size of the problem *)
Hypothesis matrix_size : dfun sqrt_ round_ dm (p_dim p) gd.
Hypothesis usual : decomposed_ok p c min_size.
Local Open Scope Q_scope.

Local Notation invariant := (dinv_any L p c).

Local Lemma reached_inv w0 d w : set_up p md w0 -> reached w0 d w -> invariant d w /\ w_iter w = 0%nat /\ w_pen w == w_pen w0.
Proof.
  intros ((m & _ & EP) & EH & EI) R. destruct usual as [U1 U2 U3 U4].
  induction R as [corr lh rh d w NB RD GC G|d w d' w' R (I & IT & PE) G].
  - destruct (dga_new_any L p c min_size U3 U4 corr lh rh w0 d w NB RD GC) as (I & X1 & X2 & _); auto.
    { rewrite EP. apply low_initial. }
    split; [exact I|]. split; [congruence|]. rewrite X2. reflexivity.
  - pose proof (dga_iterate_any L library p c min_size U3 U4 E li fuel sqrt_ round_ lsort dm hashes gd d w U1 U2 sorts matrix_size I) as X.
    rewrite G in X. destruct X as (I' & IT' & PE' & _). split; [exact I'|]. split; [congruence|]. rewrite PE'. exact PE.
Qed.

Local Lemma reached_step w0 d w : set_up p md w0 -> reached w0 d w ->
  match iterate d w with
  | Ok (d', w') => dinv_any L p c d' w' /\
      (d_st d = DCycle -> is_feasible (d_sol d) = true -> not_worse p c (w_pen w) (i_pheno (d_sol d)) (i_pheno (d_sol d')))
  | Err e => sizes c -> e = EFuel \/ e = EPanic /\ d_st d = DCycle /\
      (is_feasible (d_sol d) = false \/ misfit L p c E li fuel sqrt_ round_ lsort dm min_size hashes d (snd (terminate c E w)))
  end.
Proof.
  intros SU R. destruct (reached_inv w0 d w SU R) as (I & _). destruct usual as [U1 U2 U3 U4].
  pose proof (dga_iterate_any L library p c min_size U3 U4 E li fuel sqrt_ round_ lsort dm hashes gd d w U1 U2 sorts matrix_size I) as X.
  destruct (iterate d w) as [[d' w']|e]; [|exact X]. destruct X as (X1 & _ & _ & X2). split; [exact X1|exact X2].
Qed.

(** ** C54: what is recorded *)

Local Lemma reached_records w0 d w : set_up p md w0 -> reached w0 d w ->
  exists is, recorded hist_new is (w_hist w) /\ Forall (record_under p pens) is /\ improving is.
Proof.
  intros SU R. destruct (reached_inv w0 d w SU R) as (I & _).
  destruct (gb_hist _ _ _ _ _ _ _ _ (di_base _ _ _ _ _ _ _ I)) as (is & RE & FA & IM & _). eauto.
Qed.

(** Everything recorded serves every customer once, is within capacity up to 1e-6, and its cost is
    the penalised cost under a penalty that was in use: the length of the routes, plus the penalty
    for overloads below 1e-6. *)
Theorem C54_recorded w0 d w : set_up p md w0 -> reached w0 d w ->
  exists is, recorded hist_new is (w_hist w) /\
    Forall (fun i => serves_all_once (p_dim p) (i_pheno i) /\
      within_capacity dem cap (1 # 1000000) (i_pheno i) /\
      exists pen v : Q, 0 <= pen /\ pen <= inject_Z (10 ^ 10) /\
        penalized_cost i = Some (v : @F NumQ) /\ v == total_penalized d_ dem cap pen (i_pheno i) /\
        total_length d_ (i_pheno i) <= v /\
        v <= total_length d_ (i_pheno i) + pen * (1 # 1000000) * inject_Z (Z.of_nat (length (i_pheno i)))) is.
Proof.
  intros SU R. destruct (reached_records w0 d w SU R) as (is & RE & FA & _). exists is. split; [exact RE|].
  eapply Forall_impl; [|exact FA]. intros i (S & W & pen & v & [P1 P2] & EV & TV). split; [exact S|]. split; [exact W|].
  exists pen, v. destruct (P_Genetic.penalized_bounds p pen (i_pheno i) P1 W) as [B1 B2].
  split; [exact P1|]. split; [exact P2|]. split; [exact EV|]. split; [exact TV|].
  change (@F NumQ) with Q in *. split; lra.
Qed.

(** Each recorded solution is cheaper than the one before by more than 1e-6, and the best cost is
    the last one. *)
Theorem C54_recorded_improve w0 d w : set_up p md w0 -> reached w0 d w ->
  (forall l1 a b l2, h_entries (w_hist w) = l1 ++ a :: b :: l2 -> exists x y : Q,
     he_cost a = Some (x : @F NumQ) /\ he_cost b = Some (y : @F NumQ) /\ y < x - (1 # 1000000) /\ he_routes a = []) /\
  (h_entries (w_hist w) = [] -> h_best (w_hist w) = None) /\
  (forall e, reported (w_hist w) e -> serves_all_once (p_dim p) (he_routes e) /\ h_best (w_hist w) = he_cost e).
Proof.
  intros SU R. destruct (reached_records w0 d w SU R) as (is & RE & FA & IM).
  destruct (entries_improve is (w_hist w) RE IM) as (X1 & X2 & X3). split; [exact X1|]. split; [exact X2|].
  intros e RP. split; [|now apply X3]. unfold recorded in RE. rewrite RE in RP.
  apply reported_last in RP as (l & i & -> & ->). apply Forall_app in FA as [_ FA]. inversion FA as [|? ? (S & _) _]; subst. exact S.
Qed.

(** Integral demands and capacity: the reported solution is within capacity, its cost its length. *)
Theorem C54_recorded_integral w0 d w : set_up p md w0 -> reached w0 d w ->
  (forall a, (a < p_dim p)%nat -> integral (dem a)) -> integral cap ->
  forall e, reported (w_hist w) e ->
    (forall r, In r (he_routes e) -> route_load dem r <= cap) /\
    exists v : Q, he_cost e = Some (v : @F NumQ) /\ v == total_length d_ (he_routes e).
Proof.
  intros SU R HI HC. destruct (reached_records w0 d w SU R) as (is & RE & FA & IM).
  exact (integral_exact p pens is (w_hist w) RE FA HI HC).
Qed.

(** ** C55: a round does not make the solution worse, and where it can fail *)

(** The solution that is decomposed is a solution, after any number of rounds, and the penalty is
    the one of the beginning. *)
Theorem C55_solution w0 d w : set_up p md w0 -> reached w0 d w ->
  w_pen w == w_pen w0 /\
  (d_st d = DCycle -> whole_solution (p_dim p) (d_sol d) /\ length (i_pheno (d_sol d)) = nv /\
   exists v : Q, penalized_cost (d_sol d) = Some (v : @F NumQ) /\
     v == total_penalized d_ dem cap (w_pen w) (i_pheno (d_sol d))).
Proof.
  intros SU R. destruct (reached_inv w0 d w SU R) as (I & _ & PE). split; [exact PE|]. intros ST.
  destruct (di_cycle _ _ _ _ _ _ _ I ST) as (S & HL & HG & e & EV). split; [split; [exact S|exact HG]|]. split; [exact HL|].
  exists (@gtotal NumQ p (w_pen w) (i_pheno (d_sol d))). split; [unfold penalized_cost; now rewrite EV|apply gtotal_Q].
Qed.

Local Lemma feasible_iff w0 d w : set_up p md w0 -> reached w0 d w -> d_st d = DCycle ->
  (is_feasible (d_sol d) = true <-> within_capacity dem cap (1 # 1000000) (i_pheno (d_sol d))).
Proof.
  intros SU R ST. destruct (reached_inv w0 d w SU R) as (I & _).
  apply (feasible_within p (w_pen w)). eapply child_evaluated. exact (di_cycle _ _ _ _ _ _ _ I ST).
Qed.

(** A round that starts from a solution within capacity does not end with a costlier one, but for
    the penalty of overloads below 1e-6. *)

Theorem C55_not_worse w0 d w d' w' : set_up p md w0 -> reached w0 d w ->
  d_st d = DCycle -> within_capacity dem cap (1 # 1000000) (i_pheno (d_sol d)) -> iterate d w = Ok (d', w') ->
  total_penalized d_ dem cap (w_pen w) (i_pheno (d_sol d')) <=
  total_penalized d_ dem cap (w_pen w) (i_pheno (d_sol d)) + w_pen w * (1 # 1000000) * inject_Z (Z.of_nat nv).
Proof.
  intros SU R ST FE G. apply (feasible_iff w0 d w SU R ST) in FE. pose proof (reached_step w0 d w SU R) as X. rewrite G in X. destruct X as (_ & X).
  destruct (X ST FE) as (merged & S & HL & W & T1 & T2).
  destruct (reached_inv w0 d w SU R) as (I & _). destruct (di_pen _ _ _ _ _ _ _ I) as [P1 P2].
  destruct (P_Genetic.penalized_bounds p (w_pen w) merged) as [_ B]; [change (@F NumQ) with Q in *; lra|exact W|].
  rewrite HL in B. change (@F NumQ) with Q in *. lra.
Qed.

(** Exactly not worse, with integral demands and capacity. *)
Theorem C55_not_worse_integral w0 d w d' w' : set_up p md w0 -> reached w0 d w ->
  (forall a, (a < p_dim p)%nat -> integral (dem a)) -> integral cap ->
  d_st d = DCycle -> within_capacity dem cap (1 # 1000000) (i_pheno (d_sol d)) -> iterate d w = Ok (d', w') ->
  total_penalized d_ dem cap (w_pen w) (i_pheno (d_sol d')) <= total_penalized d_ dem cap (w_pen w) (i_pheno (d_sol d)).
Proof.
  intros SU R HI HC ST FE G. apply (feasible_iff w0 d w SU R ST) in FE. pose proof (reached_step w0 d w SU R) as X. rewrite G in X. destruct X as (_ & X).
  destruct (X ST FE) as (merged & S & HL & W & T1 & T2).
  rewrite (integral_within p (w_pen w) merged HI HC S W) in T2. change (@F NumQ) with Q in *. lra.
Qed.

Local Close Scope Q_scope.
(** With sensible sizes in the configuration a call of [iterate] fails, other than by an exhausted
    loop bound, only in a round that starts from a solution that is not feasible, or whose merged
    solution has not one route per vehicle (C39_loadable_refuted). *)
Theorem C55_panics_partial w0 d w : set_up p md w0 -> reached w0 d w ->
  1 <= c_num_diversity_closest c -> 1 <= c_min_population_size c ->
  1 <= c_initial_individuals c -> 1 <= c_tournament_size c ->
  (exists d' w', iterate d w = Ok (d', w')) \/ iterate d w = Err EFuel \/
  iterate d w = Err EPanic /\ d_st d = DCycle /\
    (~ within_capacity dem cap (1 # 1000000) (i_pheno (d_sol d)) \/
     misfit L p c E li fuel sqrt_ round_ lsort dm min_size hashes d (snd (terminate c E w))).
Proof.
  intros SU R F1 F2 F3 F4. pose proof (reached_step w0 d w SU R) as X. destruct (iterate d w) as [[d' w']|e]; [left; eauto|right].
  destruct (X (Build_sizes _ c F1 F2 F3 F4)) as [->|[-> (ST & Y)]]; [now left|right].
  split; [reflexivity|]. split; [exact ST|]. destruct Y as [Y|Y]; [left|now right].
  rewrite <- (feasible_iff w0 d w SU R ST), Y. discriminate.
Qed.
End Exact.
Print Assumptions C54_recorded.
Print Assumptions C54_recorded_improve.
Print Assumptions C54_recorded_integral.
Print Assumptions C55_solution.
Print Assumptions C55_not_worse.
Print Assumptions C55_not_worse_integral.
Print Assumptions C55_panics_partial.

(** ** C56: the limits *)
Section Stop.
Context {N : Num}.
Variable L : lib.
Variable p : problem.
Variable c : config.
Variable E : env.
Variable li : nat.
Variable fuel : nat.
Variable sqrt_ round_ : F -> F.
Variable lsort : list (nat * F) -> list (nat * F).
Variable dm : dmatrix.
Variable min_size : nat.
Variable hashes : nat -> rng * rng * rng.
Local Notation iterate := (dga_iterate L p c E li fuel sqrt_ round_ lsort dm min_size hashes).
Local Notation run := (dga_run L p c E li fuel sqrt_ round_ lsort dm min_size hashes).

(** The number of iterations never changes: in a run it stays zero, so that no limit on it is
    ever reached but zero. *)
Theorem C56_iterations_uncounted w0 d w :
  dga_reached L p c E li fuel sqrt_ round_ lsort dm min_size hashes w0 d w -> w_iter w = w_iter w0.
Proof.
  induction 1 as [corr lh rh d w _ _ _ G|d w d' w' R IH G].
  - unfold dga_new in G. destruct (ind_random _ _ _ _) as [i r]. destruct (ga_new _ _ _ _ _ _) as [g w1] eqn:EN. injection G as _ <-.
    unfold ga_new in EN. destruct (ind_random _ _ _ _). injection EN as _ <-. reflexivity.
  - apply dga_iterate_later in G as [_ G]. congruence.
Qed.

(** When the time limit is reached the next call ends the run, and changes nothing but the clock. *)
Theorem C56_stops d w : c_time_limit c <= ffloor (e_clock E (w_clock w)) ->
  exists d', iterate d w = Ok (d', mkWorld (w_pen w) (w_hist w) (w_iter w) (w_rng w) (S (w_clock w))) /\
    d_st d' = DTerminated /\ d_sol d' = d_sol d /\ d_ga d' = d_ga d.
Proof.
  intros H. unfold dga_iterate, terminate, now. apply Nat.leb_le in H. rewrite H. cbn [orb d_st]. eexists. split; [reflexivity|]. auto.
Qed.

(** It is not ended before: by the time limit, or by an iteration limit of zero. *)
Theorem C56_not_early d w d' w' : w_iter w = 0 -> d_st d <> DTerminated ->
  ffloor (e_clock E (w_clock w)) < c_time_limit c -> c_max_iterations c <> Some 0 ->
  iterate d w = Ok (d', w') -> d_st d' = DCycle.
Proof.
  intros WI ST HT HM G. unfold dga_iterate, terminate, now in G. apply Nat.leb_gt in HT. rewrite HT in G. cbn [orb] in G.
  assert (EM : match c_max_iterations c with Some m => m <=? w_iter w | None => false end = false).
  { destruct (c_max_iterations c) as [[|m]|]; [congruence| |reflexivity]. now rewrite WI. }
  cbn [w_iter] in G. rewrite EM in G. destruct (d_st d) eqn:SD; [| |congruence].
  - destruct (create_global_solution _ _ _ _ _ _ _) as [[[i g] w2]|]; [|discriminate G]. cbn [rbind] in G. injection G as <- <-. reflexivity.
  - now apply cycle_later in G.
Qed.

(** [Solver::run] ends in a terminated state. *)
Theorem C56_run k d w d' w' : run k d w = Ok (d', w') -> d_st d' = DTerminated.
Proof.
  revert d w. induction k as [|k IH]; intros d w; cbn [dga_run]; unfold dga_terminated; destruct (d_st d) eqn:ST;
    try discriminate; try (intro H; injection H as <- <-; exact ST);
    destruct (iterate d w) as [[d1 w1]|]; cbn [rbind]; try discriminate; apply IH.
Qed.

(** The loop of [Solver::run] ends: with the clock beyond the limit from reading [k] on, [k + 1]
    calls are enough, unless a call of [iterate] itself fails. *)
Theorem C56_run_ends k d w :
  (forall j, k <= j -> c_time_limit c <= ffloor (e_clock E j)) ->
  (exists d' w', run (S k) d w = Ok (d', w') /\ d_st d' = DTerminated) \/
  (exists n d1 w1 e, dga_iterates L p c E li fuel sqrt_ round_ lsort dm min_size hashes n d w d1 w1 /\
     iterate d1 w1 = Err e /\ run (S k) d w = Err e).
Proof.
  intros HK. assert (X : forall m d w, k < m + w_clock w -> 0 < m ->
    (exists d' w', run m d w = Ok (d', w')) \/
    (exists n d1 w1 e, dga_iterates L p c E li fuel sqrt_ round_ lsort dm min_size hashes n d w d1 w1 /\
       iterate d1 w1 = Err e /\ run m d w = Err e)).
  { clear d w. induction m as [|m IH]; intros d w HM HP; [lia|]. cbn [dga_run].
    destruct (dga_terminated d) eqn:GT; [left; eauto|]. destruct (iterate d w) as [[d1 w1]|e] eqn:G.
    - cbn [rbind]. destruct m as [|m].
      + destruct (C56_stops d w) as (d' & G' & ST & _); [apply HK; lia|]. rewrite G in G'. injection G' as -> ->.
        left. exists d'. eexists. cbn [dga_run]. unfold dga_terminated. now rewrite ST.
      + pose proof (dga_iterate_later L p c E li fuel sqrt_ round_ lsort dm min_size hashes _ _ _ _ G) as [LT _].
        destruct (IH d1 w1) as [I|(n & d2 & w2 & e & I1 & I2 & I3)]; [lia|lia|left; exact I|].
        right. exists (1 + n), d2, w2, e. split; [econstructor; eauto|]. auto.
    - right. exists 0, d, w, e. split; [constructor|]. split; auto. }
  destruct (X (S k) d w) as [(d' & w' & R)|R]; [lia|lia|left|now right].
  exists d', w'. split; auto. eapply C56_run; eauto.
Qed.
End Stop.
Print Assumptions C56_iterations_uncounted.
Print Assumptions C56_run_ends.
Print Assumptions C56_stops.
Print Assumptions C56_not_early.
Print Assumptions C56_run.


(** ** The instance of P_Decomposition *)

Definition de_max_demand : option (@F NumQ) := match @max_demand NumQ de_p with Ok d => d | Err _ => None end.
Definition de_start a b : @world NumQ := @mkWorld NumQ (@initial_penalty NumQ (dm_max de_dm) de_max_demand) hist_new 0 (de_stream a b) 0.
Fact de_set_up a b : set_up de_p (dm_max de_dm) (de_start a b).
Proof. split; [|split; reflexivity]. exists de_max_demand. split; reflexivity. Qed.
Fact de_sorts : sort_contract de_lsort.
Proof.
  intros l _. split; [apply isort_perm|]. apply (isort_sorted _ (fun _ => True)).
  - intros a b _ _. rewrite !Qle_bool_iff. destruct (Qlt_le_dec (snd b) (snd a)) as [A|A]; [right; lra|now left].
  - intros a b c _ _ _ H1 H2. apply Qle_bool_iff in H1, H2. apply Qle_bool_iff. lra.
  - apply Forall_forall. auto.
Qed.
Fact de_matrix : dfun (fun x => x) (fun x => x) de_dm 5 de_d.
Proof.
  split; [reflexivity|]. change (dm_pre de_dm) with true. cbv iota. split; [reflexivity|]. split; [reflexivity|]. split; [reflexivity|].
  intros i j Hi Hj. do 5 (destruct i as [|i]; [do 5 (destruct j as [|j]; [reflexivity|]); lia|]). lia.
Qed.
Fact de_usual : decomposed_ok de_p de_cfg 3.
Proof.
  assert (T : forall a b, a < 5 -> b < 5 -> (de_d a b <= 1500 # 1)%Q).
  { intros a b Ha Hb. do 5 (destruct a as [|a]; [do 5 (destruct b as [|b]; [vm_compute; discriminate|]); lia|]). lia. }
  constructor; [constructor| |cbn; lia|cbn; lia].
  - cbn. lia.
  - split; [cbn; lia|]. change (@vehicle_lower_bound NumQ de_p <= 4). vm_compute. lia.
  - reflexivity.
  - intros a Ha. cbn in Ha. do 5 (destruct a as [|a]; [vm_compute; discriminate|]). lia.
  - intros a b Ha Hb. cbn in Ha, Hb. do 5 (destruct a as [|a]; [do 5 (destruct b as [|b]; [vm_compute; discriminate|]); lia|]). lia.
  - intros a Ha. cbn in Ha. do 5 (destruct a as [|a]; [reflexivity|]). lia.
  - reflexivity.
  - exists (1500 # 1)%Q. split; [exact T|vm_compute; reflexivity].
  - intros d. change (0 <= Z.of_N (d mod 1000) # 1000 /\ (Z.of_N (d mod 1000) # 1000) < 1)%Q.
    assert (d mod 1000 < 1000)%N by (apply N.mod_lt; discriminate).
    generalize dependent (d mod 1000)%N. intros y H. unfold Qle, Qlt. cbn [Qnum Qden]. lia.
  - cbn. lia.
  - split; discriminate.
  - exists (1500 # 1)%Q. split; [exact T|vm_compute; reflexivity].
Qed.
Fact de_neighbours : neighbours_ok de_p de_cfg de_corr.
Proof.
  split; [cbn; lia|]. split; [reflexivity|]. intros u v Hu I. cbn in Hu.
  do 5 (destruct u as [|u]; [vm_compute in I; cbn [p_dim de_p]; lia|]). lia.
Qed.

(** The first state is reached.  (The first call then performs 100 * 1000 steps of ruin and
    recreate or more, too many for an example.) *)
Example de_first_state a b fuel clock :
  let '(d, w) := dga_new de_p de_cfg de_corr (de_stream 3 5) (de_stream 7 1) (de_start a b) in
  dga_reached rust_lib de_p de_cfg (de_clock clock) 5 fuel (fun x => x) (fun x => x) de_lsort de_dm 3 de_hashes (de_start a b) d w.
Proof.
  destruct (dga_new de_p de_cfg de_corr (de_stream 3 5) (de_stream 7 1) (de_start a b)) as [d w] eqn:G.
  exact (dr_new _ _ _ _ _ _ _ _ _ _ _ _ _ _ _ _ _ _ de_neighbours de_rows (Nat.lt_succ_diag_r 2) G).
Qed.

(** The invariant behind the theorems holds in the state with any solution that has four routes. *)
Definition de_cycle a b (ph : list (list nat)) : option (@dga NumQ * @world NumQ) :=
  match @ind_evaluate NumQ de_p (w_pen (de_start a b)) (de_ind ph) with
  | Ok i => let '(d, w) := dga_new de_p de_cfg de_corr (de_stream 3 5) (de_stream 7 1) (de_start a b) in
            Some (mkDGA DCycle i (d_ga d) 0, w)
  | Err _ => None
  end.
Fact de_cycle_inv a b ph d w : serves_all_once 5 ph -> length ph = 4 -> de_cycle a b ph = Some (d, w) -> dinv_any rust_lib de_p de_cfg d w.
Proof.
  intros S HL. unfold de_cycle. destruct (dga_new de_p de_cfg de_corr (de_stream 3 5) (de_stream 7 1) (de_start a b)) as [d0 w0] eqn:G.
  destruct (dga_new_any rust_lib de_p de_cfg 3 (dc_size _ _ _ de_usual) (dc_cols _ _ _ de_usual) de_corr (de_stream 3 5) (de_stream 7 1) (de_start a b) d0 w0 de_neighbours de_rows
    (Nat.lt_succ_diag_r 2) (low_initial (dm_max de_dm) de_max_demand) eq_refl G) as ([B U P R C QK Y] & _ & EP & _).
  unfold ind_evaluate. rewrite evaluate_eq; [cbn [rbind]| |cbn; lia].
  - intro H. injection H as <- <-. constructor; cbn [d_ga d_sol d_st]; auto. intros _. rewrite EP. split; [exact S|]. split; [exact HL|].
    split; [reflexivity|]. eexists. reflexivity.
  - intros n Hn. cbn in Hn. eapply Permutation_in in Hn; [|exact S]. apply in_seq in Hn. cbn [p_dim de_p]. lia.
Qed.
Definition de_next a b (last size : nat) (ph : list (list nat)) :=
  match de_cycle a b ph with
  | Some (d, w) =>
      match @dga_iterate NumQ rust_lib de_p de_cfg (de_clock last) 5 1000 (fun x => x) (fun x => x) de_lsort de_dm size de_hashes d w with
      | Ok (d, w) => Some (Ok (d_st d, i_pheno (d_sol d), w_iter w))
      | Err e => Some (Err e)
      end
  | None => None
  end.
(** A round that improves 7500 to 6800 ... *)
Example de_next_example : de_next 7 3 5 3 [[1];[4;3];[2];[]] = Some (Ok (DCycle, [[2]; [1; 3]; [4]; []], 0)) /\
  (total_penalized de_d (p_demand de_p) 10 250 ([[1];[4;3];[2];[]])%nat == 7500)%Q /\
  (total_penalized de_d (p_demand de_p) 10 250 ([[2];[1;3];[4];[]])%nat == 6800)%Q.
Proof. repeat split; vm_compute; reflexivity. Qed.
(** ... and one that is not begun because the time is up. *)
Example de_stop_example : de_next 7 3 0 3 [[1];[4;3];[2];[]] = Some (Ok (DTerminated, [[1]; [4; 3]; [2]; []], 0)).
Proof. vm_compute. reflexivity. Qed.

(** Both causes of a panic occur, in states that meet the invariant behind the theorems: a solution
    above capacity, for which the genetic algorithm finds no feasible one in time, and a merged
    solution with another number of routes. *)
Local Lemma de_fails a b last size ph e : serves_all_once 5 ph -> length ph = 4 -> de_next a b last size ph = Some (Err e) ->
  exists d w, dinv_any rust_lib de_p de_cfg d w /\ d_st d = DCycle /\ i_pheno (d_sol d) = ph /\
    dga_iterate rust_lib de_p de_cfg (de_clock last) 5 1000 (fun x => x) (fun x => x) de_lsort de_dm size de_hashes d w = Err e.
Proof.
  intros S HL. unfold de_next. destruct (de_cycle a b ph) as [[d w]|] eqn:EC; [|discriminate].
  pose proof (de_cycle_inv a b ph d w S HL EC) as I.
  assert (D : d_st d = DCycle /\ i_pheno (d_sol d) = ph).
  { revert EC. unfold de_cycle, ind_evaluate. destruct (evaluate _ _ _) as [v|]; [cbn [rbind]|discriminate].
    destruct (dga_new _ _ _ _ _ _). intro H. injection H as <- _. split; reflexivity. }
  destruct D as [D1 D2]. intro H. exists d, w. split; [exact I|]. split; [exact D1|]. split; [exact D2|].
  destruct (dga_iterate _ _ _ _ _ _ _ _ _ _ _ _ d w) as [[d' w']|e']; [discriminate H|]. injection H as <-. reflexivity.
Qed.
Local Lemma de_serves (ph : list (list nat)) : isort Nat.leb (concat ph) = [1;2;3;4] -> serves_all_once 5 ph.
Proof. intro H. unfold serves_all_once. rewrite <- (isort_perm Nat.leb (concat ph)), H. reflexivity. Qed.
Theorem C55_infeasible_refuted : exists d w, dinv_any rust_lib de_p de_cfg d w /\ d_st d = DCycle /\ i_pheno (d_sol d) = [[1;2;3];[4];[];[]] /\
  dga_iterate rust_lib de_p de_cfg (de_clock 1) 5 1000 (fun x => x) (fun x => x) de_lsort de_dm 3 de_hashes d w = Err EPanic.
Proof. apply (de_fails 7 3); [apply de_serves; reflexivity|reflexivity|vm_compute; reflexivity]. Qed.
Theorem C55_misfit_refuted : exists d w, dinv_any rust_lib de_p de_cfg d w /\ d_st d = DCycle /\ i_pheno (d_sol d) = [[1];[2];[3;4];[]] /\
  within_capacity (p_demand de_p) (p_cap de_p) (1 # 1000000) (i_pheno (d_sol d)) /\
  dga_iterate rust_lib de_p de_cfg (de_clock 5) 5 1000 (fun x => x) (fun x => x) de_lsort de_dm 4 de_hashes d w = Err EPanic.
Proof.
  destruct (de_fails 7 3 5 4 [[1];[2];[3;4];[]] EPanic) as (d & w & I & ST & PH & X); [apply de_serves; reflexivity|reflexivity|vm_compute; reflexivity|].
  exists d, w. split; [exact I|]. split; [exact ST|]. split; [exact PH|]. split; [|exact X]. rewrite PH.
  intros r Hr. cbn [In] in Hr. destruct Hr as [<-|[<-|[<-|[<-|[]]]]]; vm_compute; discriminate.
Qed.
(** Without [dc_size], neighbour lists of subproblems are read beyond their ends. *)
Theorem C55_small_parts_refuted : exists d w, dinv_any rust_lib de_p de_cfg d w /\ d_st d = DCycle /\ i_pheno (d_sol d) = [[1];[4;3];[2];[]] /\
  dga_iterate rust_lib de_p de_cfg (de_clock 5) 5 1000 (fun x => x) (fun x => x) de_lsort de_dm 2 de_hashes d w = Err EUB.
Proof. apply (de_fails 7 1); [apply de_serves; reflexivity|reflexivity|vm_compute; reflexivity]. Qed.
Print Assumptions C55_infeasible_refuted.
Print Assumptions C55_misfit_refuted.
Print Assumptions C55_small_parts_refuted.
