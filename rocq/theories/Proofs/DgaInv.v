(** The decomposed genetic algorithm keeps its invariant, in exact arithmetic. *)
From Coq Require Import List Arith NArith ZArith QArith Qround Bool Lia Lqa Permutation.
From Verif.Model Require Import Num Prelude Evaluate Individual Config Crossover Split Matrix Population
  LocalSearch World Schedule RuinRecreate Genetic Decomposition.
From Verif.Spec Require Import Solution Split Library Population LocalSearch RuinRecreate Genetic Decomposition.
From Verif.Proofs Require Import Lists QNum EvalFacts EvalThms SplitStruct SplitPart SplitThms MatrixFacts Fleet PopFacts PopQ PopMain
  LsRunQ RrRun RrRecreate RrQ RrMachine GaInv GaQ GaClock Streams GaBound Decompose DecomposeQ DgaSub DgaInst.
Import ListNotations.
Open Scope nat_scope.

(** The loop of [search] calls. *)
Lemma until_searches {N : Num} p c E corr : rows_ok p corr -> forall n (st : rrstate) w st' w',
  rr_until p c E n corr st w = Ok (st', w') -> rr_searches p c E st w st' w'.
Proof.
  intros RO. induction n as [|n IH]; intros st w st' w'; cbn [rr_until]; destruct (rr_complete st); intro G;
    try (injection G as <- <-; constructor); [discriminate G|].
  destruct (rr_search p c E corr st w) as [[s1 w1]|e] eqn:GS; [|discriminate G]. cbn [rbind] in G.
  exact (searches_more _ _ _ _ _ _ _ _ _ _ RO GS (IH _ _ _ _ G)).
Qed.

Lemma distinct_same {N : Num} (p : problem) m m' : same_rows m m' -> rows_distinct p m -> rows_distinct p m'.
Proof.
  intros (S1 & S2 & S3) (D1 & D2). split; [rewrite S2, S1; exact D1|]. intros u Hu. destruct (D2 u Hu) as [X Y].
  split; [eapply Permutation_NoDup; [symmetry; apply S3|exact X]|].
  intros v Hv. apply Y. eapply Permutation_in; [apply S3|exact Hv].
Qed.

Section Dga.
  Variable L : lib.
  Hypothesis LOK : lib_ok L.
  Variable p : @problem NumQ.
  Variable c : @config NumQ.
  Variable E : @env NumQ.
  Variable log_interval : nat.
  Variable fuel : nat.
  Variable sqrt_ round_ : @F NumQ -> @F NumQ.
  Variable lsort : list (nat * @F NumQ) -> list (nat * @F NumQ).
  Variable dm : @dmatrix NumQ.
  Variable min_size : nat.
  Variable hashes : nat -> rng * rng * rng.
  Variable gd : nat -> nat -> @F NumQ.
  Hypothesis OK : instance_ok p c.
  Hypothesis SMALL : small_costs p (inject_Z (10 ^ 10)).
  Hypothesis SO : sort_contract lsort.
  Hypothesis DF : dfun sqrt_ round_ dm (p_dim p) gd.
  Hypothesis GM : c_granularity c < min_size.
  Hypothesis G2 : c_granularity c <= 200.
  Local Open Scope Q_scope.
  Notation nv := (c_num_vehicles c).
  Notation TP := (total_penalized (p_dist p) (p_demand p) (p_cap p)).

  (** All penalties; those between the calls of [iterate]. *)
  Definition pens (x : @F NumQ) : Prop := 0 <= x /\ x <= inject_Z (10 ^ 10).
  Definition low (x : @F NumQ) : Prop := (1 # 10000 <= x)%Q /\ (x <= 10000 # 1)%Q.

  (** Bounds on the loops. *)
  Variable short : Prop.
  Variable rr_top : nat.
  Variable lively : (nat -> BinNums.N) -> Prop.
  Variable last : nat.
  Hypothesis BD : bounded short rr_top lively last L p c E fuel pens.
  Hypothesis BDS : forall mapping, instance_ok (sub_problem p mapping) (sub_config c) -> cutting p mapping ->
    bounded short rr_top lively last L (sub_problem p mapping) (sub_config c) E fuel usualQ.
  Hypothesis long_schedule : short \/ (100 * 1000 <= rr_top)%nat.
  Hypothesis short_cost : forall pen rs, pens pen -> serves_all_once (p_dim p) rs -> length rs = nv ->
    short \/ TP pen rs < inject_Z (Z.of_nat fuel) * (1 # 1000000).
  Notation quickD := (quick short rr_top).

  Lemma low_pens x : low x -> pens x.
  Proof. intros [? ?]. change (@F NumQ) with Q in *. split; [lra|]. change (inject_Z (10 ^ 10)) with (10000000000 # 1). lra. Qed.
  Lemma low_high x : low x -> pens (fmul x (flit 1000000 1)).
  Proof.
    intros [A B]. change (pens (x * (1000000 # 1))%Q). change (@F NumQ) with Q in *. split; [lra|].
    change (inject_Z (10 ^ 10)) with (10000000000 # 1). lra.
  Qed.
  Lemma low_usual x : low x -> usualQ x.
  Proof. intros [? ?]. change (@F NumQ) with Q in *. split; [lra|]. change (inject_Z (10 ^ 7)) with (10000000 # 1). lra. Qed.
  Lemma low_back x : low x -> low (fdiv (fmul x (flit 1000000 1)) (flit 1000000 1)) /\
    fdiv (fmul x (flit 1000000 1)) (flit 1000000 1) == x.
  Proof.
    intros [A B]. set (z := fdiv (fmul x (flit 1000000 1)) (flit 1000000 1)).
    assert (EQ : (z : Q) == x).
    { change (x * (1000000 # 1) / (1000000 # 1) == x). field. }
    clearbody z. split; [|exact EQ]. unfold low. change (@F NumQ) with Q in *. split; lra.
  Qed.

  Notation recs := (records_under p pens True).
  Notation baseD := (base L p c (exact_route p) pens recs).
  Notation doneD := (done L p c (exact_route p) pens recs short rr_top).

  Lemma recs_ga (pen : @F NumQ) b h i : pens pen -> recs b h -> evaluated p pen i -> is_feasible i = true ->
    oapprox_lt (penalized_cost i) (h_best h) = true -> recs (Some i) (hist_add h i).
  Proof. exact (records_ga p pens True pen b h i). Qed.
  Lemma recs_rr : True -> forall (pen : @F NumQ) b h cand h', pens pen -> recs b h -> sound p c (exact_route p) cand -> priced pen cand ->
      rr_recorded p c pen h cand h' -> recs b h'.
  Proof. exact (records_rr p c pens True). Qed.

  Lemma split_fitsD : split_fits p c pens.
  Proof.
    unfold split_fits. destruct (c_linear_split c); [|vm_compute; reflexivity].
    intros pen g [U1 U2] P. apply big_enough_Q. apply (small_split_at p c OK (inject_Z (10 ^ 10))); [exact SMALL| |exact P].
    split; assumption.
  Qed.

  Lemma base_pen g w x : baseD g w -> pens x -> baseD g (set_w_pen w x).
  Proof. intros [A1 A2 A3 A4 A5 A6 A7 A8 A9 A10] HX. constructor; auto. Qed.
  Lemma base_rr g w st : baseD g w -> rr_inv p c (exact_route p) st -> baseD (set_rr g st) w.
  Proof. intros [A1 A2 A3 A4 A5 A6 A7 A8 A9 A10] HX. constructor; auto. Qed.
  Lemma base_hist g w w' : baseD g w -> pens (w_pen w') -> recs (ga_best_sol g) (w_hist w') -> baseD g w'.
  Proof. intros [A1 A2 A3 A4 A5 A6 A7 A8 A9 A10] HX HY. constructor; auto. Qed.

  Lemma dim2 : (2 <= p_dim p)%nat. Proof. exact (io_dim _ _ OK). Qed.
  Lemma nv_pos : (0 < nv)%nat. Proof. exact (proj1 (io_fleet _ _ OK)). Qed.

  Lemma untilD b corr (pen0 : @F NumQ) k : rows_ok p corr -> forall n st w, ready p c (exact_route p) st ->
    searching pens recs b pen0 k st w ->
    (short \/ exists s, rr_acc st = AIter s /\ is_total s <= rr_top /\ is_total s <= is_iteration s + n)%nat ->
    safe p c (exact_route p) pens short (rr_until p c E n corr st w)
      (fun '(st', w') => ready p c (exact_route p) st' /\ searching pens recs b pen0 k st' w' /\ quickD st').
  Proof.
    intros RO. pose proof OK as [O1 [O2 O2'] O3 O4 O5 O6 O7 O8 O9 O10 O11].
    refine (rr_until_safe p c E fuel (exact_route p) _ _ _ O1 O2 O10 O2' pens recs True recs_rr
      short rr_top (bd_mutation _ _ _ _ _ _ _ _ _ _ BD) (bd_rr _ _ _ _ _ _ _ _ _ _ BD) b corr pen0 k I RO).
    - intros; eapply exact_remove; eauto.
    - intros; eapply exact_add; eauto.
    - now apply below_Q.
  Qed.

  Lemma quick_fuelD st w w' a : quickD st -> acc_reset E (rr_acc st) w = (a, w') ->
    (short \/ exists s, a = AIter s /\ is_total s <= rr_top /\ is_total s <= is_iteration s + fuel)%nat.
  Proof.
    pose proof OK as [O1 [O2 O2'] O3 O4 O5 O6 O7 O8 O9 O10 O11].
    apply (quick_fuel p c E fuel O1 O2 O10 O2' short rr_top (bd_mutation _ _ _ _ _ _ _ _ _ _ BD) (bd_rr _ _ _ _ _ _ _ _ _ _ BD)).
  Qed.

  Lemma reset_total t n w a w' : acc_reset E (AIter (is_new t n)) w = (a, w') -> (n <= rr_top)%nat ->
    exists s, a = AIter s /\ (is_total s <= rr_top)%nat.
  Proof. cbn [acc_reset]. intros EA LE. injection EA as <- _. eexists. split; [reflexivity|exact LE]. Qed.

  (** *** The first solution *)
  Lemma penalized_nonneg (pen : Q) rs : 0 <= pen -> serves_all_once (p_dim p) rs -> 0 <= TP pen rs.
  Proof.
    intros HP SV. apply (cost_nonneg p); auto; [pose proof (io_dim _ _ OK); lia|exact (io_dist _ _ OK)].
  Qed.

  (** The cost so far allows fewer than [k] improvements. *)
  Definition within_rounds (k : nat) (pen : @F NumQ) (st : @rrstate NumQ) : Prop :=
    short \/ exists b, rr_best st = Some b /\ priced pen b /\ (so_total pen b : Q) < inject_Z (Z.of_nat k) * (1 # 1000000).

  Lemma best_nonneg (pen : @F NumQ) st b : pens pen -> ready p c (exact_route p) st -> rr_best st = Some b -> 0 <= so_total pen b.
  Proof.
    intros [HP _] (_ & _ & b' & EB & SB & FB) E1. rewrite EB in E1. injection E1 as <-.
    rewrite (so_total_Q p pen b' (proj1 (exact_routes_Forall p b') FB)). apply penalized_nonneg; [exact HP|]. exact (ss_serves _ _ _ SB).
  Qed.

  Lemma improve_safe k : forall g w, baseD g w -> ready p c (exact_route p) (ga_rr g) -> rr_update_penalty (ga_rr g) = false ->
    quickD (ga_rr g) -> within_rounds k (w_pen w) (ga_rr g) ->
    length (i_pheno (ga_child g)) = nv -> safe p c (exact_route p) pens short (improve_global p c E fuel k g w) (doneD g w).
  Proof.
    induction k as [|k IH]; intros g w B R U QK WR HL; cbn [improve_global].
    { intros _. split; [reflexivity|]. destruct WR as [S|(b & EB & _ & LT)]; [exact S|]. exfalso.
      pose proof (best_nonneg (w_pen w) (ga_rr g) b (gb_pen _ _ _ _ _ _ _ _ B) R EB) as NN. change (inject_Z (Z.of_nat 0)) with 0 in LT.
      change (@F NumQ) with Q in *. lra. }
    destruct (rr_reset E (ga_rr g) w) as [st w1] eqn:ER. unfold rr_reset in ER.
    destruct (acc_reset E (rr_acc (ga_rr g)) w) as [a w2] eqn:EA. injection ER as <- <-.
    destruct (acc_reset_world _ _ _ _ _ EA) as (W1 & W2 & W3).
    set (st := rr_set_acceptance (ga_rr g) a).
    assert (R0 : ready p c (exact_route p) st) by exact R.
    assert (RO : rows_ok p (s_corr (ga_ls g))) by exact (gb_rows _ _ _ _ _ _ _ _ B).
    assert (SE : searching pens recs (ga_best_sol g) (w_pen w) (w_iter w) st w2).
    { unfold searching. rewrite W1, W2, W3. split; [exact (gb_hist _ _ _ _ _ _ _ _ B)|]. split; [exact (gb_pen _ _ _ _ _ _ _ _ B)|].
      split; [reflexivity|]. split; [exact U|reflexivity]. }
    pose proof (untilD (ga_best_sol g) (s_corr (ga_ls g)) (w_pen w) (w_iter w) RO fuel st w2 R0 SE (quick_fuelD _ _ _ _ QK EA)) as UN.
    destruct (rr_until p c E fuel (s_corr (ga_ls g)) st w2) as [[st3 w3]|e3] eqn:EUN; cbn [rbind]; [|exact UN].
    destruct UN as (R3 & (I1 & I2 & I3 & I4 & I5) & Q3).
    eapply safe_bind; [apply (get_best_safe p c (exact_route p) dim2 nv_pos); [exact R3|exact HL]|]. intros i' C'.
    rewrite I5 in C'.
    assert (B' : baseD (set_child (set_rr g st3) i') w3).
    { apply base_child. apply base_hist with (w := w).
      - apply base_rr; [exact B|]. now apply ready_inv.
      - exact I2.
      - exact I1. }
    assert (K' : kept short rr_top g w (set_child (set_rr g st3) i') w3).
    { constructor; cbn; auto using same_rows_refl. now rewrite U. }
    destruct (oapprox_gte (rr_best_cost st3) (rr_best_cost (ga_rr g))) eqn:EO.
    - cbn [safe]. split; [exact B'|]. split; [exact K'|]. exact C'.
    - eapply safe_weaken; [apply IH; [exact B'|exact R3|exact I4|exact Q3| |apply C']|].
      + destruct WR as [S|(b & EB & PB & LT)]; [now left|right]. change (ga_rr (set_child (set_rr g st3) i')) with st3.
        destruct (searches_at_most p c E (io_real _ _ OK) dim2 nv_pos (w_pen w) (so_total (w_pen w) b) st w2 st3 w3
                    (until_searches p c E _ RO _ _ _ _ _ EUN) R0) as (_ & _ & W4 & b' & EB' & PB' & LE').
        { split; [exact U|]. split; [exact W1|]. exists b. split; [exact EB|]. split; [exact PB|apply Qle_refl]. }
        exists b'. rewrite I5. split; [exact EB'|]. split; [exact PB'|].
        unfold rr_best_cost in EO. rewrite EB, EB', PB, PB' in EO. cbn [oapprox_gte] in EO. apply approx_gte_Q_false in EO.
        replace (Z.of_nat (Datatypes.S k)) with (Z.of_nat k + 1)%Z in LT by lia. rewrite inject_Z_plus in LT. change (inject_Z 1) with 1 in LT.
        change (@F NumQ) with Q in *. lra.
      + intros [g4 w4] (B4 & K4 & C4). cbn [fst snd] in *. split; [exact B4|]. split; [eapply kept_trans; eauto|].
        cbn [fst snd]. rewrite <- I5. exact C4.
  Qed.

  Lemma evaluate_child (pen pen' : @F NumQ) i : child_at p c pen i ->
    exists i', ind_evaluate p pen' i = Ok i' /\ child_at p c pen' i' /\ i_pheno i' = i_pheno i.
  Proof.
    intros (S & HL & G & _). unfold ind_evaluate. rewrite evaluate_eq.
    - cbn [rbind]. eexists. split; [reflexivity|]. split; [|reflexivity]. split; [exact S|]. split; [exact HL|]. split; [exact G|].
      eexists. reflexivity.
    - intros n Hn. apply (serves_In _ _ _ S) in Hn. lia.
    - pose proof dim2. lia.
  Qed.

  Definition created (w : @world NumQ) (g : @ga NumQ) (r : @individual NumQ * @ga NumQ * @world NumQ) : Prop :=
    let '(i, g', w') := r in
    baseD g' w' /\ rr_update_penalty (ga_rr g') = false /\ low (w_pen w') /\ w_pen w' == w_pen w /\
    child_at p c (w_pen w') i /\ same_rows (s_corr (ga_ls g)) (s_corr (ga_ls g')) /\ w_iter w' = w_iter w /\
    quickD (ga_rr g').

  Lemma create_safe g w : baseD g w -> rr_update_penalty (ga_rr g) = false -> quickD (ga_rr g) -> low (w_pen w) ->
    safe p c (exact_route p) pens short (create_global_solution L p c E fuel g w) (created w g).
  Proof.
    intros B U QK LW. unfold create_global_solution. pose proof OK as [O1 [O2 O2'] O3 O4 O5 O6 O7 O8 O9 O10 O11].
    destruct (ind_random p nv 0 (w_rng w)) as [i r] eqn:ER. apply shuffle_perm_random in ER as (P1 & _).
    set (w1 := set_w_pen (set_w_rng w r) (fmul (w_pen (set_w_rng w r)) (flit 1000000 1))).
    assert (HP : pens (w_pen w1)) by (apply low_high; exact LW).
    assert (B1 : baseD (set_child g i) w1).
    { apply base_child. apply base_hist with (w := w); [exact B|exact HP|exact (gb_hist _ _ _ _ _ _ _ _ B)]. }
    eapply safe_bind.
    { apply (run_split_safe L p c fuel (exact_route p) O1 O2 O10 O2' pens pens split_fitsD recs short rr_top
        (bd_mutation _ _ _ _ _ _ _ _ _ _ BD) (bd_rr _ _ _ _ _ _ _ _ _ _ BD) (set_child g i) w1 nv B1 HP P1). lia. }
    intros g2 (B2 & K2 & C2 & _).
    assert (U2 : rr_update_penalty (ga_rr g2) = false) by (rewrite (kp_up _ _ _ _ _ _ K2); exact U).
    eapply safe_bind.
    { refine (educate_safe L LOK p c E fuel (exact_route p) _ _ (exact_eval p) _ O1 O2 zero_not_lt_Q O10 O2' pens pens recs recs_ga True
        (fun _ => I) recs_rr short rr_top (bd_mutation _ _ _ _ _ _ _ _ _ _ BD) (bd_rr _ _ _ _ _ _ _ _ _ _ BD)
        (bd_ls _ _ _ _ _ _ _ _ _ _ BD pens recs) g2 w1 B2 HP U2 (kp_quick _ _ _ _ _ _ K2 QK) C2).
      - intros; eapply exact_remove; eauto.
      - intros; eapply exact_add; eauto.
      - now apply below_Q. }
    intros [g3 w3] (B3 & K3 & C3). cbn [fst snd] in B3, K3, C3. cbn beta iota zeta.
    set (g3' := set_rr g3 (rr_set_acceptance (ga_rr g3) (AIter (is_new (flit 10 1) (100 * 1000))))).
    assert (EW3 : w_pen w3 = w_pen w1) by exact (kp_pen _ _ _ _ _ _ K3).
    assert (B3' : baseD g3' w3) by (apply base_rr; [exact B3|exact (gb_rr _ _ _ _ _ _ _ _ B3)]).
    destruct (rr_load_ok p c E (exact_route p) (exact_eval p) O1 O2 (ga_rr g3') (ga_child g3') w3
                (proj1 (gb_rr _ _ _ _ _ _ _ _ B3')) (child_finished p c O1 O2 O10 O2' _ _ C3)) as (st & w4 & GL & LO); [apply C3|].
    rewrite GL. cbn [rbind].
    assert (W4 : w_pen w4 = w_pen w1) by (rewrite (lo_pen _ _ _ _ _ _ _ _ _ LO); exact EW3).
    assert (U3 : rr_update_penalty st = false).
    { rewrite (lo_up _ _ _ _ _ _ _ _ _ LO). change (rr_update_penalty (ga_rr g3) = false). rewrite (kp_up _ _ _ _ _ _ K3). exact U2. }
    assert (B4 : baseD (set_rr g3' st) w4).
    { apply base_hist with (w := w3).
      - apply base_rr; [exact B3'|]. apply ready_inv. exact (lo_ready _ _ _ _ _ _ _ _ _ LO).
      - rewrite W4. exact HP.
      - rewrite (lo_hist _ _ _ _ _ _ _ _ _ LO). exact (gb_hist _ _ _ _ _ _ _ _ B3). }
    assert (Q4 : quickD st).
    { destruct long_schedule as [S|LS]; [now left|right]. destruct (lo_acc _ _ _ _ _ _ _ _ _ LO) as (w5 & EA & _).
      exact (reset_total _ _ _ _ _ EA LS). }
    assert (WR : within_rounds fuel (w_pen w4) st).
    { destruct (short_cost (w_pen w1) (i_pheno (ga_child g3)) HP (proj1 C3) (proj1 (proj2 C3))) as [S|LT]; [now left|right].
      exists (rr_sol st). split; [exact (lo_best _ _ _ _ _ _ _ _ _ LO)|].
      rewrite (lo_pen _ _ _ _ _ _ _ _ _ LO). split; [exact (lo_priced _ _ _ _ _ _ _ _ _ LO)|].
      pose proof (lo_ready _ _ _ _ _ _ _ _ _ LO) as ((_ & FS) & _).
      rewrite (so_total_Q p (w_pen w3) (rr_sol st) (proj1 (exact_routes_Forall p (rr_sol st)) FS)).
      rewrite (lo_sol _ _ _ _ _ _ _ _ _ LO), EW3. exact LT. }
    eapply safe_bind; [apply (improve_safe fuel (set_rr g3' st) w4 B4); [exact (lo_ready _ _ _ _ _ _ _ _ _ LO)|exact U3|exact Q4|exact WR|apply C3]|].
    intros [g5 w5] (B5 & K5 & C5). cbn [fst snd] in B5, K5, C5. cbn beta iota zeta.
    set (w6 := set_w_pen w5 (fdiv (w_pen w5) (flit 1000000 1))).
    assert (EP : w_pen w6 = fdiv (fmul (w_pen w) (flit 1000000 1)) (flit 1000000 1)).
    { unfold w6. cbn [w_pen set_w_pen]. rewrite (kp_pen _ _ _ _ _ _ K5), W4. reflexivity. }
    destruct (low_back _ LW) as [LB EQ]. rewrite <- EP in LB, EQ.
    destruct (evaluate_child _ (w_pen w6) _ C5) as (i' & EI & CI & _). rewrite EI. cbn [rbind safe created].
    split; [apply base_hist with (w := w5); [exact B5|now apply low_pens|exact (gb_hist _ _ _ _ _ _ _ _ B5)]|].
    split; [rewrite (kp_up _ _ _ _ _ _ K5); exact U3|]. split; [exact LB|]. split; [exact EQ|]. split; [exact CI|]. split.
    - eapply same_rows_trans; [exact (kp_corr _ _ _ _ _ _ K2)|]. eapply same_rows_trans; [exact (kp_corr _ _ _ _ _ _ K3)|exact (kp_corr _ _ _ _ _ _ K5)].
    - split; [|exact (kp_quick _ _ _ _ _ _ K5 Q4)]. change (w_iter w5 = w_iter w1). rewrite (kp_witer _ _ _ _ _ _ K5), (lo_iter _ _ _ _ _ _ _ _ _ LO). exact (kp_witer _ _ _ _ _ _ K3).
  Qed.

  (** *** One round *)
  Record dinv (d : @dga NumQ) (w : @world NumQ) : Prop := {
    di_base : baseD (d_ga d) w;
    di_up : rr_update_penalty (ga_rr (d_ga d)) = false;
    di_pen : low (w_pen w);
    di_rows : rows_distinct p (s_corr (ga_ls (d_ga d)));
    di_cols : (c_granularity c < m_cols (s_corr (ga_ls (d_ga d))))%nat;
    di_quick : quickD (ga_rr (d_ga d));
    di_cycle : d_st d = DCycle -> child_at p c (w_pen w) (d_sol d)
  }.

  Lemma within_perm dem cap tol rs rs' : Permutation rs rs' -> within_capacity dem cap tol rs -> within_capacity dem cap tol rs'.
  Proof. intros P W r Hr. apply W. eapply Permutation_in; [symmetry; exact P|exact Hr]. Qed.

  Lemma feasible_within (q : @problem NumQ) (pen : @F NumQ) (i : @individual NumQ) : evaluated q pen i ->
    (is_feasible i = true <-> within_capacity (p_demand q) (p_cap q) (1 # 1000000) (i_pheno i)).
  Proof. intros (_ & _ & e & EV). unfold is_feasible. rewrite EV. cbn [geval se_feasible]. apply gfeasible_Q. Qed.

  Lemma nonempty_perm (i j : @individual NumQ) : Permutation (i_pheno i) (i_pheno j) -> num_nonempty_routes i = num_nonempty_routes j.
  Proof.
    intros P. unfold num_nonempty_routes. revert P. generalize (i_pheno i) (i_pheno j).
    induction 1; cbn [filter]; auto; repeat (destruct (_ <? _)); cbn [length]; lia.
  Qed.

  (** What taking the subproblem out gives. *)
  Record cut (d : @dga NumQ) (w : @world NumQ) (sub : @individual NumQ) (mapping : list nat) (rest : @individual NumQ)
      (mats : @dmatrix NumQ * cmatrix) (w1 : @world NumQ) (sub0 : @individual NumQ) (chosen : list (list nat)) : Prop := {
    ct_cut : cut_out p (d_sol d) sub0 mapping rest chosen;
    ct_sub : Permutation (i_pheno sub) (i_pheno sub0);
    ct_ok : instance_ok (sub_problem p mapping) (sub_config c);
    ct_near : neighbours_ok (sub_problem p mapping) (sub_config c) (cm_store (snd mats));
    ct_rows : rows_ok (sub_problem p mapping) (cm_store (snd mats));
    ct_eval : evaluated (sub_problem p mapping) (w_pen w) sub;
    ct_fits : (num_nonempty_routes sub <= nv)%nat;
    ct_feasible : is_feasible (d_sol d) = true -> is_feasible sub = true;
    ct_pen : w_pen w1 = w_pen w;
    ct_hist : w_hist w1 = w_hist w;
    ct_iter : w_iter w1 = w_iter w;
    ct_cutting : cutting p mapping;
    ct_rng : rdraw (w_rng w1) = rdraw (w_rng w)
  }.

  Lemma new_ok d w hash : dinv d w -> d_st d = DCycle -> exists sub mapping rest mats w1 sub0 chosen,
    decomposition_new p sqrt_ round_ lsort dm min_size (s_corr (ga_ls (d_ga d))) (d_sol d) hash w = Ok (sub, mapping, rest, mats, w1) /\
    cut d w sub mapping rest mats w1 sub0 chosen.
  Proof.
    intros [B U LW RD CO QK DC] ST. specialize (DC ST). pose proof DC as (S & HL & G & e & EV). pose proof OK as [O1 [O2 O2'] O3 O4 O5 O6 O7 O8 O9 O10 O11].
    set (corr := s_corr (ga_ls (d_ga d))) in *.
    assert (WS : whole_solution (p_dim p) (d_sol d)) by (split; assumption).
    destruct (decompose_global_ok p min_size corr (d_sol d) hash (w_rng w) WS ltac:(lia) O1 RD) as (sub0 & mapping & rest & r' & rs & ED & T).
    unfold decomposition_new. rewrite ED. cbn [rbind].
    assert (SZ : (c_granularity c < length (concat rs))%nat) by (destruct (tk_size _ _ _ _ _ _ _ T); lia).
    assert (S1 : (1 <= length (concat rs))%nat) by lia.
    destruct (sub_matrices p c OK min_size corr (d_sol d) sub0 rest mapping rs WS T S1 sqrt_ round_ lsort dm gd SO DF SZ G2)
      as (dd & cm & EM & NB & RO).
    rewrite EM. cbn [rbind].
    pose proof (sub_instance p c OK min_size corr (d_sol d) sub0 rest mapping rs WS T S1) as IO.
    pose proof (taken_serves min_size corr (d_sol d) sub0 rest mapping rs T) as SV.
    pose proof (tk_geno _ _ _ _ _ _ _ T) as GE.
    destruct (sort_routes_total (sub_problem p mapping) sub0 nan_Q) as (sub1 & ES); [now rewrite GE|]. rewrite ES. cbn [rbind].
    destruct (sort_routes_spec _ _ _ ltac:(now rewrite GE) ES) as (P1 & G1 & _).
    assert (SV1 : serves_all_once (length mapping) (i_pheno sub1)) by (unfold serves_all_once; rewrite (concat_perm _ _ P1); exact SV).
    unfold ind_evaluate. rewrite evaluate_eq; cbn [rbind].
    2:{ intros n Hn. apply (serves_In _ _ _ SV1) in Hn. change (p_dim (sub_problem p mapping)) with (length mapping). lia. }
    2:{ pose proof (io_dim _ _ IO). lia. }
    pose proof (taken_cut p min_size corr (d_sol d) sub0 rest mapping rs O1 WS T) as CU.
    eexists _, mapping, rest, (dd, cm), _, sub0, rs. split; [reflexivity|].
    assert (EVS : forall k f, evaluated (sub_problem p mapping) (w_pen w) (mkInd k (i_geno sub1) (i_pheno sub1) f
                     (geval (sub_problem p mapping) (w_pen w) (i_eval sub1) (i_pheno sub1)))).
    { intros k f. split; [exact SV1|]. split; [exact G1|]. exists (i_eval sub1). reflexivity. }
    constructor; [exact CU|exact P1|exact IO|exact NB|exact RO|apply EVS| | |reflexivity|reflexivity|reflexivity| |exact (decompose_global_stream _ _ _ _ _ _ _ _ _ _ ED)].
    - assert (X : num_nonempty_routes sub1 = num_nonempty_routes sub0) by now apply nonempty_perm.
      change (num_nonempty_routes sub1 <= nv)%nat. rewrite X. unfold num_nonempty_routes. rewrite (tk_pheno _ _ _ _ _ _ _ T).
      assert (FL : forall l k, (length (filter (fun r : list nat => 0 <? length r) (l ++ repeat [] k)) <= length l)%nat).
      { intros l k. induction l as [|a l IHl]; cbn [app filter].
        - induction k as [|k IHk]; cbn [repeat filter length]; auto.
        - destruct (0 <? length a); cbn [length]; lia. }
      etransitivity; [apply FL|]. rewrite numbered_length.
      pose proof (Permutation_length (tk_perm _ _ _ _ _ _ _ T)) as PL. rewrite app_length in PL. lia.
    - intros FE. apply (feasible_within p (w_pen w) (d_sol d)) in FE; [|eapply child_evaluated; eauto].
      apply (feasible_within (sub_problem p mapping) (w_pen w)); [apply EVS|]. cbn [i_pheno].
      apply (within_perm _ _ _ _ _ (Permutation_sym P1)).
      intros x Hx. destruct (co_renamed _ _ _ _ _ _ CU) as (k & ER).
      assert (HX : In (map (fun i => nth i mapping 0%nat) x) (rs ++ repeat [] k)) by (rewrite <- ER; unfold renamed; now apply in_map).
      change (p_cap (sub_problem p mapping)) with (p_cap p).
      change (route_load (p_demand (sub_problem p mapping)) x) with (route_load (fun i => p_demand p (nth i mapping 0%nat)) x).
      rewrite (load_renamed p mapping x). apply in_app_or in HX as [HX|HX].
      + apply FE. eapply Permutation_in; [symmetry; exact (co_routes _ _ _ _ _ _ CU)|]. apply in_or_app. now left.
      + apply repeat_spec in HX. rewrite HX. change (route_load (p_demand p) []) with 0. lra.
    - apply (sub_cutting p c OK min_size corr (d_sol d) sub0 rest mapping rs WS T S1). lia.
  Qed.

  (** What the genetic algorithm makes of the subproblem. *)
  Definition part_solved (sub : @individual NumQ) (mapping : list nat) (best : @individual NumQ) : Prop :=
    record_ok (sub_problem p mapping) (sub_config c) best /\
    (is_feasible sub = true -> exists x y : Q,
        penalized_cost sub = Some (x : @F NumQ) /\ penalized_cost best = Some (y : @F NumQ) /\ y <= x).

  Lemma sub_fine mapping good allowed : instance_ok (sub_problem p mapping) (sub_config c) -> sizes c ->
    fine (sub_problem p mapping) (sub_config c) good allowed.
  Proof. intros IO [F1 F2 F3 F4]. apply (fineQ _ _ IO). constructor; assumption. Qed.

  Lemma solve_ok d w sub mapping rest mats w1 sub0 chosen lh rh : low (w_pen w) -> lively (rdraw (w_rng w)) ->
    cut d w sub mapping rest mats w1 sub0 chosen ->
    match decomposition_run L p c E log_interval fuel sub mapping mats lh rh (sub_world w1 (w_rng w1)) with
    | Ok (best, _) => part_solved sub mapping best
    | Err e => sizes c -> e = EFuel /\ short \/ e = EPanic /\ is_feasible sub = false
    end.
  Proof.
    intros LW LV [C1 C2 C3 C4 C5 C6 C7 C8 C9 C10 C11 C12 C13].
    pose proof (sub_run_safe L LOK (sub_problem p mapping) (sub_config c) E log_interval (dm_max (fst mats)) fuel C3
      short rr_top lively last (BDS mapping C3 C12) (cm_store (snd mats)) lh rh (sub_world w1 (w_rng w1)) sub C4 C5) as SR.
    specialize (SR ltac:(change (usualQ (w_pen w1)); rewrite C9; now apply low_usual) eq_refl).
    specialize (SR ltac:(change (evaluated (sub_problem p mapping) (w_pen w1) sub); rewrite C9; exact C6) C7).
    specialize (SR ltac:(change (lively (rdraw (w_rng w1))); rewrite C13; exact LV)).
    unfold decomposition_run. cbv zeta. destruct (ga_new (sub_problem p mapping) (sub_config c) _ lh rh _) as [g w2].
    destruct (add_initial L (sub_config c) g sub w2) as [[g3 w3]|e]; cbn [rbind] in SR |- *.
    2:{ intros FI. left. apply SR. now apply sub_fine. }
    destruct (solver_run L _ _ E log_interval _ fuel fuel g3 w3) as [[g4 w4]|e]; cbn [rbind] in SR |- *.
    2:{ intros FI. left. apply SR. now apply sub_fine. }
    cbn [safe] in SR. unfold result_of in SR. cbn [fst] in SR. destruct (ga_best_sol g4) as [j|].
    - exact SR.
    - intros _. right. auto.
  Qed.

  Local Notation misfit := (misfit L p c E log_interval fuel sqrt_ round_ lsort dm min_size hashes).

  (** Between [old] and [new] there is a solution that is not longer than [old] costs, and [new]
      costs no more than that one. *)
  Definition not_worse (pen : Q) (old new : list (list nat)) : Prop := exists merged,
    serves_all_once (p_dim p) merged /\ length merged = nv /\
    within_capacity (p_demand p) (p_cap p) (1 # 1000000) merged /\
    total_length (p_dist p) merged <= TP pen old /\ TP pen new <= TP pen merged.

  Lemma length_le_penalized pen rs : 0 <= pen -> total_length (p_dist p) rs <= TP pen rs.
  Proof.
    intros HP. unfold total_length, total_penalized. induction rs as [|r rs IH]; cbn [map Qsum]; [lra|].
    assert (0 <= pen * Qpos (route_load (p_demand p) r - p_cap p)) by (apply Qmult_le_0_compat; [exact HP|apply Qpos_nonneg]).
    unfold route_penalized at 1. lra.
  Qed.

  Lemma cycle_ok d w : dinv d w -> lively (rdraw (w_rng w)) -> d_st d = DCycle ->
    match decompose_cycle L p c E log_interval fuel sqrt_ round_ lsort dm min_size hashes d w with
    | Ok (d', w') => dinv d' w' /\ d_st d' = DCycle /\ w_pen w' = w_pen w /\ w_iter w' = w_iter w /\
        (is_feasible (d_sol d) = true -> not_worse (w_pen w) (i_pheno (d_sol d)) (i_pheno (d_sol d')))
    | Err e => sizes c -> e = EFuel /\ short \/ e = EPanic /\ (is_feasible (d_sol d) = false \/ misfit d w)
    end.
  Proof.
    intros DI LV ST. pose proof DI as [B U LW RD CO QK DC]. specialize (DC ST).
    pose proof OK as [O1 [O2 O2'] O3 O4 O5 O6 O7 O8 O9 O10 O11].
    unfold decompose_cycle, misfit. destruct (hashes (d_round d)) as [[route_hash ls_hash] rr_hash].
    destruct (new_ok d w route_hash DI ST) as (sub & mapping & rest & mats & w1 & sub0 & chosen & EN & CT).
    rewrite EN. cbn [rbind]. pose proof CT as [C1 C2 C3 C4 C5 C6 C7 C8 C9 C10 C11 C12 C13].
    pose proof (solve_ok d w sub mapping rest mats w1 sub0 chosen ls_hash rr_hash LW LV CT) as SV.
    destruct (decomposition_run L p c E log_interval fuel sub mapping mats ls_hash rr_hash (sub_world w1 (w_rng w1))) as [[best clock]|e] eqn:ERUN;
      cbn [rbind].
    2:{ intros FI. destruct (SV FI) as [[-> S]|[-> FS]]; [left; auto|right]. split; [reflexivity|]. left.
        destruct (is_feasible (d_sol d)) eqn:FE; [|reflexivity]. specialize (C8 eq_refl). congruence. }
    destruct SV as [(BS & BW & pen' & v & [P0 _] & EV & TV) BC].
    assert (WS : whole_solution (p_dim p) (d_sol d)) by (destruct DC as (S & _ & G & _); split; assumption).
    destruct (finish_total p (d_sol d) sub0 rest mapping chosen O1 WS C1 (w_pen w) best BS) as (merged & EF).
    cbn [w_pen]. rewrite C9, EF. cbn [rbind].
    destruct (finish_ok p (d_sol d) sub0 rest mapping chosen O1 WS C1 (w_pen w) best merged BS EF) as ((M1 & M2) & M3 & e & M4).
    set (w2 := mkWorld (w_pen w) (w_hist w1) (w_iter w1) (w_rng w1) clock).
    destruct (update_best (set_child (d_ga d) merged) w2) as [g3 w3] eqn:EU.
    assert (EM : evaluated p (w_pen w2) (ga_child (set_child (d_ga d) merged))).
    { split; [exact M1|]. split; [exact M2|]. exists e. exact M4. }
    assert (B2 : baseD (set_child (d_ga d) merged) w2).
    { apply base_child. apply base_hist with (w := w); [exact B|exact (gb_pen _ _ _ _ _ _ _ _ B)|].
      change (recs (ga_best_sol (d_ga d)) (w_hist w1)). rewrite C10. exact (gb_hist _ _ _ _ _ _ _ _ B). }
    destruct (update_best_ok L p c (exact_route p) pens recs recs_ga short rr_top _ _ _ _ B2 EM EU) as (B3 & K3 & E3 & _).
    assert (W3 : w_pen w3 = w_pen w) by exact (kp_pen _ _ _ _ _ _ K3).
    unfold rr_reset. destruct (acc_reset E (rr_acc (ga_rr g3)) w3) as [a w4] eqn:EA.
    destruct (acc_reset_world _ _ _ _ _ EA) as (V1 & V2 & V3). cbn [fst snd].
    set (st3 := rr_set_acceptance (ga_rr g3) a).
    assert (SH : shaped p c (rr_sol st3)) by exact (proj1 (gb_rr _ _ _ _ _ _ _ _ B3)).
    assert (FM : finished p (ga_child g3)).
    { rewrite E3. exact (evaluated_finished p c O1 O2 O10 O2' _ _ EM). }
    assert (EC : ga_child g3 = merged) by exact E3.
    destruct (Nat.eq_dec (length (i_pheno merged)) nv) as [HL|NL].
    2:{ assert (EL : rr_load E st3 (ga_child g3) w4 = Err EPanic).
        { unfold rr_load, so_load. rewrite (proj1 SH), EC. destruct (Nat.eqb_spec (length (i_pheno merged)) nv); [contradiction|reflexivity]. }
        rewrite EL. cbn [rbind]. intros _. right. split; [reflexivity|]. right.
        exists sub, mapping, rest, mats, w1, best, clock, merged. auto. }
    destruct (rr_load_ok p c E (exact_route p) (exact_eval p) O1 O2 st3 (ga_child g3) w4 SH FM) as (st & w5 & GL & LO); [now rewrite EC|].
    rewrite GL. cbn [rbind].
    assert (W5 : w_pen w5 = w_pen w) by (rewrite (lo_pen _ _ _ _ _ _ _ _ _ LO), V1; exact W3).
    assert (RO3 : rows_ok p (s_corr (ga_ls g3))) by exact (gb_rows _ _ _ _ _ _ _ _ B3).
    pose proof (untilD (ga_best_sol g3) (s_corr (ga_ls g3)) (w_pen w) (w_iter w) RO3 fuel st w5 (lo_ready _ _ _ _ _ _ _ _ _ LO)) as UN.
    assert (U3 : rr_update_penalty st3 = false).
    { change (rr_update_penalty (ga_rr g3) = false). rewrite (kp_up _ _ _ _ _ _ K3). exact U. }
    assert (I5 : w_iter w5 = w_iter w).
    { rewrite (lo_iter _ _ _ _ _ _ _ _ _ LO), V2, (kp_witer _ _ _ _ _ _ K3). exact C11. }
    assert (SE : searching pens recs (ga_best_sol g3) (w_pen w) (w_iter w) st w5).
    { unfold searching. rewrite W5, I5, (lo_hist _ _ _ _ _ _ _ _ _ LO), (lo_up _ _ _ _ _ _ _ _ _ LO), V3.
      split; [exact (gb_hist _ _ _ _ _ _ _ _ B3)|]. split; [exact (gb_pen _ _ _ _ _ _ _ _ B)|].
      split; [reflexivity|]. split; [exact U3|reflexivity]. }
    assert (QF : (short \/ exists s, rr_acc st = AIter s /\ is_total s <= rr_top /\ is_total s <= is_iteration s + fuel)%nat).
    { destruct (lo_acc _ _ _ _ _ _ _ _ _ LO) as (w7 & EA7 & _). refine (quick_fuelD st3 _ _ _ _ EA7).
      destruct (quick_fuelD _ _ _ _ (kp_quick _ _ _ _ _ _ K3 QK) EA) as [S|(s0 & ES & TS & _)]; [now left|right]. exists s0. split; [exact ES|exact TS]. }
    specialize (UN SE QF).
    destruct (rr_until p c E fuel (s_corr (ga_ls g3)) st w5) as [[st6 w6]|e6] eqn:EUN; cbn [rbind].
    2:{ intros FI. left. exact (UN (fineQ p c OK _ _ FI)). }
    destruct UN as (R6 & (J1 & J2 & J3 & J4 & J5) & QK6).
    assert (HLC : length (i_pheno (ga_child g3)) = nv) by now rewrite EC.
    pose proof (get_best_safe p c (exact_route p) O1 O2 pens short (w_pen w6) st6 (ga_child g3) R6 HLC) as GB.
    destruct (rr_get_best_solution p (w_pen w6) st6 (ga_child g3)) as [i7|e7] eqn:EG; cbn [rbind].
    2:{ intros FI. left. exact (GB (fineQ p c OK _ _ FI)). }
    cbn [safe] in GB.
    destruct (update_best (set_child (set_rr g3 st6) i7) w6) as [g8 w8] eqn:EU8.
    assert (B7 : baseD (set_child (set_rr g3 st6) i7) w6).
    { apply base_child. apply base_hist with (w := w3); [apply base_rr; [exact B3|now apply ready_inv]|exact J2|exact J1]. }
    destruct (update_best_ok L p c (exact_route p) pens recs recs_ga short rr_top _ _ _ _ B7 (child_evaluated p c _ _ GB) EU8) as (B8 & K8 & E8 & _).
    assert (E8' : ga_child g8 = i7) by exact E8.
    assert (W8 : w_pen w8 = w_pen w) by (rewrite (kp_pen _ _ _ _ _ _ K8); exact J5).
    assert (SR : same_rows (s_corr (ga_ls (d_ga d))) (s_corr (ga_ls g8))).
    { eapply same_rows_trans; [exact (kp_corr _ _ _ _ _ _ K3)|exact (kp_corr _ _ _ _ _ _ K8)]. }
    split; [constructor; cbn [d_ga d_sol d_st]|].
    - exact B8.
    - rewrite (kp_up _ _ _ _ _ _ K8). exact J4.
    - rewrite W8. exact LW.
    - exact (distinct_same p _ _ SR RD).
    - rewrite (proj1 SR). exact CO.
    - exact (kp_quick _ _ _ _ _ _ K8 QK6).
    - intros _. rewrite E8', W8, <- J5. exact GB.
    - split; [reflexivity|]. split; [exact W8|]. split; [rewrite (kp_witer _ _ _ _ _ _ K8); exact J3|].
      intros FE. cbn [d_sol]. rewrite E8'.
      destruct (never_worse_from p c E O9 O1 O2 st3 (ga_child g3) w4 st w5 st6 w6 (ga_child g3) i7 SH U3 FM HLC GL
                  (until_searches p c E _ RO3 _ _ _ _ _ EUN) HLC EG) as (_ & _ & _ & NW).
      rewrite V1, W3, EC in NW.
      exists (i_pheno merged). split; [exact M1|]. split; [exact HL|]. split; [|split; [|exact NW]].
      + apply (merged_within p (d_sol d) sub0 rest best merged mapping chosen C1 M3); [lra| |exact BW].
        apply (feasible_within p (w_pen w) (d_sol d)); [eapply child_evaluated; eauto|exact FE].
      + destruct (BC (C8 FE)) as (x & y & EX & EY & LE).
        rewrite EV in EY. injection EY as <-.
        assert (EX' : x == TP (w_pen w) (renamed mapping (i_pheno sub))).
        { destruct C6 as (_ & _ & e6 & EV6). unfold penalized_cost in EX. rewrite EV6 in EX. cbn [geval se_cost] in EX. injection EX as <-.
          rewrite gtotal_Q. rewrite <- (penalized_renamed p (w_pen w) mapping (co_depot _ _ _ _ _ _ C1)). reflexivity. }
        assert (TV' : v == TP pen' (renamed mapping (i_pheno best))).
        { rewrite TV. rewrite <- (penalized_renamed p pen' mapping (co_depot _ _ _ _ _ _ C1)). reflexivity. }
        assert (PS : TP (w_pen w) (renamed mapping (i_pheno sub)) == TP (w_pen w) chosen).
        { unfold renamed. rewrite (TP_perm p (w_pen w) _ _ (Permutation_map _ C2)).
          destruct (co_renamed _ _ _ _ _ _ C1) as (k & ER). unfold renamed in ER. rewrite ER, TP_app'.
          rewrite (penalized_empties p (w_pen w) O7 ltac:(lra)). ring. }
        assert (LP : forall rs rs', Permutation rs rs' -> total_length (p_dist p) rs == total_length (p_dist p) rs').
        { unfold total_length. induction 1; cbn [map Qsum]; lra. }
        assert (LA : forall rs rs', total_length (p_dist p) (rs ++ rs') == total_length (p_dist p) rs + total_length (p_dist p) rs').
        { intros rs rs'. unfold total_length. induction rs as [|r rs IH]; cbn [app map Qsum]; [lra|]. rewrite IH. ring. }
        assert (LU : forall rs, total_length (p_dist p) (used_routes rs) == total_length (p_dist p) rs).
        { unfold total_length, used_routes. induction rs as [|[|a0 r] rs IH]; cbn [filter map Qsum]; [reflexivity| |].
          - rewrite IH. change (route_length (p_dist p) []) with (p_dist p 0%nat 0%nat + 0). rewrite O7. ring.
          - rewrite IH. reflexivity. }
        rewrite (LP _ _ M3), LA, LU.
        rewrite (TP_perm p (w_pen w) _ _ (co_routes _ _ _ _ _ _ C1)), TP_app'.
        pose proof (length_le_penalized pen' (renamed mapping (i_pheno best)) P0) as L1.
        assert (P1 : 0 <= w_pen w) by (destruct LW; change (@F NumQ) with Q in *; lra).
        pose proof (length_le_penalized (w_pen w) (i_pheno rest) P1) as L2.
        change (@F NumQ) with Q in *. lra.
  Qed.

  (** *** One call of [iterate] *)
  Lemma not_worse_refl (pen : @F NumQ) i : 0 <= pen -> child_at p c pen i -> is_feasible i = true -> not_worse pen (i_pheno i) (i_pheno i).
  Proof.
    intros P C FE. pose proof C as (S & HL & _). exists (i_pheno i). split; [exact S|]. split; [exact HL|]. split.
    - apply (feasible_within p pen i); [eapply child_evaluated; eauto|exact FE].
    - split; [now apply length_le_penalized|apply Qle_refl].
  Qed.

  Lemma dga_iterate_ok d w : dinv d w -> lively (rdraw (w_rng w)) ->
    match dga_iterate L p c E log_interval fuel sqrt_ round_ lsort dm min_size hashes d w with
    | Ok (d', w') => dinv d' w' /\ w_iter w' = w_iter w /\ w_pen w' == w_pen w /\
        (d_st d = DCycle -> is_feasible (d_sol d) = true -> not_worse (w_pen w) (i_pheno (d_sol d)) (i_pheno (d_sol d')))
    | Err e => sizes c -> e = EFuel /\ short \/ e = EPanic /\ d_st d = DCycle /\
        (is_feasible (d_sol d) = false \/ misfit d (snd (terminate c E w)))
    end.
  Proof.
    intros DI LV. unfold dga_iterate. destruct (terminate c E w) as [stop w1] eqn:ET. cbn [snd].
    assert (W1 : w_pen w1 = w_pen w /\ w_hist w1 = w_hist w /\ w_iter w1 = w_iter w /\ w_rng w1 = w_rng w).
    { unfold terminate, now in ET. injection ET as _ <-. auto. }
    destruct W1 as (W1 & W2 & W3 & W4). pose proof DI as [B U LW RD CO QK DC].
    assert (DI1 : forall st, (st = DCycle -> d_st d = DCycle) -> dinv (mkDGA st (d_sol d) (d_ga d) (d_round d)) w1).
    { intros st HS. constructor; cbn [d_ga d_sol d_st]; auto; [eapply base_world; eauto|now rewrite W1|rewrite W1; auto]. }
    assert (P0 : 0 <= w_pen w) by (destruct LW; change (@F NumQ) with Q in *; lra).
    destruct stop; cbn [d_st].
    - split; [apply DI1; discriminate|]. split; [exact W3|]. split; [rewrite W1; reflexivity|].
      cbn [d_sol]. intros ST FE. apply not_worse_refl; auto.
    - assert (ED : mkDGA (d_st d) (d_sol d) (d_ga d) (d_round d) = d) by now destruct d.
      pose proof (DI1 (d_st d) (fun x => x)) as D1. rewrite ED in D1.
      destruct (d_st d) eqn:ST.
      + pose proof (create_safe (d_ga d) w1 (di_base _ _ D1) U QK (di_pen _ _ D1)) as CS.
        destruct (create_global_solution L p c E fuel (d_ga d) w1) as [[[i g] w2]|e]; cbn [rbind safe] in CS |- *.
        * destruct CS as (B2 & U2 & L2 & E2 & C2 & S2 & I2 & Q2). split; [|split; [now rewrite I2|split; [rewrite E2, W1; reflexivity|discriminate]]].
          constructor; cbn [d_ga d_sol d_st]; auto.
          -- exact (distinct_same p _ _ S2 RD).
          -- rewrite (proj1 S2). exact CO.
        * intros FI. left. exact (CS (fineQ p c OK _ _ FI)).
      + pose proof (cycle_ok d w1 D1 ltac:(rewrite W4; exact LV) ST) as CY.
        destruct (decompose_cycle L p c E log_interval fuel sqrt_ round_ lsort dm min_size hashes d w1) as [[d2 w2]|e].
        * destruct CY as (D2 & S2 & P2 & I2 & NW). split; [exact D2|]. split; [now rewrite I2|]. split; [rewrite P2, W1; reflexivity|].
          intros _ FE. rewrite <- W1. now apply NW.
        * intros FI. destruct (CY FI) as [[-> S]|[-> X]]; [left; auto|right]. auto.
      + split; [exact D1|]. split; [exact W3|]. split; [rewrite W1; reflexivity|discriminate].
  Qed.

  (** *** The first state *)
  Lemma dga_new_inv corr lh rh w0 d w : neighbours_ok p c corr -> rows_distinct p corr -> (c_granularity c < m_cols corr)%nat ->
    low (w_pen w0) -> w_hist w0 = hist_new -> dga_new p c corr lh rh w0 = (d, w) ->
    dinv d w /\ w_iter w = w_iter w0 /\ w_pen w = w_pen w0 /\ d_st d = DNotInitialized.
  Proof.
    intros NB RD GC LW HH G. unfold dga_new in G. destruct (ind_random p nv 0 (w_rng w0)) as [i r].
    destruct (ga_new p c corr lh rh (set_w_rng w0 r)) as [g w1] eqn:EN. injection G as <- <-.
    assert (RO : rows_ok p corr) by (destruct RD as [R1 R2]; split; [exact R1|intros u v Hu Hv; apply (R2 u); [lia|exact Hv]]).
    destruct (new_inv L p c (exact_route p) pens pens (fun _ h => h) recs (fun _ => pens) short rr_top (bd_mutation _ _ _ _ _ _ _ _ _ _ BD) corr lh rh (set_w_rng w0 r) g w1 NB RO) as (I & X1 & X2 & X3); auto.
    { now apply low_pens. }
    { change (recs None (w_hist w0)). rewrite HH. apply records_none. }
    pose proof EN as EN'. unfold ga_new in EN'. destruct (ind_random p nv 0 (w_rng (set_w_rng w0 r))) as [i2 r2]. injection EN' as EG EW.
    split; [|rewrite <- EW; auto]. constructor; cbn [d_ga d_sol d_st].
    - exact (in_base _ _ _ _ _ _ _ _ _ _ _ _ I).
    - rewrite <- EG. reflexivity.
    - rewrite <- EW. exact LW.
    - rewrite <- EG. exact RD.
    - rewrite <- EG. exact GC.
    - apply (in_usual _ _ _ _ _ _ _ _ _ _ _ _ I); rewrite <- EG; discriminate.
    - discriminate.
  Qed.
End Dga.

(** The initial penalty *)
Lemma low_initial (md : option (@F NumQ)) m : low (@initial_penalty NumQ md m).
Proof.
  unfold low, initial_penalty. destruct md as [x|], m as [m|]; numq; try lra.
  set (z := Qdiv x m). clearbody z.
  destruct (Qminb_spec (10000 # 1) z) as [[? ->]|[? ->]];
  match goal with |- context [Qmaxb ?a ?b] => destruct (Qmaxb_spec a b) as [[? ->]|[? ->]] end; lra.
Qed.

(** *** Without bounds on the loops *)
Notation dinv_any L p c := (dinv L p c True 0).
Section Unbounded.
  Variable L : lib.
  Hypothesis LOK : lib_ok L.
  Variable p : @problem NumQ.
  Variable c : @config NumQ.
  Variable min_size : nat.
  Hypothesis GM : c_granularity c < min_size.
  Hypothesis G2 : c_granularity c <= 200.

  Lemma dga_new_any corr lh rh w0 d w : neighbours_ok p c corr -> rows_distinct p corr -> c_granularity c < m_cols corr ->
    low (w_pen w0) -> w_hist w0 = hist_new -> dga_new p c corr lh rh w0 = (d, w) ->
    dinv_any L p c d w /\ w_iter w = w_iter w0 /\ w_pen w = w_pen w0 /\ d_st d = DNotInitialized.
  Proof.
    assert (E : @env NumQ) by (constructor; intros; exact 0%Q).
    exact (dga_new_inv L p c E 0 min_size GM G2 True 0 (fun _ => True) 0 (bounded_true L p c E 0 pens) (or_introl I) corr lh rh w0 d w).
  Qed.

  Lemma dga_iterate_any E log_interval fuel sqrt_ round_ lsort (dm : @dmatrix NumQ) hashes gd d w :
    instance_ok p c -> small_costs p (inject_Z (10 ^ 10)) -> sort_contract lsort -> dfun sqrt_ round_ dm (p_dim p) gd ->
    dinv_any L p c d w ->
    match dga_iterate L p c E log_interval fuel sqrt_ round_ lsort dm min_size hashes d w with
    | Ok (d', w') => dinv_any L p c d' w' /\ w_iter w' = w_iter w /\ (w_pen w' == w_pen w)%Q /\
        (d_st d = DCycle -> is_feasible (d_sol d) = true -> not_worse p c (w_pen w) (i_pheno (d_sol d)) (i_pheno (d_sol d')))
    | Err e => sizes c -> e = EFuel \/ e = EPanic /\ d_st d = DCycle /\
        (is_feasible (d_sol d) = false \/
         misfit L p c E log_interval fuel sqrt_ round_ lsort dm min_size hashes d (snd (terminate c E w)))
    end.
  Proof.
    intros OK SM SO DF DI.
    pose proof (dga_iterate_ok L LOK p c E log_interval fuel sqrt_ round_ lsort dm min_size hashes gd OK SM SO DF GM G2 True 0 (fun _ => True) 0
      (bounded_true L p c E fuel pens) (fun m _ _ => bounded_true L _ _ E fuel usualQ) (or_introl I) (fun _ _ _ _ _ => or_introl I) d w DI I) as X.
    destruct (dga_iterate L p c E log_interval fuel sqrt_ round_ lsort dm min_size hashes d w) as [[d' w']|e]; [exact X|].
    intros FI. destruct (X FI) as [[-> _]|Y]; auto.
  Qed.
End Unbounded.
