(** The clock and the iteration counter: what the calls of [iterate] do to them. *)
From Coq Require Import List Arith NArith ZArith Bool Lia.
From Verif.Model Require Import Num Prelude Evaluate Individual Config Crossover Split Matrix Population
  LocalSearch World Schedule RuinRecreate Genetic.
From Verif.Spec Require Import Genetic.
Import ListNotations.
Local Open Scope nat_scope.

Section Clock.
  Context {N : Num}.
  Variable L : lib.
  Variable p : problem.
  Variable c : config.
  Variable E : env.
  Variable log_interval : nat.
  Variable max_distance : option F.
  Variable fuel : nat.

  Definition later (w w' : world) : Prop := w_clock w <= w_clock w' /\ w_iter w' = w_iter w.
  Lemma later_refl w : later w w.
  Proof. split; auto. Qed.
  Lemma later_trans a b d : later a b -> later b d -> later a d.
  Proof. intros [A1 A2] [B1 B2]. split; [lia|congruence]. Qed.

  Ltac bind G := match type of G with
    | rbind ?m _ = Ok _ => let x := fresh "v" in let e := fresh "er" in let H := fresh "G" in
        destruct m as [x|e] eqn:H; [cbn [rbind] in G|discriminate G]
    end.

  Lemma acc_update_later a w a' w' : acc_update E a w = (a', w') -> later w w'.
  Proof.
    unfold acc_update, ts_update, now. destruct a; [intro G; injection G as <- <-; apply later_refl|].
    cbn [ts_since ts_rate]. destruct (_ =? _); intro G; injection G as <- <-; split; cbn; auto.
  Qed.
  Lemma acc_reset_later a w a' w' : acc_reset E a w = (a', w') -> later w w'.
  Proof.
    unfold acc_reset, ts_reset, now. destruct a; intro G; injection G as <- <-; split; cbn; auto.
  Qed.

  Lemma rr_update_best_later cur w w' : rr_update_best p c cur w = Ok w' -> later w w'.
  Proof.
    unfold rr_update_best. destruct (_ && _); [|intro G; injection G as <-; apply later_refl].
    destruct (ind_random _ _ _ _). intro G. bind G. injection G as <-. split; cbn; auto.
  Qed.

  Lemma rr_move_later corr st w st' w' : rr_move p c E corr st w = Ok (st', w') -> later w w'.
  Proof.
    unfold rr_move. intro G. bind G. destruct v as [cur r]. bind G. destruct v as [[cur' r'] hash].
    destruct (accepts _ _ _ _ _) as [ok r2]. bind G. destruct v as [[sol best] w1].
    assert (X : later w w1).
    { destruct ok; [|injection G2 as _ _ <-; split; cbn; auto]. bind G2. destruct v as [best' w2].
      assert (Y : later w w2).
      { destruct (match rr_best st with Some _ => _ | None => _ end); [|injection G3 as _ <-; split; cbn; auto].
        bind G3. injection G3 as _ <-. apply rr_update_best_later in G4. destruct G4. split; cbn in *; auto. }
      bind G2. injection G2 as _ _ <-. exact Y. }
    bind G. destruct (acc_update _ _ _) as [a w2] eqn:EA. apply acc_update_later in EA. injection G as _ <-.
    eapply later_trans; eauto.
  Qed.

  Lemma rr_loop_later corr k : forall st w st' w', rr_loop p c E corr k st w = Ok (st', w') -> later w w'.
  Proof.
    induction k as [|k IH]; intros st w st' w'; cbn [rr_loop]; [intro G; injection G as _ <-; apply later_refl|].
    destruct (match k with O => rr_penalty c st w | _ => (st, w) end) as [s1 w1] eqn:EP.
    assert (X : later w w1).
    { destruct k; [|injection EP as _ <-; apply later_refl]. unfold rr_penalty in EP.
      destruct (rr_update_penalty st); injection EP as _ <-; split; cbn; auto. }
    intro G. bind G. destruct v as [s2 w2]. apply rr_move_later in G0.
    destruct (acc_completed _); [injection G as _ <-|apply IH in G]; eauto using later_trans.
  Qed.
  Lemma rr_until_later k corr : forall st w st' w', rr_until p c E k corr st w = Ok (st', w') -> later w w'.
  Proof.
    induction k as [|k IH]; intros st w st' w'; cbn [rr_until].
    - destruct (rr_complete st); [intro G; injection G as _ <-; apply later_refl|discriminate].
    - destruct (rr_complete st); [intro G; injection G as _ <-; apply later_refl|].
      intro G. bind G. destruct v as [s1 w1]. apply rr_loop_later in G0. apply IH in G. eauto using later_trans.
  Qed.
  Lemma rr_load_later st i w st' w' : rr_load E st i w = Ok (st', w') -> later w w'.
  Proof.
    unfold rr_load. intro G. repeat bind G. destruct (acc_reset _ _ _) as [a w1] eqn:EA. injection G as _ <-.
    eapply acc_reset_later; eauto.
  Qed.

  Lemma update_best_later g w g' w' : update_best g w = (g', w') -> later w w' /\ ga_st g' = ga_st g.
  Proof.
    unfold update_best. destruct (_ && _); [destruct (oapprox_lt _ (h_best _))|]; intro G; injection G as <- <-; (split; [split|]); cbn; auto.
  Qed.
  Lemma run_ls_later m g w g' w' : run_ls p c fuel m g w = Ok (g', w') -> later w w' /\ ga_st g' = ga_st g.
  Proof. unfold run_ls. intro G. bind G. destruct v as [[s i] r]. injection G as <- <-. repeat split; cbn; auto. Qed.
  Lemma run_rr_later g w g' w' : run_rr p c E fuel g w = Ok (g', w') -> later w w' /\ ga_st g' = ga_st g.
  Proof.
    unfold run_rr. intro G. bind G. destruct v as [s1 w1]. bind G. destruct v as [s2 w2]. bind G. injection G as <- <-.
    apply rr_load_later in G0. apply rr_until_later in G1. split; [|reflexivity]. eauto using later_trans.
  Qed.

  Lemma opt_ls_later (b : bool) m g w g' w' : (if b then run_ls p c fuel m g w else Ok (g, w)) = Ok (g', w') ->
    later w w' /\ ga_st g' = ga_st g.
  Proof.
    destruct b; [apply run_ls_later|]. intro G. injection G as <- <-. split; [apply later_refl|reflexivity].
  Qed.

  Lemma repair_later g w g' w' : repair L p c fuel g w = Ok (g', w') -> later w w' /\ ga_st g' = ga_st g.
  Proof.
    unfold repair. intro G. bind G. destruct v as [g1 w1]. apply opt_ls_later in G0 as [A1 A2].
    bind G. destruct v as [g2 w2]. injection G as <- <-. cbn.
    destruct (is_feasible _).
    - destruct (update_best g1 w1) as [g3 w3] eqn:EU. apply update_best_later in EU as [B1 B2].
      bind G0. injection G0 as <- <-. cbn. split; [eauto using later_trans|congruence].
    - injection G0 as <- <-. auto.
  Qed.

  Lemma educate_later g w g' w' : educate L p c E fuel g w = Ok (g', w') -> later w w' /\ ga_st g' = ga_st g.
  Proof.
    unfold educate. intro G. bind G. destruct v as [g1 w1]. apply opt_ls_later in G0 as [A1 A2].
    destruct (real p (w_rng w1)) as [x r]. bind G. destruct v as [g2 w2].
    assert (X : later w w2 /\ ga_st g2 = ga_st g).
    { destruct (_ && _).
      - apply run_rr_later in G0 as [B1 B2]. split; [|congruence]. eapply later_trans; [exact A1|].
        destruct B1 as [B1 B3]. split; auto.
      - injection G0 as <- <-. split; [|exact A2]; destruct A1; split; auto. }
    destruct X as [X1 X2]. bind G. destruct v as [g3 w3].
    assert (Y : later w w3 /\ ga_st g3 = ga_st g).
    { destruct (negb _).
      - destruct (real p (w_rng w2)) as [y r']. destruct (y <:? _).
        + apply repair_later in G1 as [B1 B2]. split; [|congruence]. eapply later_trans; [exact X1|].
          destruct B1 as [B1 B3]. split; auto.
        + injection G1 as <- <-. split; [|exact X2]. destruct X1; split; auto.
      - injection G1 as <- <-. auto. }
    destruct Y as [Y1 Y2]. injection G as G. apply update_best_later in G as [Z1 Z2].
    split; [eauto using later_trans|congruence].
  Qed.

  Lemma log_later g w g' w' : ga_log c E log_interval g w = Ok (g', w') -> later w w' /\ ga_st g' = ga_st g.
  Proof.
    unfold ga_log, now. cbn [ga_iterations ga_best_iter set_next_log]. destruct (_ <? _); [discriminate|].
    intro G. repeat bind G. injection G as <- <-. repeat split; cbn; auto.
  Qed.

  Lemma run_split_st g w mv g' : run_split p c g w mv = Ok g' -> ga_st g' = ga_st g.
  Proof. unfold run_split. intro G. bind G. destruct v as [st i]. injection G as <-. reflexivity. Qed.

  Lemma it_created_later g w g' w' : it_created L p c E fuel g w = Ok (g', w') -> later w w'.
  Proof.
    unfold it_created. destruct (_ && _); [|intro G; injection G as _ <-; apply later_refl].
    intro G. bind G. bind G. destruct v0 as [g1 w1]. apply educate_later in G1 as [A1 _].
    destruct (setup_elite_education p c E (ga_rr g1) w1) as [st w2] eqn:EE.
    assert (X : later w1 w2).
    { unfold setup_elite_education, ts_new, now in EE. destruct (c_elite_education_time_based c); injection EE as _ <-; split; cbn; auto. }
    bind G. destruct v0 as [s3 w3]. apply rr_load_later in G1. injection G as _ <-. eauto using later_trans.
  Qed.
  Lemma it_elite_later g w g' w' : it_elite L p c E log_interval max_distance g w = Ok (g', w') -> later w w'.
  Proof.
    unfold it_elite. destruct (negb _).
    - intro G. bind G. destruct v as [s1 w1]. apply rr_loop_later in G0. injection G as _ <-. exact G0.
    - intro G. bind G. destruct (update_best _ _) as [g1 w1] eqn:EU. apply update_best_later in EU as [A1 _].
      bind G. bind G. apply log_later in G as [B1 _].
      unfold reset_penalty in G2. bind G2. injection G2 as <-. destruct B1 as [B1 B2]. destruct A1 as [A1 A2].
      cbn in *. split; [lia|congruence].
  Qed.
  Lemma it_init_later g w g' w' : it_init L p c E fuel g w = Ok (g', w') -> later w w'.
  Proof.
    unfold it_init. destruct (_ <? _); [|intro G; injection G as _ <-; apply later_refl].
    unfold create_initial_individual. destruct (ind_random _ _ _ _) as [i r]. intro G. bind G. destruct v as [[nc g1] w1].
    bind G. injection G as _ <-. bind G0. bind G0. destruct v1 as [g2 w2]. injection G0 as _ _ <-.
    apply educate_later in G2 as [A1 _]. destruct A1. split; auto.
  Qed.

  Lemma it_created_st g w g' w' : it_created L p c E fuel g w = Ok (g', w') -> ga_st g' <> Terminated.
  Proof.
    unfold it_created. destruct (_ && _); [|intro G; injection G as <- _; discriminate].
    intro G. bind G. apply run_split_st in G0. bind G. destruct v0 as [g1 w1]. apply educate_later in G1 as [_ A1].
    destruct (setup_elite_education p c E (ga_rr g1) w1) as [st w2].
    bind G. destruct v0 as [s3 w3]. injection G as <- _. cbn. rewrite A1, G0. discriminate.
  Qed.
  Lemma it_elite_st g w g' w' : it_elite L p c E log_interval max_distance g w = Ok (g', w') -> ga_st g <> Terminated ->
    ga_st g' <> Terminated.
  Proof.
    unfold it_elite. destruct (negb _).
    - intro G. bind G. destruct v as [s1 w1]. injection G as <- _. auto.
    - intros G _. bind G. destruct (update_best _ _) as [g1 w1] eqn:EU. apply update_best_later in EU as [_ A1].
      bind G. bind G. apply log_later in G as [_ B1]. unfold add_individual in G1. bind G1. injection G1 as <-.
      cbn in *. rewrite B1, A1. discriminate.
  Qed.
  Lemma it_init_st g w g' w' : it_init L p c E fuel g w = Ok (g', w') -> ga_st g <> Terminated -> ga_st g' <> Terminated.
  Proof.
    unfold it_init. destruct (_ <? _); [|intros G _; injection G as <- _; discriminate].
    unfold create_initial_individual. destruct (ind_random _ _ _ _) as [i r]. intros G ST. bind G. destruct v as [[nc g1] w1].
    bind G. injection G as <- _. bind G0. apply run_split_st in G. bind G0. destruct v1 as [g2 w2]. injection G0 as _ <- _.
    apply educate_later in G2 as [_ A1]. cbn in *. congruence.
  Qed.

  (** a genetic iteration counts exactly one *)
  Lemma it_cycle_later g w g' w' : it_cycle L p c E log_interval fuel g w = Ok (g', w') ->
    w_clock w <= w_clock w' /\ w_iter w' = w_iter w + 1 /\ (ga_st g' = ga_st g \/ ga_st g' = Created).
  Proof.
    unfold it_cycle. intro G. bind G. destruct v as [one r1]. bind G. destruct v as [two r2].
    bind G. destruct v as [ch r3]. bind G. apply run_split_st in G3. cbn in G3.
    bind G. destruct v0 as [g1 w1]. apply educate_later in G4 as [A1 A2].
    bind G. bind G. destruct v1 as [g2 w2].
    assert (X : later w1 w2 /\ ga_st g2 = ga_st g1).
    { destruct (_ <=? _) in G5.
      - unfold update_penalty in G5. bind G5. injection G5 as <- <-. repeat split; cbn; auto.
      - injection G5 as <- <-. split; [apply later_refl|reflexivity]. }
    bind G. destruct v1 as [g3 w3].
    assert (Y : later w2 w3 /\ ga_st g3 = ga_st g2).
    { destruct (_ <=? _) in G6.
      - now apply log_later.
      - injection G6 as <- <-. split; [apply later_refl|reflexivity]. }
    bind G. injection G as <- <-. cbn.
    destruct A1 as [A1 A3], X as [[X1 X2] X3], Y as [[Y1 Y2] Y3]. cbn in A1, A3.
    split; [lia|]. split; [congruence|].
    destruct (_ <? _) in G7; [discriminate|]. injection G7 as <-. destruct (_ <? _); cbn; [now right|left; congruence].
  Qed.

  Lemma iterate_later g w g' w' : ga_iterate L p c E log_interval max_distance fuel g w = Ok (g', w') ->
    w_clock w < w_clock w'.
  Proof.
    unfold ga_iterate. destruct (terminate c E w) as [stop w1] eqn:ET.
    unfold terminate, now in ET. injection ET as <- <-. cbn [w_iter].
    match goal with |- context [if ?b then set_st g Terminated else g] => set (g1 := if b then set_st g Terminated else g) end.
    destruct (ga_st g1); intro G; [apply it_created_later in G|apply it_elite_later in G|apply it_init_later in G|apply it_cycle_later in G|injection G as <- <-];
      try destruct G as [G _]; cbn in *; lia.
  Qed.

  Lemma iterate_other_iter g w g' w' : ga_iterate L p c E log_interval max_distance fuel g w = Ok (g', w') ->
    ga_st g <> Cycle \/ ga_st g' = Terminated -> w_iter w' = w_iter w.
  Proof.
    unfold ga_iterate. destruct (terminate c E w) as [stop w1] eqn:ET.
    assert (EI : w_iter w1 = w_iter w) by (unfold terminate, now in ET; injection ET as _ <-; reflexivity).
    destruct stop; cbn [set_st ga_st]; [intro G; injection G as _ <-; auto|].
    destruct (ga_st g) eqn:ST; intros G H.
    - apply it_created_later in G as [_ G]. congruence.
    - apply it_elite_later in G as [_ G]. congruence.
    - apply it_init_later in G as [_ G]. congruence.
    - apply it_cycle_later in G as (_ & _ & G). destruct H as [H|H]; [congruence|]. rewrite H in G. destruct G; congruence.
    - injection G as _ <-. auto.
  Qed.

  (** ** Iterations since the last improvement *)
  Definition improved (g g' : ga) : Prop :=
    ga_iterations g' = ga_iterations g /\
    (ga_best_iter g' = ga_best_iter g \/ ga_best_iter g' = ga_iterations g) /\
    (ga_best_sol g <> None -> ga_best_sol g' <> None) /\ ga_st g' = ga_st g.
  Lemma improved_refl g : improved g g.
  Proof. repeat split; auto. Qed.
  Lemma improved_trans a b d : improved a b -> improved b d -> improved a d.
  Proof.
    intros (A1 & A2 & A3 & A4) (B1 & B2 & B3 & B4). split; [congruence|]. split; [|split; [auto|congruence]].
    destruct B2 as [B2|B2]; [|right; congruence]. rewrite B2. destruct A2; auto.
  Qed.

  Lemma update_best_improved g w g' w' : update_best g w = (g', w') -> improved g g'.
  Proof.
    unfold update_best. destruct (_ && _); [destruct (oapprox_lt _ (h_best _))|]; intro G; injection G as <- _;
      (split; [reflexivity|split; [|split]]); cbn; auto; discriminate.
  Qed.
  Lemma run_ls_improved m g w g' w' : run_ls p c fuel m g w = Ok (g', w') -> improved g g'.
  Proof. unfold run_ls. intro G. bind G. destruct v as [[s i] r]. injection G as <- _. repeat split; cbn; auto. Qed.
  Lemma opt_ls_improved (b : bool) m g w g' w' : (if b then run_ls p c fuel m g w else Ok (g, w)) = Ok (g', w') -> improved g g'.
  Proof. destruct b; [apply run_ls_improved|]. intro G. injection G as <- _. apply improved_refl. Qed.
  Lemma run_rr_improved g w g' w' : run_rr p c E fuel g w = Ok (g', w') -> improved g g'.
  Proof.
    unfold run_rr. intro G. bind G. destruct v as [s1 w1]. bind G. destruct v as [s2 w2]. bind G. injection G as <- _.
    repeat split; cbn; auto.
  Qed.
  Lemma repair_improved g w g' w' : repair L p c fuel g w = Ok (g', w') -> improved g g'.
  Proof.
    unfold repair. intro G. bind G. destruct v as [g1 w1]. apply opt_ls_improved in G0.
    bind G. destruct v as [g2 w2]. injection G as <- _.
    assert (X : improved g g2).
    { destruct (is_feasible _).
      - destruct (update_best g1 w1) as [g3 w3] eqn:EU. apply update_best_improved in EU.
        bind G1. injection G1 as <- _. apply (improved_trans _ _ _ G0). destruct EU as (U1 & U2 & U3 & U4). repeat split; auto.
      - injection G1 as <- _. auto. }
    destruct X as (X1 & X2 & X3 & X4). repeat split; auto.
  Qed.
  Lemma educate_improved g w g' w' : educate L p c E fuel g w = Ok (g', w') -> improved g g'.
  Proof.
    unfold educate. intro G. bind G. destruct v as [g1 w1]. apply opt_ls_improved in G0.
    destruct (real p (w_rng w1)) as [x r]. bind G. destruct v as [g2 w2].
    assert (X : improved g g2).
    { destruct (_ && _).
      - apply run_rr_improved in G1. eauto using improved_trans.
      - injection G1 as <- _. auto. }
    bind G. destruct v as [g3 w3].
    assert (Y : improved g g3).
    { destruct (negb _).
      - destruct (real p (w_rng w2)) as [y r']. destruct (y <:? _).
        + apply repair_improved in G2. eauto using improved_trans.
        + injection G2 as <- _. auto.
      - injection G2 as <- _. auto. }
    injection G as G. apply update_best_improved in G. eauto using improved_trans.
  Qed.
  Lemma log_improved g w g' w' : ga_log c E log_interval g w = Ok (g', w') -> improved g g'.
  Proof.
    unfold ga_log, now. cbn [ga_iterations ga_best_iter set_next_log]. destruct (_ <? _); [discriminate|].
    intro G. repeat bind G. injection G as <- _. repeat split; cbn; auto.
  Qed.

  (** Without ruin and recreate the history grows only with [best_iteration]. *)
  Definition quiet (g : ga) (w : world) (g' : ga) (w' : world) : Prop :=
    ga_iterations g' = ga_iterations g /\
    (ga_best_iter g' = ga_iterations g \/ ga_best_iter g' = ga_best_iter g /\ w_hist w' = w_hist w).
  Lemma quiet_refl g w : quiet g w g w.
  Proof. split; auto. Qed.
  Lemma quiet_trans g1 w1 g2 w2 g3 w3 : quiet g1 w1 g2 w2 -> quiet g2 w2 g3 w3 -> quiet g1 w1 g3 w3.
  Proof.
    intros (A1 & A2) (B1 & B2). split; [congruence|]. destruct B2 as [B2|[B2 B3]]; [left; congruence|].
    destruct A2 as [A2|[A2 A3]]; [left; congruence|right; split; congruence].
  Qed.
  Lemma update_best_quiet g w g' w' : update_best g w = (g', w') -> quiet g w g' w'.
  Proof.
    unfold update_best. destruct (_ && _); [destruct (oapprox_lt _ (h_best _))|]; intro G; injection G as <- <-;
      (split; [reflexivity|]); cbn; auto.
  Qed.
  Lemma opt_ls_quiet (b : bool) m g w g' w' : (if b then run_ls p c fuel m g w else Ok (g, w)) = Ok (g', w') -> quiet g w g' w'.
  Proof.
    destruct b; [|intro G; injection G as <- <-; apply quiet_refl].
    unfold run_ls. intro G. bind G. destruct v as [[s i] r]. injection G as <- <-. split; cbn; auto.
  Qed.
  Lemma repair_quiet g w g' w' : repair L p c fuel g w = Ok (g', w') -> quiet g w g' w'.
  Proof.
    unfold repair. intro G. bind G. destruct v as [g1 w1]. apply opt_ls_quiet in G0.
    bind G. destruct v as [g2 w2]. injection G as <- <-.
    assert (X : quiet g w g2 w2).
    { destruct (is_feasible _).
      - destruct (update_best g1 w1) as [g3 w3] eqn:EU. apply update_best_quiet in EU.
        bind G1. injection G1 as <- <-. exact (quiet_trans _ _ _ _ _ _ G0 EU).
      - injection G1 as <- <-. exact G0. }
    exact X.
  Qed.
  Lemma educate_quiet g w g' w' : c_rr_mutation c = false -> educate L p c E fuel g w = Ok (g', w') -> quiet g w g' w'.
  Proof.
    intros NR. unfold educate. rewrite NR. cbn [andb]. intro G. bind G. destruct v as [g1 w1]. apply opt_ls_quiet in G0.
    destruct (real p (w_rng w1)) as [x r]. cbn [rbind] in G. bind G. destruct v as [g3 w3].
    assert (Y : quiet g w g3 w3).
    { destruct (negb _).
      - destruct (real p _) as [y r']. destruct (y <:? _).
        + apply repair_quiet in G1. exact (quiet_trans _ _ _ _ _ _ G0 G1).
        + injection G1 as <- <-. exact G0.
      - injection G1 as <- <-. exact G0. }
    injection G as G. apply update_best_quiet in G. exact (quiet_trans _ _ _ _ _ _ Y G).
  Qed.
  Lemma log_quiet g w g' w' : ga_log c E log_interval g w = Ok (g', w') -> quiet g w g' w'.
  Proof.
    unfold ga_log, now. cbn [ga_iterations ga_best_iter set_next_log]. destruct (_ <? _); [discriminate|].
    intro G. repeat bind G. injection G as <- <-. split; cbn; auto.
  Qed.

  (** The search restarts exactly when the limit is exceeded. *)
  Lemma it_cycle_restart g w g' w' : it_cycle L p c E log_interval fuel g w = Ok (g', w') -> ga_st g = Cycle ->
    (ga_st g' = Created /\ c_max_iterations_without_improvement c < ga_iterations g - ga_best_iter g /\
       ga_pop g' = pop_new c /\ ga_num_init g' = 0 /\ ga_cur_best g' = None /\
       ga_next_penalty g' = ga_iterations g /\ ga_best_iter g' = ga_iterations g /\
       (c_rr_mutation c = false -> w_hist w' = w_hist w) \/
     ga_st g' = Cycle /\ ga_iterations g - ga_best_iter g' <= c_max_iterations_without_improvement c) /\
    ga_iterations g' = ga_iterations g + 1 /\ (ga_best_sol g <> None -> ga_best_sol g' <> None).
  Proof.
    intros G ST.
    unfold it_cycle in G. bind G. destruct v as [one r1]. bind G. destruct v as [two r2].
    bind G. destruct v as [ch r3]. bind G. rename v into g0.
    assert (X0 : improved g g0).
    { unfold run_split in G3. bind G3. destruct v as [st i]. injection G3 as <-. repeat split; cbn; auto. }
    bind G. destruct v as [g1 w1].
    assert (Q1 : c_rr_mutation c = false -> quiet g w g1 w1).
    { intros NR. apply educate_quiet in G4; auto. apply (quiet_trans _ _ g0 (set_w_rng (next_iteration w) r3) _ _); auto.
      unfold run_split in G3. bind G3. destruct v as [st i]. injection G3 as <-. split; cbn; auto. }
    apply educate_improved in G4.
    bind G. bind G. destruct v0 as [g2 w2].
    assert (Q2 : quiet g1 w1 g2 w2).
    { destruct (_ <=? _) in G6.
      - unfold update_penalty in G6. bind G6. injection G6 as <- <-. split; cbn; auto.
      - injection G6 as <- <-. split; cbn; auto. }
    assert (X : improved g g2).
    { apply (improved_trans _ _ _ X0), (improved_trans _ _ _ G4). destruct (_ <=? _) in G6.
      - unfold update_penalty in G6. bind G6. injection G6 as <- _. repeat split; cbn; auto.
      - injection G6 as <- _. repeat split; cbn; auto. }
    bind G. destruct v0 as [g3 w3].
    assert (Q3 : quiet g2 w2 g3 w3).
    { destruct (_ <=? _) in G7; [eapply log_quiet; eauto|injection G7 as <- <-; apply quiet_refl]. }
    assert (Y : improved g g3).
    { apply (improved_trans _ _ _ X). destruct (_ <=? _) in G7.
      - eapply log_improved; eauto.
      - injection G7 as <- _. apply improved_refl. }
    bind G. injection G as <- <-. destruct Y as (Y1 & Y2 & Y3 & Y4).
    destruct (ga_iterations g3 <? ga_best_iter g3) eqn:EL; [discriminate|]. apply Nat.ltb_ge in EL.
    injection G8 as <-. destruct (_ <? _) eqn:EM.
    - apply Nat.ltb_lt in EM. cbn [set_iterations ga_reset ga_st ga_pop ga_num_init ga_cur_best ga_best_iter ga_iterations ga_best_sol ga_next_penalty].
      assert (QH : c_rr_mutation c = false -> w_hist w3 = w_hist w).
      { intros NR. destruct (quiet_trans _ _ _ _ _ _ (Q1 NR) (quiet_trans _ _ _ _ _ _ Q2 Q3)) as [_ [Z|[_ Z]]]; auto. exfalso. rewrite Y1, Z in *. lia. }
      rewrite Y1. split; [left; repeat split; auto; rewrite Y1 in *; destruct Y2 as [Y2|Y2]; rewrite Y2 in *; lia|]. split; [reflexivity|auto].
    - apply Nat.ltb_ge in EM. cbn [set_iterations ga_st ga_best_iter ga_iterations ga_best_sol] in *. rewrite Y1 in *. split; [right|split; auto].
      split; [congruence|lia].
  Qed.
End Clock.
