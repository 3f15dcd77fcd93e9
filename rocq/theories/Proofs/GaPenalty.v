(** The penalty, the verdicts and the counters through the calls of [iterate], in any arithmetic. *)
From Coq Require Import List Arith NArith ZArith Bool Lia.
From Verif.Model Require Import Num Prelude Evaluate Individual Config Crossover Split Matrix Population
  LocalSearch World Schedule RuinRecreate Genetic.
From Verif.Spec Require Import PenaltyTrace.
Import ListNotations.
Local Open Scope nat_scope.

Lemma lastn_app1 {A} (l : list A) x : 0 < length (lastn 100 l) -> 100 <= length l -> tl (lastn 100 l ++ [x]) = lastn 100 (l ++ [x]).
Proof.
  unfold lastn. intros _ H. rewrite app_length. cbn [length].
  replace (length l + 1 - 100) with (S (length l - 100)) by lia. set (n := length l - 100).
  assert (Hn : n < length l) by (unfold n; lia). clearbody n. clear H.
  revert n Hn. induction l as [|a l IH]; intros n Hn; [cbn in Hn; lia|].
  destruct n as [|n]; [reflexivity|]. cbn [skipn app]. cbn [length] in Hn. rewrite IH by lia. reflexivity.
Qed.
Lemma recent_app l x : tl (recent l ++ [x]) = recent (l ++ [x]).
Proof.
  unfold recent. rewrite app_assoc. apply lastn_app1.
  - unfold lastn. rewrite skipn_length, app_length, repeat_length. lia.
  - rewrite app_length, repeat_length. lia.
Qed.
Lemma recent_length l : length (recent l) = 100.
Proof. unfold recent, lastn. rewrite skipn_length, app_length, repeat_length. lia. Qed.

Local Arguments recent : simpl never.

Section Still.
  Context {N : Num}.
  Variable L : lib.
  Variable p : problem.
  Variable c : config.
  Variable E : env.
  Variable log_interval : nat.
  Variable max_distance : option F.
  Variable fuel : nat.

  Ltac bind G := match type of G with
    | rbind ?m _ = Ok _ => let x := fresh "v" in let e := fresh "er" in let H := fresh "G" in
        destruct m as [x|e] eqn:H; [cbn [rbind] in G|discriminate G]
    end.

  (** ** Ruin and recreate: the penalty stays unless it is told to change it *)
  Lemma acc_update_pen a w a' w' : acc_update E a w = (a', w') -> w_pen w' = w_pen w.
  Proof.
    unfold acc_update, ts_update, now. destruct a; [intro G; now injection G as <- <-|].
    cbn [ts_since ts_rate]. destruct (_ =? _); intro G; injection G as <- <-; reflexivity.
  Qed.
  Lemma acc_reset_pen a w a' w' : acc_reset E a w = (a', w') -> w_pen w' = w_pen w.
  Proof. unfold acc_reset, ts_reset, now. destruct a; intro G; injection G as <- <-; reflexivity. Qed.
  Lemma rr_update_best_pen cur w w' : rr_update_best p c cur w = Ok w' -> w_pen w' = w_pen w.
  Proof.
    unfold rr_update_best. destruct (_ && _); [|intro G; injection G as <-; reflexivity].
    destruct (ind_random _ _ _ _). intro G. bind G. injection G as <-. reflexivity.
  Qed.
  Lemma rr_move_pen corr st w st' w' : rr_move p c E corr st w = Ok (st', w') ->
    w_pen w' = w_pen w /\ rr_update_penalty st' = rr_update_penalty st.
  Proof.
    unfold rr_move. intro G. bind G. destruct v as [cur r]. bind G. destruct v as [[cur' r'] hash].
    destruct (accepts _ _ _ _ _) as [ok r2]. bind G. destruct v as [[sol best] w1].
    assert (X : w_pen w1 = w_pen w).
    { destruct ok; [|injection G2 as _ _ <-; reflexivity]. bind G2. destruct v as [best' w2].
      assert (Y : w_pen w2 = w_pen w).
      { destruct (match rr_best st with Some _ => _ | None => _ end); [|injection G3 as _ <-; reflexivity].
        bind G3. injection G3 as _ <-. apply rr_update_best_pen in G4. exact G4. }
      bind G2. injection G2 as _ _ <-. exact Y. }
    bind G. destruct (acc_update _ _ _) as [a w2] eqn:EA. apply acc_update_pen in EA. injection G as <- <-.
    split; [congruence|reflexivity].
  Qed.
  Lemma rr_loop_pen corr k : forall st w st' w', rr_loop p c E corr k st w = Ok (st', w') -> rr_update_penalty st = false ->
    w_pen w' = w_pen w /\ rr_update_penalty st' = false.
  Proof.
    induction k as [|k IH]; intros st w st' w'; cbn [rr_loop]; [intros G U; injection G as <- <-; auto|].
    intros G U. assert (EP : (match k with O => rr_penalty c st w | _ => (st, w) end) = (st, w)).
    { destruct k; auto. unfold rr_penalty. now rewrite U. }
    rewrite EP in G. bind G. destruct v as [s2 w2]. apply rr_move_pen in G0 as [A B].
    destruct (acc_completed _); [injection G as <- <-; split; congruence|]. apply IH in G; [|congruence].
    destruct G. split; congruence.
  Qed.
  Lemma rr_until_pen k corr : forall st w st' w', rr_until p c E k corr st w = Ok (st', w') -> rr_update_penalty st = false ->
    w_pen w' = w_pen w /\ rr_update_penalty st' = false.
  Proof.
    induction k as [|k IH]; intros st w st' w'; cbn [rr_until].
    - destruct (rr_complete st); [intros G U; injection G as <- <-; auto|discriminate].
    - destruct (rr_complete st); [intros G U; injection G as <- <-; auto|].
      intros G U. bind G. destruct v as [s1 w1]. apply rr_loop_pen in G0 as [A B]; auto. apply IH in G as [C D]; auto.
      split; congruence.
  Qed.
  Lemma rr_load_pen st i w st' w' : rr_load E st i w = Ok (st', w') ->
    w_pen w' = w_pen w /\ rr_update_penalty st' = rr_update_penalty st.
  Proof.
    unfold rr_load. intro G. repeat bind G. destruct (acc_reset _ _ _) as [a w1] eqn:EA. injection G as <- <-.
    split; [eapply acc_reset_pen; eauto|reflexivity].
  Qed.

  (** ** The parts of an iteration *)
  Record still (g : ga) (w : world) (g' : ga) (w' : world) : Prop := {
    sl_st : ga_st g' = ga_st g;
    sl_hist : po_hist (ga_pop g') = po_hist (ga_pop g);
    sl_it : ga_iterations g' = ga_iterations g;
    sl_np : ga_next_penalty g' = ga_next_penalty g;
    sl_ni : ga_num_init g' = ga_num_init g;
    sl_up : rr_update_penalty (ga_rr g') = rr_update_penalty (ga_rr g);
    sl_pen : w_pen w' = w_pen w
  }.
  Lemma still_refl g w : still g w g w.
  Proof. split; reflexivity. Qed.
  Lemma still_trans g1 w1 g2 w2 g3 w3 : still g1 w1 g2 w2 -> still g2 w2 g3 w3 -> still g1 w1 g3 w3.
  Proof. intros [] []. split; congruence. Qed.

  Lemma pop_add_hist po i b po' : pop_add L c po i b = Ok po' ->
    po_hist po' = if b then tl (po_hist po ++ [is_feasible i]) else po_hist po.
  Proof.
    unfold pop_add. change (is_feasible (set_number i (po_count po))) with (is_feasible i).
    destruct (is_feasible i); intro G; bind G; injection G as <-; reflexivity.
  Qed.
  Lemma update_best_still g w g' w' : update_best g w = (g', w') -> still g w g' w' /\ ga_child g' = ga_child g.
  Proof.
    unfold update_best. destruct (_ && _); [destruct (oapprox_lt _ (h_best _))|]; intro G; injection G as <- <-;
      (split; [split; reflexivity|reflexivity]).
  Qed.
  Lemma run_ls_still m g w g' w' : run_ls p c fuel m g w = Ok (g', w') -> still g w g' w'.
  Proof. unfold run_ls. intro G. bind G. destruct v as [[s i] r]. injection G as <- <-. split; reflexivity. Qed.
  Lemma run_rr_still g w g' w' : run_rr p c E fuel g w = Ok (g', w') -> rr_update_penalty (ga_rr g) = false -> still g w g' w'.
  Proof.
    unfold run_rr. intros G U. bind G. destruct v as [s1 w1]. bind G. destruct v as [s2 w2]. bind G. injection G as <- <-.
    apply rr_load_pen in G0 as [A B]. apply rr_until_pen in G1 as [C D]; [|congruence].
    split; cbn; congruence.
  Qed.
  Lemma opt_ls_still (b : bool) m g w g' w' : (if b then run_ls p c fuel m g w else Ok (g, w)) = Ok (g', w') -> still g w g' w'.
  Proof. destruct b; [apply run_ls_still|]. intro G. injection G as <- <-. apply still_refl. Qed.
  Lemma repair_still g w g' w' : repair L p c fuel g w = Ok (g', w') -> still g w g' w'.
  Proof.
    unfold repair. intro G. bind G. destruct v as [g1 w1]. apply opt_ls_still in G0.
    bind G. destruct v as [g2 w2]. injection G as <- <-.
    assert (X : still g w g2 w2).
    { destruct (is_feasible _).
      - destruct (update_best g1 w1) as [g3 w3] eqn:EU. apply update_best_still in EU as [B _].
        bind G1. apply pop_add_hist in G. injection G1 as <- <-. eapply still_trans; [exact G0|]. eapply still_trans; [exact B|].
        split; cbn; auto.
      - injection G1 as <- <-. exact G0. }
    destruct X. split; cbn; assumption.
  Qed.
  Lemma educate_still g w g' w' : educate L p c E fuel g w = Ok (g', w') -> rr_update_penalty (ga_rr g) = false -> still g w g' w'.
  Proof.
    unfold educate. intros G U. bind G. destruct v as [g1 w1]. apply opt_ls_still in G0.
    destruct (real p (w_rng w1)) as [x r]. bind G. destruct v as [g2 w2].
    assert (X : still g w g2 w2).
    { destruct (_ && _).
      - apply run_rr_still in G1; [|destruct G0; congruence]. eapply still_trans; [exact G0|]. destruct G1; split; auto.
      - injection G1 as <- <-. destruct G0; split; auto. }
    bind G. destruct v as [g3 w3].
    assert (Y : still g w g3 w3).
    { destruct (negb _).
      - destruct (real p (w_rng w2)) as [y r']. destruct (y <:? _).
        + apply repair_still in G2. eapply still_trans; [exact X|]. destruct G2; split; auto.
        + injection G2 as <- <-. destruct X; split; auto.
      - injection G2 as <- <-. auto. }
    injection G as G. apply update_best_still in G as [G _]. eapply still_trans; eauto.
  Qed.
  Lemma log_still g w g' w' : ga_log c E log_interval g w = Ok (g', w') -> still g w g' w' /\ ga_child g' = ga_child g.
  Proof.
    unfold ga_log, now. cbn [ga_iterations ga_best_iter set_next_log]. destruct (_ <? _); [discriminate|].
    intro G. repeat bind G. injection G as <- <-. split; [split; reflexivity|reflexivity].
  Qed.
  Lemma run_split_still g w mv g' : run_split p c g w mv = Ok g' -> still g w g' w.
  Proof. unfold run_split. intro G. bind G. destruct v as [st i]. injection G as <-. split; reflexivity. Qed.
  Lemma reevaluate_hist pen po po' : pop_reevaluate L p pen po = Ok po' -> po_hist po' = po_hist po.
  Proof.
    unfold pop_reevaluate. intro G. bind G. repeat match type of G with context [if ?b then _ else _] => destruct b end; try discriminate;
      repeat bind G; injection G as <-; reflexivity.
  Qed.

  (** ** The calls of [iterate] *)
  Notation every := (c_penalty_update_interval c).

  (** The iteration of the next update, after [k] iterations of the epoch *)
  Definition timed (base first k np : nat) : Prop :=
    (first = base \/ first = base + 1) /\
    (k = 0 -> np = base) /\
    (k <> 0 -> exists j, np = base + j * every /\
       ((every = 1 /\ first = base + 1 /\ j = k) \/ (first + k <= np < first + k + every))).
  Definition due (base first k : nat) : bool := (k =? 0) || ((first + k - base) mod every =? 0).

  Lemma timed_due base first k np : 1 <= every -> timed base first k np -> (np <=? first + k) = due base first k.
  Proof.
    intros EV (F & Z0 & Z1). unfold due. destruct (Nat.eqb_spec k 0) as [->|K]; cbn [orb].
    - rewrite Z0 by reflexivity. apply Nat.leb_le. lia.
    - destruct (Z1 K) as (j & NP & [(E1 & F1 & J)|[A B]]).
      + rewrite E1, Nat.mod_1_r. cbn. apply Nat.leb_le. rewrite NP, E1. lia.
      + destruct (Nat.eqb_spec ((first + k - base) mod every) 0) as [D|D].
        * apply Nat.leb_le. apply Nat.mod_divides in D; [|lia]. destruct D as (m & D).
          assert (j = m) by nia. subst m. lia.
        * apply Nat.leb_gt. destruct (Nat.eq_dec np (first + k)) as [EQ|]; [|lia]. exfalso. apply D.
          replace (first + k - base) with (j * every) by lia. apply Nat.mod_mul. lia.
  Qed.
  Lemma timed_next base first k np : 1 <= every -> timed base first k np ->
    timed base first (k + 1) (if np <=? first + k then np + every else np).
  Proof.
    intros EV (F & Z0 & Z1). split; [exact F|]. split; [lia|]. intros _.
    destruct (Nat.eq_dec k 0) as [->|K].
    - rewrite Z0 by reflexivity. replace (base <=? first + 0) with true by (symmetry; apply Nat.leb_le; lia).
      exists 1. split; [lia|]. destruct (Nat.eq_dec every 1) as [E1|]; [|right; lia].
      destruct F as [->| ->]; [right; lia|left; lia].
    - destruct (Z1 K) as (j & NP & [(E1 & F1 & J)|[A B]]).
      + replace (np <=? first + k) with true by (symmetry; apply Nat.leb_le; rewrite NP, E1; lia).
        exists (S j). split; [lia|]. left. lia.
      + destruct (Nat.leb_spec np (first + k)).
        * exists (S j). split; [lia|]. right. lia.
        * exists j. split; [lia|]. right. lia.
  Qed.

  Definition calm (s : ga_state) : Prop := s = Created \/ s = Initialization \/ s = Cycle.
  Record kept (base first k : nat) (l : list bool) (g : ga) : Prop := {
    kt_hist : po_hist (ga_pop g) = recent l;
    kt_it : ga_iterations g = first + k;
    kt_np : timed base first k (ga_next_penalty g);
    kt_up : calm (ga_st g) -> rr_update_penalty (ga_rr g) = false
  }.

  Hypothesis EV : 1 <= every.

  Lemma kept_still base first k l g w g' w' : kept base first k l g -> still g w g' w' -> kept base first k l g'.
  Proof.
    intros [A B C D] [S1 S2 S3 S4 S5 S6 S7]. split; try congruence.
    rewrite S6. intro Q. apply D. now rewrite <- S1.
  Qed.

  Lemma it_created_kept base first k l g w g' w' : kept base first k l g -> ga_st g = Created ->
    it_created L p c E fuel g w = Ok (g', w') ->
    kept base first k l g' /\ (ga_st g' = Initialization \/ ga_st g' = EliteEducation) /\ w_pen w' = w_pen w.
  Proof.
    intros K ST. unfold it_created. pose proof (kt_up _ _ _ _ _ K ltac:(now left)) as U. destruct (_ && _).
    - intro G. bind G. apply run_split_still in G0. bind G. destruct v0 as [g1 w1].
      apply educate_still in G1; [|rewrite (sl_up _ _ _ _ G0); exact U].
      pose proof (still_trans _ _ _ _ _ _ G0 G1) as S.
      destruct (setup_elite_education p c E (ga_rr g1) w1) as [st w2] eqn:EE.
      assert (X : w_pen w2 = w_pen w1).
      { unfold setup_elite_education, ts_new, now in EE. destruct (c_elite_education_time_based c); injection EE as _ <-; reflexivity. }
      bind G. destruct v0 as [s3 w3]. apply rr_load_pen in G2 as [R1 R2]. injection G as <- <-.
      destruct S as [S1 S2 S3 S4 S5 S6 S7]. destruct K as [A B C D]. cbn in *.
      split; [|split; [now right|congruence]]. split; cbn; try congruence.
      rewrite S1. intros [Q|[Q|Q]]; discriminate.
    - intro G. injection G as <- <-. split; [|split; [now left|reflexivity]]. destruct K as [A B C D]. split; cbn; auto.
  Qed.

  Lemma it_elite_kept base first k l g w g' w' : kept base first k l g -> ga_st g = EliteEducation ->
    it_elite L p c E log_interval max_distance g w = Ok (g', w') ->
    kept base first k l g' /\
    (ga_st g' = EliteEducation \/
     ga_st g' = Initialization /\ exists d, max_demand p = Ok d /\ w_pen w' = initial_penalty max_distance d).
  Proof.
    intros [A B C D] ST. unfold it_elite. destruct (negb _).
    - intro G. bind G. destruct v as [s1 w1]. injection G as <- <-. cbn. split; [|now left].
      split; cbn; auto. rewrite ST. intros [Q|[Q|Q]]; discriminate.
    - intro G. bind G. destruct (update_best _ _) as [g1 w1] eqn:EU. apply update_best_still in EU as [[S1 S2 S3 S4 S5 S6 S7] _].
      bind G. bind G. apply log_still in G as [[T1 T2 T3 T4 T5 T6 T7] _]. unfold add_individual in G1. bind G1. apply pop_add_hist in G.
      injection G1 as <-. unfold reset_penalty in G2. remember (max_demand p) as md0 eqn:EM. clear EM. destruct md0 as [d|]; [|discriminate]. cbn in *.
      injection G2 as <-. cbn in T7.
      split; [|right; split; [congruence|exists d; split; [reflexivity|congruence]]].
      split; cbn; [congruence|congruence|rewrite T4, S4; exact C|]. intros _. rewrite T6. reflexivity.
  Qed.

  Lemma it_init_kept base first k l g w g' w' : kept base first k l g -> ga_st g = Initialization ->
    it_init L p c E fuel g w = Ok (g', w') ->
    kept base first k (l ++ (if ga_num_init g <? c_initial_individuals c
                             then match create_initial_individual L p c E fuel g w with Ok (i, _, _) => [is_feasible i] | Err _ => [] end
                             else [])) g' /\
    (ga_st g' = Initialization \/ ga_st g' = Cycle) /\ w_pen w' = w_pen w.
  Proof.
    intros K ST. pose proof (kt_up _ _ _ _ _ K ltac:(right; now left)) as U. unfold it_init. destruct (_ <? _).
    - intro G. bind G. destruct v as [[nc g1] w1]. bind G. apply pop_add_hist in G1. injection G as <- <-.
      unfold create_initial_individual in G0. destruct (ind_random _ _ _ _) as [i r]. bind G0. apply run_split_still in G. bind G0. destruct v1 as [g2 w2].
      injection G0 as <- <- <-. apply educate_still in G2; [|rewrite (sl_up _ _ _ _ G); exact U].
      pose proof (still_trans _ _ _ _ _ _ G G2) as [S1 S2 S3 S4 S5 S6 S7]. destruct K as [A B C D]. cbn in *.
      split; [|split; [left; congruence|exact S7]].
      split; cbn; [rewrite G1, S2, A; apply recent_app|congruence|rewrite S4; exact C|intros _; congruence].
    - intro G. injection G as <- <-. rewrite app_nil_r. destruct K as [A B C D]. split; [split; cbn; auto|]. split; auto.
  Qed.

  (** The iteration itself, up to the restart *)
  Lemma it_cycle_kept base first k l g w g' w' : kept base first k l g -> ga_st g = Cycle ->
    it_cycle L p c E log_interval fuel g w = Ok (g', w') ->
    (ga_st g' = Cycle /\ kept base first (k + 1) (l ++ [is_feasible (ga_child g')]) g' \/
     ga_st g' = Created /\ kept (first + k) (first + k + 1) 0 [] g') /\
    w_pen w' = if due base first k then adapted c (l ++ [is_feasible (ga_child g')]) (w_pen w) else w_pen w.
  Proof.
    intros K ST. pose proof (kt_up _ _ _ _ _ K ltac:(right; now right)) as U.
    unfold it_cycle. intro G. bind G. destruct v as [one r1]. bind G. destruct v as [two r2].
    bind G. destruct v as [ch r3]. bind G. apply run_split_still in G3.
    bind G. destruct v0 as [g1 w1]. apply educate_still in G4; [|rewrite (sl_up _ _ _ _ G3); exact U].
    pose proof (still_trans _ _ _ _ _ _ G3 G4) as S. clear G3 G4.
    assert (S' : still g w g1 w1) by (destruct S; split; assumption). clear S.
    bind G. apply pop_add_hist in G3. bind G. destruct v1 as [g2 w2].
    set (fe := is_feasible (ga_child g1)) in *.
    assert (X : ga_st g2 = Cycle /\ ga_child g2 = ga_child g1 /\ kept base first k (l ++ [fe]) (set_next_penalty g2 (ga_next_penalty g)) /\
                ga_next_penalty g2 = (if ga_next_penalty g <=? first + k then ga_next_penalty g + every else ga_next_penalty g) /\
                w_pen w2 = if due base first k then adapted c (l ++ [fe]) (w_pen w) else w_pen w).
    { destruct S' as [S1 S2 S3 S4 S5 S6 S7]. destruct K as [A B C D]. rewrite <- (timed_due _ _ _ _ EV C).
      assert (HI : po_hist v0 = recent (l ++ [fe])) by (rewrite G3, S2, A; apply recent_app).
      assert (DU : (ga_next_penalty (set_gpop g1 v0) <=? ga_iterations (set_gpop g1 v0)) = (ga_next_penalty g <=? first + k)).
      { cbn. now rewrite S3, S4, B. }
      rewrite DU in G4. destruct (ga_next_penalty g <=? first + k).
      - unfold update_penalty in G4. bind G4. injection G4 as <- <-. apply reevaluate_hist in G5. cbn in *.
        split; [congruence|]. split; [reflexivity|]. split; [split; cbn; auto; congruence|]. split; [congruence|].
        rewrite S7. unfold next_penalty_value, clamp_penalty, adapted. unfold history_fraction. cbn [ga_pop set_next_penalty set_gpop w_pen set_w_pen].
        rewrite HI, recent_length. reflexivity.
      - injection G4 as <- <-. cbn. split; [congruence|]. split; [reflexivity|]. split; [split; cbn; auto; congruence|]. split; congruence. }
    destruct X as (X1 & X2 & X3 & X4 & X5). clear G4 S' G3.
    bind G. destruct v1 as [g3 w3].
    assert (Y : still g2 w2 g3 w3 /\ ga_child g3 = ga_child g2).
    { destruct (_ <=? _) in G3; [now apply log_still in G3|]. injection G3 as <- <-. split; [apply still_refl|reflexivity]. }
    destruct Y as [[Y1 Y2 Y3 Y4 Y5 Y6 Y7] Y8]. bind G. injection G as <- <-.
    destruct X3 as [A B C D]. cbn in A, B, C, D. pose proof (timed_next _ _ _ _ EV (kt_np _ _ _ _ _ K)) as TN.
    destruct (_ <? _) in G4; [discriminate|]. injection G4 as <-.
    assert (CH : forall b : bool, ga_child (set_iterations (if b then ga_reset c g3 else g3) (ga_iterations (if b then ga_reset c g3 else g3) + 1)) = ga_child g1).
    { intros []; cbn; congruence. }
    rewrite CH. fold fe. split; [|congruence]. destruct (_ <? _).
    - right. split; [reflexivity|]. split; cbn; [reflexivity|lia|split; [lia|split; [lia|lia]]|].
      intros _. rewrite Y6. apply D. rewrite X1. right. now right.
    - left. split; [cbn; congruence|]. split; cbn; [congruence|lia|rewrite Y4, X4; exact TN|].
      intros _. rewrite Y6. apply D. rewrite X1. right. now right.
  Qed.

  Lemma kept_world base first k l (g : ga) s : kept base first k l g -> s = Terminated -> kept base first k l (set_st g s).
  Proof. intros [A B C D] ->. split; cbn; auto. intros [Q|[Q|Q]]; discriminate. Qed.

  Theorem iterate_kept base first k l g w g' w' : kept base first k l g ->
    ga_iterate L p c E log_interval max_distance fuel g w = Ok (g', w') ->
    (ga_st g' = Created /\ kept (first + k) (first + k + 1) 0 [] g' \/
     ga_st g' <> Created /\ kept base first (k + counts g g') (l ++ born L p c E fuel g w g') g') /\
    match ga_st g', ga_st g with
    | Terminated, _ => w_pen w' = w_pen w
    | _, Cycle => w_pen w' = if due base first k then adapted c (l ++ [is_feasible (ga_child g')]) (w_pen w) else w_pen w
    | Initialization, EliteEducation => exists d, max_demand p = Ok d /\ w_pen w' = initial_penalty max_distance d
    | _, EliteEducation => True
    | _, _ => w_pen w' = w_pen w
    end.
  Proof.
    intros K. unfold ga_iterate, born, counts.
    destruct (terminate c E w) as [stop w1] eqn:ET. cbn [snd].
    assert (PW : w_pen w1 = w_pen w) by (unfold terminate, now in ET; injection ET as _ <-; reflexivity).
    destruct stop.
    { cbn. intro G. injection G as <- <-. cbn. rewrite app_nil_r, Nat.add_0_r. split; [right; split; [discriminate|]|exact PW].
      now apply kept_world. }
    destruct (ga_st g) eqn:ST; intro G.
    - apply (it_created_kept base first k l) in G as (A & [B|B] & C); auto; rewrite B, app_nil_r, Nat.add_0_r;
        (split; [right; split; [discriminate|exact A]|congruence]).
    - apply (it_elite_kept base first k l) in G as (A & [B|(B & C)]); auto; rewrite B, app_nil_r, Nat.add_0_r;
        (split; [right; split; [discriminate|exact A]|auto]).
    - apply (it_init_kept base first k l) in G as (A & [B|B] & C); auto; rewrite B, Nat.add_0_r;
        (split; [right; split; [discriminate|exact A]|congruence]).
    - apply (it_cycle_kept base first k l) in G as ([(B & A)|(B & A)] & C); auto; rewrite B; rewrite PW in C.
      + split; [right; split; [discriminate|exact A]|exact C].
      + split; [left; split; [reflexivity|exact A]|exact C].
    - injection G as <- <-. rewrite ST, app_nil_r, Nat.add_0_r. split; [right; split; [discriminate|exact K]|exact PW].
  Qed.

  Theorem epoch_kept w0 base first k l g w : epoch L p c E log_interval max_distance fuel w0 base first k l g w ->
    kept base first k l g.
  Proof.
    induction 1 as [corr ls_hash rr_hash g w G|base first k l g w i g' w' _ IH ST G|base first k l g w g' w' _ IH G ST|base first k l g w g' w' _ IH G ST].
    - unfold ga_new in G. destruct (ind_random _ _ _ _). injection G as <- <-. split; cbn; auto. split; [lia|]. split; lia.
    - unfold add_initial, add_individual in G. bind G. bind G0. apply pop_add_hist in G1. injection G0 as <-. injection G as G.
      apply update_best_still in G as [G _]. eapply kept_still; [|exact G]. destruct IH as [A B C D]. split; cbn; auto. congruence.
    - destruct (iterate_kept _ _ _ _ _ _ _ _ IH G) as [[[Q _]|[_ Q]] _]; [contradiction|exact Q].
    - destruct (iterate_kept _ _ _ _ _ _ _ _ IH G) as [[[_ Q]|[Q _]] _]; [exact Q|contradiction].
  Qed.
End Still.
