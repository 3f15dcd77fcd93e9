(** Every part of the program reads the random numbers from one and the same stream. *)
From Coq Require Import List Arith NArith ZArith Bool Lia.
From Verif.Model Require Import Num Prelude Evaluate Individual Config Crossover Split Matrix Population
  LocalSearch World Schedule RuinRecreate Genetic Decomposition.
Import ListNotations.
Local Open Scope nat_scope.

Definition same_stream (r r' : rng) : Prop := rdraw r' = rdraw r.

Lemma same_refl r : same_stream r r.
Proof. reflexivity. Qed.
Lemma same_trans a b d : same_stream a b -> same_stream b d -> same_stream a d.
Proof. unfold same_stream. congruence. Qed.

Ltac bind G := match type of G with
  | rbind ?m _ = Ok _ => let x := fresh "v" in let e := fresh "er" in let H := fresh "G" in
      destruct m as [x|e] eqn:H; [cbn [rbind] in G|discriminate G]
  end.

Lemma draw_stream r d r' : draw r = (d, r') -> same_stream r r'.
Proof. unfold draw. intro G. injection G as _ <-. reflexivity. Qed.
Lemma range_stream lo hi r k r' : range_usize lo hi r = Ok (k, r') -> same_stream r r'.
Proof. unfold range_usize, draw. destruct (_ <? _); [|discriminate]. intro G. injection G as _ <-. reflexivity. Qed.
Lemma shuffle_from_stream {A} k : forall i (l : list A) r l' r', shuffle_from k i l r = (l', r') -> same_stream r r'.
Proof.
  induction k as [|k IH]; intros i l r l' r'; cbn [shuffle_from]; [intro G; injection G as _ <-; reflexivity|].
  cbn [draw]. intro G. apply IH in G. exact G.
Qed.
Lemma shuffle_stream {A} (l : list A) r l' r' : shuffle l r = (l', r') -> same_stream r r'.
Proof. apply shuffle_from_stream. Qed.
Lemma draw_end_stream k n s : forall r e r', draw_end k n s r = Ok (e, r') -> same_stream r r'.
Proof.
  induction k as [|k IH]; intros r e r'; cbn [draw_end]; [discriminate|]. intro G. bind G. destruct v as [x r1].
  apply range_stream in G0. destruct (_ =? _); [apply IH in G|injection G as _ <-]; eauto using same_trans.
Qed.
Lemma crossover_stream k g1 g2 r g r' : crossover k g1 g2 r = Ok (g, r') -> same_stream r r'.
Proof.
  unfold crossover. intro G. bind G. destruct v as [s r1]. bind G. destruct v as [e r2]. bind G. injection G as _ <-.
  apply range_stream in G0. apply draw_end_stream in G1. eauto using same_trans.
Qed.

Lemma foldm_same {A B} (f : A -> B -> res A) (R : A -> A -> Prop) : (forall a, R a a) -> (forall a b d, R a b -> R b d -> R a d) ->
  (forall a x a', f a x = Ok a' -> R a a') -> forall l a a', foldm f l a = Ok a' -> R a a'.
Proof.
  intros R1 R2 HF. induction l as [|x l IH]; intros a a'; cbn [foldm]; [intro G; injection G as <-; auto|].
  destruct (f a x) as [a1|] eqn:E; [eauto|discriminate].
Qed.

Section Streams.
  Context {N : Num}.
  Variable p : problem.
  Variable c : config.

  Lemma real_stream r x r' : real p r = (x, r') -> same_stream r r'.
  Proof. unfold real, draw. intro G. injection G as _ <-. reflexivity. Qed.
  Lemma ind_random_stream nv k r i r' : ind_random p nv k r = (i, r') -> same_stream r r'.
  Proof.
    unfold ind_random. destruct (shuffle _ r) as [g r1] eqn:ES. intro G. injection G as _ <-. now apply shuffle_stream in ES.
  Qed.
  Lemma draw_indices_stream k size : forall r l r', draw_indices k size r = Ok (l, r') -> same_stream r r'.
  Proof.
    induction k as [|k IH]; intros r l r'; cbn [draw_indices]; [intro G; injection G as _ <-; reflexivity|].
    intro G. bind G. destruct v as [i r1]. bind G. destruct v as [l1 r2]. injection G as _ <-.
    apply range_stream in G0. apply IH in G1. eauto using same_trans.
  Qed.
  Lemma tournament_stream k P r i r' : tournament k P r = Ok (i, r') -> same_stream r r'.
  Proof.
    unfold tournament. intro G. bind G. destruct v as [l r1]. bind G. destruct v; [|discriminate]. injection G as _ <-.
    now apply draw_indices_stream in G0.
  Qed.

  (** *** Local search *)
  Lemma try_u_stream pen lc s b r u s' b' r' : try_u p c pen lc (s, b, r) u = Ok (s', b', r') -> same_stream r r'.
  Proof.
    unfold try_u. intro G. bind G. bind G. destruct v0 as [k r1]. apply range_stream in G1. bind G. destruct v0 as [[s1 cor] r2].
    assert (X : same_stream r1 r2).
    { destruct (k =? 0); [|injection G2 as _ _ <-; reflexivity]. destruct (shuffle v r1) as [cor' r3] eqn:ES. apply shuffle_stream in ES.
      bind G2. injection G2 as _ _ <-. exact ES. }
    bind G. bind G. destruct v1 as [[s2 ru] imp]. bind G. destruct v1 as [s3 b3]. injection G as _ _ <-. eauto using same_trans.
  Qed.
  Lemma search_pass_stream pen lc s r s' b lc' r' : search_pass p c pen lc s r = Ok (s', b, lc', r') -> same_stream r r'.
  Proof.
    unfold search_pass. destruct (shuffle (s_cust s) r) as [cust r1] eqn:ES. apply shuffle_stream in ES. intro G. bind G.
    destruct v as [[s1 imp] r2].
    assert (X : same_stream r1 r2).
    { pose proof (foldm_same (try_u p c pen lc) (fun a a' => same_stream (snd a) (snd a')) ) as FS.
      specialize (FS (fun a => same_refl _) (fun a b d => same_trans _ _ _)).
      apply (FS (fun a x a' => ltac:(destruct a as [[? ?] ?], a' as [[? ?] ?]; cbn [snd]; apply try_u_stream)) _ _ _ G0). }
    destruct (c_swap_star c); [bind G; destruct v as [s3 b3]|]; injection G as _ _ _ <-; eauto using same_trans.
  Qed.
  Lemma search_stream pen k : forall lc s r s' r', search p c pen k lc s r = Ok (s', r') -> same_stream r r'.
  Proof.
    induction k as [|k IH]; intros lc s r s' r'; cbn [search]; [discriminate|]. intro G. bind G. destruct v as [[[s1 imp] lc1] r1].
    apply search_pass_stream in G0. destruct imp; [apply IH in G|injection G as _ <-]; eauto using same_trans.
  Qed.
  Lemma ls_run_stream pen k epen s i r s' i' r' : ls_run p c pen k epen s i r = Ok (s', i', r') -> same_stream r r'.
  Proof.
    unfold ls_run. intro G. bind G. bind G. destruct v0 as [s1 r1]. bind G. injection G as _ _ <-. now apply search_stream in G1.
  Qed.

  (** *** Ruin and recreate *)
  Lemma start_index_stream a b d r k r' : start_index a b d r = Ok (k, r') -> same_stream r r'.
  Proof.
    unfold start_index. destruct (_ <? 0)%Z; [discriminate|]. destruct (_ <? _); [apply range_stream|].
    intro G. injection G as _ <-. reflexivity.
  Qed.
  Lemma grow_m_stream k : forall m r m' r', grow_m p k m r = (m', r') -> same_stream r r'.
  Proof.
    induction k as [|k IH]; intros m r m' r'; cbn [grow_m]; [intro G; injection G as _ <-; reflexivity|].
    destruct (real p r) as [x r1] eqn:ER. apply real_stream in ER. destruct (_ <:? x); intro G; [apply IH in G|injection G as _ <-];
      eauto using same_trans.
  Qed.
  Lemma ruin_route_stream s n k lt r s' r' : ruin_route p s n k lt r = Ok (s', r') -> same_stream r r'.
  Proof.
    unfold ruin_route. intro G. bind G. bind G. destruct (real p r) as [x r1] eqn:ER. apply real_stream in ER.
    bind G. destruct v1 as [s1 r2]. injection G as _ <-. destruct (x <:? _).
    - bind G2. destruct v1 as [st r3]. apply start_index_stream in G. bind G2. injection G2 as _ <-. eauto using same_trans.
    - destruct (_ <? lt); [discriminate|].
      destruct (if 0 <? _ then _ else _) as [m r3] eqn:EM.
      assert (X : same_stream r1 r3).
      { destruct (0 <? _); [now apply grow_m_stream in EM|injection EM as _ <-; reflexivity]. }
      bind G2. destruct v1 as [st r4]. apply start_index_stream in G. bind G2. destruct v1 as [mi r5]. apply range_stream in G3.
      bind G2. injection G2 as _ <-. eauto using same_trans.
  Qed.
  Lemma ruin_loop_stream lsmax ks ns : forall s r s' r', ruin_loop p lsmax ks ns s r = Ok (s', r') -> same_stream r r'.
  Proof.
    induction ns as [|n ns IH]; intros s r s' r'; cbn [ruin_loop]; [intro G; injection G as _ <-; reflexivity|].
    intro G. bind G. destruct (_ || _); [eauto|]. bind G. destruct (real p r) as [x r1] eqn:ER. apply real_stream in ER.
    bind G. destruct v1 as [s1 r2]. apply ruin_route_stream in G2.
    destruct (_ <=? _); [injection G as _ <-|apply IH in G]; eauto using same_trans.
  Qed.
  Lemma ruin_run_stream corr s r s' r' : ruin_run p c corr s r = Ok (s', r') -> same_stream r r'.
  Proof.
    unfold ruin_run. destruct (real p r) as [x r1] eqn:ER. apply real_stream in ER. intro G. bind G. destruct v as [cs r2].
    apply range_stream in G0. bind G. apply ruin_loop_stream in G. eauto using same_trans.
  Qed.
  Lemma sort_unassigned_stream un r un' r' : sort_unassigned p un r = Ok (un', r') -> same_stream r r'.
  Proof.
    unfold sort_unassigned. intro G. bind G. destruct v as [k r1]. apply range_stream in G0.
    destruct (k <? 4).
    - destruct (shuffle un r1) as [l r2] eqn:ES. injection G as _ <-. apply shuffle_stream in ES. eauto using same_trans.
    - destruct (k <? 8); [|destruct (k <? 10)]; bind G; injection G as _ <-; exact G0.
  Qed.
  Lemma recreate_run_stream pen s r h s' r' h' : recreate_run p pen s r h = Ok (s', r', h') -> same_stream r r'.
  Proof.
    unfold recreate_run. intro G. bind G. destruct v as [un r1]. apply sort_unassigned_stream in G0. bind G. destruct v as [[s1 up] h1].
    destruct (hash_iter up h1) as [o h2]. bind G. injection G as _ <- _. exact G0.
  Qed.
  Lemma accepts_stream a x y r b r' : accepts p a x y r = (b, r') -> same_stream r r'.
  Proof.
    unfold accepts. destruct (real p r) as [z r1] eqn:ER. apply real_stream in ER. intro G. injection G as _ <-. exact ER.
  Qed.

  (** *** Decomposition *)
  Lemma decompose_global_stream m corr g h r a b d r' : decompose_global p m corr g h r = Ok (a, b, d, r') -> same_stream r r'.
  Proof.
    unfold decompose_global. intro G. bind G. bind G. destruct v0 as [seed r1]. apply range_stream in G1. bind G. bind G.
    destruct v1 as [cu ro]. destruct (shuffle ro h) as [o h1]. bind G. bind G. destruct v2 as [[mp ix] ph]. injection G as _ _ _ <-. exact G1.
  Qed.
End Streams.

(** ** The genetic algorithm *)
Section Flow.
  Context {N : Num}.
  Variable L : lib.
  Variable p : problem.
  Variable c : config.
  Variable E : env.
  Variable log_interval : nat.
  Variable max_distance : option F.
  Variable fuel : nat.

  Definition flows (w w' : world) : Prop := rdraw (w_rng w') = rdraw (w_rng w).
  Lemma flows_refl w : flows w w.
  Proof. reflexivity. Qed.
  Lemma flows_trans a b d : flows a b -> flows b d -> flows a d.
  Proof. unfold flows. congruence. Qed.

  Lemma acc_update_flows a w a' w' : acc_update E a w = (a', w') -> flows w w'.
  Proof.
    unfold acc_update, ts_update, now. destruct a; [intro G; injection G as <- <-; reflexivity|].
    cbn [ts_since ts_rate]. destruct (_ =? _); intro G; injection G as <- <-; reflexivity.
  Qed.
  Lemma acc_reset_flows a w a' w' : acc_reset E a w = (a', w') -> flows w w'.
  Proof. unfold acc_reset, ts_reset, now. destruct a; intro G; injection G as <- <-; reflexivity. Qed.

  Lemma rr_update_best_flows cur w w' : rr_update_best p c cur w = Ok w' -> flows w w'.
  Proof.
    unfold rr_update_best. destruct (_ && _); [|intro G; injection G as <-; reflexivity].
    destruct (ind_random _ _ _ _) eqn:EI. apply ind_random_stream in EI. intro G. bind G. injection G as <-. exact EI.
  Qed.

  Lemma rr_move_flows corr st w st' w' : rr_move p c E corr st w = Ok (st', w') -> flows w w'.
  Proof.
    unfold rr_move. intro G. bind G. destruct v as [cur r]. apply ruin_run_stream in G0.
    bind G. destruct v as [[cur' r'] hash]. apply recreate_run_stream in G1.
    destruct (accepts _ _ _ _ _) as [ok r2] eqn:EA. apply accepts_stream in EA.
    pose proof (same_trans _ _ _ G0 (same_trans _ _ _ G1 EA)) as A.
    bind G. destruct v as [[sol best] w1].
    assert (X : flows w w1).
    { destruct ok; [|injection G2 as _ _ <-; exact A]. bind G2. destruct v as [best' w2].
      assert (Y : flows w w2).
      { destruct (match rr_best st with Some _ => _ | None => _ end); [|injection G3 as _ <-; exact A].
        bind G3. injection G3 as _ <-. apply rr_update_best_flows in G4. exact (same_trans _ _ _ A G4). }
      bind G2. injection G2 as _ _ <-. exact Y. }
    bind G. destruct (acc_update _ _ _) as [a w2] eqn:EU. apply acc_update_flows in EU. injection G as _ <-.
    eapply flows_trans; eauto.
  Qed.

  Lemma rr_loop_flows corr k : forall st w st' w', rr_loop p c E corr k st w = Ok (st', w') -> flows w w'.
  Proof.
    induction k as [|k IH]; intros st w st' w'; cbn [rr_loop]; [intro G; injection G as _ <-; apply flows_refl|].
    destruct (match k with O => rr_penalty c st w | _ => (st, w) end) as [s1 w1] eqn:EP.
    assert (X : flows w w1).
    { destruct k; [|injection EP as _ <-; apply flows_refl]. unfold rr_penalty in EP.
      destruct (rr_update_penalty st); injection EP as _ <-; reflexivity. }
    intro G. bind G. destruct v as [s2 w2]. apply rr_move_flows in G0.
    destruct (acc_completed _); [injection G as _ <-|apply IH in G]; eauto using flows_trans.
  Qed.
  Lemma rr_until_flows k corr : forall st w st' w', rr_until p c E k corr st w = Ok (st', w') -> flows w w'.
  Proof.
    induction k as [|k IH]; intros st w st' w'; cbn [rr_until].
    - destruct (rr_complete st); [intro G; injection G as _ <-; apply flows_refl|discriminate].
    - destruct (rr_complete st); [intro G; injection G as _ <-; apply flows_refl|].
      intro G. bind G. destruct v as [s1 w1]. apply rr_loop_flows in G0. apply IH in G. eauto using flows_trans.
  Qed.
  Lemma rr_load_flows st i w st' w' : rr_load E st i w = Ok (st', w') -> flows w w'.
  Proof.
    unfold rr_load. intro G. repeat bind G. destruct (acc_reset _ _ _) as [a w1] eqn:EA. injection G as _ <-.
    eapply acc_reset_flows; eauto.
  Qed.

  Lemma update_best_flows g w g' w' : update_best g w = (g', w') -> flows w w'.
  Proof.
    unfold update_best. destruct (_ && _); [destruct (oapprox_lt _ (h_best _))|]; intro G; injection G as <- <-; reflexivity.
  Qed.
  Lemma run_ls_flows m g w g' w' : run_ls p c fuel m g w = Ok (g', w') -> flows w w'.
  Proof. unfold run_ls. intro G. bind G. destruct v as [[s i] r]. injection G as <- <-. now apply ls_run_stream in G0. Qed.
  Lemma run_rr_flows g w g' w' : run_rr p c E fuel g w = Ok (g', w') -> flows w w'.
  Proof.
    unfold run_rr. intro G. bind G. destruct v as [s1 w1]. bind G. destruct v as [s2 w2]. bind G. injection G as <- <-.
    apply rr_load_flows in G0. apply rr_until_flows in G1. eauto using flows_trans.
  Qed.
  Lemma opt_ls_flows (b : bool) m g w g' w' : (if b then run_ls p c fuel m g w else Ok (g, w)) = Ok (g', w') -> flows w w'.
  Proof. destruct b; [apply run_ls_flows|]. intro G. injection G as <- <-. apply flows_refl. Qed.
  Lemma repair_flows g w g' w' : repair L p c fuel g w = Ok (g', w') -> flows w w'.
  Proof.
    unfold repair. intro G. bind G. destruct v as [g1 w1]. apply opt_ls_flows in G0.
    bind G. destruct v as [g2 w2]. injection G as <- <-.
    destruct (is_feasible _).
    - destruct (update_best g1 w1) as [g3 w3] eqn:EU. apply update_best_flows in EU.
      bind G1. injection G1 as <- <-. exact (flows_trans _ _ _ G0 EU).
    - injection G1 as <- <-. exact G0.
  Qed.
  Lemma educate_flows g w g' w' : educate L p c E fuel g w = Ok (g', w') -> flows w w'.
  Proof.
    unfold educate. intro G. bind G. destruct v as [g1 w1]. apply opt_ls_flows in G0.
    destruct (real p (w_rng w1)) as [x r] eqn:ER. apply real_stream in ER. pose proof (same_trans _ _ _ G0 ER) as A.
    bind G. destruct v as [g2 w2].
    assert (X : flows w w2).
    { destruct (_ && _).
      - apply run_rr_flows in G1. exact (same_trans _ _ _ A G1).
      - injection G1 as <- <-. exact A. }
    bind G. destruct v as [g3 w3].
    assert (Y : flows w w3).
    { destruct (negb _).
      - destruct (real p (w_rng w2)) as [y r'] eqn:ER2. apply real_stream in ER2. pose proof (same_trans _ _ _ X ER2) as B. destruct (y <:? _).
        + apply repair_flows in G2. exact (same_trans _ _ _ B G2).
        + injection G2 as <- <-. exact B.
      - injection G2 as <- <-. exact X. }
    injection G as G. apply update_best_flows in G. eauto using flows_trans.
  Qed.
  Lemma log_flows g w g' w' : ga_log c E log_interval g w = Ok (g', w') -> flows w w'.
  Proof.
    unfold ga_log, now. cbn [ga_iterations ga_best_iter set_next_log]. destruct (_ <? _); [discriminate|].
    intro G. repeat bind G. injection G as <- <-. reflexivity.
  Qed.

  Lemma it_created_flows g w g' w' : it_created L p c E fuel g w = Ok (g', w') -> flows w w'.
  Proof.
    unfold it_created. destruct (_ && _); [|intro G; injection G as _ <-; apply flows_refl].
    intro G. bind G. bind G. destruct v0 as [g1 w1]. apply educate_flows in G1.
    destruct (setup_elite_education p c E (ga_rr g1) w1) as [st w2] eqn:EE.
    assert (X : flows w1 w2).
    { unfold setup_elite_education, ts_new, now in EE. destruct (c_elite_education_time_based c); injection EE as _ <-; reflexivity. }
    bind G. destruct v0 as [s3 w3]. apply rr_load_flows in G2. injection G as _ <-. eauto using flows_trans.
  Qed.
  Lemma it_elite_flows g w g' w' : it_elite L p c E log_interval max_distance g w = Ok (g', w') -> flows w w'.
  Proof.
    unfold it_elite. destruct (negb _).
    - intro G. bind G. destruct v as [s1 w1]. apply rr_loop_flows in G0. injection G as _ <-. exact G0.
    - intro G. bind G. destruct (update_best _ _) as [g1 w1] eqn:EU. apply update_best_flows in EU.
      bind G. bind G. apply log_flows in G.
      unfold reset_penalty in G2. bind G2. injection G2 as <-. exact (same_trans _ _ _ EU G).
  Qed.
  Lemma it_init_flows g w g' w' : it_init L p c E fuel g w = Ok (g', w') -> flows w w'.
  Proof.
    unfold it_init. destruct (_ <? _); [|intro G; injection G as _ <-; apply flows_refl].
    unfold create_initial_individual. destruct (ind_random _ _ _ _) as [i r] eqn:EI. apply ind_random_stream in EI.
    intro G. bind G. destruct v as [[nc g1] w1].
    bind G. injection G as _ <-. bind G0. bind G0. destruct v1 as [g2 w2]. injection G0 as _ _ <-.
    apply educate_flows in G2. exact (same_trans _ _ _ EI G2).
  Qed.
  Lemma it_cycle_flows g w g' w' : it_cycle L p c E log_interval fuel g w = Ok (g', w') -> flows w w'.
  Proof.
    unfold it_cycle. intro G. bind G. destruct v as [one r1]. apply tournament_stream in G0. bind G. destruct v as [two r2]. apply tournament_stream in G1.
    bind G. destruct v as [ch r3].
    assert (A : same_stream r2 r3).
    { unfold make_child in G2. bind G2. destruct v as [gg r4]. injection G2 as _ <-. now apply crossover_stream in G3. }
    bind G. bind G. destruct v0 as [g1 w1]. apply educate_flows in G4.
    bind G. bind G. destruct v1 as [g2 w2].
    assert (X : flows w1 w2).
    { destruct (_ <=? _) in G6.
      - unfold update_penalty in G6. bind G6. injection G6 as <- <-. reflexivity.
      - injection G6 as <- <-. apply flows_refl. }
    bind G. destruct v1 as [g3 w3].
    assert (Y : flows w2 w3).
    { destruct (_ <=? _) in G7.
      - now apply log_flows in G7.
      - injection G7 as <- <-. apply flows_refl. }
    bind G. injection G as <- <-.
    exact (same_trans _ _ _ G0 (same_trans _ _ _ G1 (same_trans _ _ _ A (same_trans _ _ _ G4 (same_trans _ _ _ X Y))))).
  Qed.

  Lemma iterate_flows g w g' w' : ga_iterate L p c E log_interval max_distance fuel g w = Ok (g', w') -> flows w w'.
  Proof.
    unfold ga_iterate. destruct (terminate c E w) as [stop w1] eqn:ET.
    unfold terminate, now in ET. injection ET as <- <-. cbn [w_iter].
    match goal with |- context [if ?b then set_st g Terminated else g] => set (g1 := if b then set_st g Terminated else g) end.
    destruct (ga_st g1); intro G; [apply it_created_flows in G|apply it_elite_flows in G|apply it_init_flows in G|apply it_cycle_flows in G|injection G as <- <-; reflexivity];
      exact G.
  Qed.
  Lemma ga_new_flows corr lh rh w g w' : ga_new p c corr lh rh w = (g, w') -> flows w w'.
  Proof.
    unfold ga_new. destruct (ind_random _ _ _ _) eqn:EI. apply ind_random_stream in EI. intro G. injection G as _ <-. exact EI.
  Qed.

  (** *** Decomposed *)
  Variable sqrt_ round_ : F -> F.
  Variable lsort : list (nat * F) -> list (nat * F).
  Variable dm : dmatrix.
  Variable min_size : nat.
  Variable hashes : nat -> rng * rng * rng.

  Lemma rr_reset_flows st w st' w' : rr_reset E st w = (st', w') -> flows w w'.
  Proof.
    unfold rr_reset. destruct (acc_reset E (rr_acc st) w) as [a w1] eqn:EA. intro G. injection G as _ <-. eapply acc_reset_flows; eauto.
  Qed.
  Lemma improve_flows k : forall g w g' w', improve_global p c E fuel k g w = Ok (g', w') -> flows w w'.
  Proof.
    induction k as [|k IH]; intros g w g' w'; cbn [improve_global]; [discriminate|].
    destruct (rr_reset E (ga_rr g) w) as [s1 w1] eqn:ER. apply rr_reset_flows in ER. intro G. bind G. destruct v as [s2 w2].
    apply rr_until_flows in G0. bind G. destruct (oapprox_gte _ _).
    - injection G as _ <-. eauto using flows_trans.
    - apply IH in G. eauto using flows_trans.
  Qed.
  Lemma create_flows g w i g' w' : create_global_solution L p c E fuel g w = Ok (i, g', w') -> flows w w'.
  Proof.
    unfold create_global_solution. destruct (ind_random _ _ _ _) as [ch r] eqn:EI. apply ind_random_stream in EI.
    intro G. bind G. bind G. destruct v0 as [g1 w1].
    apply educate_flows in G1. bind G. destruct v0 as [s2 w2]. apply rr_load_flows in G2. bind G. destruct v0 as [g3 w3].
    apply improve_flows in G3. bind G. injection G as _ _ <-.
    exact (same_trans _ _ _ EI (same_trans _ _ _ G1 (same_trans _ _ _ G2 G3))).
  Qed.
  Lemma cycle_flows d w d' w' : decompose_cycle L p c E log_interval fuel sqrt_ round_ lsort dm min_size hashes d w = Ok (d', w') ->
    flows w w'.
  Proof.
    unfold decompose_cycle. destruct (hashes (d_round d)) as [[h1 h2] h3]. intro G. bind G. destruct v as [[[[sub mapping] rest] mats] w1].
    assert (W1 : flows w w1).
    { unfold decomposition_new in G0. bind G0. destruct v as [[[? ?] ?] ?]. apply decompose_global_stream in G1. repeat bind G0. injection G0 as _ _ _ _ <-. exact G1. }
    bind G. destruct v as [best clock]. bind G.
    destruct (update_best _ _) as [g3 w3] eqn:EU. apply update_best_flows in EU.
    destruct (rr_reset E (ga_rr g3) w3) as [s4 w4] eqn:ER. apply rr_reset_flows in ER.
    bind G. destruct v0 as [s5 w5]. apply rr_load_flows in G3. bind G. destruct v0 as [s6 w6]. apply rr_until_flows in G4. bind G.
    destruct (update_best _ w6) as [g7 w7] eqn:EU2. apply update_best_flows in EU2. injection G as <- <-.
    exact (same_trans _ _ _ W1 (same_trans _ _ _ EU (same_trans _ _ _ ER (same_trans _ _ _ G3 (same_trans _ _ _ G4 EU2))))).
  Qed.
  Lemma dga_iterate_flows d w d' w' : dga_iterate L p c E log_interval fuel sqrt_ round_ lsort dm min_size hashes d w = Ok (d', w') ->
    flows w w'.
  Proof.
    unfold dga_iterate. destruct (terminate c E w) as [stop w1] eqn:ET. unfold terminate, now in ET. injection ET as <- <-. cbn [w_iter].
    match goal with |- context [if ?b then mkDGA DTerminated ?x ?y ?z else d] => set (d1 := if b then mkDGA DTerminated x y z else d) end.
    destruct (d_st d1); intro G.
    - bind G. destruct v as [[i g] w2]. apply create_flows in G0. injection G as _ <-. exact G0.
    - apply cycle_flows in G. exact G.
    - injection G as _ <-. reflexivity.
  Qed.
End Flow.
