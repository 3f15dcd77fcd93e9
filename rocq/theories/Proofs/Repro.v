(** Two runs side by side: what the clock, the time limit and the hash order of ruin and recreate
    can change. *)
From Coq Require Import List Arith NArith ZArith Bool Lia.
From Verif.Model Require Import Num Prelude Evaluate Individual Config Crossover Split Matrix Population
  LocalSearch World Schedule RuinRecreate Genetic.
From Verif.Spec Require Import Genetic Repro.
From Verif.Proofs Require Import GaClock.
Import ListNotations.
Local Open Scope nat_scope.

(** Both computations succeed with related results, or both fail in the same way. *)
Definition rel {A B : Type} (R : A -> B -> Prop) (x : res A) (y : res B) : Prop :=
  match x, y with
  | Ok a, Ok b => R a b
  | Err e, Err e' => e = e'
  | _, _ => False
  end.
Lemma rel_bind {A B A' B' : Type} (R : A -> B -> Prop) (R' : A' -> B' -> Prop) x y f g :
  rel R x y -> (forall a b, R a b -> rel R' (f a) (g b)) -> rel R' (rbind x f) (rbind y g).
Proof. destruct x, y; cbn; intros; auto; contradiction. Qed.
Lemma rel_mono {A B : Type} (R R' : A -> B -> Prop) x y : rel R x y -> (forall a b, R a b -> R' a b) -> rel R' x y.
Proof. destruct x, y; cbn; auto. Qed.
Lemma rel_refl {A : Type} (R : A -> A -> Prop) x : (forall a, x = Ok a -> R a a) -> rel R x x.
Proof. destruct x; cbn; auto. Qed.

Ltac bind G := match type of G with
  | rbind ?m _ = Ok _ => let x := fresh "v" in let e := fresh "er" in let H := fresh "G" in
      destruct m as [x|e] eqn:H; [cbn [rbind] in G|discriminate G]
  end.

Section Repro.
  Context {N : Num}.
  Variable L : lib.
  Variable p : problem.
  Variable li : nat.
  Variable md : option F.
  Variable fuel : nat.

  (** ** One call, after the clock was read *)
  Definition body (c : config) (E : env) (g : ga) (w : world) : res (ga * world) :=
    match ga_st g with
    | Created => it_created L p c E fuel g w
    | EliteEducation => it_elite L p c E li md g w
    | Initialization => it_init L p c E fuel g w
    | Cycle => it_cycle L p c E li fuel g w
    | Terminated => Ok (g, w)
    end.
  Definition stopped (c : config) (E : env) (w : world) : bool :=
    past (c_time_limit c) E (w_clock w) || capped (c_max_iterations c) (w_iter w).
  Definition ticked (w : world) : world := mkWorld (w_pen w) (w_hist w) (w_iter w) (w_rng w) (S (w_clock w)).
  Lemma iterate_body c E g w : ga_iterate L p c E li md fuel g w =
    body c E (if stopped c E w then set_st g Terminated else g) (ticked w).
  Proof. reflexivity. Qed.

  Lemma body_limit c t m E g w : timed_education p c = false ->
    body (with_limits c t m) E g w = body c E g w.
  Proof.
    unfold timed_education, body. intros TE. destruct (ga_st g).
    - unfold it_created. cbn [with_limits c_elite_education c_elite_education_problem_size_limit c_num_vehicles].
      destruct (c_elite_education c && _); [|reflexivity]. cbn [andb] in TE.
      change (run_split p (with_limits c t m)) with (run_split p c).
      change (educate L p (with_limits c t m) E fuel) with (educate L p c E fuel).
      unfold setup_elite_education. cbn [with_limits c_elite_education_time_based]. rewrite TE. reflexivity.
    - reflexivity.
    - reflexivity.
    - reflexivity.
    - reflexivity.
  Qed.

  (** ** The clock *)
  Section ClockFree.
    Variable c : config.
    Variables E1 E2 : env.
    Hypothesis same_exp : e_exp E1 = e_exp E2.
    Hypothesis not_timed : timed_education p c = false.

    Definition iter (st : rrstate) : Prop := exists s, rr_acc st = AIter s.
    Definition R1 (x y : rrstate * world) : Prop := x = y /\ iter (fst x).
    Definition R2 (x y : ga * world) : Prop := x = y /\ iter (ga_rr (fst x)).

    Lemma acc_update_same a w : (exists s, a = AIter s) ->
      acc_update E1 a w = acc_update E2 a w /\ exists s, fst (acc_update E1 a w) = AIter s.
    Proof using same_exp. intros (s & ->). cbn. unfold is_update, temperature. rewrite same_exp. split; eauto. Qed.
    Lemma acc_reset_same a w : (exists s, a = AIter s) ->
      acc_reset E1 a w = acc_reset E2 a w /\ exists s, fst (acc_reset E1 a w) = AIter s.
    Proof using same_exp. intros (s & ->). cbn. eauto. Qed.

    Lemma rr_load_same st i w : iter st -> rel R1 (rr_load E1 st i w) (rr_load E2 st i w).
    Proof using same_exp.
      intros I. unfold rr_load. destruct (so_load _ _) as [s|]; cbn; auto. destruct (so_evaluate _ _ _) as [s'|]; cbn; auto.
      destruct (acc_reset_same (rr_acc st) w I) as [EQ (x & X)]. rewrite <- EQ. destruct (acc_reset E1 _ _) as [a w'].
      cbn in *. split; auto. exists x. auto.
    Qed.
    Lemma rr_move_same corr st w : iter st -> rel R1 (rr_move p c E1 corr st w) (rr_move p c E2 corr st w).
    Proof using same_exp.
      intros I. unfold rr_move. destruct (ruin_run _ _ _ _ _) as [[cur r]|]; cbn [rbind rel]; auto.
      destruct (recreate_run _ _ _ _ _) as [[[cur' r'] hash]|]; cbn [rbind rel]; auto.
      destruct (accepts _ _ _ _ _) as [ok r2].
      match goal with |- rel _ (rbind ?m _) _ => destruct m as [[[sol best] w1]|] end; cbn [rbind rel]; auto.
      destruct (so_from _ _) as [cur2|]; cbn [rbind rel]; auto.
      destruct (acc_update_same (rr_acc st) w1 I) as [EQ (x & X)]. rewrite <- EQ. destruct (acc_update E1 _ _) as [a w'].
      cbn in *. split; auto. exists x. auto.
    Qed.
    Lemma rr_penalty_iter st w : iter st -> iter (fst (rr_penalty c st w)).
    Proof using. unfold rr_penalty. destruct (rr_update_penalty st); auto. Qed.
    Lemma rr_loop_same corr k : forall st w, iter st -> rel R1 (rr_loop p c E1 corr k st w) (rr_loop p c E2 corr k st w).
    Proof using same_exp.
      induction k as [|k IH]; intros st w I; cbn [rr_loop]; [split; auto|].
      assert (X : iter (fst (match k with O => rr_penalty c st w | _ => (st, w) end))).
      { destruct k; [apply rr_penalty_iter; auto|auto]. }
      destruct (match k with O => rr_penalty c st w | _ => (st, w) end) as [s1 w1]. cbn [fst] in X.
      eapply rel_bind; [apply rr_move_same; auto|]. intros [s2 w2] b [<- I2]. cbn [fst] in I2.
      destruct (acc_completed _); [split; auto|auto].
    Qed.
    Lemma rr_until_same k corr : forall st w, iter st -> rel R1 (rr_until p c E1 k corr st w) (rr_until p c E2 k corr st w).
    Proof using same_exp.
      induction k as [|k IH]; intros st w I; cbn [rr_until]; (destruct (rr_complete st); [split; auto|]); [reflexivity|].
      eapply rel_bind; [apply rr_loop_same; auto|]. intros [s2 w2] b [<- I2]. auto.
    Qed.

    Lemma update_best_rr g w : ga_rr (fst (update_best g w)) = ga_rr g.
    Proof using. unfold update_best. destruct (_ && _); [destruct (oapprox_lt _ (h_best _))|]; reflexivity. Qed.
    Lemma run_ls_rr m g w g' w' : run_ls p c fuel m g w = Ok (g', w') -> ga_rr g' = ga_rr g.
    Proof using. unfold run_ls. intro G. bind G. destruct v as [[s i] r]. injection G as <- <-. reflexivity. Qed.
    Lemma repair_rr g w g' w' : repair L p c fuel g w = Ok (g', w') -> ga_rr g' = ga_rr g.
    Proof using.
      unfold repair. intro G. bind G. destruct v as [g1 w1]. bind G. destruct v as [g2 w2]. injection G as <- <-. cbn.
      assert (X1 : ga_rr g1 = ga_rr g) by (destruct (c_ls_enabled c); [eapply run_ls_rr; eauto|injection G0 as <- <-; auto]).
      rewrite <- X1. destruct (is_feasible _).
      - pose proof (update_best_rr g1 w1) as U. destruct (update_best g1 w1) as [g3 w3]. cbn [fst] in U.
        bind G1. injection G1 as <- <-. exact U.
      - injection G1 as <- <-. auto.
    Qed.
    Lemma run_rr_same g w : iter (ga_rr g) -> rel R2 (run_rr p c E1 fuel g w) (run_rr p c E2 fuel g w).
    Proof using same_exp.
      intros I. unfold run_rr. eapply rel_bind; [apply rr_load_same; auto|]. intros [s w1] b [<- I1]. cbn [fst] in I1.
      eapply rel_bind; [apply rr_until_same; auto|]. intros [s2 w2] b [<- I2]. cbn [fst] in I2.
      destruct (rr_get_best_solution _ _ _ _); cbn; auto. split; auto.
    Qed.
    Lemma educate_same g w : iter (ga_rr g) -> rel R2 (educate L p c E1 fuel g w) (educate L p c E2 fuel g w).
    Proof using same_exp.
      intros I. unfold educate.
      eapply (rel_bind R2).
      { apply rel_refl. intros [g1 w1] G. split; auto. cbn [fst].
        destruct (c_ls_enabled c); [rewrite (run_ls_rr _ _ _ _ _ G)|injection G as <- <-]; auto. }
      intros [g1 w1] b [<- I1]. cbn [fst] in I1. destruct (real p (w_rng w1)) as [x r].
      eapply (rel_bind R2).
      { destruct (_ && _); [apply run_rr_same; auto|split; auto]. }
      intros [g2 w2] b [<- I2]. cbn [fst] in I2.
      eapply (rel_bind R2).
      { apply rel_refl. intros [g3 w3] G. split; auto. cbn [fst]. destruct (negb _).
        - destruct (real p (w_rng w2)) as [y r']. destruct (y <:? _); [rewrite (repair_rr _ _ _ _ G)|injection G as <- <-]; auto.
        - injection G as <- <-. auto. }
      intros [g3 w3] b [<- I3]. cbn [fst] in I3. cbn [rel]. split; auto. rewrite update_best_rr. auto.
    Qed.
    Lemma run_split_rr g w mv g' : run_split p c g w mv = Ok g' -> ga_rr g' = ga_rr g.
    Proof using. unfold run_split. intro G. bind G. destruct v as [st i]. injection G as <-. reflexivity. Qed.

    Lemma log_same g w : iter (ga_rr g) -> rel R2 (ga_log c E1 li g w) (ga_log c E2 li g w).
    Proof using same_exp.
      intros I. change (ga_log c E2 li g w) with (ga_log c E1 li g w). apply rel_refl. intros [g' w'] G. split; auto.
      unfold ga_log, now in G. cbn [ga_iterations ga_best_iter set_next_log] in G. destruct (_ <? _); [discriminate|].
      repeat bind G. injection G as <- <-. auto.
    Qed.

    Lemma body_same g w : iter (ga_rr g) -> rel R2 (body c E1 g w) (body c E2 g w).
    Proof using same_exp not_timed.
      intros I. unfold body. destruct (ga_st g).
      - unfold it_created. unfold timed_education in not_timed.
        destruct (c_elite_education c && _); [|split; auto]. cbn [andb] in not_timed.
        eapply (rel_bind (fun x y => x = y /\ iter (ga_rr x))).
        { apply rel_refl. intros g1 G. split; auto. rewrite (run_split_rr _ _ _ _ G). auto. }
        intros g1 b [<- I1]. eapply rel_bind; [apply educate_same; auto|]. intros [g2 w2] b [<- I2]. cbn [fst] in I2.
        unfold setup_elite_education. rewrite not_timed.
        eapply rel_bind; [apply rr_load_same; eexists; reflexivity|]. intros [s w3] b [<- I3]. split; auto.
      - unfold it_elite. destruct (negb _).
        + eapply rel_bind; [apply rr_loop_same; auto|]. intros [s w3] b [<- I3]. split; auto.
        + destruct (rr_get_best_solution _ _ _ _) as [i|]; cbn [rbind rel]; auto.
          pose proof (update_best_rr (set_child (set_st g Initialization) i) w) as U.
          destruct (update_best _ _) as [g1 w1]. cbn [fst] in U.
          unfold add_individual. destruct (pop_add _ _ _ _ _); cbn [rbind rel]; auto.
          destruct (reset_penalty _ _ _); cbn [rbind rel]; auto. apply log_same. eexists; reflexivity.
      - unfold it_init. destruct (_ <? _); [|split; auto]. unfold create_initial_individual.
        destruct (ind_random _ _ _ _) as [child r].
        eapply (rel_bind (fun x y => x = y /\ iter (ga_rr (snd (fst x))))).
        { eapply (rel_bind (fun x y => x = y /\ iter (ga_rr x))).
          { apply rel_refl. intros g1 G. split; auto. rewrite (run_split_rr _ _ _ _ G). auto. }
          intros g1 b [<- I1]. eapply rel_bind; [apply educate_same; auto|]. intros [g2 w2] b [<- I2]. split; auto. }
        intros [[ch g2] w2] b [<- I2]. cbn [fst snd] in I2. destruct (pop_add _ _ _ _ _); cbn [rbind rel]; auto. split; auto.
      - unfold it_cycle. destruct (tournament _ _ _) as [[one r1]|]; cbn [rbind rel]; auto.
        destruct (tournament _ _ _) as [[two r2]|]; cbn [rbind rel]; auto.
        destruct (make_child _ _ _ _ _) as [[child r3]|]; cbn [rbind rel]; auto.
        eapply (rel_bind (fun x y => x = y /\ iter (ga_rr x))).
        { apply rel_refl. intros g1 G. split; auto. rewrite (run_split_rr _ _ _ _ G). auto. }
        intros g1 b [<- I1]. eapply rel_bind; [apply educate_same; auto|]. intros [g2 w2] b [<- I2]. cbn [fst] in I2.
        destruct (pop_add _ _ _ _ _) as [po|]; cbn [rbind rel]; auto.
        eapply (rel_bind R2).
        { apply rel_refl. intros [g3 w3] G. split; auto. cbn [fst]. destruct (_ <=? _).
          - unfold update_penalty in G. bind G. injection G as <- <-. auto.
          - injection G as <- <-. auto. }
        intros [g3 w3] b [<- I3]. cbn [fst] in I3.
        eapply (rel_bind R2).
        { destruct (_ <=? _); [apply log_same; auto|split; auto]. }
        intros [g4 w4] b [<- I4]. cbn [fst] in I4. destruct (_ <? _); cbn [rbind rel]; auto. split; auto.
        cbn [fst set_iterations ga_rr]. destruct (_ <? _); auto.
      - split; auto.
    Qed.
  End ClockFree.

  (** ** Without ruin and recreate *)
  Section NoRuin.
    Variable c : config.
    Variables E1 E2 : env.
    Hypothesis none : no_ruin p c = true.

    Definition like (g h : ga) : Prop := exists st, h = set_rr g st.
    Definition R3 (x y : ga * world) : Prop := like (fst x) (fst y) /\ snd x = snd y.

    Lemma no_mutation : c_rr_mutation c = false.
    Proof using none. unfold no_ruin in none. destruct (c_rr_mutation c); auto. Qed.
    Lemma no_education : c_elite_education c && (c_elite_education_problem_size_limit c <? p_dim p - 1) = false.
    Proof using none. unfold no_ruin in none. destruct (c_elite_education c && _); auto. rewrite andb_false_r in none. discriminate. Qed.

    Lemma update_best_like g h w : like g h -> R3 (update_best g w) (update_best h w).
    Proof using.
      intros (st & ->). unfold update_best. cbn [set_rr ga_child ga_cur_best ga_iterations].
      destruct (_ && _); [|split; [exists st|]; reflexivity].
      cbn [set_current ga_cur_best]. destruct (oapprox_lt _ (h_best _)); split; try (exists st); reflexivity.
    Qed.
    Lemma run_ls_like m g h w : like g h -> rel R3 (run_ls p c fuel m g w) (run_ls p c fuel m h w).
    Proof using.
      intros (st & ->). unfold run_ls. cbn [set_rr ga_ls ga_child]. destruct (ls_run _ _ _ _ _ _ _ _) as [[[s i] r]|]; cbn; auto.
      split; [exists st|]; reflexivity.
    Qed.
    Lemma repair_like g h w : like g h -> rel R3 (repair L p c fuel g w) (repair L p c fuel h w).
    Proof using.
      intros LK. assert (EC : ga_child h = ga_child g) by (destruct LK as (st & ->); reflexivity). unfold repair. rewrite EC.
      eapply (rel_bind R3).
      { destruct (c_ls_enabled c); [apply run_ls_like; auto|split; auto]. }
      intros [g1 w1] [h1 w1'] [L1 W1]. cbn [fst snd] in L1, W1. subst w1'.
      eapply (rel_bind R3).
      { assert (EC1 : ga_child h1 = ga_child g1) by (destruct L1 as (st & ->); reflexivity). rewrite EC1.
        destruct (is_feasible _); [|split; auto].
        destruct (update_best_like g1 h1 w1 L1) as [L2 W2].
        destruct (update_best g1 w1) as [g2 w2], (update_best h1 w1) as [h2 w2']. cbn [fst snd] in L2, W2. subst w2'.
        destruct L2 as (st & ->). cbn [set_rr ga_pop ga_child]. destruct (pop_add _ _ _ _ _); cbn; auto.
        split; [exists st|]; reflexivity. }
      intros [g2 w2] [h2 w2'] [(st & L2) W2]. cbn [fst snd] in L2, W2. subst. split; [exists st|]; reflexivity.
    Qed.
    Lemma educate_like g h w : like g h -> rel R3 (educate L p c E1 fuel g w) (educate L p c E2 fuel h w).
    Proof using none.
      intros LK. unfold educate.
      eapply (rel_bind R3).
      { destruct (c_ls_enabled c); [apply run_ls_like; auto|split; auto]. }
      intros [g1 w1] [h1 w1'] [L1 W1]. cbn [fst snd] in L1, W1. subst w1'. destruct (real p (w_rng w1)) as [x r].
      rewrite no_mutation. cbn [andb rbind].
      assert (EC1 : ga_child h1 = ga_child g1) by (destruct L1 as (st & ->); reflexivity). rewrite EC1.
      eapply (rel_bind R3).
      { destruct (negb _); [|split; auto]. destruct (real p _) as [y r']. destruct (y <:? _); [apply repair_like; auto|split; auto]. }
      intros [g3 w3] [h3 w3'] [L3 W3]. cbn [fst snd] in L3, W3. subst w3'. cbn [rel]. apply update_best_like; auto.
    Qed.
    Lemma run_split_like g h w mv : like g h -> rel like (run_split p c g w mv) (run_split p c h w mv).
    Proof using.
      intros (st & ->). unfold run_split. cbn [set_rr ga_split ga_child]. destruct (split_run _ _ _ _ _ _) as [[s i]|]; cbn; auto.
      exists st. reflexivity.
    Qed.
    Lemma log_like g h w : like g h -> rel R3 (ga_log c E1 li g w) (ga_log c E2 li h w).
    Proof using.
      intros (st & ->). unfold ga_log, now. cbn [set_rr set_next_log ga_iterations ga_best_iter ga_pop].
      destruct (_ <? _); cbn [rel]; auto. destruct (sub_diversity _ _); cbn [rel rbind]; auto.
      destruct (sub_diversity _ _); cbn [rel rbind]; auto. split; [exists st|]; reflexivity.
    Qed.

    Lemma body_like g h w : like g h -> ga_st g <> EliteEducation -> rel R3 (body c E1 g w) (body c E2 h w).
    Proof using none.
      intros LK NE. assert (ES : ga_st h = ga_st g) by (destruct LK as (st & ->); reflexivity). unfold body. rewrite ES.
      destruct (ga_st g); [| |  | |].
      - unfold it_created. rewrite no_education. split; auto. destruct LK as (st & ->). exists st. reflexivity.
      - congruence.
      - unfold it_init. assert (EN : ga_num_init h = ga_num_init g) by (destruct LK as (st & ->); reflexivity). rewrite EN.
        destruct (_ <? _).
        2:{ split; auto. destruct LK as (st & ->). exists st. reflexivity. }
        unfold create_initial_individual. rewrite EN. destruct (ind_random _ _ _ _) as [child r].
        eapply (rel_bind (fun x y => fst (fst x) = fst (fst y) /\ like (snd (fst x)) (snd (fst y)) /\ snd x = snd y)).
        { assert (EC : ga_child h = ga_child g) by (destruct LK as (st & ->); reflexivity). rewrite EC.
          eapply rel_bind.
          { apply run_split_like. destruct LK as (st & ->). exists st. reflexivity. }
          intros g1 h1 L1. eapply rel_bind; [apply educate_like; auto|].
          intros [g2 w2] [h2 w2'] [(st & L2) W2]. cbn [fst snd] in *. subst. split; [|split]; auto. exists st. reflexivity. }
        intros [[ch g2] w2] [[ch' h2] w2'] (EQ & (st & L2) & W2). cbn [fst snd] in *. subst.
        cbn [set_rr ga_pop]. destruct (pop_add _ _ _ _ _); cbn [rbind rel]; auto. split; auto. exists st. reflexivity.
      - unfold it_cycle. assert (EP : ga_pop h = ga_pop g) by (destruct LK as (st & ->); reflexivity). rewrite EP.
        destruct (tournament _ _ _) as [[one r1]|]; cbn [rbind rel]; auto.
        destruct (tournament _ _ _) as [[two r2]|]; cbn [rbind rel]; auto.
        assert (EM : make_child fuel h one two r2 = make_child fuel g one two r2) by (unfold make_child; rewrite EP; auto).
        rewrite EM. clear EM. destruct (make_child fuel g one two r2) as [[child r3]|]; cbn [rbind rel]; auto.
        eapply rel_bind.
        { apply run_split_like. destruct LK as (st & ->). exists st. reflexivity. }
        intros g1 h1 L1. eapply rel_bind; [apply educate_like; auto|].
        intros [g2 w2] [h2 w2'] [(st2 & L2) W2]. cbn [fst snd] in *. subst w2' h2. cbn [set_rr ga_pop ga_child].
        destruct (pop_add _ _ _ _ _) as [po|]; cbn [rbind rel]; auto.
        cbn [set_gpop ga_next_penalty ga_iterations].
        eapply (rel_bind R3).
        { destruct (_ <=? _).
          - unfold update_penalty. cbn [set_next_penalty ga_pop]. destruct (pop_reevaluate _ _ _ _); cbn [rbind rel]; auto.
            split; [exists st2|]; reflexivity.
          - split; [exists st2|]; reflexivity. }
        intros [g3 w3] [h3 w3'] [L3 W3]. cbn [fst snd] in L3, W3. subst w3'.
        assert (E3 : ga_next_log h3 = ga_next_log g3 /\ ga_iterations h3 = ga_iterations g3) by (destruct L3 as (st & ->); split; reflexivity).
        destruct E3 as [-> ->].
        eapply (rel_bind R3).
        { destruct (_ <=? _); [apply log_like; auto|split; auto]. }
        intros [g4 w4] [h4 w4'] [(st & L4) W4]. cbn [fst snd] in L4, W4. subst w4' h4. cbn [set_rr ga_iterations ga_best_iter].
        destruct (_ <? _); cbn [rbind rel]; auto. split; auto. cbn [fst].
        destruct (_ <? _); exists st; reflexivity.
      - split; auto.
    Qed.

    (** The state of elite education is not entered. *)
    Lemma body_usual g w g' w' : ga_st g <> EliteEducation -> body c E1 g w = Ok (g', w') -> ga_st g' <> EliteEducation.
    Proof using none.
      intros NE. unfold body. destruct (ga_st g) eqn:ST.
      - unfold it_created. rewrite no_education. intro G. injection G as <- <-. discriminate.
      - congruence.
      - unfold it_init, create_initial_individual. destruct (_ <? _); [|intro G; injection G as <- <-; discriminate].
        destruct (ind_random _ _ _ _) as [child r]. intro G. bind G. destruct v as [[ch g2] w2]. bind G. injection G as <- <-. cbn [set_num_init set_gpop ga_st].
        bind G0. bind G0. destruct v1 as [g3 w3]. injection G0 as <- <- <-. cbn [set_child ga_st].
        apply educate_later in G2 as [_ ->]. apply run_split_st in G. rewrite G. cbn. congruence.
      - intro G. apply it_cycle_later in G as (_ & _ & [->| ->]); congruence.
      - intro G. injection G as <- <-. congruence.
    Qed.
  End NoRuin.

  (** ** The history grows *)
  Lemma recorded_refl h : recorded h [] h.
  Proof. reflexivity. Qed.
  Lemma recorded_trans (h1 h2 h3 : history) is1 is2 : recorded h1 is1 h2 -> recorded h2 is2 h3 -> recorded h1 (is1 ++ is2) h3.
  Proof. unfold recorded. intros -> ->. rewrite fold_left_app. auto. Qed.
  Definition grows (w w' : world) : Prop := exists is, recorded (w_hist w) is (w_hist w').
  Lemma grows_refl w w' : w_hist w' = w_hist w -> grows w w'.
  Proof. intros E. exists []. rewrite E. reflexivity. Qed.
  Lemma grows_trans w1 w2 w3 : grows w1 w2 -> grows w2 w3 -> grows w1 w3.
  Proof. intros (i1 & A) (i2 & B). exists (i1 ++ i2). eapply recorded_trans; eauto. Qed.
  Lemma grows_hist w1 w2 w3 : grows w1 w2 -> w_hist w3 = w_hist w2 -> grows w1 w3.
  Proof. intros (i1 & A) E. exists i1. rewrite E. auto. Qed.

  Section Grows.
    Variable c : config.
    Variable E : env.
    Lemma acc_update_hist a w : w_hist (snd (acc_update E a w)) = w_hist w.
    Proof. unfold acc_update, ts_update, now. destruct a; [auto|]. cbn [ts_since ts_rate]. destruct (_ =? _); reflexivity. Qed.
    Lemma acc_reset_hist a w : w_hist (snd (acc_reset E a w)) = w_hist w.
    Proof. unfold acc_reset, ts_reset, now. destruct a; reflexivity. Qed.
    Lemma rr_update_best_grows cur w w' : rr_update_best p c cur w = Ok w' -> grows w w'.
    Proof.
      unfold rr_update_best. destruct (_ && _); [|intro G; injection G as <-; apply grows_refl; auto].
      destruct (ind_random _ _ _ _). intro G. bind G. injection G as <-. exists [v]. reflexivity.
    Qed.
    Lemma rr_move_grows corr st w st' w' : rr_move p c E corr st w = Ok (st', w') -> grows w w'.
    Proof.
      unfold rr_move. intro G. bind G. destruct v as [cur r]. bind G. destruct v as [[cur' r'] hash].
      destruct (accepts _ _ _ _ _) as [ok r2]. bind G. destruct v as [[sol best] w1].
      assert (X : grows w w1).
      { destruct ok; [|injection G2 as _ _ <-; apply grows_refl; auto]. bind G2. destruct v as [best' w2].
        assert (Y : grows w w2).
        { destruct (match rr_best st with Some _ => _ | None => _ end); [|injection G3 as _ <-; apply grows_refl; auto].
          bind G3. injection G3 as _ <-. apply rr_update_best_grows in G4. exact G4. }
        bind G2. injection G2 as _ _ <-. exact Y. }
      bind G. pose proof (acc_update_hist (rr_acc st) w1) as A. destruct (acc_update _ _ _) as [a w2]. injection G as _ <-.
      eapply grows_hist; eauto.
    Qed.
    Lemma rr_loop_grows corr k : forall st w st' w', rr_loop p c E corr k st w = Ok (st', w') -> grows w w'.
    Proof.
      induction k as [|k IH]; intros st w st' w'; cbn [rr_loop]; [intro G; injection G as _ <-; apply grows_refl; auto|].
      destruct (match k with O => rr_penalty c st w | _ => (st, w) end) as [s1 w1] eqn:EP.
      assert (X : grows w w1).
      { apply grows_refl. destruct k; [|injection EP as _ <-; auto]. unfold rr_penalty in EP.
        destruct (rr_update_penalty st); injection EP as _ <-; auto. }
      intro G. bind G. destruct v as [s2 w2]. apply rr_move_grows in G0.
      destruct (acc_completed _); [injection G as _ <-|apply IH in G]; eauto using grows_trans.
    Qed.
    Lemma rr_until_grows k corr : forall st w st' w', rr_until p c E k corr st w = Ok (st', w') -> grows w w'.
    Proof.
      induction k as [|k IH]; intros st w st' w'; cbn [rr_until].
      - destruct (rr_complete st); [intro G; injection G as _ <-; apply grows_refl; auto|discriminate].
      - destruct (rr_complete st); [intro G; injection G as _ <-; apply grows_refl; auto|].
        intro G. bind G. destruct v as [s1 w1]. apply rr_loop_grows in G0. apply IH in G. eauto using grows_trans.
    Qed.
    Lemma rr_load_grows st i w st' w' : rr_load E st i w = Ok (st', w') -> grows w w'.
    Proof.
      unfold rr_load. intro G. repeat bind G. pose proof (acc_reset_hist (rr_acc st) w) as A.
      destruct (acc_reset _ _ _) as [a w1]. injection G as _ <-. apply grows_refl; auto.
    Qed.
    Lemma update_best_grows g w : grows w (snd (update_best g w)).
    Proof.
      unfold update_best. destruct (_ && _); [destruct (oapprox_lt _ (h_best _))|]; try (apply grows_refl; reflexivity).
      exists [ga_child g]. reflexivity.
    Qed.
    Lemma run_ls_grows m g w g' w' : run_ls p c fuel m g w = Ok (g', w') -> grows w w'.
    Proof. unfold run_ls. intro G. bind G. destruct v as [[s i] r]. injection G as <- <-. apply grows_refl; auto. Qed.
    Lemma run_rr_grows g w g' w' : run_rr p c E fuel g w = Ok (g', w') -> grows w w'.
    Proof.
      unfold run_rr. intro G. bind G. destruct v as [s1 w1]. bind G. destruct v as [s2 w2]. bind G. injection G as <- <-.
      apply rr_load_grows in G0. apply rr_until_grows in G1. eauto using grows_trans.
    Qed.
    Lemma opt_ls_grows (b : bool) m g w g' w' : (if b then run_ls p c fuel m g w else Ok (g, w)) = Ok (g', w') -> grows w w'.
    Proof. destruct b; [apply run_ls_grows|]. intro G. injection G as <- <-. apply grows_refl; auto. Qed.
    Lemma repair_grows g w g' w' : repair L p c fuel g w = Ok (g', w') -> grows w w'.
    Proof.
      unfold repair. intro G. bind G. destruct v as [g1 w1]. apply opt_ls_grows in G0.
      bind G. destruct v as [g2 w2]. injection G as <- <-. destruct (is_feasible _).
      - pose proof (update_best_grows g1 w1) as U. destruct (update_best g1 w1) as [g3 w3].
        bind G1. injection G1 as <- <-. eauto using grows_trans.
      - injection G1 as <- <-. auto.
    Qed.
    Lemma educate_grows g w g' w' : educate L p c E fuel g w = Ok (g', w') -> grows w w'.
    Proof.
      unfold educate. intro G. bind G. destruct v as [g1 w1]. apply opt_ls_grows in G0.
      destruct (real p (w_rng w1)) as [x r]. bind G. destruct v as [g2 w2].
      assert (X : grows w w2).
      { destruct (_ && _).
        - apply run_rr_grows in G1. eapply grows_trans; [exact G0|exact G1].
        - injection G1 as <- <-. exact G0. }
      bind G. destruct v as [g3 w3].
      assert (Y : grows w w3).
      { destruct (negb _).
        - destruct (real p (w_rng w2)) as [y r']. destruct (y <:? _).
          + apply repair_grows in G2. eapply grows_trans; [exact X|exact G2].
          + injection G2 as <- <-. exact X.
        - injection G2 as <- <-. auto. }
      injection G as G. pose proof (update_best_grows g3 w3) as U. rewrite G in U. eauto using grows_trans.
    Qed.
    Lemma log_grows g w g' w' : ga_log c E li g w = Ok (g', w') -> grows w w'.
    Proof.
      unfold ga_log, now. cbn [ga_iterations ga_best_iter set_next_log]. destruct (_ <? _); [discriminate|].
      intro G. repeat bind G. injection G as <- <-. apply grows_refl; auto.
    Qed.
    Lemma body_grows g w g' w' : body c E g w = Ok (g', w') -> grows w w'.
    Proof.
      unfold body. destruct (ga_st g).
      - unfold it_created. destruct (_ && _); [|intro G; injection G as <- <-; apply grows_refl; auto].
        intro G. bind G. bind G. destruct v0 as [g2 w2]. apply educate_grows in G1. unfold setup_elite_education in G.
        destruct (c_elite_education_time_based c).
        + unfold ts_new, now in G. bind G. destruct v0 as [s w3]. injection G as <- <-. apply rr_load_grows in G2.
          eapply grows_trans; [exact G1|exact G2].
        + bind G. destruct v0 as [s w3]. injection G as <- <-. apply rr_load_grows in G2. eapply grows_trans; [exact G1|exact G2].
      - unfold it_elite. destruct (negb _); intro G.
        + bind G. destruct v as [s w2]. injection G as <- <-. apply rr_loop_grows in G0. auto.
        + bind G. pose proof (update_best_grows (set_child (set_st g Initialization) v) w) as U.
          destruct (update_best _ _) as [g1 w1]. bind G. bind G. apply log_grows in G.
          unfold reset_penalty in G2. bind G2. injection G2 as <-. eapply grows_trans; [exact U|exact G].
      - unfold it_init, create_initial_individual. destruct (_ <? _); [|intro G; injection G as <- <-; apply grows_refl; auto].
        destruct (ind_random _ _ _ _) as [child r]. intro G. bind G. destruct v as [[ch g2] w2]. bind G. injection G as <- <-.
        bind G0. bind G0. destruct v1 as [g3 w3]. injection G0 as <- <- <-. apply educate_grows in G2. exact G2.
      - unfold it_cycle. intro G. bind G. destruct v as [one r1]. bind G. destruct v as [two r2]. bind G. destruct v as [child r3].
        bind G. bind G. destruct v0 as [g2 w2]. apply educate_grows in G4. bind G. bind G. destruct v1 as [g3 w3].
        assert (X : grows w2 w3).
        { apply grows_refl. destruct (_ <=? _); [|injection G6 as <- <-; auto]. unfold update_penalty in G6.
          bind G6. injection G6 as <- <-. auto. }
        bind G. destruct v1 as [g4 w4].
        assert (Y : grows w3 w4).
        { destruct (ga_next_log g3 <=? _); [apply log_grows in G7; auto|injection G7 as <- <-; apply grows_refl; auto]. }
        bind G. injection G as <- <-. eapply grows_trans; [exact G4|]. eapply grows_trans; eauto.
      - intro G. injection G as <- <-. apply grows_refl; auto.
    Qed.
    Lemma run_grows k : forall g w g' w', solver_run L p c E li md fuel k g w = Ok (g', w') -> grows w w'.
    Proof.
      induction k as [|k IH]; intros g w g' w'; cbn [solver_run]; (destruct (ga_terminated g); [intro G; injection G as <- <-; apply grows_refl; auto|]).
      - discriminate.
      - rewrite iterate_body. intro G. bind G. destruct v as [g1 w1]. apply body_grows in G0. apply IH in G. eapply grows_trans; [exact G0|exact G].
    Qed.
  End Grows.

  (** ** Whole runs *)
  Lemma terminated_body c E g w : body c E (set_st g Terminated) w = Ok (set_st g Terminated, w).
  Proof. reflexivity. Qed.

  (** More time: the history is continued. *)
  Theorem longer_run c t m E1 E2 : e_exp E1 = e_exp E2 -> timed_education p c = false ->
    (forall k, past (c_time_limit c) E1 k = false -> past t E2 k = false) ->
    (forall n, capped (c_max_iterations c) n = false -> capped m n = false) ->
    forall k1 k2 g w g1 w1 g2 w2, iter (ga_rr g) ->
      solver_run L p c E1 li md fuel k1 g w = Ok (g1, w1) ->
      solver_run L p (with_limits c t m) E2 li md fuel k2 g w = Ok (g2, w2) -> grows w1 w2.
  Proof.
    intros SE NT SL SM. induction k1 as [|k1 IH]; intros k2 g w g1 w1 g2 w2 I; cbn [solver_run].
    - destruct (ga_terminated g); [|discriminate]. intros G1 G2. injection G1 as <- <-. eapply run_grows; eauto.
    - destruct (ga_terminated g) eqn:GT.
      + intros G1 G2. injection G1 as <- <-. eapply run_grows; eauto.
      + rewrite iterate_body. destruct (stopped c E1 w) eqn:S1.
        * rewrite terminated_body. cbn [rbind]. intros G1 G2. apply run_grows in G2.
          assert (X : (set_st g Terminated, ticked w) = (g1, w1)) by (destruct k1; cbn in G1; congruence).
          injection X as <- <-. exact G2.
        * intros G1. bind G1. destruct v as [g3 w3].
          pose proof (body_same c E1 E2 SE NT g (ticked w) I) as B. rewrite G in B.
          destruct k2 as [|k2]; cbn [solver_run]; rewrite GT; [discriminate|]. rewrite iterate_body.
          assert (S2 : stopped (with_limits c t m) E2 w = false).
          { unfold stopped in *. apply orb_false_iff in S1 as [S1 S1']. cbn [with_limits c_time_limit c_max_iterations].
            rewrite (SL _ S1), (SM _ S1'). reflexivity. }
          rewrite S2, body_limit by auto. destruct (body c E2 g (ticked w)) as [[g4 w4]|]; [|destruct B].
          cbn [rel] in B. destruct B as [B I4]. injection B as <- <-. cbn [rbind fst] in *. intros G2. eauto.
  Qed.

  (** Neither run is stopped by the clock: they are the same. *)
  Theorem same_run c t E1 E2 : e_exp E1 = e_exp E2 -> timed_education p c = false ->
    (forall k, past (c_time_limit c) E1 k = false) -> (forall k, past t E2 k = false) ->
    forall k g w, iter (ga_rr g) ->
      solver_run L p c E1 li md fuel k g w = solver_run L p (with_limits c t (c_max_iterations c)) E2 li md fuel k g w.
  Proof.
    intros SE NT P1 P2. induction k as [|k IH]; intros g w I; cbn [solver_run]; destruct (ga_terminated g); auto.
    rewrite !iterate_body.
    assert (ES : stopped (with_limits c t (c_max_iterations c)) E2 w = stopped c E1 w).
    { unfold stopped. cbn [with_limits c_time_limit c_max_iterations]. rewrite P1, P2. reflexivity. }
    rewrite ES, body_limit by auto.
    assert (I' : iter (ga_rr (if stopped c E1 w then set_st g Terminated else g))) by (destruct (stopped c E1 w); auto).
    pose proof (body_same c E1 E2 SE NT _ (ticked w) I') as B.
    destruct (body c E1 _ _) as [[g1 w1]|], (body c E2 _ _) as [[g2 w2]|]; cbn [rel] in B; try contradiction.
    - destruct B as [B I1]. injection B as <- <-. cbn [rbind fst] in *. auto.
    - cbn [rbind]. congruence.
  Qed.

  (** Without ruin and recreate its state does not matter, nor does the exponential function. *)
  Theorem no_ruin_run c t E1 E2 : no_ruin p c = true ->
    (forall k, past (c_time_limit c) E1 k = past t E2 k) ->
    forall k g h w, like g h -> ga_st g <> EliteEducation ->
      rel R3 (solver_run L p c E1 li md fuel k g w) (solver_run L p (with_limits c t (c_max_iterations c)) E2 li md fuel k h w).
  Proof.
    intros NR PE. assert (NT : timed_education p c = false).
    { unfold timed_education. rewrite (no_education c NR). reflexivity. }
    induction k as [|k IH]; intros g h w LK NE; cbn [solver_run];
      (assert (ET : ga_terminated h = ga_terminated g) by (destruct LK as (st & ->); reflexivity)); rewrite ET;
      destruct (ga_terminated g); try (split; auto; fail).
    rewrite !iterate_body.
    assert (ES : stopped (with_limits c t (c_max_iterations c)) E2 w = stopped c E1 w).
    { unfold stopped. cbn [with_limits c_time_limit c_max_iterations]. rewrite PE. reflexivity. }
    rewrite ES, body_limit by auto.
    assert (LK' : like (if stopped c E1 w then set_st g Terminated else g) (if stopped c E1 w then set_st h Terminated else h)).
    { destruct (stopped c E1 w); auto. destruct LK as (st & ->). exists st. reflexivity. }
    assert (NE' : ga_st (if stopped c E1 w then set_st g Terminated else g) <> EliteEducation).
    { destruct (stopped c E1 w); auto. discriminate. }
    pose proof (body_like c E1 E2 NR _ _ (ticked w) LK' NE') as B. pose proof (fun g => body_usual c E1 NR g (ticked w)) as U.
    destruct (body c E1 _ _) as [[g1 w1]|] eqn:B1, (body c E2 _ _) as [[g2 w2]|]; cbn [rel] in B; try contradiction.
    - destruct B as [B I1]. cbn [fst snd] in B, I1. subst w2. cbn [rbind]. apply IH; auto. eapply U; eauto.
    - cbn [rbind rel]. congruence.
  Qed.
End Repro.
