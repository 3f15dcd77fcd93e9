(** The clock and the iteration counter in the decomposed mode. *)
From Coq Require Import List Arith NArith ZArith Bool Lia.
From Verif.Model Require Import Num Prelude Evaluate Individual Config Crossover Split Matrix Population
  LocalSearch World Schedule RuinRecreate Genetic Decomposition.
From Verif.Spec Require Import Genetic Decomposition.
From Verif.Proofs Require Import GaClock.
Import ListNotations.
Local Open Scope nat_scope.

Section Clock.
  Context {N : Num}.
  Variable L : lib.
  Variable p : problem.
  Variable c : config.
  Variable E : env.
  Variable log_interval : nat.
  Variable fuel : nat.
  Variable sqrt_ round_ : F -> F.
  Variable lsort : list (nat * F) -> list (nat * F).
  Variable dm : dmatrix.
  Variable min_size : nat.
  Variable hashes : nat -> rng * rng * rng.

  Ltac bind G := match type of G with
    | rbind ?m _ = Ok _ => let x := fresh "v" in let e := fresh "er" in let H := fresh "G" in
        destruct m as [x|e] eqn:H; [cbn [rbind] in G|discriminate G]
    end.

  Lemma rr_reset_later st w st' w' : rr_reset E st w = (st', w') -> later w w'.
  Proof.
    unfold rr_reset. destruct (acc_reset E (rr_acc st) w) as [a w1] eqn:EA. intro G. injection G as _ <-. eapply acc_reset_later; eauto.
  Qed.

  Lemma improve_later k : forall g w g' w', improve_global p c E fuel k g w = Ok (g', w') -> later w w'.
  Proof.
    induction k as [|k IH]; intros g w g' w'; cbn [improve_global]; [discriminate|].
    destruct (rr_reset E (ga_rr g) w) as [s1 w1] eqn:ER. apply rr_reset_later in ER. intro G. bind G. destruct v as [s2 w2].
    apply rr_until_later in G0. bind G. destruct (oapprox_gte _ _).
    - injection G as _ <-. eauto using later_trans.
    - apply IH in G. eauto using later_trans.
  Qed.

  Lemma create_later g w i g' w' : create_global_solution L p c E fuel g w = Ok (i, g', w') -> later w w'.
  Proof.
    unfold create_global_solution. destruct (ind_random _ _ _ _) as [ch r]. intro G. bind G. bind G. destruct v0 as [g1 w1].
    apply educate_later in G1 as [A _]. bind G. destruct v0 as [s2 w2]. apply rr_load_later in G1. bind G. destruct v0 as [g3 w3].
    apply improve_later in G2. bind G. injection G as _ _ <-. destruct A as [A1 A2], G1 as [B1 B2], G2 as [C1 C2].
    split; cbn in *; [lia|congruence].
  Qed.

  Lemma solver_later sp sc md k : forall g w g' w', solver_run L sp sc E log_interval md fuel k g w = Ok (g', w') -> w_clock w <= w_clock w'.
  Proof.
    induction k as [|k IH]; intros g w g' w'; cbn [solver_run]; destruct (ga_terminated g);
      try (intro G; injection G as _ <-; lia); [discriminate|].
    intro G. bind G. destruct v as [g1 w1]. apply iterate_later in G0. apply IH in G. lia.
  Qed.

  Lemma run_later sub mapping mats lh rh w best clock :
    decomposition_run L p c E log_interval fuel sub mapping mats lh rh w = Ok (best, clock) -> w_clock w <= clock.
  Proof.
    unfold decomposition_run. destruct (ga_new _ _ _ _ _ w) as [g0 w0] eqn:EN.
    assert (W0 : w_clock w0 = w_clock w).
    { unfold ga_new in EN. destruct (ind_random _ _ _ _). injection EN as _ <-. reflexivity. }
    intro G. bind G. destruct v as [g1 w1]. bind G. destruct v as [g2 w2]. apply solver_later in G1.
    unfold add_initial in G0. bind G0. injection G0 as G0. apply update_best_later in G0 as [[A _] _].
    destruct (ga_best_sol g2); [|discriminate G]. injection G as _ <-. lia.
  Qed.

  Lemma cycle_later d w d' w' : decompose_cycle L p c E log_interval fuel sqrt_ round_ lsort dm min_size hashes d w = Ok (d', w') ->
    later w w' /\ d_st d' = DCycle.
  Proof.
    unfold decompose_cycle. destruct (hashes (d_round d)) as [[h1 h2] h3]. intro G. bind G. destruct v as [[[[sub mapping] rest] mats] w1].
    assert (W1 : w_clock w1 = w_clock w /\ w_iter w1 = w_iter w).
    { unfold decomposition_new in G0. bind G0. destruct v as [[[? ?] ?] ?]. repeat bind G0. injection G0 as _ _ _ _ <-. auto. }
    bind G. destruct v as [best clock]. apply run_later in G1. cbn [w_clock sub_world] in G1. bind G.
    destruct (update_best _ _) as [g3 w3] eqn:EU. apply update_best_later in EU as [U _].
    destruct (rr_reset E (ga_rr g3) w3) as [s4 w4] eqn:ER. apply rr_reset_later in ER.
    bind G. destruct v0 as [s5 w5]. apply rr_load_later in G3. bind G. destruct v0 as [s6 w6]. apply rr_until_later in G4. bind G.
    destruct (update_best _ w6) as [g7 w7] eqn:EU2. apply update_best_later in EU2 as [U2 _]. injection G as <- <-.
    split; [|reflexivity]. pose proof (later_trans _ _ _ U (later_trans _ _ _ ER (later_trans _ _ _ G3 (later_trans _ _ _ G4 U2)))) as [X1 X2].
    cbn in X1, X2. destruct W1. split; [lia|congruence].
  Qed.

  Lemma dga_iterate_later d w d' w' : dga_iterate L p c E log_interval fuel sqrt_ round_ lsort dm min_size hashes d w = Ok (d', w') ->
    w_clock w < w_clock w' /\ w_iter w' = w_iter w.
  Proof.
    unfold dga_iterate. destruct (terminate c E w) as [stop w1] eqn:ET. unfold terminate, now in ET. injection ET as <- <-. cbn [w_iter].
    match goal with |- context [if ?b then mkDGA DTerminated ?x ?y ?z else d] => set (d1 := if b then mkDGA DTerminated x y z else d) end.
    destruct (d_st d1); intro G.
    - bind G. destruct v as [[i g] w2]. apply create_later in G0 as [A B]. injection G as _ <-. cbn in A, B. split; [lia|exact B].
    - apply cycle_later in G as [[A B] _]. cbn in A, B. split; [lia|exact B].
    - injection G as _ <-. cbn. split; [lia|reflexivity].
  Qed.
End Clock.
