(** Higher bounds on the loops change nothing but runs that were cut off. *)
From Coq Require Import List Arith NArith ZArith Bool Lia.
From Verif.Model Require Import Num Prelude Evaluate Individual Config Crossover Split Matrix Population
  LocalSearch World Schedule RuinRecreate Genetic Decomposition Main.
Import ListNotations.
Local Open Scope nat_scope.

(** Cut off, or the same result. *)
Definition upto {A} (m m' : res A) : Prop := m = Err EFuel \/ m' = m.
Lemma upto_refl {A} (m : res A) : upto m m.
Proof. now right. Qed.
Lemma upto_cut {A} (m : res A) : upto (Err EFuel) m.
Proof. now left. Qed.
Lemma upto_bind {A B} (m m' : res A) (f f' : A -> res B) : upto m m' -> (forall a, upto (f a) (f' a)) ->
  upto (rbind m f) (rbind m' f').
Proof. intros [-> | ->] H; [now left|]. destruct m as [a|e]; cbn; [apply H|now right]. Qed.

Section More.
  Context {N : Num}.

  Lemma draw_end_more n start k : forall k' r, k <= k' -> upto (draw_end k n start r) (draw_end k' n start r).
  Proof.
    induction k as [|k IH]; intros k' r H; [apply upto_cut|]. destruct k' as [|k']; [lia|]. cbn [draw_end].
    apply upto_bind; [apply upto_refl|]. intros [e r1]. destruct (start =? e); [apply IH; lia|apply upto_refl].
  Qed.
  Lemma crossover_more k k' g1 g2 r : k <= k' -> upto (crossover k g1 g2 r) (crossover k' g1 g2 r).
  Proof.
    intros H. unfold crossover. apply upto_bind; [apply upto_refl|]. intros [s r1].
    apply upto_bind; [now apply draw_end_more|]. intros [e r2]. apply upto_refl.
  Qed.

  Lemma search_more p c pen k : forall k' lc s r, k <= k' -> upto (search p c pen k lc s r) (search p c pen k' lc s r).
  Proof.
    induction k as [|k IH]; intros k' lc s r H; [apply upto_cut|]. destruct k' as [|k']; [lia|]. cbn [search].
    apply upto_bind; [apply upto_refl|]. intros [[[s1 imp] lc1] r1]. destruct imp; [apply IH; lia|apply upto_refl].
  Qed.
  Lemma ls_run_more p c pen k k' epen s i r : k <= k' -> upto (ls_run p c pen k epen s i r) (ls_run p c pen k' epen s i r).
  Proof.
    intros H. unfold ls_run. apply upto_bind; [apply upto_refl|]. intros s1. apply upto_bind; [now apply search_more|].
    intros [s2 r2]. apply upto_refl.
  Qed.
  Lemma rr_until_more p c E k : forall k' corr st w, k <= k' -> upto (rr_until p c E k corr st w) (rr_until p c E k' corr st w).
  Proof.
    induction k as [|k IH]; intros k' corr st w H; destruct k' as [|k']; try lia; cbn [rr_until]; destruct (rr_complete st);
      try apply upto_refl; try apply upto_cut.
    apply upto_bind; [apply upto_refl|]. intros [st1 w1]. apply IH. lia.
  Qed.

  Variable L : lib.
  Variable E : env.
  Variable log_interval : nat.
  Variable fuel fuel' : nat.
  Hypothesis HF : fuel <= fuel'.

  Section Ga.
    Variable p : problem.
    Variable c : config.
    Variable max_distance : option F.

    Lemma run_ls_more m g w : upto (run_ls p c fuel m g w) (run_ls p c fuel' m g w).
    Proof. unfold run_ls. apply upto_bind; [now apply ls_run_more|]. intros [[s i] r]. apply upto_refl. Qed.
    Lemma run_rr_more g w : upto (run_rr p c E fuel g w) (run_rr p c E fuel' g w).
    Proof.
      unfold run_rr. apply upto_bind; [apply upto_refl|]. intros [st w1].
      apply upto_bind; [now apply rr_until_more|]. intros [st2 w2]. apply upto_refl.
    Qed.
    Lemma repair_more g w : upto (repair L p c fuel g w) (repair L p c fuel' g w).
    Proof.
      unfold repair. apply upto_bind; [destruct (c_ls_enabled c); [apply run_ls_more|apply upto_refl]|].
      intros [g1 w1]. apply upto_refl.
    Qed.
    Lemma educate_more g w : upto (educate L p c E fuel g w) (educate L p c E fuel' g w).
    Proof.
      unfold educate. apply upto_bind; [destruct (c_ls_enabled c); [apply run_ls_more|apply upto_refl]|].
      intros [g1 w1]. destruct (real p (w_rng w1)) as [rnd r].
      apply upto_bind; [destruct (_ && _); [apply run_rr_more|apply upto_refl]|]. intros [g2 w2].
      apply upto_bind; [|intros [g3 w3]; apply upto_refl]. destruct (negb _); [|apply upto_refl].
      destruct (real p (w_rng w2)) as [x r2]. destruct (_ <:? _)%num; [apply repair_more|apply upto_refl].
    Qed.
    Lemma iterate_more g w : upto (ga_iterate L p c E log_interval max_distance fuel g w) (ga_iterate L p c E log_interval max_distance fuel' g w).
    Proof.
      unfold ga_iterate. destruct (terminate c E w) as [stop w1]. set (g1 := if stop then _ else _). clearbody g1. destruct (ga_st g1).
      - unfold it_created. destruct (_ && _); [|apply upto_refl]. apply upto_bind; [apply upto_refl|]. intros g2.
        apply upto_bind; [apply educate_more|]. intros [g3 w3]. apply upto_refl.
      - apply upto_refl.
      - unfold it_init. destruct (_ <? _); [|apply upto_refl]. apply upto_bind; [|intros [[i g2] w2]; apply upto_refl].
        unfold create_initial_individual. destruct (ind_random _ _ _ _) as [i r]. apply upto_bind; [apply upto_refl|]. intros g2.
        apply upto_bind; [apply educate_more|]. intros [g3 w3]. apply upto_refl.
      - unfold it_cycle. apply upto_bind; [apply upto_refl|]. intros [one r1]. apply upto_bind; [apply upto_refl|]. intros [two r2].
        apply upto_bind.
        { unfold make_child. apply upto_bind; [now apply crossover_more|]. intros [geno r3]. apply upto_refl. }
        intros [child r3]. apply upto_bind; [apply upto_refl|]. intros g2. apply upto_bind; [apply educate_more|]. intros [g3 w3]. apply upto_refl.
      - apply upto_refl.
    Qed.
    Lemma solver_run_more k : forall k' g w, k <= k' ->
      upto (solver_run L p c E log_interval max_distance fuel k g w) (solver_run L p c E log_interval max_distance fuel' k' g w).
    Proof.
      induction k as [|k IH]; intros k' g w H; destruct k' as [|k']; try lia; cbn [solver_run]; destruct (ga_terminated g);
        try apply upto_refl; try apply upto_cut.
      apply upto_bind; [apply iterate_more|]. intros [g1 w1]. apply IH. lia.
    Qed.
  End Ga.

  Section Dga.
    Variable p : problem.
    Variable c : config.
    Variable sqrt_ round_ : F -> F.
    Variable lsort : list (nat * F) -> list (nat * F).
    Variable dm : dmatrix.
    Variable min_size : nat.
    Variable hashes : nat -> rng * rng * rng.

    Lemma improve_more k : forall k' g w, k <= k' -> upto (improve_global p c E fuel k g w) (improve_global p c E fuel' k' g w).
    Proof.
      induction k as [|k IH]; intros k' g w H; [apply upto_cut|]. destruct k' as [|k']; [lia|]. cbn [improve_global].
      destruct (rr_reset E (ga_rr g) w) as [st w1]. apply upto_bind; [now apply rr_until_more|]. intros [st2 w2].
      apply upto_bind; [apply upto_refl|]. intros i. destruct (oapprox_gte _ _); [apply upto_refl|]. apply IH. lia.
    Qed.
    Lemma create_more g w : upto (create_global_solution L p c E fuel g w) (create_global_solution L p c E fuel' g w).
    Proof.
      unfold create_global_solution. destruct (ind_random _ _ _ _) as [i r]. cbv zeta. apply upto_bind; [apply upto_refl|]. intros g1.
      apply upto_bind; [apply educate_more|]. intros [g2 w2]. apply upto_bind; [apply upto_refl|]. intros [st w3].
      apply upto_bind; [now apply improve_more|]. intros [g4 w4]. apply upto_refl.
    Qed.
    Lemma cycle_more d w : upto (decompose_cycle L p c E log_interval fuel sqrt_ round_ lsort dm min_size hashes d w)
      (decompose_cycle L p c E log_interval fuel' sqrt_ round_ lsort dm min_size hashes d w).
    Proof.
      unfold decompose_cycle. destruct (hashes (d_round d)) as [[h1 h2] h3]. apply upto_bind; [apply upto_refl|].
      intros [[[[sub mapping] rest] mats] w1]. apply upto_bind.
      { unfold decomposition_run. destruct (ga_new _ _ _ _ _ _) as [g w2]. apply upto_bind; [apply upto_refl|]. intros [g3 w3].
        apply upto_bind; [now apply solver_run_more|]. intros [g4 w4]. apply upto_refl. }
      intros [best clock]. apply upto_bind; [apply upto_refl|]. intros global. destruct (update_best _ _) as [g w2].
      destruct (rr_reset E (ga_rr g) w2) as [st w3]. apply upto_bind; [apply upto_refl|]. intros [st2 w4].
      apply upto_bind; [now apply rr_until_more|]. intros [st3 w5]. apply upto_refl.
    Qed.
    Lemma dga_iterate_more d w : upto (dga_iterate L p c E log_interval fuel sqrt_ round_ lsort dm min_size hashes d w)
      (dga_iterate L p c E log_interval fuel' sqrt_ round_ lsort dm min_size hashes d w).
    Proof.
      unfold dga_iterate. destruct (terminate c E w) as [stop w1]. set (d1 := if stop then _ else _). clearbody d1. destruct (d_st d1).
      - apply upto_bind; [apply create_more|]. intros [[i g] w2]. apply upto_refl.
      - apply cycle_more.
      - apply upto_refl.
    Qed.
    Lemma dga_run_more k : forall k' d w, k <= k' ->
      upto (dga_run L p c E log_interval fuel sqrt_ round_ lsort dm min_size hashes k d w)
           (dga_run L p c E log_interval fuel' sqrt_ round_ lsort dm min_size hashes k' d w).
    Proof.
      induction k as [|k IH]; intros k' d w H; destruct k' as [|k']; try lia; cbn [dga_run]; destruct (dga_terminated d);
        try apply upto_refl; try apply upto_cut.
      apply upto_bind; [apply dga_iterate_more|]. intros [d1 w1]. apply IH. lia.
    Qed.
  End Dga.
End More.
