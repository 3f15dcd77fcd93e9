(** The genetic algorithm: what is recorded, for every arithmetic and in exact arithmetic. *)
From Coq Require Import List Arith NArith ZArith QArith Qround Bool Lia Lqa Permutation.
From Verif.Model Require Import Num Prelude Evaluate Individual Config Crossover Split Matrix Population
  LocalSearch World Schedule RuinRecreate Genetic.
From Verif.Spec Require Import Solution Split Library Population LocalSearch RuinRecreate Genetic.
From Verif.Proofs Require Import Lists QNum EvalFacts EvalThms SplitStruct SplitPart SplitThms PopFacts PopQ PopMain
  LsRunQ RrRun RrRecreate RrQ RrMachine GaInv.
Import ListNotations.
Open Scope nat_scope.

(** ** The history *)
Section History.
  Context {N : Num}.

  Lemma remove_previous_snoc (l : list entry) e : remove_previous_data (l ++ [e]) = l ++ [mkEntry [] (he_cost e)].
  Proof.
    induction l as [|a l IH]; [reflexivity|]. cbn [app]. cbn [remove_previous_data].
    destruct (l ++ [e]) as [|x y] eqn:X; [now destruct l|]. now rewrite IH.
  Qed.
  Lemma remove_previous_cost (l : list entry) : map he_cost (remove_previous_data l) = map he_cost l.
  Proof.
    destruct l as [|x l] using rev_ind; [reflexivity|]. rewrite remove_previous_snoc, !map_app. reflexivity.
  Qed.

  (** Only the last entry keeps its routes. *)
  Lemma recorded_entries is : forall i, h_entries (fold_left hist_add (is ++ [i]) hist_new) =
    map (fun j => mkEntry [] (penalized_cost j)) is ++ [mkEntry (i_pheno i) (penalized_cost i)].
  Proof.
    induction is as [|j is IH] using rev_ind; intros i; [reflexivity|].
    rewrite fold_left_app. cbn [fold_left]. unfold hist_add at 1. cbn [h_entries]. rewrite IH, remove_previous_snoc.
    rewrite map_app. cbn [map he_cost]. now rewrite <- app_assoc.
  Qed.
  Lemma recorded_best is : forall i h, h_best (fold_left hist_add (is ++ [i]) h) = penalized_cost i.
  Proof. intros. rewrite fold_left_app. reflexivity. Qed.

  Lemma reported_last is e : reported (fold_left hist_add is hist_new) e ->
    exists l i, is = l ++ [i] /\ e = mkEntry (i_pheno i) (penalized_cost i).
  Proof.
    intros (l & H). destruct is as [|i is] using rev_ind.
    - cbn in H. destruct l; discriminate.
    - clear IHis. rewrite recorded_entries in H. apply app_inj_tail in H as [_ <-]. eauto.
  Qed.
End History.

Lemma inv_other {N : Num} L p c good allowed usual (H1 H2 : option individual -> history -> Prop) level short top g w :
  inv L p c good usual allowed H1 level short top g w -> H2 (ga_best_sol g) (w_hist w) -> inv L p c good usual allowed H2 level short top g w.
Proof.
  intros [[A1 A2 A3 A4 A5 A6 A7 A8 A9 A10] B C D E] G. constructor; auto. constructor; auto.
Qed.

(** ** Every arithmetic *)
Section Any.
  Context {N : Num}.
  Variable L : lib.
  Hypothesis LOK : lib_ok L.
  Variable p : problem.
  Variable c : config.
  Variable E : env.
  Variable log_interval : nat.
  Variable max_distance : option F.
  Variable fuel : nat.
  Notation reached := (ga_reached L p c E log_interval max_distance fuel).
  Hypothesis OK : run_ok p c max_distance.

  Definition any (ro : rroute) : Prop := True.
  Definition anyF (x : F) : Prop := True.

  Lemma split_fits_any : split_fits p c (run_penalty max_distance).
  Proof.
    unfold split_fits. pose proof (go_split _ _ _ OK) as S. destruct (c_linear_split c); [|exact S].
    intros pen g U P i Hi. apply (S pen g i U P). rewrite (Permutation_length P), seq_length. exact Hi.
  Qed.

  Section H.
    Variable H : option individual -> history -> Prop.
    Hypothesis H_ga : forall pen b h i, H b h -> evaluated p pen i -> is_feasible i = true ->
      oapprox_lt (penalized_cost i) (h_best h) = true -> H (Some i) (hist_add h i).
    Hypothesis H_rr : rr_used c -> forall pen b h cand h', H b h -> sound p c any cand -> priced pen cand ->
      rr_recorded p c pen h cand h' -> H b h'.

    Notation inva H := (inv L p c any (run_penalty max_distance) anyF H (fun _ => anyF) True 0).

    Lemma any_inv w0 g w : run_penalty max_distance (w_pen w0) -> H None (w_hist w0) -> reached w0 g w ->
      inva H g w /\ w_iter w = w_iter w0 + ga_iterations g.
    Proof.
      intros. destruct OK as [O1 O2 O3 [O4 O5] O6 O7].
      eapply (reached_inv L LOK p c E log_interval max_distance fuel any) with (w0 := w0)
        (used := rr_used c) (upd := True) (level := fun _ => anyF) (lively := fun _ => True);
        try assumption; try (intros; exact I); try (intros; split; exact I); try (left; exact I).
      - intros d. left. eauto.
      - intros x. right. eauto.
      - exact split_fits_any.
      - intros; eapply H_ga; eauto.
      - now left.
      - now right.
      - intros; eapply H_rr; eauto.
    Qed.

    Lemma any_step g w : inva H g w -> safe p c any anyF True (ga_iterate L p c E log_interval max_distance fuel g w)
      (fun gw => inva H (fst gw) (snd gw) /\ counted g w (fst gw) (snd gw)).
    Proof.
      intros. destruct OK as [O1 O2 O3 [O4 O5] O6 O7].
      eapply safe_weaken.
      - eapply (iterate_safe L LOK p c E log_interval max_distance fuel any) with (used := rr_used c) (upd := True) (level := fun _ => anyF) (lively := fun _ => True);
        try eassumption; try (intros; exact I); try (intros; split; exact I); try (left; exact I).
        + intros d. left. eauto.
        + intros x. right. eauto.
        + exact split_fits_any.
        + intros; eapply H_ga; eauto.
        + now left.
        + now right.
        + intros; eapply H_rr; eauto.
      - intros a (A & B & _). auto.
    Qed.
  End H.

  (** Every recorded solution is complete. *)
  Definition complete_records (b : option individual) (h : history) : Prop :=
    exists is, recorded hist_new is h /\ Forall (fun i => serves_all_once (p_dim p) (i_pheno i)) is.

  Lemma rr_read_serves pen cand i0 i : sound p c any cand -> rr_read p c pen cand i0 i ->
    serves_all_once (p_dim p) (i_pheno i).
  Proof.
    intros [S _] (P1 & _). unfold serves_all_once. rewrite (concat_perm _ _ P1). apply (ss_serves _ _ _ S).
  Qed.

  Lemma records_complete w0 g w : set_up p max_distance w0 -> reached w0 g w -> complete_records None (w_hist w).
  Proof.
    intros ((d & _ & HP) & HH & _) R.
    assert (X : inv L p c any (run_penalty max_distance) anyF complete_records (fun _ => anyF) True 0 g w).
    { eapply any_inv with (w0 := w0); auto.
      - intros pen b h i (is & RE & FA) (S & _) _ _. exists (is ++ [i]). split.
        + unfold recorded in *. rewrite fold_left_app. cbn. now rewrite <- RE.
        + apply Forall_app; auto.
      - intros _ pen b h cand h' (is & RE & FA) SO _ (_ & _ & i0 & i & _ & RD & ->). exists (is ++ [i]). split.
        + unfold recorded in *. rewrite fold_left_app. cbn. now rewrite <- RE.
        + apply Forall_app; split; auto. constructor; auto. eapply rr_read_serves; eauto.
      - left. eauto.
      - rewrite HH. exists []. split; [reflexivity|constructor]. }
    apply (gb_hist _ _ _ _ _ _ _ _ (in_base _ _ _ _ _ _ _ _ _ _ _ _ X)).
  Qed.

  Lemma best_iter_le w0 g w : set_up p max_distance w0 -> reached w0 g w -> ga_best_iter g <= ga_iterations g.
  Proof.
    intros ((d & _ & HP) & HH & _) R.
    assert (X : inv L p c any (run_penalty max_distance) anyF (fun _ _ => True) (fun _ => anyF) True 0 g w).
    { eapply any_inv with (w0 := w0); auto. left. eauto. }
    exact (gb_iter _ _ _ _ _ _ _ _ (in_base _ _ _ _ _ _ _ _ _ _ _ _ X)).
  Qed.

  (** A call of [iterate] only adds to the history. *)
  Lemma records_grow w0 g w g' w' : set_up p max_distance w0 -> reached w0 g w ->
    ga_iterate L p c E log_interval max_distance fuel g w = Ok (g', w') ->
    exists is, recorded (w_hist w) is (w_hist w').
  Proof.
    intros ((d & _ & HP) & HH & _) R G.
    set (H2 := fun (_ : option individual) h => exists is, recorded (w_hist w) is h).
    assert (X : inv L p c any (run_penalty max_distance) anyF (fun _ _ => True) (fun _ => anyF) True 0 g w).
    { eapply any_inv with (w0 := w0); auto. left. eauto. }
    apply (inv_other _ _ _ _ _ _ _ H2 _ _) in X; [|exists []; reflexivity].
    assert (H2a : forall b h i, H2 b h -> H2 b (hist_add h i)).
    { intros b h i (is & RE). exists (is ++ [i]). unfold recorded in *. rewrite fold_left_app. cbn. now rewrite <- RE. }
    apply any_step in X.
    - rewrite G in X. destruct X as [X _]. apply (gb_hist _ _ _ _ _ _ _ _ (in_base _ _ _ _ _ _ _ _ _ _ _ _ X)).
    - intros. now apply (H2a (Some i)).
    - intros _ pen b h cand h' ? _ _ (_ & _ & i0 & i & _ & _ & ->). now apply (H2a b).
  Qed.
End Any.

(** ** Exact arithmetic *)
Section Exact.
  Variable L : lib.
  Hypothesis LOK : lib_ok L.
  Variable p : @problem NumQ.
  Variable c : @config NumQ.
  Variable E : @env NumQ.
  Variable log_interval : nat.
  Variable max_distance : option (@F NumQ).
  Variable fuel : nat.
  Notation reached := (@ga_reached NumQ L p c E log_interval max_distance fuel).
  Hypothesis OK : instance_ok p c.
  Local Open Scope Q_scope.
  Notation TP := (total_penalized (p_dist p) (p_demand p) (p_cap p)).

  Definition usualQ (x : @F NumQ) : Prop := (1 # 10000 <= x)%Q /\ (x <= inject_Z (10 ^ 7))%Q.
  Definition allowedQ (x : @F NumQ) : Prop := (0 <= x)%Q /\ (c_elite_education c = false -> x <= inject_Z (10 ^ 7))%Q.

  Lemma usual_initialQ md d : usualQ (@initial_penalty NumQ md d).
  Proof.
    unfold usualQ, initial_penalty. change (inject_Z (10 ^ 7)) with (10000000 # 1). destruct md as [md|], d as [d|]; numq; try lra.
    set (z := Qdiv md d). clearbody z.
    destruct (Qminb_spec (10000 # 1) z) as [[? ->]|[? ->]];
    match goal with |- context [Qmaxb ?a ?b] => destruct (Qmaxb_spec a b) as [[? ->]|[? ->]] end; lra.
  Qed.
  Lemma usual_clampQ x : usualQ (@clamp_penalty NumQ x).
  Proof.
    unfold usualQ, clamp_penalty. change (inject_Z (10 ^ 7)) with (10000000 # 1). numq.
    destruct (Qminb_spec (10000000 # 1) x) as [[? ->]|[? ->]];
    match goal with |- context [Qmaxb ?a ?b] => destruct (Qmaxb_spec a b) as [[? ->]|[? ->]] end; lra.
  Qed.
  Lemma usual_allowedQ x : usualQ x -> allowedQ x.
  Proof. intros [? ?]. split; [lra|auto]. Qed.

  Lemma walk_bound (top : Q) l : (forall a b, In a l -> In b l -> p_dist p a b <= top)%Q ->
    (walk_length (p_dist p) l <= top * inject_Z (Z.of_nat (length l - 1)))%Q.
  Proof.
    induction l as [|a l IH]; intros HT.
    - change (walk_length (p_dist p) []) with 0. change (inject_Z (Z.of_nat (length (@nil nat) - 1))) with 0. lra.
    - destruct l as [|b l].
      + change (walk_length (p_dist p) [a]) with 0. change (inject_Z (Z.of_nat (length [a] - 1))) with 0. lra.
      + change (walk_length (p_dist p) (a :: b :: l)) with (p_dist p a b + walk_length (p_dist p) (b :: l)).
        assert (walk_length (p_dist p) (b :: l) <= top * inject_Z (Z.of_nat (length (b :: l) - 1)))
          by (apply IH; intros; apply HT; now right).
        assert (p_dist p a b <= top) by (apply HT; [now left|right; now left]).
        replace (Z.of_nat (length (a :: b :: l) - 1)) with (Z.of_nat (length (b :: l) - 1) + 1)%Z by (cbn [length]; lia).
        rewrite inject_Z_plus. change (inject_Z 1) with 1. lra.
  Qed.

  Lemma load_perm (dem : nat -> Q) l l' : Permutation l l' -> route_load dem l == route_load dem l'.
  Proof. unfold route_load. induction 1; cbn [map Qsum]; lra. Qed.
  Lemma load_nonneg (dem : nat -> Q) l : (forall a, In a l -> 0 <= dem a) -> 0 <= route_load dem l.
  Proof.
    unfold route_load. induction l as [|a l IH]; intros HD; cbn [map Qsum]; [lra|].
    assert (0 <= dem a) by (apply HD; now left). assert (0 <= Qsum (map dem l)) by (apply IH; intros; apply HD; now right). lra.
  Qed.

  (** Every cost under penalties up to [top_pen] stays below the 1e30 of the split. *)
  Definition small_costs (top_pen : Q) : Prop :=
    exists top : Q, (forall a b, (a < p_dim p)%nat -> (b < p_dim p)%nat -> p_dist p a b <= top) /\
    top * inject_Z (Z.of_nat (p_dim p)) + top_pen * route_load (p_demand p) (seq 1 (p_dim p - 1)) < inject_Z (10 ^ 30).

  Lemma small_split_at top_pen pen g : small_costs top_pen -> 0 <= pen <= top_pen -> Permutation g (seq 1 (p_dim p - 1)) ->
    split_data (p_dim p) (p_dist p) (p_demand p) (p_cap p) pen g.
  Proof.
    intros (top & O8 & O9) [U1 U2] P. destruct OK as [O1 O2 O3 O4 O5 O6 O7 _ O10 O11 O12]. constructor; auto; try lra; try lia.
    assert (B : forall a, In a (0%nat :: g ++ [0%nat]) -> (a < p_dim p)%nat).
    { intros a [<-|Ha]; [lia|]. apply in_app_or in Ha as [Ha|[<-|[]]]; [|lia].
      eapply Permutation_in in Ha; [|exact P]. apply in_seq in Ha. lia. }
    pose proof (walk_bound top (0%nat :: g ++ [0%nat]) (fun a b Ha Hb => O8 a b (B a Ha) (B b Hb))) as W.
    replace (length (0%nat :: g ++ [0%nat]) - 1)%nat with (p_dim p) in W
      by (cbn [length]; rewrite app_length, (Permutation_length P), seq_length; cbn; lia).
    fold (route_length (p_dist p) g) in W.
    rewrite (load_perm _ _ _ P).
    assert (0 <= route_load (p_demand p) (seq 1 (p_dim p - 1))).
    { apply load_nonneg. intros a Ha. apply in_seq in Ha. apply O4. lia. }
    assert (pen * route_load (p_demand p) (seq 1 (p_dim p - 1)) <=
            top_pen * route_load (p_demand p) (seq 1 (p_dim p - 1))) by (apply Qmult_le_compat_r; auto).
    set (A := inject_Z (10 ^ 30)) in *. clearbody A. lra.
  Qed.

  Lemma small_split pen g : usualQ pen -> Permutation g (seq 1 (p_dim p - 1)) ->
    split_data (p_dim p) (p_dist p) (p_demand p) (p_cap p) pen g.
  Proof.
    intros [U1 U2]. apply (small_split_at (inject_Z (10 ^ 7))); [exact (io_small _ _ OK)|]. split; [lra|exact U2].
  Qed.

  Lemma split_fitsQ : split_fits p c usualQ.
  Proof.
    unfold split_fits. destruct (c_linear_split c); [|vm_compute; reflexivity].
    intros pen g U P. apply big_enough_Q. now apply small_split.
  Qed.

  Lemma instance_run_ok : run_ok p c max_distance.
  Proof.
    pose proof OK as [O1 O2 O3 O4 O5 O6 O7 O8 O9 O10 O11]. constructor; auto.
    - now apply below_Q.
    - pose proof split_fitsQ as S. unfold split_fits in S. destruct (c_linear_split c); [|exact S].
      intros pen g i U P Hi. apply S; auto.
      + destruct U as [[d ->]|[x ->]]; [apply usual_initialQ|apply usual_clampQ].
      + now rewrite (Permutation_length P), seq_length in Hi.
  Qed.

  Lemma fineQ good allowed : sizes c -> fine p c good allowed.
  Proof.
    intros SZ. constructor; auto.
    - intros a b _. apply ratios_Q.
    - apply anglesQ.
    - apply keysQ.
    - intros. apply roomQ.
    - intros pa pb a b _ _ Ha Hb. pose proof (io_dim _ _ OK).
      apply (comparable_Q p); apply finished_settled; [lia| |lia|]; eapply evaluated_finished; eauto; try lia; apply OK.
  Qed.

  Section H.
    Variable H : option (@individual NumQ) -> @history NumQ -> Prop.
    Hypothesis H_ga : forall pen b h i, allowedQ pen -> H b h -> evaluated p pen i -> is_feasible i = true ->
      oapprox_lt (penalized_cost i) (h_best h) = true -> H (Some i) (hist_add h i).
    Hypothesis H_rr : rr_used c -> forall pen b h cand h', allowedQ pen -> H b h -> sound p c (exact_route p) cand -> priced pen cand ->
      rr_recorded p c pen h cand h' -> H b h'.
    Notation invQ H := (inv L p c (exact_route p) usualQ allowedQ H (fun _ => allowedQ)).

    Lemma elite_allowedQ : c_elite_education c = true -> forall x, allowedQ x ->
      allowedQ (fmul x (c_penalty_dec_multiplier c)) /\ allowedQ (fmul x (c_penalty_inc_multiplier c)).
    Proof.
      intros EL x [U _]. destruct (io_mult _ _ OK) as [M1 M2]. split; (split; [|congruence]).
      - apply Qmult_le_0_compat; assumption.
      - apply Qmult_le_0_compat; assumption.
    Qed.

    (** With bounds on the loops: [short] says that one of them is too short. *)
    Section Bounds.
      Variable short : Prop.
      Variable rr_top : nat.
      Variable lively : (nat -> N) -> Prop.
      Hypothesis quick_mutation : short \/ (fround (c_rr_gamma c *: fnat (p_dim p - 1)%nat)%num <= rr_top)%nat.
      Hypothesis short_rr : (fuel < rr_top)%nat -> short.
      Hypothesis short_ls : forall mult g w pen0, base L p c (exact_route p) allowedQ H g w -> usualQ (w_pen w) ->
        mult = f1 \/ mult = flit 10 1 -> child_at p c pen0 (ga_child g) -> fine p c (exact_route p) allowedQ -> run_ls p c fuel mult g w = Err EFuel -> short.
      Hypothesis short_draw : forall (g : @ga NumQ) one two r, finished p one -> finished p two -> lively (rdraw r) ->
        make_child fuel g one two r = Err EFuel -> short.

      Lemma bounded_inv w0 g w : usualQ (w_pen w0) -> H None (w_hist w0) ->
        (forall g w, reached w0 g w -> lively (rdraw (w_rng w))) -> reached w0 g w ->
        invQ H short rr_top g w /\ w_iter w = (w_iter w0 + ga_iterations g)%nat.
      Proof.
        intros. pose proof OK as [O1 [O2 O2'] O3 O4 O5 O6 O7 O8 O9 O10 O11].
        eapply (reached_inv L LOK p c E log_interval max_distance fuel (exact_route p)) with (w0 := w0)
          (used := rr_used c) (upd := c_elite_education c = true) (level := fun _ => allowedQ) (lively := lively); try assumption.
        - intros; eapply exact_remove; eauto.
        - intros; eapply exact_add; eauto.
        - apply exact_eval.
        - now apply below_Q.
        - exact zero_not_lt_Q.
        - intros d. apply usual_initialQ.
        - intros x. apply usual_clampQ.
        - exact usual_allowedQ.
        - exact split_fitsQ.
        - now left.
        - now right.
        - auto.
        - intros _. exact usual_allowedQ.
        - auto.
        - intros EL n x _. now apply elite_allowedQ.
      Qed.

      Lemma bounded_step g w : invQ H short rr_top g w -> lively (rdraw (w_rng w)) ->
        safe p c (exact_route p) allowedQ short (ga_iterate L p c E log_interval max_distance fuel g w)
        (fun gw => invQ H short rr_top (fst gw) (snd gw) /\ counted g w (fst gw) (snd gw)).
      Proof.
        intros. pose proof OK as [O1 [O2 O2'] O3 O4 O5 O6 O7 O8 O9 O10 O11].
        eapply safe_weaken.
        - eapply (iterate_safe L LOK p c E log_interval max_distance fuel (exact_route p)) with (usual := usualQ) (allowed := allowedQ)
            (used := rr_used c) (upd := c_elite_education c = true) (level := fun _ => allowedQ) (lively := lively); try eassumption.
          + intros; eapply exact_remove; eauto.
          + intros; eapply exact_add; eauto.
          + apply exact_eval.
          + now apply below_Q.
          + exact zero_not_lt_Q.
          + intros d. apply usual_initialQ.
          + intros x. apply usual_clampQ.
          + exact usual_allowedQ.
          + exact split_fitsQ.
          + now left.
          + now right.
          + auto.
          + intros _. exact usual_allowedQ.
          + auto.
          + intros EL n x _. now apply elite_allowedQ.
        - intros a (A & B & _). auto.
      Qed.
    End Bounds.

    Lemma exact_inv w0 g w : usualQ (w_pen w0) -> H None (w_hist w0) -> reached w0 g w ->
      invQ H True 0%nat g w /\ w_iter w = (w_iter w0 + ga_iterations g)%nat.
    Proof.
      intros U HN R. apply (bounded_inv True 0 (fun _ => True)); auto.
    Qed.

    Lemma exact_step g w : invQ H True 0%nat g w -> safe p c (exact_route p) allowedQ True (ga_iterate L p c E log_interval max_distance fuel g w)
      (fun gw => invQ H True 0%nat (fst gw) (snd gw) /\ counted g w (fst gw) (snd gw)).
    Proof.
      intros I. apply (bounded_step True 0 (fun _ => True)); auto.
    Qed.
  End H.

  (** A recorded individual: complete, within capacity, with its cost under a penalty in use. *)
  Definition record_under (A : Q -> Prop) (i : @individual NumQ) : Prop :=
    serves_all_once (p_dim p) (i_pheno i) /\
    within_capacity (p_demand p) (p_cap p) (1 # 1000000) (i_pheno i) /\
    exists (pen v : Q), A pen /\ penalized_cost i = Some (v : @F NumQ) /\ v == TP pen (i_pheno i).

  Definition record_ok : @individual NumQ -> Prop := record_under allowedQ.

  Definition improving (is : list (@individual NumQ)) : Prop :=
    forall l1 a b l2, is = l1 ++ a :: b :: l2 -> exists x y : Q,
      penalized_cost a = Some (x : @F NumQ) /\ penalized_cost b = Some (y : @F NumQ) /\ y < x - (1 # 1000000).

  Lemma improving_snoc A is (b : @individual NumQ) (y : Q) : improving is -> Forall (record_under A) is ->
    penalized_cost b = Some (y : @F NumQ) ->
    (forall l a x, is = l ++ [a] -> penalized_cost a = Some (x : @F NumQ) -> y < x - (1 # 1000000)) ->
    improving (is ++ [b]).
  Proof.
    intros I FA EB HL l1 a b' l2 EQ. destruct l2 as [|z l2] using rev_ind.
    - change (is ++ [b] = l1 ++ [a] ++ [b']) in EQ. rewrite app_assoc in EQ. apply app_inj_tail in EQ as [-> <-].
      apply Forall_app in FA as [_ FA]. inversion FA as [|? ? (_ & _ & pen & x & _ & EX & _) _]; subst.
      exists x, y. split; auto. split; auto. eapply HL; eauto.
    - clear IHl2. rewrite app_comm_cons, app_comm_cons, app_assoc in EQ. apply app_inj_tail in EQ as [EQ _]. eapply I; eauto.
  Qed.

  Definition last_opt {A} (l : list A) : option A := match rev l with [] => None | x :: _ => Some x end.
  Lemma last_opt_snoc {A} (l : list A) x : last_opt (l ++ [x]) = Some x.
  Proof. unfold last_opt. now rewrite rev_unit. Qed.

  (** Recorded under the penalties of [A]; [used]: by ruin and recreate as well. *)
  Definition records_under (A : Q -> Prop) (used : Prop) (b : option (@individual NumQ)) (h : @history NumQ) : Prop :=
    exists is, recorded hist_new is h /\ Forall (record_under A) is /\ improving is /\ (~ used -> b = last_opt is).
  Definition records : option (@individual NumQ) -> @history NumQ -> Prop := records_under allowedQ (rr_used c).

  Section Under.
  Variable A : Q -> Prop.
  Variable used : Prop.
  Notation records := (records_under A used).
  Notation record_ok := (record_under A).
  Lemma records_add b h i (v : Q) : records b h -> record_ok i -> penalized_cost i = Some (v : @F NumQ) ->
    (forall x : Q, h_best h = Some (x : @F NumQ) -> v < x - (1 # 1000000)) ->
    forall b', (~ used -> b' = Some i) -> records b' (hist_add h i).
  Proof.
    intros (is & RE & FA & IM & LA) RO EV LT b' HB. exists (is ++ [i]). unfold recorded in *. split.
    { rewrite fold_left_app, <- RE. reflexivity. }
    split; [apply Forall_app; auto|]. split.
    - eapply improving_snoc; eauto. intros l a x -> EA. apply LT. rewrite RE, recorded_best. exact EA.
    - intros NU. rewrite last_opt_snoc. auto.
  Qed.

  Lemma within_sum (rs : list (@rroute NumQ)) : Forall (exact_route p) rs ->
    forall acc : Q, 0 <= acc ->
    fold_left (fun (a : @F NumQ) r => fadd a (fmax f0 (ro_over r))) rs acc < (1 # 1000000) ->
    within_capacity (p_demand p) (p_cap p) (1 # 1000000) (map ro_nodes rs) /\ acc < (1 # 1000000).
  Proof.
    induction 1 as [|r rs [R1 R2] FR IH]; intros acc HA HL.
    - cbn [fold_left map] in *. split; [intros r []|exact HL].
    - cbn [fold_left map] in *.
      assert (X : exists z : Q, z == acc + Qpos (route_load (p_demand p) (ro_nodes r) - p_cap p) /\
        fold_left (fun (a : @F NumQ) r => fadd a (fmax f0 (ro_over r))) rs z < (1 # 1000000)).
      { eexists. split; [|exact HL]. numq. rewrite Qpos_max, (Qpos_comp _ _ R2). ring. }
      destruct X as (z & Z1 & Z2). pose proof (Qpos_nonneg (route_load (p_demand p) (ro_nodes r) - p_cap p)) as QN.
      destruct (IH z ltac:(lra) Z2) as [I1 I2]. split; [|lra].
      intros r' [<-|Hr]; [|now apply I1].
      assert (Q1 : Qpos (route_load (p_demand p) (ro_nodes r) - p_cap p) < 1 # 1000000) by lra.
      clear -Q1. unfold Qpos in Q1. destruct (Qle_bool (route_load (p_demand p) (ro_nodes r) - p_cap p) 0) eqn:EL.
      + apply Qle_bool_iff in EL. lra.
      + lra.
  Qed.

  Lemma so_feasible_within s : Forall (exact_route p) (so_routes s) -> @so_feasible NumQ s = true ->
    within_capacity (p_demand p) (p_cap p) (1 # 1000000) (routes_of s).
  Proof.
    intros FR G. unfold so_feasible in G. apply approx_eq_Q in G. destruct G as [_ G].
    apply (within_sum (so_routes s) FR 0); [lra|]. cbn [f0 NumQ] in G. numq. lra.
  Qed.

  Lemma records_ga (pen : @F NumQ) b h i : A pen -> records b h -> evaluated p pen i -> is_feasible i = true ->
    oapprox_lt (penalized_cost i) (h_best h) = true -> records (Some i) (hist_add h i).
  Proof.
    intros HA R (S & G & e & EV) FE LT.
    assert (C : penalized_cost i = Some (@gtotal NumQ p pen (i_pheno i))) by (unfold penalized_cost; now rewrite EV).
    eapply records_add; eauto.
    - split; [exact S|]. split.
      + unfold is_feasible in FE. rewrite EV in FE. now apply gfeasible_Q.
      + exists pen, (@gtotal NumQ p pen (i_pheno i)). split; auto. split; auto. apply gtotal_Q.
    - intros x EX. rewrite C, EX in LT. cbn [oapprox_lt] in LT. now apply approx_lt_Q.
  Qed.

  Lemma records_rr : used -> forall (pen : @F NumQ) b h cand h', A pen -> records b h -> sound p c (exact_route p) cand -> priced pen cand ->
      rr_recorded p c pen h cand h' -> records b h'.
  Proof.
    intros U pen b h cand h' HA R [SS SF] PC (FE & LT & i0 & i & _ & (P1 & P2 & P3 & P4 & P5 & _) & ->).
    assert (C : penalized_cost i = Some (@gtotal NumQ p pen (i_pheno i))) by (unfold penalized_cost; now rewrite P5).
    eapply records_add; eauto; [| |intros NU; now elim NU].
    - split; [exact P3|]. split.
      + intros r Hr. apply (so_feasible_within _ SF FE). eapply Permutation_in; eauto.
      + exists pen, (@gtotal NumQ p pen (i_pheno i)). split; auto. split; auto. apply gtotal_Q.
    - intros x EX. unfold priced in PC. rewrite PC, EX in LT. cbn [oapprox_lt] in LT. apply approx_lt_Q in LT.
      pose proof (so_total_Q p pen cand (proj1 (exact_routes_Forall p cand) SF)) as T1.
      pose proof (gtotal_Q p pen (i_pheno i)) as T2. pose proof (TP_perm p pen _ _ P1) as T3.
      change (@F NumQ) with Q in *. lra.
  Qed.

  Lemma records_none : records None hist_new.
  Proof.
    exists []. split; [reflexivity|]. split; [constructor|]. split; [|reflexivity].
    intros l1 a b l2 EQ. destruct l1; discriminate.
  Qed.
  End Under.

  Lemma reached_records w0 g w : set_up p max_distance w0 -> reached w0 g w ->
    inv L p c (exact_route p) usualQ allowedQ records (fun _ => allowedQ) True 0 g w.
  Proof.
    intros ((d & _ & HP) & HH & _) R. eapply exact_inv with (w0 := w0); auto.
    - apply records_ga.
    - apply records_rr.
    - rewrite HP. apply usual_initialQ.
    - rewrite HH. apply records_none.
  Qed.
End Exact.
