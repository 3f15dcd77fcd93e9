(** Bounds under which every loop of the decomposed genetic algorithm ends. *)
From Coq Require Import List Arith NArith ZArith QArith Qround Bool Lia Lqa Permutation.
From Verif.Model Require Import Num Prelude Evaluate Individual Config Crossover Split Matrix Population
  LocalSearch World Schedule RuinRecreate Genetic Decomposition.
From Verif.Spec Require Import Solution Split Library Population LocalSearch RuinRecreate Genetic Decomposition.
From Verif.Proofs Require Import Lists QNum EvalFacts EvalThms SplitStruct SplitPart SplitThms MatrixFacts Fleet PopFacts PopQ PopMain
  LsRunQ RrRun RrRecreate RrQ RrMachine GaInv GaQ GaClock Streams GaBound GaEnds Decompose DecomposeQ DgaSub DgaInst DgaInv DgaClock.
Import ListNotations.
Open Scope nat_scope.

Local Notation nat2Q n := (inject_Z (Z.of_nat n)).

Section Ends.
  Variable p : @problem NumQ.
  Variable c : @config NumQ.
  Variable min_size : nat.
  Variable B last : nat.
  Hypothesis DC : decomposed_ok p c min_size.
  Hypothesis D3 : 3 <= p_dim p.
  Hypothesis SY : symmetric p.
  Hypothesis WO : workable c.
  Notation nv := (c_num_vehicles c).

  Record dga_bound (bound rr_top : nat) : Prop := {
    db_whole : forall L E fuel, time_up c E last -> bound <= fuel -> bounded False rr_top (varied (p_dim p) B) last L p c E fuel pens;
    db_part : forall L E fuel mapping, time_up c E last -> bound <= fuel -> instance_ok (sub_problem p mapping) (sub_config c) ->
      cutting p mapping -> bounded False rr_top (varied (p_dim p) B) last L (sub_problem p mapping) (sub_config c) E fuel usualQ;
    db_schedule : 100 * 1000 <= rr_top;
    db_cost : forall fuel pen rs, bound <= fuel -> pens pen -> serves_all_once (p_dim p) rs -> length rs = nv ->
      (total_penalized (p_dist p) (p_demand p) (p_cap p) pen rs < nat2Q fuel * (1 # 1000000))%Q;
    db_last : last < bound
  }.

  Lemma sub_symmetric mapping : cutting p mapping -> symmetric (sub_problem p mapping).
  Proof.
    intros [C1 C2 C3 C4]. destruct SY as [S1 S2]. split.
    - intros a b Ha Hb. apply S1; now apply C3.
    - change (p_demand p (nth 0 mapping 0)%nat == 0)%Q. rewrite C2. exact S2.
  Qed.

  Lemma dga_bound_exists : exists bound rr_top, dga_bound bound rr_top.
  Proof.
    pose proof (dc_instance _ _ _ DC) as OK. destruct (io_small _ _ OK) as (top & TOP & _).
    set (TT := inject_Z (10 ^ 10)).
    destruct (archimedes (top * nat2Q (p_dim p - 1 + nv) + 10 * TT * route_load (p_demand p) (seq 1 (p_dim p - 1)))) as (m & HM).
    destruct (maximum (fun m => fround (c_rr_gamma c *: fnat (m - 1)%nat)%num) (p_dim p)) as (rr & HR).
    assert (LG : exists long, 100 * 1000 <= long) by (eexists; apply le_n). destruct LG as [long LG].
    set (rr_top := Nat.max rr long).
    exists (Nat.max rr_top (Nat.max B (Nat.max (last + 1) m))), rr_top.
    assert (LD : (0 <= route_load (p_demand p) (seq 1 (p_dim p - 1)))%Q).
    { apply load_nonneg. intros a Ha. apply in_seq in Ha. apply (io_dem _ _ OK). lia. }
    assert (T0 : (0 <= TT)%Q) by (unfold TT; rewrite <- (Zle_Qle 0); apply Z.pow_nonneg; discriminate).
    constructor.
    - clear LG. intros L E fuel TU HF. apply (bounded_ends L p c E fuel pens top TT); auto; try lia.
      + transitivity rr; [apply HR; lia|lia].
      + apply HM. lia.
    - clear LG. intros L E fuel mapping TU HF IO CU. pose proof (sub_symmetric mapping CU) as SS. destruct CU as [C1 C2 C3 C4].
      apply (bounded_ends L (sub_problem p mapping) (sub_config c) E fuel usualQ top TT); auto; try lia.
      + intros a b Ha Hb. apply TOP; now apply C3.
      + intros x [X1 X2]. assert (X3 : (inject_Z (10 ^ 7) <= TT)%Q) by (unfold TT; rewrite <- Zle_Qle; apply Z.pow_le_mono_r; lia).
        change (@F NumQ) with Q in *. set (Y := inject_Z (10 ^ 7)) in *. clearbody Y TT. split; lra.
      + change (p_dim (sub_problem p mapping)) with (length mapping). transitivity rr; [exact (HR (length mapping) (proj2 C1))|lia].
      + eapply Qle_lt_trans; [|apply (HM fuel); lia].
        change (p_dim (sub_problem p mapping)) with (length mapping). change (c_num_vehicles (sub_config c)) with nv.
        assert (TP0 : (0 <= top)%Q) by (pose proof (TOP 0 0 ltac:(lia) ltac:(lia)); pose proof (io_dist _ _ OK 0 0 ltac:(lia) ltac:(lia)); lra).
        assert (M1 : (nat2Q (length mapping - 1 + nv) * top <= nat2Q (p_dim p - 1 + nv) * top)%Q).
        { apply Qmult_le_compat_r; [|exact TP0]. rewrite <- Zle_Qle. lia. }
        assert (M2 : (route_load (p_demand (sub_problem p mapping)) (seq 1 (length mapping - 1)) * (10 * TT) <=
                      route_load (p_demand p) (seq 1 (p_dim p - 1)) * (10 * TT))%Q).
        { apply Qmult_le_compat_r; [exact C4|]. clearbody TT. lra. }
        clearbody TT. set (A1 := nat2Q (length mapping - 1 + nv)) in *. set (A2 := nat2Q (p_dim p - 1 + nv)) in *. clearbody A1 A2. lra.
    - eapply Nat.le_trans; [exact LG|]. unfold rr_top. clear. lia.
    - clear LG. intros fuel pen rs HF [P1 P2] SV HL. eapply Qle_lt_trans; [|apply (HM fuel); lia].
      pose proof (penalized_bound p c OK top pen rs TOP P1 SV) as PB. rewrite HL in PB.
      assert (M : (pen * route_load (p_demand p) (seq 1 (p_dim p - 1)) <= 10 * TT * route_load (p_demand p) (seq 1 (p_dim p - 1)))%Q).
      { apply Qmult_le_compat_r; [|exact LD]. fold TT in P2. change (@F NumQ) with Q in *. clearbody TT. lra. }
      change (@F NumQ) with Q in *. lra.
    - clear. lia.
  Qed.

  Variable bound rr_top : nat.
  Hypothesis BB : dga_bound bound rr_top.
  Variable L : lib.
  Hypothesis LOK : lib_ok L.
  Variable E : @env NumQ.
  Hypothesis TU : time_up c E last.
  Variable li : nat.
  Variable md : option (@F NumQ).
  Variable fuel : nat.
  Hypothesis HF : bound <= fuel.
  Variable sqrt_ round_ : @F NumQ -> @F NumQ.
  Variable lsort : list (nat * @F NumQ) -> list (nat * @F NumQ).
  Variable dm : @dmatrix NumQ.
  Variable hashes : nat -> rng * rng * rng.
  Variable gd : nat -> nat -> @F NumQ.
  Hypothesis SO : sort_contract lsort.
  Hypothesis DF : dfun sqrt_ round_ dm (p_dim p) gd.
  Variable w0 : @world NumQ.
  Hypothesis SU : set_up p md w0.
  Hypothesis LV : varied (p_dim p) B (rdraw (w_rng w0)).
  Notation reached := (dga_reached L p c E li fuel sqrt_ round_ lsort dm min_size hashes w0).
  Notation iterate := (dga_iterate L p c E li fuel sqrt_ round_ lsort dm min_size hashes).
  Notation run := (dga_run L p c E li fuel sqrt_ round_ lsort dm min_size hashes).
  (** The two ways in which a round fails. *)
  Notation stuck d w := (d_st d = DCycle /\ (is_feasible (d_sol d) = false \/
    misfit L p c E li fuel sqrt_ round_ lsort dm min_size hashes d (snd (terminate c E w)))).

  Lemma dga_step d w : dinv L p c False rr_top d w -> varied (p_dim p) B (rdraw (w_rng w)) ->
    match iterate d w with
    | Ok (d', w') => dinv L p c False rr_top d' w' /\ varied (p_dim p) B (rdraw (w_rng w'))
    | Err e => e = EPanic /\ stuck d w
    end.
  Proof.
    intros DI LW. destruct DC as [OK SM GM G2]. destruct BB as [B1 B2 B3 B4 B5]. destruct WO as (W1 & W2 & W3 & W4).
    pose proof (dga_iterate_ok L LOK p c E li fuel sqrt_ round_ lsort dm min_size hashes gd OK SM SO DF GM G2 False rr_top
      (varied (p_dim p) B) last (B1 L E fuel TU HF) (fun m IO CU => B2 L E fuel m TU HF IO CU) (or_intror B3)
      (fun pen rs P S X => or_intror (B4 fuel pen rs HF P S X)) d w DI LW) as X.
    destruct (iterate d w) as [[d' w']|e] eqn:EI.
    - split; [exact (proj1 X)|]. apply dga_iterate_flows in EI. rewrite EI. exact LW.
    - destruct (X (Build_sizes _ c W1 W2 W3 W4)) as [[_ []]|Y]. exact Y.
  Qed.

  Lemma dga_reached_inv d w : reached d w -> dinv L p c False rr_top d w /\ varied (p_dim p) B (rdraw (w_rng w)).
  Proof.
    induction 1 as [corr lh rh d w NB RD GC G|d w d' w' R [I LW] G].
    - destruct SU as ((m & _ & EP) & EH & _). destruct DC as [OK SM GM G2].
      destruct (dga_new_inv L p c E fuel min_size GM G2 False rr_top _ last (db_whole _ _ BB L E fuel TU HF) (or_intror (db_schedule _ _ BB))
        corr lh rh w0 d w NB RD GC) as (DI & _); auto.
      { rewrite EP. apply low_initial. }
      split; [exact DI|]. unfold dga_new in G. destruct (ind_random p nv 0 (w_rng w0)) as [i r] eqn:ER.
      destruct (ga_new p c corr lh rh (set_w_rng w0 r)) as [g w1] eqn:EN. injection G as _ <-.
      apply ga_new_flows in EN. rewrite EN. cbn [set_w_rng w_rng]. apply ind_random_stream in ER. rewrite ER. exact LV.
    - pose proof (dga_step d w I LW) as X. rewrite G in X. exact X.
  Qed.

  Lemma dga_run_ends k : forall d w, reached d w -> dga_terminated d = true \/ (1 <= k /\ last + 1 <= k + w_clock w) ->
    match run k d w with
    | Ok (d', w') => dga_terminated d' = true
    | Err e => e = EPanic /\ exists d w, reached d w /\ stuck d w
    end.
  Proof.
    induction k as [|k IH]; intros d w R HK; cbn [dga_run]; destruct (dga_terminated d) eqn:ET; auto.
    - destruct HK as [X|[X _]]; [discriminate X|lia].
    - destruct HK as [X|[X Y]]; [discriminate X|]. destruct (dga_reached_inv d w R) as [DI LW]. pose proof (dga_step d w DI LW) as ST.
      destruct (iterate d w) as [[d1 w1]|e] eqn:EI; cbn [rbind].
      + apply IH; [eapply dr_iterate; eauto|]. pose proof (dga_iterate_later _ _ _ _ _ _ _ _ _ _ _ _ _ _ _ _ EI) as [LT _].
        destruct (le_lt_dec last (w_clock w)) as [LE|GT]; [left|right; lia].
        unfold dga_iterate, terminate, now in EI. assert (TE : c_time_limit c <=? ffloor (e_clock E (w_clock w)) = true) by (apply Nat.leb_le; now apply TU).
        rewrite TE in EI. cbn [orb d_st] in EI. injection EI as <- _. reflexivity.
      + destruct ST as [-> ST]. split; [reflexivity|]. exists d, w. auto.
  Qed.
End Ends.
