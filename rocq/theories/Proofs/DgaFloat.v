(** The decomposed genetic algorithm in double precision on integral data: the subproblems and what the
    genetic algorithm makes of them. *)
From Coq Require Import List Arith NArith ZArith Reals Bool Lia Lra Psatz Permutation.
From Flocq Require Import Core BinarySingleNaN Relative.
From Verif.Model Require Import Num NumFloat Prelude Evaluate Individual Config Crossover Split Matrix Population
  LocalSearch World Schedule RuinRecreate Genetic Decomposition.
From Verif.Spec Require Import Floats Solution Library Population LocalSearch RuinRecreate Genetic Decomposition.
From Verif.Proofs Require Import Lists EvalFacts EvalThms SplitStruct SplitPart MatrixFacts RrRuin RrRecreate RrRun RrMachine
  GaInv GaQ Decompose DgaInst FloatFacts FloatPenalty FloatRun FloatStart FloatFine.
Import ListNotations.
Open Scope Z_scope.

Local Notation fx := (SpecFloat.fexp 53 1024).
Local Notation rnd := (round radix2 fx ZnearestE).
Local Existing Instance fx_valid.

(** ** The lower bound on the number of vehicles *)

(** A quotient of integers, rounded, does not reach the bound of doubles. *)
Lemma ratio_F (t k : dbl) T cap : is_int t T -> 0 <= T < exact_bound -> is_int k cap -> 1 <= cap ->
  is_finite (ddiv t k) = true /\ B2R (ddiv t k) = rnd (IZR T / IZR cap).
Proof.
  intros [FT RT] HT [FC RC] HC.
  assert (C1 : (1 <= IZR cap)%R) by (apply IZR_le; lia). assert (T0 : (0 <= IZR T)%R) by (apply IZR_le; lia).
  pose proof (Bdiv_correct 53 1024 prec_pos prec_emax mode_NE t k) as B. change (round_mode mode_NE) with ZnearestE in B.
  rewrite RT, RC in B. specialize (B ltac:(lra)).
  assert (Q : (0 <= IZR T / IZR cap <= IZR T)%R).
  { split; [apply Rmult_le_pos; [exact T0|apply Rlt_le, Rinv_0_lt_compat; lra]|].
    apply Rmult_le_reg_r with (IZR cap); [lra|]. unfold Rdiv. rewrite Rmult_assoc, Rinv_l by lra. nra. }
  assert (R : (0 <= rnd (IZR T / IZR cap) <= IZR T)%R).
  { split; [apply round_ge_generic; [apply fx_valid|apply valid_rnd_N|apply generic_format_0|apply Q]|].
    apply round_le_generic; [apply fx_valid|apply valid_rnd_N|apply int_format; lia|apply Q]. }
  rewrite Rlt_bool_true in B.
  - destruct B as (B1 & B2 & _). unfold ddiv. rewrite B1, B2. split; [exact FT|reflexivity].
  - rewrite Rabs_pos_eq by apply R. apply Rle_lt_trans with (IZR T); [apply R|].
    apply Rlt_trans with (IZR exact_bound); [apply IZR_lt; lia|]. change exact_bound with (Zpower radix2 53). rewrite IZR_Zpower by lia. apply bpow_lt. lia.
Qed.

Lemma ceil_F (t k : dbl) T cap : is_int t T -> 0 <= T < exact_bound -> is_int k cap -> 1 <= cap ->
  @fceil NumF (ddiv t k) = Z.to_nat (Z.min (2 ^ 64 - 1) (Zceil (rnd (IZR T / IZR cap)))).
Proof.
  intros HT BT HC BC. destruct (ratio_F t k T cap HT BT HC BC) as [F1 R1].
  change (@fceil NumF (ddiv t k)) with (d_to_u64 (@Bnearbyint 53 1024 prec_emax mode_UP (ddiv t k))). now rewrite (u64_ceil _ F1), R1.
Qed.

Lemma total_F (p : @problem NumF) d q cap : Floats.integral p d q cap -> (0 < p_dim p)%nat -> zload q (seq 0 (p_dim p)) < exact_bound ->
  is_int (@total_demand NumF p) (zload q (seq 0 (p_dim p))) /\ 0 <= zload q (seq 0 (p_dim p)).
Proof.
  intros IG D0 LT. assert (NN : forall n, In n (seq 0 (p_dim p)) -> (n < p_dim p)%nat) by (intros n H; apply in_seq in H; lia).
  split; [|apply (zload_nonneg p d q cap IG D0); exact NN].
  change (zload q (seq 0 (p_dim p))) with (0 + zload q (seq 0 (p_dim p))).
  apply (gload_int p d q cap IG D0); [apply int_zero|lia|exact NN|lia].
Qed.

Lemma to_nat_mono a b : a <= b -> (Z.to_nat a <= Z.to_nat b)%nat.
Proof. lia. Qed.

Lemma lower_bound_F (p p' : @problem NumF) d q d' q' cap : Floats.integral p d q cap -> Floats.integral p' d' q' cap ->
  (0 < p_dim p)%nat -> (0 < p_dim p')%nat -> 1 <= cap -> zload q' (seq 0 (p_dim p')) <= zload q (seq 0 (p_dim p)) < exact_bound ->
  (@vehicle_lower_bound NumF p' <= @vehicle_lower_bound NumF p)%nat.
Proof.
  intros I I' D D' C [LE LT]. destruct (total_F p d q cap I D LT) as [T1 T2]. destruct (total_F p' d' q' cap I' D' ltac:(lia)) as [S1 S2].
  unfold vehicle_lower_bound. change (@fdiv NumF) with ddiv.
  destruct (ig_cap _ _ _ _ I) as [C1 _]. destruct (ig_cap _ _ _ _ I') as [C2 _].
  rewrite (ceil_F _ _ _ cap T1 ltac:(lia) C1 C), (ceil_F _ _ _ cap S1 ltac:(lia) C2 C).
  apply to_nat_mono. apply Z.min_le_compat_l. apply Zceil_le. apply round_le; [apply fx_valid|apply valid_rnd_N|].
  assert (1 <= IZR cap)%R by (apply IZR_le; lia).
  apply Rmult_le_compat_r; [apply Rlt_le, Rinv_0_lt_compat; lra|apply IZR_le; lia].
Qed.

(** ** The subproblem *)
Section Sub.
  Variable p : @problem NumF.
  Variable c : @config NumF.
  Variable d : nat -> nat -> Z.
  Variable q : nat -> Z.
  Variable cap : Z.
  Hypothesis II : integral_instance p c d q cap.
  Hypothesis CAP : 1 <= cap.
  Hypothesis LOAD : zload q (seq 0 (p_dim p)) < exact_bound.
  Variable min_size : nat.
  Variable corr : matrix nat.
  Variable global sub rest : @individual NumF.
  Variable mapping : list nat.
  Variable rs : list (list nat).
  Hypothesis C : whole_solution (p_dim p) global.
  Hypothesis T : taken min_size corr global sub mapping rest rs.
  Hypothesis some : (1 <= length (concat rs))%nat.
  Notation sp := (sub_problem p mapping).
  Let at_ (i : nat) := nth i mapping 0%nat.
  Let O1 := ii_dim _ _ _ _ _ II.

  Lemma at_F i : (i < length mapping)%nat -> (at_ i < p_dim p)%nat.
  Proof. exact (any_at p O1 min_size corr global sub rest mapping rs C T i). Qed.

  Lemma sub_zload l : zload (fun i => q (at_ i)) l = zload q (map at_ l).
  Proof. unfold zload. now rewrite map_map. Qed.

  Lemma sub_zload0 : 0 <= q 0%nat /\ zload (fun i => q (at_ i)) (seq 0 (length mapping)) = q 0%nat + zload q (concat rs) /\
    zload q (seq 0 (p_dim p)) = q 0%nat + zload q (seq 1 (p_dim p - 1)) /\
    0 <= zload q (concat rs) <= zload q (seq 1 (p_dim p - 1)).
  Proof.
    destruct (demand_int p c d q cap II 0%nat ltac:(lia)) as [_ Q0]. split; [exact Q0|].
    split; [|split].
    - rewrite sub_zload. assert (EM : map at_ (seq 0 (length mapping)) = mapping) by (unfold at_; rewrite map_nth_seq by lia; apply firstn_all).
      now rewrite EM, (tk_mapping _ _ _ _ _ _ _ T).
    - rewrite <- zload_cons. f_equal. replace (p_dim p) with (S (p_dim p - 1)) at 1 by lia. reflexivity.
    - pose proof (taken_split p min_size corr global sub rest mapping rs C T) as P.
      rewrite (zload_perm q _ _ P), zload_app.
      assert (IN : forall l l', Permutation (seq 1 (p_dim p - 1)) (l ++ l') -> 0 <= zload q l).
      { intros l l' PL. apply (zload_nonneg p d q cap (ii_data _ _ _ _ _ II) ltac:(lia)). intros n Hn.
        assert (K : In n (seq 1 (p_dim p - 1))) by (eapply Permutation_in; [symmetry; exact PL|apply in_or_app; auto]).
        apply in_seq in K. lia. }
      pose proof (IN _ _ P). rewrite Permutation_app_comm in P. pose proof (IN _ _ P). lia.
  Qed.

  Lemma sub_integral : integral_instance sp (sub_config c) (fun i j => d (at_ i) (at_ j)) (fun i => q (at_ i)) cap.
  Proof.
    pose proof II as [D1 D2 [D3 D4] D5 (top & D6 & D7 & D8) D9 D10 D11]. destruct D1 as [I1 I2 I3].
    pose proof (any_length min_size corr global sub rest mapping rs T) as SL.
    pose proof (any_size p O1 min_size corr global sub rest mapping rs C T) as SZ.
    pose proof (taken_nth0 min_size corr global sub rest mapping rs T) as N0.
    destruct sub_zload0 as (Q0 & L1 & L2 & L3).
    assert (IG : Floats.integral sp (fun i j => d (at_ i) (at_ j)) (fun i => q (at_ i)) cap).
    { constructor; [| |exact I3].
      - intros a b Ha Hb. apply I1; now apply at_F.
      - intros a Ha. apply I2. now apply at_F. }
    constructor; auto.
    - change (2 <= length mapping)%nat. lia.
    - split; [exact D3|]. change (c_num_vehicles (sub_config c)) with (c_num_vehicles c). etransitivity; [|exact D4].
      apply (lower_bound_F p sp d q _ _ cap (ii_data _ _ _ _ _ II) IG); [lia|change (0 < length mapping)%nat; lia|exact CAP|].
      change (p_dim sp) with (length mapping). lia.
    - unfold at_. now rewrite N0.
    - exists top. split; [exact D6|]. split; [intros a b Ha Hb; apply D7; now apply at_F|].
      change (p_dim sp) with (length mapping). nia.
    - change (p_dim sp) with (length mapping).
      assert (ES : zload (fun i => q (at_ i)) (seq 0 (length mapping)) = q 0%nat + zload (fun i => q (at_ i)) (seq 1 (length mapping - 1))).
      { destruct (length mapping) as [|n]; [lia|]. replace (S n - 1)%nat with n by lia. cbn [seq]. rewrite zload_cons.
        unfold at_ at 1. now rewrite N0. }
      lia.
  Qed.

  Lemma sub_drawable : drawable p -> drawable sp.
  Proof. intros [A B]. split; [|exact B]. intros a Ha. exact (A _ (at_F a Ha)). Qed.
End Sub.

(** ** The genetic algorithm on an instance with a given first solution *)
Section Run.
  Variable L : lib.
  Hypothesis LOK : lib_ok L.
  Variable p : @problem NumF.
  Variable c : @config NumF.
  Variable d : nat -> nat -> Z.
  Variable q : nat -> Z.
  Variable cap : Z.
  Hypothesis II : integral_instance p c d q cap.
  Hypothesis NE : c_elite_education c = false.
  Variable E : @env NumF.
  Variable log_interval : nat.
  Variable max_distance : option (@F NumF).
  Variable fuel : nat.
  Notation good := (exactF p d q cap).
  Notation len i := (length_of d i).

  (** The best solution is a proper one; with a bound [V], there is one and it stays below the bound. *)
  Definition best_okF (V : option Z) (b : option (@individual NumF)) (h : @history NumF) : Prop :=
    (forall j, b = Some j -> record_okF p d q cap j /\ forall v, V = Some v -> len j <= v) /\
    (forall v, V = Some v -> b <> None /\ exists (x : dbl) z, h_best h = Some (x : @F NumF) /\ is_int x z /\ 0 <= z <= v /\ z < exact_bound).

  Lemma evaluated_recordF (pen : @F NumF) i : heldF pen -> evaluated p pen i -> is_feasible i = true ->
    record_okF p d q cap i /\ exists x : dbl, penalized_cost i = Some (x : @F NumF) /\ is_int x (len i).
  Proof.
    intros HP (S & G & e & EV) FE. apply (geval_record p c d q cap II pen e i); auto; [apply HP|].
    apply (gfeasible_int p d q cap (ii_data _ _ _ _ _ II) (dim_pos p c d q cap II)); [now apply (serves_in p)|now apply (zload_below p c d q cap II)|].
    unfold is_feasible in FE. now rewrite EV in FE.
  Qed.
  Lemma len_bound i : serves_all_once (p_dim p) (i_pheno i) -> 0 <= len i < exact_bound.
  Proof. exact (serves_total p c d q cap II _). Qed.

  Lemma best_gaF V (pen : @F NumF) b h i : heldF pen -> best_okF V b h -> evaluated p pen i -> is_feasible i = true ->
    oapprox_lt (penalized_cost i) (h_best h) = true -> best_okF V (Some i) (hist_add h i).
  Proof.
    intros HA [B1 B2] EV FE LT. destruct (evaluated_recordF pen i HA EV FE) as (RO & x & EX & XI).
    pose proof (len_bound i (proj1 EV)) as LB.
    assert (LE : forall v, V = Some v -> len i <= v).
    { intros v HV. destruct (B2 v HV) as (_ & y & z & EY & YI & Y1 & Y2). rewrite EX, EY in LT. cbn [oapprox_lt] in LT.
      rewrite (int_approx_lt _ _ _ _ XI YI ltac:(lia)) in LT. apply Z.ltb_lt in LT. lia. }
    split.
    - intros j [= <-]. auto.
    - intros v HV. split; [discriminate|]. exists x, (len i). split; [exact EX|]. split; [exact XI|]. specialize (LE v HV). lia.
  Qed.

  Lemma best_rrF V (pen : @F NumF) b h cand h' : heldF pen -> best_okF V b h ->
    sound p c good cand -> priced pen cand -> rr_recorded p c pen h cand h' -> best_okF V b h'.
  Proof.
    intros HA [B1 B2] [SS SF] PC (FE & LT & i0 & i & _ & (P1 & P2 & P3 & P4 & P5 & _) & ->).
    pose proof (ss_serves _ _ _ SS) as SV. pose proof (so_feasible_int p c d q cap II cand SF SV FE) as HC. unfold priced in PC. rewrite PC in LT.
    destruct (geval_record p c d q cap II pen (i_eval i0) i (proj1 HA) P3 P5) as (RO & x & EX & XI).
    { intros r I. apply HC. eapply Permutation_in; eauto. }
    split; [exact B1|]. intros v HV. destruct (B2 v HV) as (NB & y & z & EY & YI & Y1 & Y2). split; [exact NB|].
    exists x, (len i). split; [exact EX|]. split; [exact XI|]. rewrite EY in LT. cbn [oapprox_lt] in LT.
    pose proof (so_total_int p c d q cap II pen cand (proj1 HA) SF SV FE) as TI.
    rewrite <- (zsum_perm _ _ (Permutation_map (ztour d) P1)) in TI. change (zsum (map (ztour d) (i_pheno i))) with (len i) in TI.
    pose proof (len_bound i P3) as LB.
    rewrite (int_approx_lt _ _ _ _ TI YI ltac:(lia)) in LT. apply Z.ltb_lt in LT. lia.
  Qed.

  (** What the run makes of an evaluated solution. *)
  Definition result_ofF (i : @individual NumF) (gw : @ga NumF * @world NumF) : Prop :=
    match ga_best_sol (fst gw) with
    | Some j => record_okF p d q cap j /\ (is_feasible i = true -> len j <= len i)
    | None => is_feasible i = false
    end.

  Notation invF H := (inv L p c good usualF heldF H (fun _ => heldF) True 0).
  Notation safeF := (safe p c good heldF True).

  Lemma below_one : @reals_below_one NumF p.
  Proof. apply below_F; [exact (ii_real _ _ _ _ _ II)|]. pose proof (dim_small p c d q cap II). lia. Qed.
  Lemma zero_lt : @approx_lt NumF (@f0 NumF) (@f0 NumF) = false.
  Proof. exact (int_approx_lt _ _ _ _ int_zero int_zero eq_refl). Qed.

  Lemma iterate_sub V g w : invF (best_okF V) g w -> safeF (ga_iterate L p c E log_interval max_distance fuel g w)
    (fun gw => invF (best_okF V) (fst gw) (snd gw)).
  Proof.
    intros I0. pose proof II as [O1 O2 [O3 O3'] O4 O5 O6 O7 O8]. eapply safe_weaken.
    { refine (iterate_safe L LOK p c E log_interval max_distance fuel good (exactF_remove p c d q cap II) (exactF_add p c d q cap II)
        (exactF_eval p c d q cap II) below_one O2 O3 zero_lt O8 O3' usualF heldF (usual_initialF max_distance) usual_clampF usual_held (split_fitsF p c d q cap II)
        (best_okF V) (best_gaF V) True False (fun _ => I) (fun _ => I) _
        (fun _ => heldF) _ _ _
        (fun _ => best_rrF V) True 0 (or_introl I) (fun _ => I) (fun _ _ _ _ _ _ _ _ _ _ => I) (fun _ => True) _ g w I0 I); try contradiction; auto.
      congruence. }
    intros gw X. exact (proj1 X).
  Qed.

  Lemma run_sub V k : forall g w, invF (best_okF V) g w -> safeF (solver_run L p c E log_interval max_distance fuel k g w)
    (fun gw => invF (best_okF V) (fst gw) (snd gw)).
  Proof.
    induction k as [|k IH]; intros g w I0; cbn [solver_run].
    - destruct (ga_terminated g); cbn [safe]; auto.
    - destruct (ga_terminated g); [cbn [safe]; auto|].
      eapply safe_bind; [apply (iterate_sub V); exact I0|]. intros [g1 w1] I1. now apply IH.
  Qed.

  Lemma sub_run_safeF corr lh rh w0 i : neighbours_ok p c corr -> rows_ok p corr -> usualF (w_pen w0) -> w_hist w0 = hist_new ->
    evaluated p (w_pen w0) i -> (num_nonempty_routes i <= c_num_vehicles c)%nat ->
    safeF (let '(g, w) := ga_new p c corr lh rh w0 in
      rbind (add_initial L c g i w) (fun '(g, w) => solver_run L p c E log_interval max_distance fuel fuel g w))
      (result_ofF i).
  Proof.
    intros NB RO U HH EV FT.
    destruct (ga_new p c corr lh rh w0) as [g w] eqn:EN.
    pose proof II as [O1 O2 [O3 O3'] O4 O5 O6 O7 O8].
    assert (EW : w_pen w = w_pen w0 /\ w_hist w = hist_new /\ ga_cur_best g = None /\ ga_st g = Created /\ ga_best_sol g = None).
    { unfold ga_new in EN. destruct (ind_random p (c_num_vehicles c) 0 (w_rng w0)). injection EN as <- <-. auto. }
    destruct EW as (W1 & W2 & W3 & W4 & W5).
    destruct (new_inv L p c good usualF heldF usual_held (best_okF None) (fun _ => heldF) True 0 (or_introl I) corr lh rh w0 g w NB RO U) as [I0 _]; auto.
    { split; [intros; discriminate|intros v HV; discriminate HV]. }
    rewrite <- W1 in EV.
    eapply safe_bind with (P := fun gw => invF (best_okF (if is_feasible i then Some (len i) else None)) (fst gw) (snd gw)).
    - pose proof (initial_safe L LOK p c good O2 O3 O8 O3' usualF heldF (best_okF None) (best_gaF None) (fun _ => heldF) True 0 g w i I0 W4 EV FT) as SA.
      destruct (add_initial L c g i w) as [[g1 w1]|e] eqn:EA; [|exact SA].
      cbn [safe] in *. destruct SA as (I1 & _). cbn [fst snd].
      apply (inv_other _ _ _ _ _ _ _ _ _ _ _ _ _ I1). cbn [fst snd].
      unfold add_initial, add_individual in EA. destruct (pop_add L c (ga_pop g) i false) as [po|]; [|discriminate EA].
      cbn [rbind] in EA. injection EA as EA. unfold update_best in EA. cbn [ga_child set_child set_gpop ga_cur_best] in EA.
      rewrite W3, W2 in EA. destruct (is_feasible i) eqn:FE; cbn [andb] in EA.
      + destruct (evaluated_recordF (w_pen w) i) as (RI & x & CI & XI); auto.
        { rewrite W1. now apply usual_held. }
        rewrite CI in EA. cbn [oapprox_lt set_current ga_cur_best h_best hist_new] in EA.
        pose proof (len_bound i (proj1 EV)) as LB.
        assert (FI : @flt_inf NumF x = true) by (destruct XI as [FX _]; clear -FX; destruct x as [| | |[]]; try discriminate FX; reflexivity).
        rewrite FI in EA. injection EA as <- <-. cbn [ga_best_sol set_best_sol w_hist set_w_hist]. split.
        * intros j [= <-]. split; [exact RI|]. intros v [= <-]. lia.
        * intros v [= <-]. split; [discriminate|]. exists x, (len i). split; [exact CI|]. split; [exact XI|]. lia.
      + injection EA as <- <-. cbn [ga_best_sol]. split; [|intros v HV; discriminate HV].
        intros j HJ. cbn in HJ. rewrite W5 in HJ. discriminate HJ.
    - intros [g1 w1] I1. cbn [fst snd] in I1.
      eapply safe_weaken; [apply run_sub; exact I1|].
      intros [g2 w2] I2. cbn [fst snd] in *. unfold result_ofF. cbn [fst].
      pose proof (gb_hist _ _ _ _ _ _ _ _ (in_base _ _ _ _ _ _ _ _ _ _ _ _ I2)) as [B1 B2].
      destruct (ga_best_sol g2) as [j|].
      + destruct (B1 j eq_refl) as [RO1 X]. split; [exact RO1|]. intros FE. rewrite FE in X. now apply X.
      + destruct (is_feasible i) eqn:FE; [|reflexivity]. exfalso. destruct (B2 (len i) eq_refl) as [NN _]. now apply NN.
  Qed.
End Run.
