(** In double precision the run ends as long as the capacity penalty stays in bounds. *)
From Coq Require Import List Arith NArith ZArith Reals Bool Lia Lra Psatz Permutation.
From Flocq Require Import Core BinarySingleNaN.
From Verif.Model Require Import Num NumFloat Prelude Evaluate Individual Config Crossover Split Matrix Population LocalSearch World Schedule RuinRecreate Genetic.
From Verif.Spec Require Import Floats FloatProgram FloatSearch Solution Library Population LocalSearch RuinRecreate Genetic.
From Verif.Proofs Require Import Lists EvalFacts EvalThms CrossoverFacts SplitStruct SplitPart PopThms RrRuin RrRecreate RrRun RrMachine LsRun GaInv GaQ GaClock Streams
  GaEnds FloatFacts FloatPenalty FloatRun FloatStart FloatFine FloatLs.
Import ListNotations.
Open Scope Z_scope.

Local Notation fx := (SpecFloat.fexp 53 1024).
Local Notation rnd := (round radix2 fx ZnearestE).
Local Existing Instance fx_valid.

Lemma reals_archimedes (x : R) : exists n : nat, forall m, (n <= m)%nat -> (x < INR m)%R.
Proof.
  destruct (archimed x) as [A _]. exists (Z.to_nat (up x)). intros m Hm. rewrite INR_IZR_INZ. eapply Rlt_le_trans; [exact A|]. apply IZR_le. lia.
Qed.

(** ** A penalty, times one or times ten *)
Lemma ten_exact : is_int (d_lit 10 1) 10.
Proof.
  assert (X : exists m e, B2SF (d_lit 10 1) = SpecFloat.S754_finite false m e /\ Z.pos m = 10 * 2 ^ (- e) /\ e <= 0).
  { eexists _, _. split; [vm_compute; reflexivity|]. split; vm_compute; [reflexivity|discriminate]. }
  destruct X as (m & e & ES & EM & LE). split; [rewrite <- is_finite_SF_B2SF, ES; reflexivity|].
  rewrite <- SF2R_B2SF, ES. unfold SF2R, F2R. cbn [SpecFloat.cond_Zopp Fnum Fexp]. rewrite EM, mult_IZR.
  change 2 with (radix_val radix2). rewrite IZR_Zpower by lia. rewrite Rmult_assoc, <- bpow_plus. replace (- e + e) with 0 by lia. cbn [bpow]. lra.
Qed.

Lemma times_mult (x mult peak : dbl) : is_finite x = true -> (0 <= B2R x)%R -> is_finite peak = true -> (10 * B2R x <= B2R peak)%R ->
  mult = @f1 NumF \/ mult = @flit NumF 10 1 ->
  is_finite (dmul x mult) = true /\ (0 <= B2R (dmul x mult) <= B2R peak)%R.
Proof.
  intros FX X0 FP XP MU.
  assert (M : is_finite mult = true /\ (0 <= B2R mult <= 10)%R).
  { destruct MU as [-> | ->].
    - destruct (int_of_Z 1 eq_refl) as [F R]. change (@f1 NumF) with (d_of_Z 1). split; [exact F|]. rewrite R. lra.
    - destruct ten_exact as [F R]. change (@flit NumF 10 1) with (d_lit 10 1). split; [exact F|]. rewrite R. lra. }
  destruct M as [FM [M0 M1]].
  assert (A : (0 <= B2R x * B2R mult <= B2R peak)%R) by (split; nra).
  assert (Rr : (0 <= rnd (B2R x * B2R mult) <= B2R peak)%R).
  { split.
    - apply round_ge_generic; [apply fx_valid|apply valid_rnd_N|apply generic_format_0|apply A].
    - apply round_le_generic; [apply fx_valid|apply valid_rnd_N|apply generic_format_B2R|apply A]. }
  pose proof (Bmult_correct 53 1024 prec_pos prec_emax mode_NE x mult) as B. change (round_mode mode_NE) with ZnearestE in B.
  rewrite Rlt_bool_true in B.
  - destruct B as (B1 & B2 & _). unfold dmul. rewrite B1, B2, FX, FM. split; [reflexivity|exact Rr].
  - rewrite Rabs_pos_eq by apply Rr. eapply Rle_lt_trans; [apply Rr|]. eapply Rle_lt_trans; [apply Rle_abs|]. apply abs_B2R_lt_emax.
Qed.

Section Ends.
  Variable p : @problem NumF.
  Variable c : @config NumF.
  Variable d : nat -> nat -> Z.
  Variable q : nat -> Z.
  Variable cap : Z.
  Hypothesis II : integral_instance p c d q cap.
  Hypothesis DR : drawable p.
  Hypothesis EF : elite_fits p c.
  Variable peak : dbl.
  Hypothesis MO : FloatSearch.moderate p d q cap peak.
  Notation dim := (p_dim p).

  Lemma lower_moderate (x : dbl) : is_finite x = true -> (0 <= B2R x <= B2R peak)%R -> FloatSearch.moderate p d q cap x.
  Proof.
    intros FX X. destruct MO as [M1 M2 M3 M4 (top & M5 & M6)]. constructor; auto; [split; [exact FX|apply X]|].
    exists top. split; [exact M5|]. eapply Rle_trans; [|exact M6]. apply Rplus_le_compat_l. apply Rmult_le_compat_r; [|apply X]. apply IZR_le. lia.
  Qed.

  (** No solution costs more than this. *)
  Definition cost_top : R := (INR (c_num_vehicles c) * ((1 + B2R peak) * IZR exact_bound))%R.

  Lemma cost_below (x : R) rs : (0 <= x <= B2R peak)%R -> serves_all_once dim rs -> length rs = c_num_vehicles c ->
    (true_cost d q cap x rs <= cost_top)%R.
  Proof.
    intros X S HL. unfold cost_top. rewrite <- HL. unfold true_cost. pose proof (serves_routes p rs S) as PR. clear S HL.
    induction rs as [|r rs IH]; [cbn; lra|]. cbn [map length]. rewrite S_INR.
    assert (IH' := IH (fun r' I => PR r' (or_intror I))). clear IH. unfold rsum in *. cbn [fold_right] in *.
    assert (P : proper p r) by (apply PR; now left).
    pose proof (proper_tour p c d q cap II r P) as T. pose proof (proper_load p c d q cap II r P) as LD. pose proof (ii_load _ _ _ _ _ II) as LB.
    destruct (ig_cap _ _ _ _ (ii_data _ _ _ _ _ II)) as [_ CB].
    assert (C : (true_route_cost d q cap x r <= (1 + B2R peak) * IZR exact_bound)%R).
    { unfold true_route_cost. assert (A : (IZR (ztour d r) <= IZR exact_bound)%R) by (apply IZR_le; lia).
      assert (B0 : (0 <= IZR (Z.max 0 (zload q r - cap)))%R) by (apply IZR_le; lia).
      assert (B : (IZR (Z.max 0 (zload q r - cap)) <= IZR exact_bound)%R) by (apply IZR_le; unfold exact_bound in *; lia).
      assert (x * IZR (Z.max 0 (zload q r - cap)) <= B2R peak * IZR exact_bound)%R by (apply Rmult_le_compat; lra). lra. }
    lra.
  Qed.

  Variable B last : nat.
  Hypothesis D3 : (3 <= dim)%nat.
  Variable L : lib.
  Hypothesis LOK : lib_ok L.
  Variable E : @env NumF.
  Hypothesis TU : time_up c E last.
  Variable log_interval : nat.
  Variable max_distance : option (@F NumF).
  Variable fuel : nat.
  Definition rr_topF : nat := @fround NumF (@fmul NumF (c_rr_gamma c) (@fnat NumF (dim - 1))).
  Hypothesis F1 : (rr_topF <= fuel)%nat.
  Hypothesis F2 : (B <= fuel)%nat.
  Hypothesis F3 : (last < fuel)%nat.
  Hypothesis F4 : (cost_top < INR fuel * sure_gain)%R.
  Notation reached := (@ga_reached NumF L p c E log_interval max_distance fuel).
  Notation good := (exactF p d q cap).

  (** The local search is called with the penalty of the state, or ten times that. *)
  Definition calm (x : @F NumF) : Prop := (10 * B2R (x : dbl) <= B2R peak)%R.
  Definition nothing (_ : option (@individual NumF)) (_ : @history NumF) : Prop := True.

  Lemma calm_search (short : Prop) (mult : @F NumF) g w pen0 : base L p c good heldF nothing g w -> calm (w_pen w) ->
    mult = @f1 NumF \/ mult = @flit NumF 10 1 -> child_at p c pen0 (ga_child g) -> fine p c good heldF ->
    run_ls p c fuel mult g w = Err EFuel -> short.
  Proof.
    intros [A1 A2 A3 A4 A5 A6 [PF [P0 _]] A8 A9 A10] CA MU (SV & HL & _) _ HE. exfalso.
    destruct (times_mult (w_pen w) mult peak PF P0 (proj1 (mo_pen _ _ _ _ _ MO)) CA MU) as [FM RM].
    unfold run_ls in HE.
    destruct (ls_terminatesF p c d q cap (dmul (w_pen w) mult) II (lower_moderate _ FM RM) DR fuel (w_pen w) (ga_ls g) (ga_child g) (w_rng w) A1 HL SV)
      as (s' & i' & r' & E1 & _).
    { eapply Rle_lt_trans; [apply (cost_below _ _ RM SV HL)|exact F4]. }
    change (@fmul NumF (w_pen w) mult) with (dmul (w_pen w) mult) in HE. rewrite E1 in HE. cbn [rbind] in HE. discriminate HE.
  Qed.

  Lemma child_made (short : Prop) (g : @ga NumF) one two r : finished p one -> finished p two -> varied dim B (rdraw r) ->
    make_child fuel g one two r = Err EFuel -> short.
  Proof.
    intros (S1 & G1 & _) (S2 & G2 & _) LV HE. exfalso.
    assert (N1 : NoDup (i_geno one)) by (rewrite G1; apply (Permutation_NoDup (Permutation_sym S1)), seq_NoDup).
    assert (L1 : length (i_geno one) = (dim - 1)%nat) by (rewrite G1, (Permutation_length S1), seq_length; reflexivity).
    destruct (LV (dim - 1)%nat ltac:(lia) (rpos r)) as (j & J1 & J2).
    destruct (crossover_ends (i_geno one) (i_geno two) r (j - rpos r - 1) fuel) as (ch & r' & EC & _).
    - rewrite L1. lia.
    - exact N1.
    - rewrite G1, G2, S1, S2. reflexivity.
    - rewrite L1. rewrite Nat.add_0_r. replace (rpos r + (1 + (j - rpos r - 1)))%nat with j by lia. exact J2.
    - lia.
    - unfold make_child in HE. rewrite EC in HE. cbn [rbind] in HE. discriminate HE.
  Qed.

  (** The penalty leaves its bounds somewhere in the run, other than in elite education. *)
  Definition excess (w0 : @world NumF) : Prop := exists g w, reached w0 g w /\
    ga_st g <> EliteEducation /\ ga_st g <> Terminated /\ (B2R peak < 10 * B2R (w_pen w : dbl))%R.
  Notation invE w0 := (inv L p c good usualF heldF nothing (levelF p c) (excess w0) rr_topF).

  Lemma step_calm w0 g w : reached w0 g w -> invE w0 g w -> varied dim B (rdraw (w_rng w)) ->
    safe p c good heldF (excess w0) (ga_iterate L p c E log_interval max_distance fuel g w) (fun gw => invE w0 (fst gw) (snd gw)).
  Proof.
    intros R IV LV. pose proof II as [O1 O2 [O3 O3'] O4 O5 O6 O7 O8].
    assert (BE : @reals_below_one NumF p) by (apply below_F; auto; pose proof (dim_small p c d q cap II); lia).
    assert (ZL : @approx_lt NumF (@f0 NumF) (@f0 NumF) = false) by exact (int_approx_lt _ _ _ _ int_zero int_zero eq_refl).
    assert (ST : forall tame : @F NumF -> Prop,
      (forall (mult : @F NumF) g w pen0, base L p c good heldF nothing g w -> tame (w_pen w) ->
         mult = @f1 NumF \/ mult = @flit NumF 10 1 -> child_at p c pen0 (ga_child g) -> fine p c good heldF ->
         run_ls p c fuel mult g w = Err EFuel -> excess w0) ->
      (ga_st g <> EliteEducation -> ga_st g <> Terminated -> usualF (w_pen w) -> tame (w_pen w)) ->
      safe p c good heldF (excess w0) (ga_iterate L p c E log_interval max_distance fuel g w) (fun gw => invE w0 (fst gw) (snd gw))).
    { intros tame SL TM. eapply safe_weaken; [exact (iterate_tame L LOK p c E log_interval max_distance fuel good (exactF_remove p c d q cap II) (exactF_add p c d q cap II)
        (exactF_eval p c d q cap II) BE O2 O3 ZL O8 O3' usualF heldF (usual_initialF max_distance) usual_clampF usual_held (split_fitsF p c d q cap II)
        nothing (fun _ _ _ _ _ _ _ _ _ => I) True (c_elite_education c = true) (fun _ => I) (fun _ => I) (fun X => X)
        (levelF p c) (level_startF p c EF) (fun _ => level_heldF p c) (fun _ => level_stepF p c)
        (fun _ _ _ _ _ _ _ _ _ _ _ => I) (excess w0) rr_topF (or_intror (le_n _)) (fun X => False_ind _ (proj1 (Nat.le_ngt _ _) F1 X))
        tame SL (varied dim B) (child_made (excess w0)) g w IV TM LV)|].
      intros gw X. exact (proj1 X). }
    destruct (Rle_dec (10 * B2R (w_pen w : dbl)) (B2R peak)) as [CA|NC].
    - apply (ST calm (calm_search (excess w0))). intros _ _ _. exact CA.
    - assert (SD : ga_st g = EliteEducation \/ ga_st g = Terminated \/ (ga_st g <> EliteEducation /\ ga_st g <> Terminated)).
      { destruct (ga_st g); auto; right; right; split; discriminate. }
      destruct SD as [S|[S|[S1 S2]]].
      + apply (ST calm (calm_search (excess w0))). intros X. contradiction.
      + apply (ST calm (calm_search (excess w0))). intros _ X. contradiction.
      + apply (ST (fun _ => True)); [|auto]. intros. exists g, w. repeat split; auto. lra.
  Qed.

  Lemma reached_calm w0 g w : set_up p max_distance w0 -> varied dim B (rdraw (w_rng w0)) -> reached w0 g w -> invE w0 g w.
  Proof.
    intros ((dm & _ & HP) & _) LV. pose proof II as [O1 O2 [O3 O3'] O4 O5 O6 O7 O8].
    induction 1 as [corr lh rh g w NB RO G|g w i g' w' R IH ST S1 S2 (e & S3) S4 G|g w g' w' R IH G].
    - refine (proj1 (new_inv L p c good usualF heldF usual_held nothing (levelF p c) (excess w0) rr_topF (or_intror (le_n _)) corr lh rh w0 g w NB RO _ I G)).
      rewrite HP. apply usual_initialF.
    - assert (EV : evaluated p (w_pen w) i).
      { split; [exact S1|]. split; [exact S2|]. exists e. rewrite evaluate_eq in S3; [congruence| |lia].
        intros n Hn. eapply Permutation_in in Hn; [|exact S1]. apply in_seq in Hn. lia. }
      pose proof (initial_safe L LOK p c good O2 O3 O8 O3' usualF heldF nothing (fun _ _ _ _ _ _ _ _ _ => I) (levelF p c) (excess w0) rr_topF g w i IH ST EV S4) as X.
      rewrite G in X. exact (proj1 X).
    - pose proof (step_calm w0 g w R IH) as X. rewrite G in X. apply X. apply reached_flows in R. rewrite R. exact LV.
  Qed.

  Hypothesis HC : Z.of_nat (c_num_diversity_closest c) < 2 ^ 1000.
  Hypothesis WO : workable c.

  Lemma iterate_calm w0 g w : set_up p max_distance w0 -> varied dim B (rdraw (w_rng w0)) -> reached w0 g w ->
    (exists g' w', ga_iterate L p c E log_interval max_distance fuel g w = Ok (g', w')) \/ excess w0.
  Proof.
    intros SU LV R. pose proof (reached_calm w0 g w SU LV R) as IV. destruct WO as (W1 & W2 & W3 & W4).
    pose proof (fineF p c d q cap II DR HC (Build_sizes _ c W1 W2 W3 W4)) as FI.
    pose proof (step_calm w0 g w R IV) as X. apply reached_flows in R. rewrite R in X. specialize (X LV).
    destruct (ga_iterate L p c E log_interval max_distance fuel g w) as [[g' w']|e]; [left; eauto|right; exact (proj2 (X FI))].
  Qed.

  Lemma run_calm w0 : set_up p max_distance w0 -> varied dim B (rdraw (w_rng w0)) -> forall k g w, reached w0 g w ->
    ga_terminated g = true \/ (1 <= k /\ last + 1 <= k + w_clock w)%nat ->
    (exists g' w', solver_run L p c E log_interval max_distance fuel k g w = Ok (g', w') /\ ga_terminated g' = true) \/ excess w0.
  Proof.
    intros SU LV. induction k as [|k IH]; intros g w R HK; cbn [solver_run]; destruct (ga_terminated g) eqn:ET; eauto 6.
    - destruct HK as [X|[X _]]; [discriminate X|lia].
    - destruct HK as [X|[X Y]]; [discriminate X|].
      destruct (iterate_calm w0 g w SU LV R) as [(g1 & w1 & EI)|EX]; [|now right]. rewrite EI. cbn [rbind].
      apply IH; [eapply gr_iterate; eauto|].
      pose proof (iterate_later _ _ _ _ _ _ _ _ _ _ _ EI) as LT.
      destruct (le_lt_dec last (w_clock w)) as [LE|GT]; [|right; lia].
      left. unfold ga_iterate in EI. unfold terminate, now in EI.
      assert (X' : (c_time_limit c <=? ffloor (e_clock E (w_clock w)) = true)%nat) by (apply Nat.leb_le; now apply TU).
      rewrite X' in EI. cbn [set_st ga_st] in EI. injection EI as <- _. reflexivity.
  Qed.
End Ends.
