(** From the files to the state the solver starts in, in double precision. *)
From Coq Require Import Ascii String List Arith NArith ZArith Bool Lia Reals Lra Psatz Permutation Sorted.
From Flocq Require Import Core BinarySingleNaN.
From Verif.Model Require Import Num NumFloat Prelude Evaluate Individual Config Crossover Split Matrix Population
  LocalSearch World Schedule RuinRecreate Genetic Text Parser ConfigFile Main.
From Verif.Spec Require Import Solution Library Floats LocalSearch RuinRecreate Genetic Decomposition Instance ConfigFile Program FloatProgram.
From Verif.Proofs Require Import Lists EvalFacts FloatFacts FloatPenalty FloatRun MatrixFacts ProgramFacts DgaInst.
From Verif.Properties Require Import P_Genetic.
Import ListNotations.
Open Scope Z_scope.

Local Notation fx := (SpecFloat.fexp 53 1024).
Local Notation rnd := (round radix2 fx ZnearestE).
Local Existing Instance fx_valid.

(** ** Rounding to integers *)
Lemma nearest_A x z : nearest x z -> (0 <= x)%R -> ZnearestA x = z.
Proof.
  intros [L U] HX. destruct (Req_dec x (IZR z - / 2)) as [E|NE].
  - subst x. unfold Znearest.
    assert (FL : Zfloor (IZR z - / 2) = z - 1) by (apply Zfloor_imp; rewrite minus_IZR; split; [lra|]; rewrite plus_IZR, minus_IZR; lra).
    rewrite FL, minus_IZR. rewrite Rcompare_Eq by lra.
    assert (CE : Zceil (IZR z - / 2) = z) by (apply Zceil_imp; rewrite minus_IZR; split; lra). rewrite CE.
    destruct (Z.leb_spec 0 (z - 1)); [reflexivity|]. assert (z <= 0) by lia. apply IZR_le in H0. lra.
  - apply Znearest_imp. apply Rabs_lt. lra.
Qed.
Lemma round_nearest (x : dbl) z : is_finite x = true -> (0 <= B2R x)%R -> nearest (B2R x) z -> is_int (d_round x) z.
Proof.
  intros FX HX N. destruct (Bnearbyint_correct 53 1024 prec_emax mode_NA x) as (A & B & _).
  split; [unfold d_round; now rewrite B|]. unfold d_round. rewrite A. change (round_mode mode_NA) with ZnearestA.
  rewrite round_FIX_IZR. now rewrite (nearest_A _ z).
Qed.
Lemma nearest_int z : nearest (IZR z) z.
Proof. unfold nearest. lra. Qed.
Lemma nearest_nonneg x z : nearest x z -> (0 <= x)%R -> 0 <= z.
Proof. intros [_ U] H. apply Z.lt_succ_r, lt_IZR. rewrite succ_IZR. lra. Qed.

Lemma half_format z : Z.abs z < exact_bound -> generic_format radix2 fx (IZR z / 2).
Proof.
  intro H. change fx with (FLT_exp (3 - 1024 - 53) 53). apply generic_format_FLT.
  exists (Float radix2 z (-1)); [unfold F2R; cbn; lra|exact H|cbn; lia].
Qed.

(** The square root of a number below 2^47 is not rounded past the middle between two integers. *)
Lemma sqrt_nearest (x : dbl) n z : is_int x n -> 0 <= n <= 2 ^ 47 -> nearest (R_sqrt.sqrt (IZR n)) z -> is_int (d_round (d_sqrt x)) z.
Proof.
  intros [FX RX] HN NR. assert (N0 : (0 <= IZR n)%R) by (apply IZR_le; lia).
  pose proof (sqrt_pos (IZR n)) as S0. pose proof (sqrt_sqrt _ N0) as S2. pose proof (nearest_nonneg _ _ NR S0) as Z0.
  destruct NR as [NL NU]. set (s := R_sqrt.sqrt (IZR n)) in *.
  assert (P1 : 4 * n < (2 * z + 1) * (2 * z + 1)).
  { apply lt_IZR. rewrite !mult_IZR, plus_IZR, mult_IZR. assert (0 <= IZR z)%R by now apply IZR_le. nra. }
  assert (P2 : z < 2 ^ 24).
  { destruct (Z.eq_dec z 0) as [->|NZ]; [reflexivity|]. assert (1 <= IZR z)%R by (apply IZR_le; lia).
    assert (Q : (2 * z - 1) * (2 * z - 1) <= 4 * n).
    { apply le_IZR. rewrite !mult_IZR, minus_IZR, mult_IZR. nra. }
    destruct (Z_lt_le_dec z (2 ^ 24)); auto. nia. }
  destruct (Bsqrt_correct 53 1024 prec_pos prec_emax mode_NE x) as (A & B & _). change (round_mode mode_NE) with ZnearestE in A.
  rewrite RX in A. fold s in A.
  assert (FS : is_finite (d_sqrt x) = true).
  { unfold d_sqrt. rewrite B. destruct x as [b|b| |[] m e H]; try discriminate FX; auto. exfalso. cbn [B2R] in RX.
    assert (F2R (beta := radix2) {| Fnum := SpecFloat.cond_Zopp true (Z.pos m); Fexp := e |} < 0)%R by (apply F2R_lt_0; reflexivity). lra. }
  assert (RL : (IZR z - / 2 <= rnd s)%R).
  { apply round_ge_generic; [apply fx_valid|apply valid_rnd_N| |exact NL].
    replace (IZR z - / 2)%R with (IZR (2 * z - 1) / 2)%R by (rewrite minus_IZR, mult_IZR; lra). apply half_format. unfold exact_bound. lia. }
  assert (RU : (rnd s < IZR z + / 2)%R).
  { set (g := (IZR z + / 2 - bpow radix2 (-27))%R).
    assert (B27 : bpow radix2 (-27) = (/ 134217728)%R) by reflexivity.
    apply Rle_lt_trans with g; [|unfold g; rewrite B27; lra].
    apply round_le_generic; [apply fx_valid|apply valid_rnd_N| |].
    - replace g with (F2R (beta := radix2) (Float radix2 (z * 2 ^ 27 + 2 ^ 26 - 1) (-27))).
      + change fx with (FLT_exp (3 - 1024 - 53) 53). apply generic_format_FLT.
        eexists; [reflexivity| |cbn; lia]. cbn [Fnum]. change (radix2 ^ 53) with exact_bound. unfold exact_bound. lia.
      + unfold F2R, g. cbn [Fnum Fexp]. rewrite B27, minus_IZR, plus_IZR, mult_IZR. change (2 ^ 27) with 134217728. change (2 ^ 26) with 67108864. lra.
    - assert (G : (0 <= g)%R) by (unfold g; rewrite B27; assert (0 <= IZR z)%R by (now apply IZR_le); lra).
      apply Rsqr_incr_0_var; [|exact G]. unfold Rsqr. rewrite S2.
      assert (I1 : (IZR n <= IZR z * IZR z + IZR z)%R).
      { rewrite <- mult_IZR, <- plus_IZR. apply IZR_le. lia. }
      assert (I2 : (IZR z <= 16777215)%R) by (apply IZR_le; lia).
      apply Rle_trans with (1 := I1). unfold g. rewrite B27. assert (0 <= IZR z)%R by (now apply IZR_le). nra. }
  apply round_nearest; auto; unfold d_sqrt; rewrite A; [|split; assumption].
  apply round_ge_generic; [apply fx_valid|apply valid_rnd_N|apply generic_format_0|exact S0].
Qed.

(** Euclidean distances between points with integral coordinates. *)
Lemma euclid_nearest (x1 y1 x2 y2 : dbl) a1 b1 a2 b2 z : is_int x1 a1 -> is_int y1 b1 -> is_int x2 a2 -> is_int y2 b2 ->
  Z.abs a1 <= 2 ^ 22 -> Z.abs b1 <= 2 ^ 22 -> Z.abs a2 <= 2 ^ 22 -> Z.abs b2 <= 2 ^ 22 ->
  nearest (R_sqrt.sqrt ((IZR a2 - IZR a1) ^ 2 + (IZR b2 - IZR b1) ^ 2)) z ->
  is_int (d_round (@euclidian NumF d_sqrt (x1, y1) (x2, y2))) z.
Proof.
  intros X1 Y1 X2 Y2 A1 B1 A2 B2 NR. unfold euclidian. cbn [fst snd].
  change (@fadd NumF) with dadd. change (@fmul NumF) with dmul. change (@fsub NumF) with dsub.
  assert (EB : exact_bound = 2 ^ 53) by reflexivity.
  assert (SQ : forall u : Z, Z.abs u <= 2 ^ 23 -> 0 <= u * u <= 2 ^ 46).
  { intros u HU. split; [nia|]. replace (u * u) with (Z.abs u * Z.abs u) by (rewrite <- Z.abs_mul; apply Z.abs_eq; nia).
    change (2 ^ 46) with (2 ^ 23 * 2 ^ 23). apply Z.mul_le_mono_nonneg; lia. }
  assert (D1 : Z.abs (a2 - a1) <= 2 ^ 23) by lia. assert (D2 : Z.abs (b2 - b1) <= 2 ^ 23) by lia.
  pose proof (SQ _ D1) as Q1. pose proof (SQ _ D2) as Q2.
  assert (I1 : is_int (dsub x2 x1) (a2 - a1)) by (apply int_sub; auto; lia).
  assert (I2 : is_int (dsub y2 y1) (b2 - b1)) by (apply int_sub; auto; lia).
  assert (I3 : is_int (dadd (dmul (dsub x2 x1) (dsub x2 x1)) (dmul (dsub y2 y1) (dsub y2 y1)))
    ((a2 - a1) * (a2 - a1) + (b2 - b1) * (b2 - b1))).
  { apply int_add; [apply int_mul; auto; lia|apply int_mul; auto; lia|lia]. }
  revert I3. generalize (dadd (dmul (dsub x2 x1) (dsub x2 x1)) (dmul (dsub y2 y1) (dsub y2 y1))). intros s I3.
  apply (sqrt_nearest s _ z I3); [change (2 ^ 47) with (2 ^ 46 + 2 ^ 46); lia|].
  rewrite plus_IZR, !mult_IZR, !minus_IZR.
  replace ((IZR a2 - IZR a1) * (IZR a2 - IZR a1) + (IZR b2 - IZR b1) * (IZR b2 - IZR b1))%R
    with ((IZR a2 - IZR a1) ^ 2 + (IZR b2 - IZR b1) ^ 2)%R by ring. exact NR.
Qed.

(** ** The number of vehicles *)
Lemma u64_ceil (x : dbl) : is_finite x = true -> d_to_u64 (@Bnearbyint 53 1024 prec_emax mode_UP x) = Z.to_nat (Z.min (2 ^ 64 - 1) (Zceil (B2R x))).
Proof.
  intros FX. destruct (Bnearbyint_correct 53 1024 prec_emax mode_UP x) as (A & B & _).
  set (y := Bnearbyint mode_UP x) in *. rewrite FX in B. change (round_mode mode_UP) with Zceil in A. rewrite round_FIX_IZR in A.
  assert (T : Btrunc y = Zceil (B2R x)).
  { apply eq_IZR. rewrite (Btrunc_correct 53 1024 prec_emax), round_FIX_IZR, A. f_equal. apply Ztrunc_IZR. }
  rewrite <- T. unfold d_to_u64. destruct y; try discriminate; reflexivity.
Qed.
Lemma u64_int (x : dbl) z : is_int x z -> 0 <= z < exact_bound -> @fround NumF x = Z.to_nat z.
Proof.
  intros [FX RX] HZ. change (@fround NumF x) with (d_to_u64 (d_round x)).
  assert (I : is_int (d_round x) z) by (apply round_nearest; rewrite ?RX; auto using nearest_int; apply IZR_le; lia).
  destruct I as [FY RY]. set (y := d_round x) in *. clearbody y.
  assert (T : Btrunc y = z).
  { apply eq_IZR. rewrite (Btrunc_correct 53 1024 prec_emax), round_FIX_IZR, RY. f_equal. apply Ztrunc_IZR. }
  assert (M : Z.min (2 ^ 64 - 1) z = z) by (unfold exact_bound in HZ; lia).
  unfold d_to_u64. destruct y; try discriminate; rewrite T, M; reflexivity.
Qed.

Lemma fleet_F (p : @problem NumF) (t : dbl) T cap : @total_demand NumF p = t -> is_int t T -> 0 <= T < exact_bound ->
  is_int (p_cap p) cap -> 1 <= cap < exact_bound ->
  (1 <= @initial_num_vehicles NumF p)%nat /\ (@vehicle_lower_bound NumF p <= @initial_num_vehicles NumF p)%nat.
Proof.
  intros ET [FT RT] HT [FC RC] HC. unfold initial_num_vehicles, vehicle_lower_bound. rewrite ET. clear ET.
  change (@fdiv NumF) with ddiv.
  assert (C1 : (1 <= IZR cap)%R) by (apply IZR_le; lia). assert (T0 : (0 <= IZR T)%R) by (apply IZR_le; lia).
  assert (DV : is_finite (ddiv t (p_cap p)) = true /\ (0 <= B2R (ddiv t (p_cap p)) <= IZR T)%R).
  { pose proof (Bdiv_correct 53 1024 prec_pos prec_emax mode_NE t (p_cap p)) as B. change (round_mode mode_NE) with ZnearestE in B.
    rewrite RT, RC in B. specialize (B ltac:(lra)).
    assert (Q : (0 <= IZR T / IZR cap <= IZR T)%R).
    { split; [apply Rmult_le_pos; [exact T0|apply Rlt_le, Rinv_0_lt_compat; lra]|].
      apply Rmult_le_reg_r with (IZR cap); [lra|]. unfold Rdiv. rewrite Rmult_assoc, Rinv_l by lra. nra. }
    assert (R : (0 <= rnd (IZR T / IZR cap) <= IZR T)%R).
    { split; [apply round_ge_generic; [apply fx_valid|apply valid_rnd_N|apply generic_format_0|apply Q]|].
      apply round_le_generic; [apply fx_valid|apply valid_rnd_N|apply int_format; lia|apply Q]. }
    rewrite Rlt_bool_true in B.
    - destruct B as (B1 & B2 & _). unfold ddiv. rewrite B1, B2. split; [exact FT|exact R].
    - rewrite Rabs_pos_eq by apply R. apply Rle_lt_trans with (IZR T); [apply R|].
      apply Rlt_trans with (IZR exact_bound); [apply IZR_lt; lia|]. change exact_bound with (Zpower radix2 53). rewrite IZR_Zpower by lia. apply bpow_lt. lia. }
  destruct DV as [F1 R1]. set (v := ddiv t (p_cap p)) in *. clearbody v.
  change (@fceil NumF v) with (d_to_u64 (@Bnearbyint 53 1024 prec_emax mode_UP v)). rewrite (u64_ceil v F1).
  set (k := Zceil (B2R v)).
  assert (K : 0 <= k <= T).
  { split.
    - apply le_IZR. apply Rle_trans with (B2R v); [apply R1|apply Zceil_ub].
    - unfold k. rewrite <- (Zceil_IZR T). apply Zceil_le. apply R1. }
  rewrite Z.min_r by (unfold exact_bound in HT; lia). clearbody k.
  change (@fnat NumF (Z.to_nat k)) with (d_of_Z (Z.of_nat (Z.to_nat k))). rewrite Z2Nat.id by lia.
  destruct (int_of_Z k ltac:(lia)) as [FK RK]. set (m := d_of_Z k) in *. clearbody m.
  change (@flit NumF 6 5) with (d_lit 6 5). change (@flit NumF 2 1) with (d_lit 2 1). change (@fmul NumF) with dmul. change (@fadd NumF) with dadd.
  assert (K0 : (0 <= IZR k)%R) by (apply IZR_le; lia).
  assert (L1 : is_finite (d_lit 6 5) = true /\ (1 <= B2R (d_lit 6 5) <= 2)%R).
  { assert (E : B2SF (d_lit 6 5) = SpecFloat.S754_finite false 5404319552844595 (-52)) by (vm_compute; reflexivity).
    assert (V : B2R (d_lit 6 5) = (5404319552844595 * bpow radix2 (-52))%R) by (rewrite <- SF2R_B2SF, E; reflexivity).
    assert (FF : is_finite (d_lit 6 5) = true) by (vm_compute; reflexivity).
    split; [exact FF|]. rewrite V. change (bpow radix2 (-52)) with (/ 4503599627370496)%R. lra. }
  destruct L1 as [FL RL].
  assert (L2 : is_int (d_lit 2 1) 2).
  { assert (E : B2SF (d_lit 2 1) = SpecFloat.S754_finite false 4503599627370496 (-51)) by (vm_compute; reflexivity).
    assert (V : B2R (d_lit 2 1) = (4503599627370496 * bpow radix2 (-51))%R) by (rewrite <- SF2R_B2SF, E; reflexivity).
    assert (FF : is_finite (d_lit 2 1) = true) by (vm_compute; reflexivity).
    split; [exact FF|]. rewrite V. change (bpow radix2 (-51)) with (/ 2251799813685248)%R. lra. }
  destruct L2 as [F2 R2]. set (l := d_lit 6 5) in *. set (two := d_lit 2 1) in *. clearbody l two.
  assert (BIG : (IZR exact_bound * 4 < bpow radix2 1024)%R).
  { change exact_bound with (Zpower radix2 53). rewrite IZR_Zpower by lia. change 4%R with (bpow radix2 2). rewrite <- bpow_plus. apply bpow_lt. lia. }
  assert (KB : (IZR k < IZR exact_bound)%R) by (apply IZR_lt; lia).
  assert (EB1 : (1000 <= IZR exact_bound)%R) by (apply IZR_le; unfold exact_bound; lia).
  assert (M : is_finite (dmul l m) = true /\ (IZR k <= B2R (dmul l m) <= IZR exact_bound * 2)%R).
  { pose proof (Bmult_correct 53 1024 prec_pos prec_emax mode_NE l m) as B. change (round_mode mode_NE) with ZnearestE in B. rewrite RK in B.
    assert (R : (IZR k <= rnd (B2R l * IZR k) <= IZR exact_bound * 2)%R).
    { split; [apply round_ge_generic; [apply fx_valid|apply valid_rnd_N|apply int_format; lia|nra]|].
      apply round_le_generic; [apply fx_valid|apply valid_rnd_N| |nra].
      change exact_bound with (Zpower radix2 53). rewrite IZR_Zpower by lia. change 2%R with (bpow radix2 1). rewrite <- bpow_plus.
      apply generic_format_bpow. cbn. lia. }
    rewrite Rlt_bool_true in B by (rewrite Rabs_pos_eq; lra). destruct B as (B1 & B2 & _). unfold dmul. rewrite B1, B2, FL, FK. split; [reflexivity|exact R]. }
  destruct M as [FM RM]. set (mm := dmul l m) in *. clearbody mm.
  assert (A : is_finite (dadd mm two) = true /\ (Rmax 1 (IZR k) <= B2R (dadd mm two))%R).
  { pose proof (Bplus_correct 53 1024 prec_pos prec_emax mode_NE mm two FM F2) as B. change (round_mode mode_NE) with ZnearestE in B. rewrite R2 in B.
    assert (R : (Rmax 1 (IZR k) <= rnd (B2R mm + 2))%R).
    { apply Rmax_case.
      - apply round_ge_generic; [apply fx_valid|apply valid_rnd_N|apply (int_format 1); reflexivity|lra].
      - apply round_ge_generic; [apply fx_valid|apply valid_rnd_N|apply int_format; lia|lra]. }
    assert (R' : (rnd (B2R mm + 2) <= IZR exact_bound * 4)%R).
    { apply round_le_generic; [apply fx_valid|apply valid_rnd_N| |lra].
      change exact_bound with (Zpower radix2 53). rewrite IZR_Zpower by lia. change 4%R with (bpow radix2 2). rewrite <- bpow_plus.
      apply generic_format_bpow. cbn. lia. }
    pose proof (Rmax_l 1 (IZR k)).
    rewrite Rlt_bool_true in B by (rewrite Rabs_pos_eq; lra). destruct B as (B1 & B2 & _). unfold dadd. rewrite B1, B2. split; [reflexivity|exact R]. }
  destruct A as [FA RA]. change (@fceil NumF (dadd mm two)) with (d_to_u64 (@Bnearbyint 53 1024 prec_emax mode_UP (dadd mm two))).
  rewrite (u64_ceil _ FA). set (e := dadd mm two) in *. clearbody e.
  assert (Z1 : Z.max 1 k <= Zceil (B2R e)).
  { apply le_IZR. apply Rle_trans with (B2R e); [|apply Zceil_ub]. apply Rle_trans with (2 := RA).
    destruct (Z.max_spec 1 k) as [[_ ->]|[_ ->]]; [apply Rmax_r|apply Rmax_l]. }
  unfold exact_bound in *. lia.
Qed.

(** The formula for the Euclidean distance, each operation rounded. *)
Definition euclid_rounded (x1 y1 x2 y2 : R) : R :=
  rnd (R_sqrt.sqrt (rnd (rnd (rnd (x2 - x1) * rnd (x2 - x1)) + rnd (rnd (y2 - y1) * rnd (y2 - y1))))).
Lemma euclid_rounded_sym x1 y1 x2 y2 : euclid_rounded x1 y1 x2 y2 = euclid_rounded x2 y2 x1 y1.
Proof.
  unfold euclid_rounded. assert (S : forall u v, (rnd (u - v) = - rnd (v - u))%R).
  { intros u v. rewrite <- round_NE_opp. f_equal. ring. }
  rewrite (S x2 x1), (S y2 y1), !Rmult_opp_opp. reflexivity.
Qed.
Lemma round_le_pow x e : 0 <= e < 1024 -> (Rabs x <= bpow radix2 e)%R -> (Rabs (rnd x) <= bpow radix2 e)%R.
Proof.
  intros E H. apply abs_round_le_generic; [apply fx_valid|apply valid_rnd_N|apply generic_format_bpow; unfold SpecFloat.fexp, SpecFloat.emin; lia|exact H].
Qed.
Lemma round_below x e : 0 <= e < 1024 -> (Rabs x <= bpow radix2 e)%R -> Rlt_bool (Rabs (rnd x)) (bpow radix2 1024) = true.
Proof.
  intros E H. apply Rlt_bool_true. apply (round_le_pow x e E) in H. eapply Rle_lt_trans; [exact H|]. apply bpow_lt. lia.
Qed.
Definition moderate (x : dbl) : Prop := is_finite x = true /\ (Rabs (B2R x) <= bpow radix2 400)%R.
Lemma sub_value (x y : dbl) : moderate x -> moderate y ->
  is_finite (dsub x y) = true /\ B2R (dsub x y) = rnd (B2R x - B2R y) /\ (Rabs (B2R (dsub x y)) <= bpow radix2 401)%R.
Proof.
  intros [F1 B1] [F2 B2].
  assert (L : (Rabs (B2R x - B2R y) <= bpow radix2 401)%R).
  { eapply Rle_trans; [apply Rabs_triang|]. rewrite Rabs_Ropp. change 401 with (400 + 1). rewrite bpow_plus. change (bpow radix2 1) with 2%R. lra. }
  pose proof (Bminus_correct 53 1024 prec_pos prec_emax mode_NE x y F1 F2) as B. change (round_mode mode_NE) with ZnearestE in B.
  rewrite (round_below _ 401) in B by (auto; lia). destruct B as (B & FB & _). split; [exact FB|]. unfold dsub. rewrite B. split; [reflexivity|].
  apply round_le_pow; [lia|exact L].
Qed.
Lemma square_value (x : dbl) : is_finite x = true -> (Rabs (B2R x) <= bpow radix2 401)%R ->
  is_finite (dmul x x) = true /\ B2R (dmul x x) = rnd (B2R x * B2R x) /\ (0 <= B2R (dmul x x) <= bpow radix2 802)%R.
Proof.
  intros F L. assert (M : (0 <= B2R x * B2R x <= bpow radix2 802)%R).
  { split; [nra|]. rewrite <- (Rabs_pos_eq (B2R x * B2R x)) by nra. rewrite Rabs_mult. change 802 with (401 + 401). rewrite bpow_plus.
    apply Rmult_le_compat; auto using Rabs_pos. }
  pose proof (Bmult_correct 53 1024 prec_pos prec_emax mode_NE x x) as B. change (round_mode mode_NE) with ZnearestE in B.
  rewrite (round_below _ 802) in B by (try lia; rewrite Rabs_pos_eq; lra). destruct B as (B & FB & _). rewrite F in FB.
  split; [exact FB|]. unfold dmul. rewrite B. split; [reflexivity|]. apply round_within; [lia|exact M].
Qed.
Lemma euclid_value (x1 y1 x2 y2 : dbl) : moderate x1 -> moderate y1 -> moderate x2 -> moderate y2 ->
  is_finite (@euclidian NumF d_sqrt (x1, y1) (x2, y2)) = true /\
  B2R (@euclidian NumF d_sqrt (x1, y1) (x2, y2)) = euclid_rounded (B2R x1) (B2R y1) (B2R x2) (B2R y2) /\
  (0 <= B2R (@euclidian NumF d_sqrt (x1, y1) (x2, y2)))%R.
Proof.
  intros X1 Y1 X2 Y2. unfold euclidian. cbn [fst snd]. change (@fadd NumF) with dadd. change (@fmul NumF) with dmul. change (@fsub NumF) with dsub.
  destruct (sub_value x2 x1 X2 X1) as (DF & DR & DL), (sub_value y2 y1 Y2 Y1) as (EF & ER & EL).
  destruct (square_value _ DF DL) as (PF & PR & PL), (square_value _ EF EL) as (QF & QR & QL).
  set (p := dmul (dsub x2 x1) (dsub x2 x1)) in *. set (r := dmul (dsub y2 y1) (dsub y2 y1)) in *.
  destruct (add_within p r 802 (conj PF PL) (conj QF QL) ltac:(lia)) as (SF & SL).
  assert (SR : B2R (dadd p r) = rnd (B2R p + B2R r)).
  { pose proof (Bplus_correct 53 1024 prec_pos prec_emax mode_NE p r PF QF) as B. change (round_mode mode_NE) with ZnearestE in B.
    rewrite (round_below _ 803) in B; [exact (proj1 B)|lia|]. change 803 with (802 + 1). rewrite bpow_plus. change (bpow radix2 1) with 2%R.
    rewrite Rabs_pos_eq by lra. lra. }
  destruct (Bsqrt_correct 53 1024 prec_pos prec_emax mode_NE (dadd p r)) as (A & B & _). change (round_mode mode_NE) with ZnearestE in A.
  assert (FS : is_finite (d_sqrt (dadd p r)) = true).
  { unfold d_sqrt. rewrite B. destruct (dadd p r) as [b|b| |[] m e H]; try discriminate SF; auto. exfalso. cbn [B2R] in SL.
    assert (F2R (Float radix2 (cond_Zopp true (Z.pos m)) e) < 0)%R by (apply F2R_lt_0; reflexivity). lra. }
  split; [exact FS|]. unfold d_sqrt. rewrite A. split.
  - rewrite SR, PR, QR, DR, ER. reflexivity.
  - apply round_ge_generic; [apply fx_valid|apply valid_rnd_N|apply generic_format_0|apply sqrt_pos].
Qed.
Lemma euclid_same (c : dbl * dbl) : is_finite (fst c) = true -> is_finite (snd c) = true -> is_int (d_round (@euclidian NumF d_sqrt c c)) 0.
Proof.
  intros F1 F2. assert (Z : forall x : dbl, is_finite x = true -> is_int (dsub x x) 0).
  { intros x F. pose proof (Bminus_correct 53 1024 prec_pos prec_emax mode_NE x x F F) as B. change (round_mode mode_NE) with ZnearestE in B.
    rewrite Rminus_diag_eq, round_0, Rabs_R0, Rlt_bool_true in B by (try reflexivity; try apply bpow_gt_0; apply valid_rnd_N).
    destruct B as (B & FB & _). split; [exact FB|exact B]. }
  unfold euclidian. apply (sqrt_nearest _ 0); [|lia|rewrite sqrt_0; apply nearest_int].
  change 0 with (0 * 0 + 0 * 0). apply int_add; [apply int_mul; auto; reflexivity|apply int_mul; auto; reflexivity|reflexivity].
Qed.
Lemma round_value (x : dbl) z : is_int (d_round x) z -> z = ZnearestA (B2R x).
Proof.
  intros [_ H]. apply eq_IZR. rewrite <- H. unfold d_round. destruct (Bnearbyint_correct 53 1024 prec_emax mode_NA x) as (A & _).
  rewrite A. change (round_mode mode_NA) with ZnearestA. apply round_FIX_IZR.
Qed.

(** ** The matrices, the problem and the context *)
Open Scope nat_scope.
Section Start.
  Variable X : @outside NumF.
  Hypothesis FO : double_functions X.
  Variable i : @instance NumF.
  Variable d : nat -> nat -> Z.
  Variable q : nat -> Z.
  Variable cap : Z.
  Local Notation size := (length (in_nodes i)).
  Hypothesis NI : rounded_instance i d q cap.
  Hypothesis HW : forall w, in_weights i = Some w -> length w + 1 = size.

  Local Notation zero := (d_of_Z 0).
  Definition nodesF : list (@node NumF) := map (fun n => mkNode (fst n) (snd n)) (in_nodes i).
  Definition parsedF : @parsed NumF := @mkParsed NumF nodesF (in_cap i) (in_weights i).
  Lemma nodesF_size : length nodesF = size.
  Proof. apply map_length. Qed.
  Lemma nodesF_nth a : nth a nodesF (@mkNode NumF (zero, zero) zero) = @mkNode NumF (coord i a) (demand i a).
  Proof. unfold nodesF, coord, demand. change (@mkNode NumF (zero, zero) zero) with ((fun n : dbl * dbl * dbl => @mkNode NumF (fst n) (snd n)) (zero, zero, zero)). apply map_nth. Qed.
  Lemma coordF_nth a : nth a (map n_coord nodesF) (@f0 NumF, @f0 NumF) = coord i a.
  Proof.
    change (@f0 NumF, @f0 NumF) with (n_coord (@mkNode NumF (zero, zero) zero)).
    rewrite (map_nth n_coord), nodesF_nth. reflexivity.
  Qed.

  Lemma nan_isnan (x : dbl) : is_nan x = false -> @fisnan NumF x = false.
  Proof. unfold fisnan. change (@feqb NumF) with (@Beqb 53 1024). destruct x as [[]|[]| |[]]; intro H; try discriminate H; try reflexivity;
    unfold Beqb, SpecFloat.SFeqb; cbn [B2SF SpecFloat.SFcompare]; rewrite ?Z.compare_refl, ?Pos.compare_cont_refl; reflexivity. Qed.
  Lemma isnan_nan (x : dbl) : @fisnan NumF x = false -> is_nan x = false.
  Proof. destruct x; auto. Qed.
  Lemma sort_okF : @sort_contract NumF (x_sort X).
  Proof.
    intros l FA. apply (df_sort X FO l). eapply Forall_impl; [|exact FA]. intros a H. now apply isnan_nan.
  Qed.

  Lemma weightF w a b : in_weights i = Some w -> a < size -> b < size -> a <> b -> is_finite (weight w a b) = true /\ (0 <= B2R (weight w a b))%R.
  Proof.
    intros EW HA HB NE. destruct (ri_weights _ _ _ _ NI w EW) as [W1 W2]. pose proof (HW w EW).
    apply (W2 (nth (Nat.max a b - 1) w [])); [apply nth_In; lia|]. apply nth_In. rewrite W1; lia.
  Qed.
  Lemma computedF a b : a < size -> b < size -> a <> b ->
    is_finite (computed_distance i a b) = true /\ (0 <= B2R (computed_distance i a b))%R /\
    B2R (computed_distance i b a) = B2R (computed_distance i a b).
  Proof.
    intros HA HB NE. pose proof weightF as WF. unfold computed_distance. destruct (in_weights i) as [w|] eqn:EW.
    - destruct (WF w a b eq_refl HA HB NE). repeat split; auto. unfold weight. now rewrite (Nat.min_comm b a), (Nat.max_comm b a).
    - destruct (ri_coords _ _ _ _ NI EW a HA) as (A1 & A2 & A3 & A4), (ri_coords _ _ _ _ NI EW b HB) as (B1 & B2 & B3 & B4).
      destruct (euclid_value (fst (coord i a)) (snd (coord i a)) (fst (coord i b)) (snd (coord i b))) as (F1 & R1 & P1); [now split..|].
      destruct (euclid_value (fst (coord i b)) (snd (coord i b)) (fst (coord i a)) (snd (coord i a))) as (F2 & R2 & P2); [now split..|].
      unfold euclidian in *. cbn [fst snd] in *. split; [exact F1|]. split; [exact P1|].
      transitivity (euclid_rounded (B2R (fst (coord i b))) (B2R (snd (coord i b))) (B2R (fst (coord i a))) (B2R (snd (coord i a)))); [exact R2|].
      rewrite euclid_rounded_sym. symmetry. exact R1.
  Qed.
  Lemma top_small a b : (a < size) -> (b < size) -> (0 <= d a b < exact_bound)%Z.
  Proof.
    intros HA HB. pose proof (ri_nodes _ _ _ _ NI). destruct (ri_small _ _ _ _ NI) as (top & T1 & T2 & T3). specialize (T2 a b HA HB).
    pose proof (ri_dist _ _ _ _ NI a b HA HB) as ND. split; [|nia]. destruct (Nat.eqb a b) eqn:EB; [lia|]. apply Nat.eqb_neq in EB.
    destruct (computedF a b HA HB EB) as (_ & P & _). apply round_value in ND. rewrite ND.
    apply (Z.le_trans _ (Zfloor (B2R (computed_distance i a b)))); [now apply Zfloor_lub|apply Znearest_ge_floor].
  Qed.

  Lemma euclid_int a b : in_weights i = None -> a < size -> b < size -> is_int (d_round (@euclidian NumF d_sqrt (coord i a) (coord i b))) (d a b).
  Proof.
    intros EW HA HB. pose proof (ri_dist _ _ _ _ NI a b HA HB) as ND. destruct (Nat.eqb a b) eqn:EB.
    - apply Nat.eqb_eq in EB. subst b. rewrite ND. destruct (ri_coords _ _ _ _ NI EW a HA) as (A1 & _ & A3 & _). now apply euclid_same.
    - unfold computed_distance in ND. rewrite EW in ND. exact ND.
  Qed.
  Lemma dist_symZ a b : a < size -> b < size -> d a b = d b a.
  Proof.
    intros HA HB. pose proof (ri_dist _ _ _ _ NI a b HA HB) as N1. pose proof (ri_dist _ _ _ _ NI b a HB HA) as N2.
    rewrite (Nat.eqb_sym b a) in N2. destruct (Nat.eqb a b) eqn:EB; [congruence|]. apply Nat.eqb_neq in EB.
    apply round_value in N1, N2. rewrite N1, N2. now rewrite (proj2 (proj2 (computedF a b HA HB EB))).
  Qed.

  Lemma matrices_okF limit : exists dm cm,
    @provider_new NumF (x_sqrt X) (x_round X) (x_sort X) nodesF limit true (in_weights i) = Ok (dm, cm) /\
    (forall a b, a < size -> b < size -> exists v : @F NumF, dm_get (x_sqrt X) (x_round X) dm a b = Ok v /\ is_int v (d a b)) /\
    (forall (p : @problem NumF) c, p_dim p = size -> c_granularity c <= Nat.min 200 (size - 2) ->
       neighbours_ok p c (cm_store cm) /\ rows_ok p (cm_store cm)) /\
    (exists g, dfun (x_sqrt X) (x_round X) dm size g /\ no_nan g size) /\
    (forall p : @problem NumF, p_dim p = size -> rows_distinct p (cm_store cm)) /\
    m_cols (cm_store cm) = Nat.min 200 (size - 2).
  Proof.
    unfold provider_new. rewrite nodesF_size. pose proof (ri_nodes _ _ _ _ NI) as S2.
    destruct (size =? 0) eqn:E0; [apply Nat.eqb_eq in E0; lia|]. rewrite (df_sqrt X FO), (df_round X FO).
    set (pre := size - 1 <? limit).
    assert (D : exists dm g, @dm_build NumF d_sqrt d_round (map n_coord nodesF) pre true (in_weights i) = Ok dm /\
                @dfun NumF d_sqrt d_round dm size g /\ forall a b, a < size -> b < size -> is_int (g a b) (d a b)).
    { pose proof dist_symZ as DS. pose proof euclid_int as EI.
      assert (D0 : forall a, a < size -> d a a = 0%Z).
      { intros a HA. pose proof (ri_dist _ _ _ _ NI a a HA HA) as ND. rewrite Nat.eqb_refl in ND. exact ND. }
      destruct (in_weights i) as [w|] eqn:EW.
      - destruct (ri_weights _ _ _ _ NI w EW) as [W1 W2].
        destruct (build_dfun_input (N := NumF) d_sqrt d_round (map n_coord nodesF) pre true w) as (dm & E & _ & DF & _).
        { split; [rewrite map_length, nodesF_size; now apply HW|]. exact W1. }
        rewrite map_length, nodesF_size in DF. exists dm. eexists. split; [exact E|]. split; [exact DF|]. intros a b HA HB. cbv beta.
        pose proof (ri_dist _ _ _ _ NI a b HA HB) as ND.
        destruct (a =? b) eqn:EB; [rewrite ND; apply int_zero|].
        unfold computed_distance in ND. rewrite EW in ND. exact ND.
      - destruct pre.
        + destruct (build_dfun_pre (N := NumF) d_sqrt d_round (map n_coord nodesF) true) as (dm & E & _ & DF & _).
          rewrite map_length, nodesF_size in DF. exists dm. eexists. split; [exact E|]. split; [exact DF|]. intros a b HA HB. cbv beta.
          destruct (a =? b) eqn:EB; [apply Nat.eqb_eq in EB; subst b; rewrite (D0 a HA); apply int_zero|].
          unfold pre_dist, maybe_round. rewrite !coordF_nth.
          replace (d a b) with (d (Nat.min a b) (Nat.max a b)); [apply EI; auto; lia|].
          destruct (Nat.min_spec a b) as [[L1 ->]|[L1 ->]], (Nat.max_spec a b) as [[L2 ->]|[L2 ->]]; try lia; now apply DS.
        + destruct (build_dfun_lazy (N := NumF) d_sqrt d_round (map n_coord nodesF) true) as (dm & E & _ & DF & _).
          rewrite map_length, nodesF_size in DF. exists dm. eexists. split; [exact E|]. split; [exact DF|]. intros a b HA HB.
          unfold lazy_dist, maybe_round. rewrite !coordF_nth. now apply EI. }
    destruct D as (dm & g & E & DF & DG). rewrite E. cbn [rbind].
    assert (NN : @no_nan NumF g size).
    { intros a b HA HB. apply nan_isnan. eapply int_not_nan. now apply DG. }
    destruct (correlation_spec (N := NumF) (x_sort X) d_sqrt d_round dm size g DF sort_okF NN S2) as (cm & EC & _). rewrite EC. cbn [rbind].
    exists dm, cm. split; [reflexivity|].
    assert (CR : forall p : @problem NumF, p_dim p = size -> rows_distinct p (cm_store cm) /\ m_cols (cm_store cm) = Nat.min 200 (size - 2)).
    { intros p HP. rewrite <- HP in DF, S2, NN.
      destruct (correlation_rows p d_sqrt d_round (x_sort X) dm g sort_okF S2 DF NN) as (cm' & EC' & R1 & _ & R2 & _).
      rewrite EC in EC'. injection EC' as <-. split; [exact R1|]. now rewrite <- HP. }
    split; [|split; [|split; [exists g; split; [exact DF|exact NN]|split; [intros p HP; now apply CR|]]]].
    - intros a b HA HB. exists (g a b). split; [now apply (dfun_get _ _ dm size g)|now apply DG].
    - intros p c HP HG. rewrite <- HP in DF, HG, S2, NN.
      destruct (C01_matrix_applicable NumF p c d_sqrt d_round (x_sort X) dm g sort_okF S2 DF NN HG) as (cm' & EC' & R).
      rewrite EC in EC'. injection EC' as <-. exact R.
    - apply (CR (@mkProblem NumF size (fun _ _ => zero) (fun _ => zero) (fun _ => (zero, zero)) zero (fun _ => []) (fun _ _ => zero) (fun _ => zero) (fun _ => zero) (fun _ => 0%Z))).
      reflexivity.
  Qed.

  Variable f : @fields NumF.
  Hypothesis HC : configuration f.
  Hypothesis HR : has f (txt "round_distances") (VBool true).
  Hypothesis HG : exists z, has f (txt "local_search_granularity") (VInt z) /\ (1 <= z <= Z.of_nat (Nat.min 200 (size - 2)))%Z.

  Record startedF (x : @context NumF) : Prop := {
    sf_dim : p_dim (x_problem x) = size;
    sf_ok : integral_instance (x_problem x) (x_config x) d q cap;
    sf_set : set_up (x_problem x) (dm_max (x_dist x)) (x_world x);
    sf_near : neighbours_ok (x_problem x) (x_config x) (cm_store (x_corr x));
    sf_rows : rows_ok (x_problem x) (cm_store (x_corr x));
    sf_config : exists nv, config_of f nv = Ok (x_config x);
    sf_coord : forall a, p_coord (x_problem x) a = coord i a;
    sf_atan2 : o_atan2 (x_problem x) = x_atan2 X;
    sf_matrix : exists g, dfun (x_sqrt X) (x_round X) (x_dist x) size g /\ no_nan g size;
    sf_distinct : rows_distinct (x_problem x) (cm_store (x_corr x));
    sf_cols : m_cols (cm_store (x_corr x)) = Nat.min 200 (size - 2);
    sf_load : (zload q (seq 0 (p_dim (x_problem x))) < exact_bound)%Z
  }.

  Lemma zload_split l a : (forall n, In n l -> (0 <= q n)%Z) -> (0 <= q a)%Z -> (0 <= zload q l)%Z /\ (zload q l <= zload q (a :: l))%Z.
  Proof.
    intros H HA. assert (P : (0 <= zload q l)%Z).
    { unfold zload. induction l as [|b l IH]; cbn [map zsum]; [lia|]. pose proof (H b (or_introl eq_refl)).
      assert (0 <= zsum (map q l))%Z by (apply IH; intros; apply H; now right). lia. }
    split; [exact P|]. unfold zload in *. cbn [map zsum]. lia.
  Qed.

  Lemma context_okF :
    match context_new X parsedF f with
    | Ok x => startedF x
    | Err e => exists name, name <> txt "bks" /\ has f name (VFloat None)
    end.
  Proof.
    unfold context_new. destruct (bool_ok f HC "deterministic" eq_refl) as (det & ->). cbn [rbind].
    destruct (u64_ok f HC "seed" eq_refl) as (seed & ->). cbn [rbind].
    destruct (u64_ok f HC "precompute_distance_size_limit" eq_refl) as (limit & ->). cbn [rbind].
    rewrite (bool_has f HC "round_distances" true HR). cbn [rbind parsedF pa_nodes pa_matrix].
    destruct (matrices_okF limit) as (dm & cm & -> & DD & NB & MX & RD & MC). cbn [rbind].
    set (p := problem_of X parsedF dm).
    assert (FIN : forall name, declared (txt name) KF64 = true -> (exists x, get_f64 f name = Ok x) \/ (get_f64 f name = Err EPanic /\ has f (txt name) (VFloat None))).
    { intros name D. destruct (conf_has f HC _ _ D) as (v & E & HH & H). unfold get_f64. rewrite E. inversion H; subst; eauto.
      destruct x as [x|]; [left; eauto|right; split; [reflexivity|exact HH]]. }
    assert (PD : p_dim p = size) by exact nodesF_size.
    assert (PDI : forall a b, a < size -> b < size -> is_int (p_dist p a b) (d a b)).
    { intros a b HA HB. destruct (DD a b HA HB) as (v & E & EQ).
      assert (EP : p_dist p a b = v) by (change (p_dist p a b) with (match dm_get (x_sqrt X) (x_round X) dm a b with Ok v => v | Err _ => @f0 NumF end); rewrite E; reflexivity).
      rewrite EP. exact EQ. }
    assert (PDE : forall a, p_demand p a = demand i a).
    { intro a. change (p_demand p a) with (n_demand (nth a nodesF (@mkNode NumF (zero, zero) zero))). rewrite nodesF_nth. reflexivity. }
    assert (PC : p_cap p = in_cap i) by reflexivity.
    destruct (config_of f (initial_num_vehicles p)) as [c|e] eqn:EC; cbn [rbind].
    2: { unfold config_of in EC.
      repeat match type of EC with
      | rbind (get_u64 f ?n) _ = _ => destruct (u64_ok f HC n eq_refl) as (? & HX); rewrite HX in EC; clear HX; cbn [rbind] in EC
      | rbind (get_opt_u64 f ?n) _ = _ => destruct (opt_u64_ok f HC n eq_refl) as (? & HX); rewrite HX in EC; clear HX; cbn [rbind] in EC
      | rbind (get_bool f ?n) _ = _ => destruct (bool_ok f HC n eq_refl) as (? & HX); rewrite HX in EC; clear HX; cbn [rbind] in EC
      | rbind (get_f64 f ?n) _ = _ => destruct (FIN n eq_refl) as [(? & HX)|[_ HX]]; [rewrite HX in EC; clear HX; cbn [rbind] in EC|exists (txt n); split; [discriminate|exact HX]]
      end. discriminate EC. }
    destruct (FIN "penalty_capacity"%string eq_refl) as [(pen & EPEN)|[EPEN HX]]; rewrite EPEN; cbn [rbind]; [|exists (txt "penalty_capacity"); split; [discriminate|exact HX]].
    destruct (config_of_fields f _ c EC) as (CV & CG & _).
    destruct HG as (zg & HG' & BG). rewrite (u64_has f HC _ _ HG') in CG. injection CG as CG.
    pose proof (ri_nodes _ _ _ _ NI) as S2.
    assert (DEM : forall a, a < p_dim p -> is_int (p_demand p a) (q a) /\ (0 <= q a)%Z).
    { intros a HA. rewrite PDE. apply (ri_demand _ _ _ _ NI). now rewrite <- PD. }
    destruct (ri_cap _ _ _ _ NI) as [C1 C2].
    assert (IG : Floats.integral p d q cap).
    { constructor; [|exact DEM|split; [exact C1|lia]]. intros a b HA HB. rewrite PD in HA, HB. split; [now apply PDI|]. now apply top_small. }
    assert (IO : integral_instance p c d q cap).
    { constructor.
      - exact IG.
      - now rewrite PD.
      - rewrite CV. assert (LT : (0 <= zload q (seq 0 size) < exact_bound)%Z).
        { split; [|exact (ri_load _ _ _ _ NI)]. apply (FloatFacts.zload_nonneg p d q cap IG ltac:(lia)). intros n I. apply in_seq in I. rewrite PD. lia. }
        apply (fleet_F p (@gload NumF p (@f0 NumF) (seq 0 size)) (zload q (seq 0 size)) cap); auto.
        + unfold total_demand, gload. now rewrite PD.
        + change (zload q (seq 0 size)) with (0 + zload q (seq 0 size))%Z.
          apply (gload_int p d q cap IG ltac:(lia)); [apply int_zero|lia| |lia]. intros n I. apply in_seq in I. rewrite PD. lia.
      - pose proof (ri_dist _ _ _ _ NI 0 0 ltac:(lia) ltac:(lia)) as ND. exact ND.
      - rewrite PD. exact (ri_small _ _ _ _ NI).
      - rewrite PD. eapply Z.le_lt_trans; [|exact (ri_load _ _ _ _ NI)]. destruct size as [|n]; [lia|]. cbn [seq]. replace (S n - 1) with n by lia.
        apply zload_split; [|apply DEM; lia]. intros k I. apply in_seq in I. apply DEM. rewrite PD. lia.
      - intro x. exact (df_real X FO x).
      - rewrite <- CG. lia. }
    unfold reset_penalty. destruct (@max_demand NumF p) as [md|e] eqn:EM; cbn [rbind].
    2: { exfalso. unfold max_demand in EM. destruct (map (p_demand p) (seq 0 (p_dim p))) as [|x xs] eqn:EL; [discriminate EM|].
         assert (NN : existsb (@fisnan NumF) (x :: xs) = false).
         { apply not_true_is_false. intro HN. apply existsb_exists in HN as (y & HI & HY). rewrite <- EL in HI. apply in_map_iff in HI as (a & <- & HI).
           apply in_seq in HI. rewrite nan_isnan in HY; [discriminate HY|]. eapply int_not_nan. apply DEM. lia. }
         rewrite NN, andb_false_r in EM. discriminate EM. }
    destruct (NB p c PD) as [N1 N2]; [rewrite <- CG; lia|].
    constructor; auto.
    - split; [|split]; [exists md; split; [exact EM|reflexivity]| reflexivity|reflexivity].
    - exists (initial_num_vehicles p). exact EC.
    - intro a. transitivity (n_coord (nth a nodesF (@mkNode NumF (zero, zero) zero))); [reflexivity|]. rewrite nodesF_nth. reflexivity.
    - cbn [x_problem]. rewrite PD. exact (ri_load _ _ _ _ NI).
  Qed.
End Start.

(** Integral coordinates: the formula rounds to the integer nearest to the true distance. *)
Lemma integer_rounded (i : @instance NumF) d q cap : (forall w, in_weights i = Some w -> length w + 1 = length (in_nodes i)) ->
  integer_instance i d q cap -> rounded_instance i d q cap.
Proof.
  intros HW NI. constructor; try solve [apply NI].
  - intros EW a HA. destruct (ni_coords _ _ _ _ NI EW a HA) as (x & y & [X1 X2] & [Y1 Y2] & BX & BY).
    assert (B : forall z, (Z.abs z <= 2 ^ 22)%Z -> (Rabs (IZR z) <= bpow radix2 400)%R).
    { intros z H. rewrite <- abs_IZR. apply (Rle_trans _ (IZR (2 ^ 22))); [now apply IZR_le|].
      change (IZR (2 ^ 22)) with (bpow radix2 22). apply bpow_le. lia. }
    rewrite X2, Y2. auto.
  - intros a b HA HB. pose proof (ni_dist _ _ _ _ NI a b HA HB) as ND. destruct (Nat.eqb a b) eqn:EB; [exact ND|]. apply Nat.eqb_neq in EB.
    unfold computed_distance. unfold true_distance in ND. destruct (in_weights i) as [w|] eqn:EW.
    + destruct (ni_weights _ _ _ _ NI w EW) as [W1 W2]. pose proof (HW w eq_refl).
      destruct (W2 (nth (Nat.max a b - 1) w []) (weight w a b)) as [F1 F2]; [apply nth_In; lia|apply nth_In; rewrite W1; lia|].
      now apply round_nearest.
    + destruct (ni_coords _ _ _ _ NI EW a HA) as (x1 & y1 & X1 & Y1 & A1 & A2), (ni_coords _ _ _ _ NI EW b HB) as (x2 & y2 & X2 & Y2 & B1 & B2).
      apply (euclid_nearest _ _ _ _ x1 y1 x2 y2); auto.
      destruct X1 as [_ X1], X2 as [_ X2], Y1 as [_ Y1], Y2 as [_ Y2]. rewrite X1, X2, Y1, Y2 in ND. exact ND.
Qed.
