(** The penalty in double precision. *)
From Coq Require Import List Arith ZArith Reals Bool Lia Lra Psatz.
From Flocq Require Import Core BinarySingleNaN Relative.
From Verif.Model Require Import Num NumFloat.
From Verif.Proofs Require Import FloatFacts.
Open Scope Z_scope.

Local Notation fx := (SpecFloat.fexp 53 1024).
Local Notation rnd := (round radix2 fx ZnearestE).
Local Existing Instance fx_valid.

Notation dle := (@Bleb 53 1024).

Lemma dlt_le (a b : dbl) : dlt a b = true -> dle a b = true.
Proof.
  unfold dlt, Bltb, Bleb, SpecFloat.SFltb, SpecFloat.SFleb. destruct (SpecFloat.SFcompare _ _) as [[]|]; auto; discriminate.
Qed.
Lemma dlt_R (a b : dbl) : is_finite a = true -> is_finite b = true -> dlt a b = true <-> (B2R a < B2R b)%R.
Proof. intros A B. unfold dlt. rewrite Bltb_correct by auto. case Rlt_bool_spec; intuition (try discriminate; lra). Qed.
Lemma dle_R (a b : dbl) : is_finite a = true -> is_finite b = true -> dle a b = true <-> (B2R a <= B2R b)%R.
Proof. intros A B. rewrite Bleb_correct by auto. case Rle_bool_spec; intuition (try discriminate; lra). Qed.

Definition clamp (lo hi x : dbl) : dbl := dmax lo (dmin hi x).

Lemma clamp_cases lo hi x : is_nan lo = false -> is_nan hi = false -> dlt lo hi = true ->
  (clamp lo hi x = lo /\ dlt x hi = true /\ dlt lo x = false) \/
  (clamp lo hi x = hi /\ dlt x hi = false) \/
  (clamp lo hi x = x /\ dlt x hi = true /\ dlt lo x = true).
Proof.
  intros L H LH. unfold clamp, dmax, dmin. rewrite L, H. destruct (dlt x hi) eqn:E.
  - destruct (dlt lo x) eqn:E'; auto.
  - rewrite LH. auto.
Qed.

Section Range.
  Variables lo hi : dbl.
  Hypothesis lo_fin : is_finite lo = true.
  Hypothesis hi_fin : is_finite hi = true.
  Hypothesis lo_pos : (0 < B2R lo)%R.
  Hypothesis lo_hi : dlt lo hi = true.
  Hypothesis lo_normal : (bpow radix2 (-100) <= B2R lo)%R.

  Definition in_range (x : dbl) : Prop := dle lo x = true /\ dle x hi = true.

  Lemma finite_not_nan (x : dbl) : is_finite x = true -> is_nan x = false.
  Proof. destruct x; auto; discriminate. Qed.
  Lemma lo_hi_R : (B2R lo < B2R hi)%R.
  Proof. now apply dlt_R. Qed.

  Lemma clamp_range x : in_range (clamp lo hi x).
  Proof.
    pose proof lo_hi_R as LH.
    destruct (clamp_cases lo hi x (finite_not_nan _ lo_fin) (finite_not_nan _ hi_fin) lo_hi) as [[-> _]|[[-> _]|[-> [A B]]]].
    - split; apply dle_R; auto; lra.
    - split; apply dle_R; auto; lra.
    - split; now apply dlt_le.
  Qed.

  Lemma range_finite x : in_range x -> is_finite x = true.
  Proof.
    intros [A B]. destruct x as [s|s| |s m e H]; auto; exfalso.
    destruct s; unfold Bleb, SpecFloat.SFleb in *; cbn in *; [destruct lo as [|[]| |]|destruct hi as [|[]| |[]]]; discriminate.
  Qed.
  Lemma range_R x : in_range x -> (B2R lo <= B2R x <= B2R hi)%R.
  Proof. intro I. pose proof (range_finite x I) as FX. destruct I as [A B]. apply dle_R in A, B; auto. Qed.
  Lemma range_strict x : in_range x -> is_finite_strict x = true.
  Proof.
    intro I. pose proof (range_R x I) as [A _]. pose proof (range_finite x I) as FX. destruct x; auto; try discriminate. cbn in A. lra.
  Qed.

  (** A number in range is left alone. *)
  Lemma clamp_id x : in_range x -> clamp lo hi x = x.
  Proof.
    intro I. pose proof (range_finite x I) as FX. pose proof (range_R x I) as [A B]. pose proof (range_strict x I) as SX.
    destruct (clamp_cases lo hi x (finite_not_nan _ lo_fin) (finite_not_nan _ hi_fin) lo_hi) as [[-> [C D]]|[[-> C]|[-> _]]]; auto.
    - apply B2R_inj; auto.
      + destruct lo; auto; try discriminate. cbn in lo_pos. lra.
      + assert (~ (B2R lo < B2R x)%R) by (rewrite <- dlt_R by auto; congruence). lra.
    - apply B2R_inj; auto.
      + pose proof lo_hi_R. destruct hi; auto; try discriminate. cbn in *. lra.
      + assert (~ (B2R x < B2R hi)%R) by (rewrite <- dlt_R by auto; congruence). lra.
  Qed.

  Lemma round_id (x : dbl) : rnd (B2R x) = B2R x.
  Proof. apply round_generic; [apply valid_rnd_N|]. apply generic_format_B2R. Qed.

  Lemma sign_pos (x : dbl) : (0 < B2R x)%R -> Bsign x = false.
  Proof.
    destruct x as [s|s| |s m e H]; cbn; intro P; try lra. destruct s; auto. exfalso.
    assert (F2R (beta := radix2) {| Fnum := Z.neg m; Fexp := e |} < 0)%R; [apply F2R_lt_0; reflexivity|]. cbn in *. lra.
  Qed.

  (** Multiplication by a positive number: exact value rounded, or infinity. *)
  Lemma mul_pos (x y : dbl) : is_finite x = true -> (0 < B2R x)%R -> is_finite y = true -> (0 < B2R y)%R ->
    (is_finite (dmul x y) = true /\ B2R (dmul x y) = rnd (B2R x * B2R y)) \/ dmul x y = B754_infinity false.
  Proof.
    intros FX PX FY PY. pose proof (Bmult_correct 53 1024 prec_pos prec_emax mode_NE x y) as B.
    change (round_mode mode_NE) with ZnearestE in B. destruct (Rlt_bool _ _).
    - left. destruct B as (B1 & B2 & _). rewrite FX, FY in B2. split; auto.
    - right. rewrite (sign_pos x PX), (sign_pos y PY) in B. unfold dmul. cbn in B. destruct (Bmult mode_NE x y); cbn in B; congruence.
  Qed.

  Lemma clamp_inf : clamp lo hi (B754_infinity false) = hi.
  Proof.
    destruct (clamp_cases lo hi (B754_infinity false) (finite_not_nan _ lo_fin) (finite_not_nan _ hi_fin) lo_hi) as [[_ [C _]]|[[-> _]|[_ [C _]]]]; auto;
    unfold dlt, Bltb, SpecFloat.SFltb in C; cbn in C; destruct hi as [|[]| |[]]; discriminate.
  Qed.

  Lemma clamp_ge pen x : in_range pen -> is_finite x = true -> (B2R pen <= B2R x)%R -> dle pen (clamp lo hi x) = true.
  Proof.
    intros I FX H. pose proof (range_finite _ I) as FP. pose proof (range_R _ I) as [A B]. pose proof (range_finite _ (clamp_range x)) as FC.
    apply dle_R; auto.
    destruct (clamp_cases lo hi x (finite_not_nan _ lo_fin) (finite_not_nan _ hi_fin) lo_hi) as [[-> [C D]]|[[-> C]|[-> _]]]; auto.
    assert (~ (B2R lo < B2R x)%R) by (rewrite <- dlt_R by auto; congruence). lra.
  Qed.
  Lemma clamp_le pen x : in_range pen -> is_finite x = true -> (B2R x <= B2R pen)%R -> dle (clamp lo hi x) pen = true.
  Proof.
    intros I FX H. pose proof (range_finite _ I) as FP. pose proof (range_R _ I) as [A B]. pose proof (range_finite _ (clamp_range x)) as FC.
    apply dle_R; auto.
    destruct (clamp_cases lo hi x (finite_not_nan _ lo_fin) (finite_not_nan _ hi_fin) lo_hi) as [[-> [C D]]|[[-> C]|[-> _]]]; auto.
    assert (~ (B2R x < B2R hi)%R) by (rewrite <- dlt_R by auto; congruence). lra.
  Qed.
  Lemma clamp_gt pen x : in_range pen -> dlt pen hi = true -> is_finite x = true -> (B2R pen < B2R x)%R -> dlt pen (clamp lo hi x) = true.
  Proof.
    intros I PH FX H. pose proof (range_finite _ I) as FP. pose proof (range_R _ I) as [A B]. pose proof (range_finite _ (clamp_range x)) as FC.
    apply dlt_R in PH; auto. apply dlt_R; auto.
    destruct (clamp_cases lo hi x (finite_not_nan _ lo_fin) (finite_not_nan _ hi_fin) lo_hi) as [[-> [C D]]|[[-> C]|[-> _]]]; auto.
    assert (~ (B2R lo < B2R x)%R) by (rewrite <- dlt_R by auto; congruence). lra.
  Qed.
  Lemma clamp_lt pen x : in_range pen -> dlt lo pen = true -> is_finite x = true -> (B2R x < B2R pen)%R -> dlt (clamp lo hi x) pen = true.
  Proof.
    intros I PH FX H. pose proof (range_finite _ I) as FP. pose proof (range_R _ I) as [A B]. pose proof (range_finite _ (clamp_range x)) as FC.
    apply dlt_R in PH; auto. apply dlt_R; auto.
    destruct (clamp_cases lo hi x (finite_not_nan _ lo_fin) (finite_not_nan _ hi_fin) lo_hi) as [[-> [C D]]|[[-> C]|[-> _]]]; auto.
    assert (~ (B2R x < B2R hi)%R) by (rewrite <- dlt_R by auto; congruence). lra.
  Qed.

  (** Numbers from [x] on: finite, or infinity. *)
  Lemma above (x y : dbl) : is_finite x = true -> dle x y = true -> is_finite y = true \/ y = B754_infinity false.
  Proof.
    intros FX H. destruct y as [s|s| |s m e B]; auto.
    - destruct s; auto. exfalso. unfold Bleb, SpecFloat.SFleb in H. cbn in H. destruct x as [|[]| |[]]; discriminate.
    - exfalso. unfold Bleb, SpecFloat.SFleb in H. cbn in H. destruct x as [[]|[]| |[]]; discriminate.
  Qed.
  Lemma between (x y z : dbl) : is_finite x = true -> is_finite z = true -> dle x y = true -> dle y z = true -> is_finite y = true.
  Proof.
    intros FX FZ H1 H2. destruct (above x y FX H1) as [H| ->]; auto. exfalso. unfold Bleb, SpecFloat.SFleb in H2. cbn in H2.
    destruct z as [|[]| |[]]; discriminate.
  Qed.

  Lemma one_R : B2R (d_of_Z 1) = 1%R.
  Proof. destruct (int_of_Z 1 eq_refl) as [_ H]. exact H. Qed.

  Lemma inf_mul (x : dbl) : is_finite x = true -> (0 < B2R x)%R -> dmul x (B754_infinity false) = B754_infinity false.
  Proof.
    intros FX PX. pose proof (sign_pos x PX) as S. destruct x as [s|s| |s m e H]; cbn in *; try discriminate; [lra|]. subst s. reflexivity.
  Qed.

  Lemma raise pen inc : in_range pen -> dle (d_of_Z 1) inc = true -> dle pen (clamp lo hi (dmul pen inc)) = true.
  Proof.
    intros I M. pose proof (range_finite _ I) as FP. pose proof (range_R _ I) as [A B].
    assert (PI : dmul pen inc = B754_infinity false -> dle pen (clamp lo hi (dmul pen inc)) = true).
    { intros ->. rewrite clamp_inf. apply I. }
    destruct (above (d_of_Z 1) inc eq_refl M) as [FI| ->]; [|apply PI, inf_mul; auto; lra].
    apply dle_R in M; auto. rewrite one_R in M.
    destruct (mul_pos pen inc FP ltac:(lra) FI ltac:(lra)) as [[F1 R1]|H]; [|auto].
    apply clamp_ge; auto. rewrite R1. rewrite <- (round_id pen) at 1. apply round_le; [apply fx_valid|apply valid_rnd_N|nra].
  Qed.
  Lemma lower pen dec : in_range pen -> dle (d_of_Z 0) dec = true -> dle dec (d_of_Z 1) = true ->
    dle (clamp lo hi (dmul pen dec)) pen = true.
  Proof.
    intros I M1 M2. pose proof (range_finite _ I) as FP. pose proof (range_R _ I) as [A B].
    assert (FD : is_finite dec = true) by (eapply between; [| |exact M1|exact M2]; reflexivity).
    apply dle_R in M1, M2; auto; try reflexivity. rewrite one_R in M2. destruct (int_of_Z 0 eq_refl) as [_ Z0]. rewrite Z0 in M1.
    pose proof (Bmult_correct 53 1024 prec_pos prec_emax mode_NE pen dec) as BM. change (round_mode mode_NE) with ZnearestE in BM.
    assert (R0 : (0 <= rnd (B2R pen * B2R dec) <= B2R pen)%R).
    { split.
      - replace 0%R with (rnd 0) by (apply round_0, valid_rnd_N). apply round_le; [apply fx_valid|apply valid_rnd_N|nra].
      - rewrite <- (round_id pen) at 2. apply round_le; [apply fx_valid|apply valid_rnd_N|nra]. }
    rewrite Rlt_bool_true in BM.
    - destruct BM as (B1 & B2 & _). rewrite FP, FD in B2. apply clamp_le; auto. unfold dmul. rewrite B1. lra.
    - rewrite Rabs_pos_eq by lra. apply Rle_lt_trans with (B2R pen); [lra|].
      pose proof (abs_B2R_lt_emax 53 1024 pen) as L. rewrite Rabs_pos_eq in L by lra. exact L.
  Qed.

  Lemma round_rel x : (bpow radix2 (-200) <= Rabs x)%R -> (Rabs (rnd x - x) <= / 2 * bpow radix2 (-52) * Rabs x)%R.
  Proof.
    intro H. change fx with (FLT_exp (3 - 1024 - 53) 53).
    apply (relative_error_N_FLT radix2 (3 - 1024 - 53) 53 eq_refl (fun x => negb (Z.even x)) x).
    apply Rle_trans with (2 := H). apply bpow_le. lia.
  Qed.

  Lemma tiny : (bpow radix2 (-52) <= 1 / 1000000000000)%R.
  Proof. change (bpow radix2 (-52)) with (/ IZR (2 ^ 52))%R. cbn. lra. Qed.
  Lemma tinier : (bpow radix2 (-200) <= bpow radix2 (-100) * (1 / 2))%R.
  Proof.
    replace (1 / 2)%R with (bpow radix2 (-1)) by (cbn; lra). rewrite <- bpow_plus. apply bpow_le. lia.
  Qed.

  Lemma strictly_up : (1 + 1 / 2000000 <= B2R (d_lit 1000001 1000000))%R.
  Proof.
    rewrite <- SF2R_B2SF. replace (B2SF (d_lit 1000001 1000000)) with (SpecFloat.S754_finite false 4503604130970123 (-52)) by (vm_compute; reflexivity).
    unfold SF2R, F2R. cbn [SpecFloat.cond_Zopp Fnum Fexp]. change (bpow radix2 (-52)) with (/ IZR 4503599627370496)%R. lra.
  Qed.
  Lemma strictly_down : (B2R (d_lit 999999 1000000) <= 1 - 1 / 2000000)%R.
  Proof.
    rewrite <- SF2R_B2SF. replace (B2SF (d_lit 999999 1000000)) with (SpecFloat.S754_finite false 9007190247541737 (-53)) by (vm_compute; reflexivity).
    unfold SF2R, F2R. cbn [SpecFloat.cond_Zopp Fnum Fexp]. change (bpow radix2 (-53)) with (/ IZR 9007199254740992)%R. lra.
  Qed.

  Lemma up_fin : is_finite (d_lit 1000001 1000000) = true.
  Proof. vm_compute. reflexivity. Qed.
  Lemma down_fin : is_finite (d_lit 999999 1000000) = true.
  Proof. vm_compute. reflexivity. Qed.
  Lemma raise_strict pen inc : in_range pen -> dlt pen hi = true -> dle (d_lit 1000001 1000000) inc = true ->
    dlt pen (clamp lo hi (dmul pen inc)) = true.
  Proof.
    intros I PH M. pose proof (range_finite _ I) as FP. pose proof (range_R _ I) as [A B].
    assert (PI : dmul pen inc = B754_infinity false -> dlt pen (clamp lo hi (dmul pen inc)) = true).
    { intros ->. now rewrite clamp_inf. }
    destruct (above (d_lit 1000001 1000000) inc up_fin M) as [FI| ->]; [|apply PI, inf_mul; auto; lra].
    apply (proj1 (dle_R _ _ up_fin FI)) in M. pose proof strictly_up as SU.
    destruct (mul_pos pen inc FP ltac:(lra) FI ltac:(lra)) as [[F1 R1]|H]; [|auto].
    apply clamp_gt; auto. rewrite R1.
    assert (P : (B2R pen <= B2R pen * B2R inc)%R) by nra.
    pose proof (round_rel (B2R pen * B2R inc)) as RR. pose proof tinier as T1. pose proof tiny as T2.
    assert (0 < bpow radix2 (-100))%R by apply bpow_gt_0. assert (0 < bpow radix2 (-52))%R by apply bpow_gt_0.
    rewrite (Rabs_pos_eq (B2R pen * B2R inc)) in RR by lra. specialize (RR ltac:(lra)).
    set (y := (B2R pen * B2R inc)%R) in *. assert (Y : (B2R pen * (1 + 1 / 2000000) <= y)%R) by (unfold y; nra).
    assert (RL : (y - rnd y <= / 2 * bpow radix2 (-52) * y)%R) by (revert RR; unfold Rabs; destruct (Rcase_abs _); lra).
    assert (E : (/ 2 * bpow radix2 (-52) * y <= 1 / 1000000000000 * y)%R) by nra. nra.
  Qed.
  Lemma lower_strict pen dec : in_range pen -> dlt lo pen = true -> dle (d_of_Z 0) dec = true -> dle dec (d_lit 999999 1000000) = true ->
    dlt (clamp lo hi (dmul pen dec)) pen = true.
  Proof.
    intros I PL M1 M2. pose proof (range_finite _ I) as FP. pose proof (range_R _ I) as [A B].
    assert (FD : is_finite dec = true) by exact (between (d_of_Z 0) dec (d_lit 999999 1000000) eq_refl down_fin M1 M2).
    apply (proj1 (dle_R (d_of_Z 0) _ eq_refl FD)) in M1. apply (proj1 (dle_R _ _ FD down_fin)) in M2. destruct (int_of_Z 0 eq_refl) as [_ Z0]. rewrite Z0 in M1.
    pose proof strictly_down as SD.
    pose proof (Bmult_correct 53 1024 prec_pos prec_emax mode_NE pen dec) as BM. change (round_mode mode_NE) with ZnearestE in BM.
    assert (R0 : (0 <= rnd (B2R pen * B2R dec) < B2R pen)%R).
    { split.
      - replace 0%R with (rnd 0) by (apply round_0, valid_rnd_N). apply round_le; [apply fx_valid|apply valid_rnd_N|nra].
      - set (y := (B2R pen * (1 - 1 / 2000000))%R).
        apply Rle_lt_trans with (rnd y); [apply round_le; [apply fx_valid|apply valid_rnd_N|unfold y; nra]|].
        pose proof (round_rel y) as RR. pose proof tinier as T1. pose proof tiny as T2.
        assert (0 < bpow radix2 (-100))%R by apply bpow_gt_0. assert (0 < bpow radix2 (-52))%R by apply bpow_gt_0.
        assert (Y : (B2R pen * (1 / 2) <= y)%R) by (unfold y; nra).
        rewrite (Rabs_pos_eq y) in RR by lra. specialize (RR ltac:(lra)).
        assert (RL : (rnd y - y <= / 2 * bpow radix2 (-52) * y)%R) by (revert RR; unfold Rabs; destruct (Rcase_abs _); lra).
        assert (E : (/ 2 * bpow radix2 (-52) * y <= 1 / 1000000000000 * y)%R) by nra.
        assert (y = B2R pen * (1 - 1 / 2000000))%R by reflexivity. nra. }
    rewrite Rlt_bool_true in BM.
    - destruct BM as (B1 & B2 & _). rewrite FP, FD in B2. apply clamp_lt; auto. unfold dmul. rewrite B1. lra.
    - rewrite Rabs_pos_eq by lra. apply Rle_lt_trans with (B2R pen); [lra|].
      pose proof (abs_B2R_lt_emax 53 1024 pen) as L. rewrite Rabs_pos_eq in L by lra. exact L.
  Qed.
End Range.
