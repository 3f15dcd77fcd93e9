(** In double precision on integral data nothing panics while the penalty stays in its range. *)
From Coq Require Import List Arith NArith ZArith Reals Bool Lia Lra Psatz Permutation.
From Flocq Require Import Core BinarySingleNaN Relative.
From Verif.Model Require Import Num NumFloat Prelude Evaluate Individual Config Split Matrix Population LocalSearch World Schedule RuinRecreate Genetic.
From Verif.Spec Require Import Floats Solution Library Population LocalSearch RuinRecreate Genetic.
From Verif.Proofs Require Import Lists EvalFacts EvalThms SplitStruct SplitPart PopThms RrRuin RrRecreate RrRun RrMachine GaInv GaQ FloatFacts FloatPenalty FloatRun FloatStart.
Import ListNotations.
Open Scope Z_scope.

Local Notation fx := (SpecFloat.fexp 53 1024).
Local Notation rnd := (round radix2 fx ZnearestE).
Local Existing Instance fx_valid.

(** ** Numbers that are not NaN *)

(** Not NaN and not below zero; infinity is allowed. *)
Definition nonneg (x : dbl) : Prop := x = B754_infinity false \/ (is_finite x = true /\ (0 <= B2R x)%R).

Lemma nonneg_nan x : nonneg x -> is_nan x = false.
Proof. intros [->|[F _]]; [reflexivity|]. now destruct x. Qed.
Lemma int_nonneg x a : is_int x a -> 0 <= a -> nonneg x.
Proof. intros [F R] H. right. split; [exact F|]. rewrite R. now apply IZR_le. Qed.
Lemma within_nonneg x e : within x e -> nonneg x.
Proof. intros [F R]. right. split; [exact F|apply R]. Qed.

Lemma inf_of_sf (x : dbl) s : B2SF x = SpecFloat.S754_infinity s -> x = B754_infinity s.
Proof. destruct x; cbn; intro H; try discriminate H. now injection H as <-. Qed.

Lemma nonneg_sign_add (x y : dbl) : is_finite x = true -> is_finite y = true -> (0 <= B2R x)%R -> (0 <= B2R y)%R ->
  (bpow radix2 1024 <= Rabs (rnd (B2R x + B2R y)))%R -> Bsign x = false \/ Bsign y = false.
Proof.
  intros FX FY PX PY B. destruct (Req_dec (B2R x) 0) as [ZX|NX].
  - destruct (Req_dec (B2R y) 0) as [ZY|NY]; [|right; apply sign_pos; lra].
    exfalso. rewrite ZX, ZY, Rplus_0_l, round_0, Rabs_R0 in B by apply valid_rnd_N. pose proof (bpow_gt_0 radix2 1024). lra.
  - left. apply sign_pos. lra.
Qed.

Lemma nonneg_add (x y : dbl) : nonneg x -> nonneg y -> nonneg (dadd x y).
Proof.
  intros [->|[FX PX]] [->|[FY PY]].
  - left. reflexivity.
  - left. destruct y; try discriminate FY; reflexivity.
  - left. destruct x; try discriminate FX; reflexivity.
  - pose proof (Bplus_correct 53 1024 prec_pos prec_emax mode_NE x y FX FY) as B. change (round_mode mode_NE) with ZnearestE in B.
    destruct (Rlt_bool_spec (Rabs (rnd (B2R x + B2R y))) (bpow radix2 1024)) as [H|H].
    + destruct B as (B1 & B2 & _). right. unfold dadd. rewrite B1, B2. split; [reflexivity|].
      apply round_ge_generic; [apply fx_valid|apply valid_rnd_N|apply generic_format_0|lra].
    + destruct B as [B1 B2]. left. unfold dadd. apply inf_of_sf. rewrite B1.
      assert (S : Bsign x = false) by (destruct (nonneg_sign_add x y FX FY PX PY H) as [S|S]; congruence).
      rewrite S. reflexivity.
Qed.

Lemma not_nan_mul (x y : dbl) : is_finite x = true -> is_finite y = true -> (0 <= B2R x)%R -> (0 <= B2R y)%R -> nonneg (dmul x y).
Proof.
  intros FX FY PX PY. pose proof (Bmult_correct 53 1024 prec_pos prec_emax mode_NE x y) as B. change (round_mode mode_NE) with ZnearestE in B.
  destruct (Rlt_bool_spec (Rabs (rnd (B2R x * B2R y))) (bpow radix2 1024)) as [H|H].
  - destruct B as (B1 & B2 & _). right. unfold dmul. rewrite B1, B2, FX, FY. split; [reflexivity|].
    apply round_ge_generic; [apply fx_valid|apply valid_rnd_N|apply generic_format_0|nra].
  - left. unfold dmul. apply inf_of_sf. rewrite B.
    assert (N : (B2R x * B2R y <> 0)%R).
    { intro E. rewrite E, round_0, Rabs_R0 in H by apply valid_rnd_N. pose proof (bpow_gt_0 radix2 1024). lra. }
    rewrite !sign_pos; [reflexivity| |]; [assert (B2R y <> 0)%R by (intro E; apply N; rewrite E; ring)|assert (B2R x <> 0)%R by (intro E; apply N; rewrite E; ring)]; lra.
Qed.

Lemma nonneg_fold {A} (f : A -> dbl) l : (forall a, In a l -> nonneg (f a)) -> forall x, nonneg x ->
  nonneg (fold_left (fun a r => dadd a (f r)) l x).
Proof.
  induction l as [|a l IH]; intros H x X; [exact X|]. cbn [fold_left]. apply IH; [intros; apply H; now right|].
  apply nonneg_add; [exact X|apply H; now left].
Qed.

(** Two numbers that are not NaN compare. *)
Lemma compares (a b : dbl) : is_nan a = false -> is_nan b = false ->
  dlt a b = true \/ dlt b a = true \/ @Beqb 53 1024 a b = true.
Proof.
  intros A B. destruct (is_finite a) eqn:FA, (is_finite b) eqn:FB.
  1: { unfold dlt. rewrite !Bltb_correct, Beqb_correct by auto. destruct (Rtotal_order (B2R a) (B2R b)) as [H|[H|H]].
       - left. now apply Rlt_bool_true.
       - right. right. now apply Req_bool_true.
       - right. left. now apply Rlt_bool_true. }
  all: destruct a as [|[]| |[]], b as [|[]| |[]]; try discriminate; auto.
Qed.

(** ** Sums of coordinates *)
Definition bounded_by (x : dbl) (r : R) : Prop := is_finite x = true /\ (Rabs (B2R x) <= r)%R.

Lemma scaled_format k e : Z.abs k < exact_bound -> 0 <= e -> generic_format radix2 fx (IZR k * bpow radix2 e).
Proof.
  intros K E. change fx with (FLT_exp (3 - 1024 - 53) 53). apply generic_format_FLT.
  exists (Float radix2 k e); [reflexivity|exact K|cbn; lia].
Qed.
Lemma round_scaled x k e : Z.abs k < exact_bound -> 0 <= e -> (Rabs x <= IZR k * bpow radix2 e)%R -> (Rabs (rnd x) <= IZR k * bpow radix2 e)%R.
Proof.
  intros K E H. apply Rabs_le. apply Rabs_le_inv in H. destruct H as [H1 H2]. split.
  - rewrite Ropp_mult_distr_l, <- opp_IZR. apply round_ge_generic; [apply fx_valid|apply valid_rnd_N|apply scaled_format; lia|]. rewrite opp_IZR. lra.
  - apply round_le_generic; [apply fx_valid|apply valid_rnd_N|apply scaled_format; lia|lra].
Qed.
Lemma scaled_below k e : 0 <= k < exact_bound -> 0 <= e <= 960 -> (IZR k * bpow radix2 e < bpow radix2 1024)%R.
Proof.
  intros K E. apply Rlt_le_trans with (bpow radix2 53 * bpow radix2 e)%R.
  - apply Rmult_lt_compat_r; [apply bpow_gt_0|]. rewrite <- IZR_Zpower by lia. apply IZR_lt. apply K.
  - rewrite <- bpow_plus. apply bpow_le. lia.
Qed.
Lemma add_bounded (x y : dbl) k e : bounded_by x (IZR k * bpow radix2 e) -> bounded_by y (bpow radix2 e) -> 0 <= k -> k + 1 < exact_bound -> 0 <= e <= 960 ->
  bounded_by (dadd x y) (IZR (k + 1) * bpow radix2 e).
Proof.
  intros [FX RX] [FY RY] K0 K E. pose proof (Bplus_correct 53 1024 prec_pos prec_emax mode_NE x y FX FY) as B. change (round_mode mode_NE) with ZnearestE in B.
  assert (S : (Rabs (B2R x + B2R y) <= IZR (k + 1) * bpow radix2 e)%R).
  { eapply Rle_trans; [apply Rabs_triang|]. rewrite plus_IZR. lra. }
  assert (S' : (Rabs (rnd (B2R x + B2R y)) <= IZR (k + 1) * bpow radix2 e)%R) by (apply round_scaled; auto; lia).
  rewrite Rlt_bool_true in B by (eapply Rle_lt_trans; [exact S'|apply scaled_below; lia]).
  destruct B as (B1 & B2 & _). unfold dadd. split; [exact B2|]. now rewrite B1.
Qed.

Lemma div_bounded (x y : dbl) k e n : bounded_by x (IZR k * bpow radix2 e) -> is_int y n -> 1 <= n -> 0 <= k < exact_bound -> 0 <= e <= 960 ->
  bounded_by (ddiv x y) (IZR k * bpow radix2 e).
Proof.
  intros [FX RX] [FY RY] N K E. pose proof (Bdiv_correct 53 1024 prec_pos prec_emax mode_NE x y) as B. change (round_mode mode_NE) with ZnearestE in B.
  assert (N1 : (1 <= IZR n)%R) by (now apply IZR_le). rewrite RY in B. specialize (B ltac:(lra)).
  assert (S : (Rabs (B2R x / IZR n) <= IZR k * bpow radix2 e)%R).
  { unfold Rdiv. rewrite Rabs_mult, (Rabs_pos_eq (/ IZR n)) by (apply Rlt_le, Rinv_0_lt_compat; lra).
    apply Rle_trans with (Rabs (B2R x) * 1)%R; [|lra]. apply Rmult_le_compat_l; [apply Rabs_pos|].
    rewrite <- Rinv_1. apply Rinv_le; lra. }
  assert (S' : (Rabs (rnd (B2R x / IZR n)) <= IZR k * bpow radix2 e)%R) by (apply round_scaled; auto; lia).
  rewrite Rlt_bool_true in B by (eapply Rle_lt_trans; [exact S'|apply scaled_below; lia]).
  destruct B as (B1 & B2 & _). unfold ddiv. rewrite <- B1 in S'. split; [now rewrite B2|exact S'].
Qed.
Lemma sub_finite (x y : dbl) k e : bounded_by x (IZR k * bpow radix2 e) -> bounded_by y (bpow radix2 e) -> 0 <= k -> k + 1 < exact_bound -> 0 <= e <= 960 ->
  is_finite (dsub x y) = true.
Proof.
  intros [FX RX] [FY RY] K0 K E. pose proof (Bminus_correct 53 1024 prec_pos prec_emax mode_NE x y FX FY) as B. change (round_mode mode_NE) with ZnearestE in B.
  assert (S : (Rabs (B2R x - B2R y) <= IZR (k + 1) * bpow radix2 e)%R).
  { unfold Rminus. eapply Rle_trans; [apply Rabs_triang|]. rewrite Rabs_Ropp, plus_IZR. lra. }
  assert (S' : (Rabs (rnd (B2R x - B2R y)) <= IZR (k + 1) * bpow radix2 e)%R) by (apply round_scaled; auto; lia).
  rewrite Rlt_bool_true in B by (eapply Rle_lt_trans; [exact S'|apply scaled_below; lia]).
  now destruct B as (_ & B2 & _).
Qed.

Lemma sum_bounded {A} (f : A -> dbl) e l : (forall a, In a l -> bounded_by (f a) (bpow radix2 e)) -> 0 <= e <= 960 -> forall (x : dbl) k,
  bounded_by x (IZR k * bpow radix2 e) -> 0 <= k -> k + Z.of_nat (length l) < exact_bound ->
  bounded_by (fold_left (fun a n => dadd a (f n)) l x) (IZR (k + Z.of_nat (length l)) * bpow radix2 e).
Proof.
  intros H E. induction l as [|a l IH]; intros x k X K0 K; cbn [fold_left length] in *.
  - now rewrite Z.add_0_r.
  - replace (k + Z.of_nat (S (length l))) with (k + 1 + Z.of_nat (length l)) by lia.
    apply IH; [intros; apply H; now right| |lia|lia]. apply add_bounded; auto; try lia. apply H. now left.
Qed.

(** ** Numbers of individuals *)
Lemma of_nat_pos n : (0 < n)%nat -> Z.of_nat n < 2 ^ 1000 -> is_finite (d_of_Z (Z.of_nat n)) = true /\ (1 <= B2R (d_of_Z (Z.of_nat n)))%R.
Proof.
  intros N U. unfold d_of_Z. pose proof (binary_normalize_correct 53 1024 prec_pos prec_emax mode_NE (Z.of_nat n) 0 false) as B. cbv zeta in B.
  change (round_mode mode_NE) with ZnearestE in B. assert (E : F2R (Float radix2 (Z.of_nat n) 0) = IZR (Z.of_nat n)) by (unfold F2R; cbn; lra).
  rewrite E in B. assert (H1 : (1 <= IZR (Z.of_nat n))%R) by (apply IZR_le; lia).
  assert (H2 : (IZR (Z.of_nat n) <= bpow radix2 1000)%R) by (rewrite <- IZR_Zpower by lia; apply IZR_le; change (radix2 ^ 1000) with (2 ^ 1000); lia).
  assert (R1 : (1 <= rnd (IZR (Z.of_nat n)))%R) by (apply round_ge_generic; [apply fx_valid|apply valid_rnd_N|apply (int_format 1); reflexivity|exact H1]).
  assert (R2 : (rnd (IZR (Z.of_nat n)) <= bpow radix2 1000)%R) by (apply round_le_generic; [apply fx_valid|apply valid_rnd_N|apply bpow_format; lia|exact H2]).
  rewrite Rlt_bool_true in B.
  - destruct B as (B1 & B2 & _). rewrite B1. auto.
  - rewrite Rabs_pos_eq by lra. eapply Rle_lt_trans; [exact R2|]. apply bpow_lt. lia.
Qed.
Lemma of_nat_nan n : is_nan (d_of_Z (Z.of_nat n)) = false.
Proof.
  unfold d_of_Z. pose proof (binary_normalize_correct 53 1024 prec_pos prec_emax mode_NE (Z.of_nat n) 0 false) as B. cbv zeta in B.
  destruct (Rlt_bool _ _); [destruct B as (_ & B & _); now destruct (binary_normalize _ _ _ _ _ _ _ _)|].
  destruct (binary_normalize _ _ _ _ _ _ _ _); try reflexivity. cbn [B2SF] in B.
  discriminate B.
Qed.
Lemma div_not_nan (x y : dbl) : is_nan x = false -> is_finite y = true -> (1 <= B2R y)%R -> is_nan (ddiv x y) = false.
Proof.
  intros NX FY RY. pose proof (Bdiv_correct 53 1024 prec_pos prec_emax mode_NE x y ltac:(lra)) as B.
  destruct (is_finite x) eqn:FX.
  - destruct (Rlt_bool _ _); [destruct B as (_ & B & _); unfold ddiv; destruct (Bdiv _ _ _); auto; now rewrite FX in B|].
    unfold ddiv. destruct (Bdiv _ _ _); try reflexivity. cbn in B. discriminate B.
  - destruct x as [|s| |]; try discriminate. destruct y as [| | |]; try discriminate; try reflexivity.
Qed.

Lemma max_below : is_finite (dsub d_max (d_lit 1 1000000)) = true /\ (bpow radix2 1000 <= B2R (dsub d_max (d_lit 1 1000000)))%R.
Proof.
  split; [vm_compute; reflexivity|].
  rewrite <- SF2R_B2SF. replace (B2SF (dsub d_max (d_lit 1 1000000))) with (SpecFloat.S754_finite false 9007199254740991 971) by (vm_compute; reflexivity).
  unfold SF2R, F2R. cbn [SpecFloat.cond_Zopp Fnum Fexp]. change 1000 with (29 + 971). rewrite bpow_plus.
  apply Rmult_le_compat_r; [apply bpow_ge_0|]. rewrite <- IZR_Zpower by lia. apply IZR_le. vm_compute. discriminate.
Qed.

Lemma int_bounded (x : dbl) a : Z.abs a < exact_bound -> is_int x a -> bounded_by x (bpow radix2 53).
Proof.
  intros H [F R]. split; [exact F|]. rewrite R, <- abs_IZR, <- IZR_Zpower by lia. apply IZR_le. change (radix2 ^ 53) with exact_bound. lia.
Qed.
Lemma max_bounded (x y : dbl) r : bounded_by x r -> bounded_by y r -> bounded_by (dmax x y) r.
Proof. intros X Y. unfold dmax. destruct (is_nan x); [exact Y|]. destruct (dlt x y); auto. Qed.
Lemma mul_bounded (x y : dbl) a b : bounded_by x (bpow radix2 a) -> bounded_by y (bpow radix2 b) -> 0 <= a -> 0 <= b -> a + b <= 1000 ->
  bounded_by (dmul x y) (bpow radix2 (a + b)).
Proof.
  intros [FX RX] [FY RY] A B' AB. pose proof (Bmult_correct 53 1024 prec_pos prec_emax mode_NE x y) as B. change (round_mode mode_NE) with ZnearestE in B.
  assert (S : (Rabs (B2R x * B2R y) <= IZR 1 * bpow radix2 (a + b))%R).
  { rewrite Rabs_mult, bpow_plus, Rmult_1_l. apply Rmult_le_compat; auto using Rabs_pos. }
  assert (S' : (Rabs (rnd (B2R x * B2R y)) <= IZR 1 * bpow radix2 (a + b))%R) by (apply round_scaled; auto; [reflexivity|lia]).
  rewrite Rmult_1_l in S'. rewrite Rlt_bool_true in B by (eapply Rle_lt_trans; [exact S'|apply bpow_lt; lia]).
  destruct B as (B1 & B2 & _). unfold dmul. split; [now rewrite B2, FX, FY|]. now rewrite B1.
Qed.

(** A penalty from which no cost overflows. *)
Definition heldF (x : @F NumF) : Prop := within x 900.
Lemma usual_held (x : @F NumF) : usualF x -> heldF x.
Proof.
  intros U. destruct (usual_within x U) as [F [R1 R2]]. split; [exact F|]. split; [exact R1|]. eapply Rle_trans; [exact R2|]. apply bpow_le. lia.
Qed.

(** Rounding to nearest adds at most a factor of 1 + 2^-50 above 2^24. *)
Lemma mul_grows (x y : dbl) (a r : R) : is_finite x = true -> (0 <= B2R x <= a)%R -> is_finite y = true -> (0 <= B2R y <= r)%R ->
  (bpow radix2 24 <= a)%R -> (1 <= r)%R -> (a * (r * (1 + bpow radix2 (-50))) <= bpow radix2 900)%R ->
  is_finite (dmul x y) = true /\ (0 <= B2R (dmul x y) <= a * (r * (1 + bpow radix2 (-50))))%R.
Proof.
  intros FX [X0 X1] FY [Y0 Y1] A R1 TOP. pose proof (bpow_gt_0 radix2 (-50)) as E0.
  pose proof (bpow_gt_0 radix2 24) as P24.
  pose proof (Bmult_correct 53 1024 prec_pos prec_emax mode_NE x y) as B. change (round_mode mode_NE) with ZnearestE in B.
  assert (V : (0 <= B2R x * B2R y <= a * r)%R) by (split; [now apply Rmult_le_pos|apply Rmult_le_compat; auto]).
  assert (AR : (bpow radix2 24 <= a * r)%R) by nra.
  assert (UP : (a * (r * (1 + bpow radix2 (-50))) = a * r + a * r * bpow radix2 (-50))%R) by ring.
  assert (RD : (0 <= round radix2 fx ZnearestE (B2R x * B2R y) <= a * (r * (1 + bpow radix2 (-50))))%R).
  { split.
    - apply round_ge_generic; [apply FLT_exp_valid; reflexivity|apply valid_rnd_N|apply generic_format_0|apply V].
    - destruct (Rle_lt_dec (B2R x * B2R y) (bpow radix2 24)) as [S|S].
      + eapply Rle_trans; [apply (round_le_generic radix2 fx ZnearestE _ (bpow radix2 24)); [apply bpow_format; lia|exact S]|]. nra.
      + assert (E : (Rabs (round radix2 fx ZnearestE (B2R x * B2R y) - B2R x * B2R y) < bpow radix2 (-53 + 1) * Rabs (B2R x * B2R y))%R).
        { apply (relative_error_FLT radix2 (SpecFloat.emin 53 1024) 53 eq_refl ZnearestE). rewrite Rabs_pos_eq by apply V.
          eapply Rle_trans; [|left; exact S]. apply bpow_le. vm_compute. discriminate. }
        rewrite (Rabs_pos_eq (B2R x * B2R y)) in E by apply V. apply Rabs_def2 in E. destruct E as [E _].
        assert (BB : (bpow radix2 (-53 + 1) <= bpow radix2 (-50))%R) by (apply bpow_le; lia).
        assert (bpow radix2 (-53 + 1) * (B2R x * B2R y) <= bpow radix2 (-50) * (a * r))%R
          by (apply Rmult_le_compat; [apply bpow_ge_0|apply V|exact BB|apply V]).
        rewrite UP. lra. }
  rewrite Rlt_bool_true in B.
  2:{ fold fx. rewrite Rabs_pos_eq by apply RD. eapply Rle_lt_trans; [apply RD|]. eapply Rle_lt_trans; [exact TOP|]. apply bpow_lt. reflexivity. }
  destruct B as (B1 & B2 & _). unfold dmul. rewrite B2, FX, FY. split; [reflexivity|]. rewrite B1. exact RD.
Qed.

Section Fine.
  Variable p : @problem NumF.
  Variable c : @config NumF.
  Variable d : nat -> nat -> Z.
  Variable q : nat -> Z.
  Variable cap : Z.
  Hypothesis II : integral_instance p c d q cap.
  Hypothesis DR : drawable p.
  Notation dim := (p_dim p).

  Lemma anglesF : @angles_ok NumF p.
  Proof.
    intros r P. apply nan_isnan. unfold route_angle. destruct r as [|n r]; [vm_compute; reflexivity|]. set (l := n :: r) in *. cbv zeta.
    destruct DR as [CO AT].
    assert (DS : Z.of_nat dim < exact_bound) by (destruct (ii_small _ _ _ _ _ II) as (top & T1 & _ & T2); nia). pose proof (ii_dim _ _ _ _ _ II) as D2.
    assert (LL : 1 <= Z.of_nat (length l) < Z.of_nat dim) by (pose proof (proper_length p c d q cap II l P); unfold l in *; cbn [length] in *; lia).
    assert (IL : is_int (@fnat NumF (length l)) (Z.of_nat (length l))) by (apply int_of_Z; lia).
    assert (Z0 : forall r, (0 <= r)%R -> bounded_by (@f0 NumF) r) by (intros s S; split; [apply int_zero|]; destruct int_zero as [_ ->]; now rewrite Rabs_R0).
    assert (C0 := CO 0%nat ltac:(lia)). clearbody l.
    assert (IN : forall a, In a l -> (a < dim)%nat) by now apply (proper_in p).
    assert (SX : bounded_by (fold_left (fun (a : @F NumF) n => @fadd NumF a (fst (p_coord p n))) l (@f0 NumF)) (IZR (0 + Z.of_nat (length l)) * bpow radix2 900)).
    { apply (sum_bounded (fun n => fst (p_coord p n) : dbl)); try lia; [|apply Z0; rewrite Rmult_0_l; lra]. intros a HA. split; apply (CO a); now apply IN. }
    assert (SY : bounded_by (fold_left (fun (a : @F NumF) n => @fadd NumF a (snd (p_coord p n))) l (@f0 NumF)) (IZR (0 + Z.of_nat (length l)) * bpow radix2 900)).
    { apply (sum_bounded (fun n => snd (p_coord p n) : dbl)); try lia; [|apply Z0; rewrite Rmult_0_l; lra]. intros a HA. split; apply (CO a); now apply IN. }
    set (sx := fold_left _ l _) in SX |- *. set (sy := fold_left (fun a n => @fadd NumF a (snd (p_coord p n))) l _) in SY |- *. clearbody sx sy.
    rewrite Z.add_0_l in SX, SY.
    apply AT.
    - apply (sub_finite _ _ (Z.of_nat (length l)) 900); try lia; [apply (div_bounded _ _ _ _ _ SY IL); lia|]. split; apply C0.
    - apply (sub_finite _ _ (Z.of_nat (length l)) 900); try lia; [apply (div_bounded _ _ _ _ _ SX IL); lia|]. split; apply C0.
  Qed.

  Lemma keysF : @keys_ok NumF p.
  Proof.
    intros n HN. pose proof (ii_dim _ _ _ _ _ II). split; apply nan_isnan; eapply int_not_nan.
    - now apply (demand_int p c d q cap II).
    - apply (dist_int p c d q cap II); [exact HN|lia].
  Qed.

  Lemma ratiosF : Z.of_nat (c_num_diversity_closest c) < 2 ^ 1000 -> @ratios_defined NumF c.
  Proof.
    intros HC a b HB. apply nan_isnan. destruct (of_nat_pos b) as [F R]; [lia|lia|]. apply div_not_nan; auto. apply of_nat_nan.
  Qed.

  Lemma roomF (pen : @F NumF) : heldF pen -> @room NumF p (exactF p d q cap) pen.
  Proof.
    intros U ro x (PR & _ & OV) _ HX. pose proof (ii_dim _ _ _ _ _ II) as D2.
    destruct (ii_small _ _ _ _ _ II) as (top & T1 & T2 & T3).
    set (h := hd 0%nat (ro_nodes ro)). assert (H : (h < dim)%nat).
    { unfold h. destruct (ro_nodes ro) as [|y l] eqn:EN; cbn [hd]; [lia|]. apply (proper_in p (y :: l)); [exact PR|now left]. }
    assert (D0 : (0 < dim)%nat) by lia.
    destruct (dist_int p c d q cap II 0%nat h D0 H) as [A1 B1].
    destruct (dist_int p c d q cap II 0%nat x D0 ltac:(lia)) as [A2 B2].
    destruct (dist_int p c d q cap II x h ltac:(lia) H) as [A3 B3].
    pose proof (T2 0%nat h D0 H) as C1. pose proof (T2 0%nat x D0 ltac:(lia)) as C2. pose proof (T2 x h ltac:(lia) H) as C3.
    assert (ST : 4 * top < exact_bound) by nia.
    assert (PD : is_int (@pdelta NumF p [] x (ro_nodes ro)) (0 - d 0%nat h + d 0%nat x + d x h)).
    { unfold pdelta. cbn [last]. fold h. repeat first [apply int_add|apply int_sub]; auto using int_zero; lia. }
    destruct (demand_int p c d q cap II x ltac:(lia)) as [Q1 Q2].
    pose proof (proper_load p c d q cap II _ PR) as LD. pose proof (ii_load _ _ _ _ _ II) as LB.
    destruct (ig_cap _ _ _ _ (ii_data _ _ _ _ _ II)) as [_ CB].
    assert (LX : q x <= zload q (seq 1 (dim - 1))).
    { assert (PX : proper p [x]) by (split; [repeat constructor; auto|intros y [<-|[]]; lia]).
      pose proof (proper_load p c d q cap II [x] PX) as Y. unfold zload in Y at 1 2. cbn [map zsum] in Y. lia. }
    assert (B1' : bounded_by (@fadd NumF (ro_over ro) (p_demand p x)) (bpow radix2 54)).
    { replace (bpow radix2 54) with (IZR (1 + 1) * bpow radix2 53)%R by (change 54 with (1 + 53); rewrite bpow_plus; reflexivity).
      apply add_bounded; try lia; [|eapply int_bounded; [|exact Q1]; lia].
      rewrite Rmult_1_l. eapply int_bounded; [|exact OV]. lia. }
    assert (B2' : bounded_by (@fmax NumF f0 (@fadd NumF (ro_over ro) (p_demand p x))) (bpow radix2 54)).
    { apply max_bounded; [|exact B1']. split; [apply int_zero|]. destruct int_zero as [_ ->]. rewrite Rabs_R0. apply bpow_ge_0. }
    assert (B3' : bounded_by pen (bpow radix2 900)).
    { destruct U as [F R]. split; [exact F|]. rewrite Rabs_pos_eq; apply R. }
    assert (B4' := mul_bounded _ _ _ _ B2' B3' ltac:(lia) ltac:(lia) ltac:(lia)).
    assert (B5' : bounded_by (@fadd NumF (@pdelta NumF p [] x (ro_nodes ro)) (@fmul NumF (@fmax NumF f0 (@fadd NumF (ro_over ro) (p_demand p x))) pen)) (IZR (1 + 1) * bpow radix2 954)).
    { apply add_bounded; try lia; [|exact B4']. rewrite Rmult_1_l.
      assert (Y : bounded_by (@pdelta NumF p [] x (ro_nodes ro)) (bpow radix2 53)) by (eapply int_bounded; [|exact PD]; lia).
      destruct Y as [Y1 Y2]. split; [exact Y1|]. eapply Rle_trans; [exact Y2|]. apply bpow_le. lia. }
    destruct B5' as [F5 R5]. destruct max_below as [FM RM]. change (dlt (@fadd NumF (@pdelta NumF p [] x (ro_nodes ro)) (@fmul NumF (@fmax NumF f0 (@fadd NumF (ro_over ro) (p_demand p x))) pen)) (dsub d_max (d_lit 1 1000000)) = true).
    apply dlt_R; auto. eapply Rlt_le_trans; [|exact RM]. apply Rabs_le_inv in R5. destruct R5 as [_ R5]. eapply Rle_lt_trans; [exact R5|].
    change (IZR (1 + 1)) with (bpow radix2 1). rewrite <- bpow_plus. apply bpow_lt. lia.
  Qed.

  Lemma cost_nonneg (pen : @F NumF) rs : heldF pen -> serves_all_once dim rs -> nonneg (@gtotal NumF p pen rs).
  Proof.
    intros [FP RP] S. pose proof (ii_dim _ _ _ _ _ II) as D2.
    unfold gtotal. apply (nonneg_fold (@gcost NumF p pen)); [|apply (int_nonneg _ 0); [apply int_zero|lia]].
    intros r HR. pose proof (serves_routes p rs S r HR) as PR.
    destruct (exactF_eval p c d q cap II r PR) as (_ & DI & OV). cbn [ro_dist ro_over ro_nodes] in DI, OV.
    pose proof (proper_tour p c d q cap II r PR) as T.
    unfold gcost, route_cost. apply nonneg_add; [apply (int_nonneg _ _ DI); lia|].
    pose proof (int_max _ _ _ _ int_zero OV) as M. apply not_nan_mul; [exact FP|apply M|apply RP|].
    change (0 <= B2R (dmax (@f0 NumF) (@gover NumF p r)))%R. destruct M as [_ ->]. apply IZR_le. lia.
  Qed.

  Lemma cmpF (pa pb : @F NumF) a b : heldF pa -> heldF pb -> evaluated p pa a -> evaluated p pb b -> @comparable NumF a b = true.
  Proof.
    intros UA UB (SA & _ & ea & EA) (SB & _ & eb & EB). unfold comparable, ind_cmp, penalized_cost. rewrite EA, EB. cbn [geval se_cost].
    pose proof (nonneg_nan _ (cost_nonneg pa _ UA SA)) as NA. pose proof (nonneg_nan _ (cost_nonneg pb _ UB SB)) as NB.
    unfold cost_cmp. revert NA NB. generalize (@gtotal NumF p pa (i_pheno a)) (@gtotal NumF p pb (i_pheno b)).
    intros x y NA NB. destruct (@approx_eq NumF x y); [reflexivity|].
    change (@flt NumF) with dlt. change (@feqb NumF) with (@Beqb 53 1024).
    destruct (compares x y NA NB) as [H|[H|H]]; rewrite H; try reflexivity; [destruct (dlt x y); reflexivity|].
    destruct (dlt x y); [reflexivity|]. destruct (dlt y x); reflexivity.
  Qed.

  Lemma fineF : Z.of_nat (c_num_diversity_closest c) < 2 ^ 1000 -> sizes c -> fine p c (exactF p d q cap) heldF.
  Proof.
    intros HC HS. constructor; [now apply ratiosF|apply anglesF|apply keysF|exact roomF| |exact HS].
    intros pa pb a b UA UB A B. exact (cmpF pa pb a b UA UB A B).
  Qed.

  (** ** Every call of [iterate] *)
  Variable L : lib.
  Hypothesis LOK : lib_ok L.
  Hypothesis EF : elite_fits p c.
  Variable E : @env NumF.
  Variable log_interval : nat.
  Variable max_distance : option (@F NumF).
  Variable fuel : nat.
  Notation reached := (@ga_reached NumF L p c E log_interval max_distance fuel).

  (** The penalty after [n] changes in elite education. *)
  Definition levelF (n : nat) (x : @F NumF) : Prop :=
    c_elite_education_time_based c = false /\ (1000 * n <= elite_length p c)%nat /\
    exists r : R, (1 <= r)%R /\
     is_finite (c_penalty_dec_multiplier c : dbl) = true /\ (0 <= B2R (c_penalty_dec_multiplier c : dbl) <= r)%R /\
     is_finite (c_penalty_inc_multiplier c : dbl) = true /\ (0 <= B2R (c_penalty_inc_multiplier c : dbl) <= r)%R /\
     ((r * (1 + bpow radix2 (-50))) ^ (elite_length p c / 1000) <= bpow radix2 870)%R /\
     is_finite (x : dbl) = true /\ (0 <= B2R (x : dbl) <= bpow radix2 24 * (r * (1 + bpow radix2 (-50))) ^ n)%R.

  Lemma grown_one r : (1 <= r)%R -> (1 <= r * (1 + bpow radix2 (-50)))%R.
  Proof. intros R1. pose proof (bpow_gt_0 radix2 (-50)). nra. Qed.

  Lemma grown_top r n : (1 <= r)%R -> (1000 * n <= elite_length p c)%nat ->
    ((r * (1 + bpow radix2 (-50))) ^ (elite_length p c / 1000) <= bpow radix2 870)%R ->
    (bpow radix2 24 <= bpow radix2 24 * (r * (1 + bpow radix2 (-50))) ^ n <= bpow radix2 900)%R.
  Proof.
    intros R1 N T. pose proof (grown_one r R1) as G. pose proof (bpow_gt_0 radix2 24). split.
    - pose proof (pow_R1_Rle _ n G). nra.
    - replace (bpow radix2 900) with (bpow radix2 24 * bpow radix2 876)%R by (rewrite <- bpow_plus; reflexivity).
      apply Rmult_le_compat_l; [lra|]. eapply Rle_trans; [apply (Rle_pow _ n (elite_length p c / 1000) G)|].
      + apply Nat.div_le_lower_bound; [discriminate|exact N].
      + eapply Rle_trans; [exact T|]. apply bpow_le. lia.
  Qed.

  Lemma level_startF : c_elite_education c = true -> forall x, usualF x -> levelF 0 x.
  Proof.
    intros EE x U. destruct EF as [NE|(TB & r & R1 & R2 & R3 & R4 & R5 & R6)]; [congruence|].
    split; [exact TB|]. split; [rewrite Nat.mul_0_r; apply Nat.le_0_l|]. exists r. repeat (split; [assumption|]).
    destruct (usual_within x U) as [F R]. split; [exact F|]. cbn [pow]. rewrite Rmult_1_r. exact R.
  Qed.

  Lemma level_heldF n x : levelF n x -> heldF x.
  Proof.
    intros (TB & N & r & R1 & R2 & R3 & R4 & R5 & R6 & F & X0 & X1). split; [exact F|]. split; [exact X0|].
    eapply Rle_trans; [exact X1|]. now apply grown_top.
  Qed.

  Lemma level_stepF n x : c_elite_education_time_based c = true \/ (1000 * S n <= @elite_moves NumF p c)%nat -> levelF n x ->
    levelF (S n) (@fmul NumF x (c_penalty_dec_multiplier c)) /\ levelF (S n) (@fmul NumF x (c_penalty_inc_multiplier c)).
  Proof.
    intros SN (TB & N & r & R1 & R2 & R3 & R4 & R5 & R6 & F & X). destruct SN as [SN|SN]; [congruence|].
    change (@elite_moves NumF p c) with (elite_length p c) in SN.
    pose proof (grown_top r n R1 N R6) as [A _]. pose proof (grown_top r (S n) R1 SN R6) as [_ B].
    assert (EQ : (bpow radix2 24 * (r * (1 + bpow radix2 (-50))) ^ n * (r * (1 + bpow radix2 (-50))) = bpow radix2 24 * (r * (1 + bpow radix2 (-50))) ^ S n)%R) by (cbn [pow]; ring).
    rewrite <- EQ in B.
    destruct (mul_grows x _ _ r F X R2 R3 A R1 B) as [D1 D2]. destruct (mul_grows x _ _ r F X R4 R5 A R1 B) as [I1 I2].
    rewrite EQ in D2, I2.
    split; (split; [exact TB|]); (split; [exact SN|]); exists r; repeat (split; [assumption|]); [exact D2|exact I2].
  Qed.

  Lemma iterate_fineF w0 g w : Z.of_nat (c_num_diversity_closest c) < 2 ^ 1000 -> sizes c -> set_up p max_distance w0 -> reached w0 g w ->
    heldF (w_pen w) /\
    match ga_iterate L p c E log_interval max_distance fuel g w with Ok _ => True | Err e => e = EFuel end.
  Proof.
    intros HC HS ((dm & _ & HP) & HH & _) R. pose proof II as [O1 O2 [O3 O3'] O4 O5 O6 O7 O8].
    assert (BE : @reals_below_one NumF p) by (apply below_F; auto; pose proof (dim_small p c d q cap II); lia).
    assert (ZL : @approx_lt NumF (@f0 NumF) (@f0 NumF) = false) by exact (int_approx_lt _ _ _ _ int_zero int_zero eq_refl).
    assert (IV : inv L p c (exactF p d q cap) usualF heldF (fun _ _ => True) levelF True 0 g w).
    { refine (proj1 (reached_inv L LOK p c E log_interval max_distance fuel (exactF p d q cap) (exactF_remove p c d q cap II) (exactF_add p c d q cap II)
        (exactF_eval p c d q cap II) BE O2 O3 ZL O8 O3' usualF heldF (usual_initialF max_distance) usual_clampF usual_held (split_fitsF p c d q cap II)
        (fun _ _ => True) (fun _ _ _ _ _ _ _ _ _ => I) True (c_elite_education c = true) (fun _ => I) (fun _ => I) (fun X => X)
        levelF level_startF (fun _ => level_heldF) (fun _ => level_stepF)
        (fun _ _ _ _ _ _ _ _ _ _ _ => I) True 0 (or_introl I) (fun _ => I) (fun _ _ _ _ _ _ _ _ _ _ => I) (fun _ => True) _ w0 g w _ _ (fun _ _ _ => I) R)); auto.
      rewrite HP. apply usual_initialF. }
    split; [exact (gb_pen _ _ _ _ _ _ _ _ (in_base _ _ _ _ _ _ _ _ _ _ _ _ IV))|].
    assert (S : safe p c (exactF p d q cap) heldF True (ga_iterate L p c E log_interval max_distance fuel g w) (fun _ => True)).
    { eapply safe_weaken; [|intros ? _; exact I].
      refine (iterate_safe L LOK p c E log_interval max_distance fuel (exactF p d q cap) (exactF_remove p c d q cap II) (exactF_add p c d q cap II)
        (exactF_eval p c d q cap II) BE O2 O3 ZL O8 O3' usualF heldF (usual_initialF max_distance) usual_clampF usual_held (split_fitsF p c d q cap II)
        (fun _ _ => True) (fun _ _ _ _ _ _ _ _ _ => I) True (c_elite_education c = true) (fun _ => I) (fun _ => I) (fun X => X)
        levelF level_startF (fun _ => level_heldF) (fun _ => level_stepF)
        (fun _ _ _ _ _ _ _ _ _ _ _ => I) True 0 (or_introl I) (fun _ => I) (fun _ _ _ _ _ _ _ _ _ _ => I) (fun _ => True) _ g w IV I). auto. }
    destruct (ga_iterate L p c E log_interval max_distance fuel g w) as [gw|e]; [exact I|]. apply S. now apply fineF.
  Qed.
End Fine.
