(** How far the computed Euclidean distance is from the true one. *)
From Coq Require Import List Arith ZArith Lia Reals Lra Psatz.
From Flocq Require Import Core BinarySingleNaN Relative.
From Verif.Model Require Import Num NumFloat Matrix.
From Verif.Spec Require Import Floats FloatProgram.
From Verif.Proofs Require Import FloatFacts FloatRun FloatStart.
Open Scope R_scope.

Local Notation fx := (SpecFloat.fexp 53 1024).
Local Notation rnd := (round radix2 fx ZnearestE).
Local Existing Instance fx_valid.

(** Rounding: a relative error of [u], and an absolute one of [h] below the normal numbers. *)
Local Notation u := (bpow radix2 (-53)).
Local Notation h := (bpow radix2 (-1074)).

Lemma round_error x : Rabs (rnd x - x) <= u * Rabs x + h.
Proof.
  change fx with (FLT_exp (3 - 1024 - 53) 53).
  destruct (error_N_FLT radix2 (3 - 1024 - 53) 53 ltac:(lia) (fun t => negb (Z.even t)) x) as (eps & eta & E1 & E2 & _ & E).
  rewrite E. replace (x * (1 + eps) + eta - x) with (x * eps + eta) by ring.
  eapply Rle_trans; [apply Rabs_triang|]. rewrite Rabs_mult. apply Rplus_le_compat.
  - rewrite Rmult_comm. apply Rmult_le_compat_r; [apply Rabs_pos|]. eapply Rle_trans; [exact E1|].
    apply Req_le. rewrite bpow_plus. change (bpow radix2 (- (53))) with (bpow radix2 (-53)). change (bpow radix2 1) with (IZR 2). field.
  - eapply Rle_trans; [exact E2|]. change (3 - 1024 - 53)%Z with (-1074)%Z. pose proof (bpow_gt_0 radix2 (-1074)). lra.
Qed.
Lemma round_up x : 0 <= x -> rnd x <= x * (1 + u) + h.
Proof. intro H. pose proof (round_error x) as E. apply Rabs_le_inv in E. rewrite Rabs_pos_eq in E by auto. lra. Qed.
Lemma round_down x : 0 <= x -> x * (1 - u) - h <= rnd x.
Proof. intro H. pose proof (round_error x) as E. apply Rabs_le_inv in E. rewrite Rabs_pos_eq in E by auto. lra. Qed.
Lemma round_sign x : 0 <= x -> 0 <= rnd x.
Proof. intro H. apply round_ge_generic; [apply fx_valid|apply valid_rnd_N|apply generic_format_0|exact H]. Qed.

(** The square of a rounded number of size at most [2 ^ 24]. *)
Lemma rnd_abs x : Rabs (rnd x) = rnd (Rabs x).
Proof. symmetry. apply round_NE_abs. apply fx_valid. Qed.

Local Notation g := (bpow radix2 (-1040)).
Lemma square_error x : Rabs x <= bpow radix2 24 ->
  x * x * ((1 - u) * (1 - u) * (1 - u)) - g <= rnd (rnd x * rnd x) <= x * x * ((1 + u) * (1 + u) * (1 + u)) + g.
Proof.
  intro B. assert (E : rnd x * rnd x = rnd (Rabs x) * rnd (Rabs x)) by (rewrite <- rnd_abs, <- Rabs_mult; symmetry; apply Rabs_pos_eq; nra).
  assert (E2 : x * x = Rabs x * Rabs x) by (rewrite <- Rabs_mult; symmetry; apply Rabs_pos_eq; nra).
  rewrite E, E2. pose proof (Rabs_pos x) as P. set (a := Rabs x) in *. clearbody a. clear E E2 x.
  pose proof (round_up a P) as U. pose proof (round_down a P) as D. pose proof (round_sign a P) as S. set (r := rnd a) in *. clearbody r.
  assert (RR : 0 <= r * r) by nra. pose proof (round_up _ RR) as UU. pose proof (round_down _ RR) as DD.
  assert (HP : 0 < h) by apply bpow_gt_0. assert (UP : 0 < u) by apply bpow_gt_0. assert (U1 : u <= 1 / 4).
  { change (1 / 4) with (1 * / 4). replace (1 * / 4) with (bpow radix2 (-2)) by (cbn; lra). apply bpow_le. lia. }
  assert (H1 : h <= 1) by (change 1 with (bpow radix2 0); apply bpow_le; lia).
  assert (GH : 64 * bpow radix2 24 * h <= g).
  { change 64 with (bpow radix2 6). rewrite <- !bpow_plus. apply bpow_le. lia. }
  assert (M : 1 <= bpow radix2 24) by (change 1 with (bpow radix2 0); apply bpow_le; lia).
  set (m := bpow radix2 24) in *. clearbody m. generalize dependent h. intros e **. generalize dependent u. intros v **. generalize dependent g. intros gg **.
  split.
  - eapply Rle_trans; [|exact DD].
    assert (Q : a * a * ((1 - v) * (1 - v)) - 4 * m * e <= r * r).
    { destruct (Rle_lt_dec 0 (a * (1 - v) - e)) as [C|C].
      - apply (Rle_trans _ ((a * (1 - v) - e) * (a * (1 - v) - e))); [|nra].
        assert (a * (1 - v) <= m) by nra. nra.
      - assert (0 <= a * (1 - v)) by nra. assert ((a * (1 - v)) * (a * (1 - v)) <= e * e) by nra. nra. }
    assert (W : 0 <= 1 - v <= 1) by lra. assert (ME : e <= m * e) by nra. assert (MP : 0 <= m * e) by nra.
    set (w := 1 - v) in *. clearbody w.
    assert (K1 : (a * a * (w * w) - 4 * m * e) * w <= r * r * w) by (apply Rmult_le_compat_r; lra).
    assert (K2 : m * e * w <= m * e) by nra. nra.
  - eapply Rle_trans; [exact UU|].
    assert (Q : r * r <= a * a * ((1 + v) * (1 + v)) + 8 * m * e).
    { assert (0 <= a * (1 + v) + e) by nra. apply (Rle_trans _ ((a * (1 + v) + e) * (a * (1 + v) + e))); [nra|].
      assert (a * (1 + v) <= 2 * m) by nra. nra. }
    assert (W : 1 <= 1 + v <= 2) by lra. assert (ME : e <= m * e) by nra. assert (MP : 0 <= m * e) by nra.
    set (w := 1 + v) in *. clearbody w.
    assert (K1 : r * r * w <= (a * a * (w * w) + 8 * m * e) * w) by (apply Rmult_le_compat_r; lra).
    assert (K2 : m * e * w <= 2 * (m * e)) by nra. nra.
Qed.

Local Notation e := (bpow radix2 (-519)).
Lemma root_error x y : Rabs x <= bpow radix2 24 -> Rabs y <= bpow radix2 24 ->
  let a := R_sqrt.sqrt (x * x + y * y) in
  a * ((1 - u) * (1 - u)) - e <= R_sqrt.sqrt (rnd (rnd (rnd x * rnd x) + rnd (rnd y * rnd y))) <= a * ((1 + u) * (1 + u)) + e.
Proof.
  intros BX BY a. pose proof (square_error x BX) as [PL PU]. pose proof (square_error y BY) as [QL QU].
  assert (P0 : 0 <= rnd (rnd x * rnd x)) by (apply round_sign; nra). assert (Q0 : 0 <= rnd (rnd y * rnd y)) by (apply round_sign; nra).
  set (p := rnd (rnd x * rnd x)) in *. set (q := rnd (rnd y * rnd y)) in *. clearbody p q.
  assert (S0 : 0 <= p + q) by lra. pose proof (round_up _ S0) as SU. pose proof (round_down _ S0) as SD. pose proof (round_sign _ S0) as S1.
  set (s := rnd (p + q)) in *. clearbody s.
  assert (A0 : 0 <= x * x + y * y) by nra. pose proof (sqrt_pos (x * x + y * y)) as A1. pose proof (sqrt_sqrt _ A0) as A2. fold a in A1, A2. clearbody a.
  assert (EE : e * e = 4 * g).
  { change 4 with (bpow radix2 2). rewrite <- !bpow_plus. reflexivity. }
  assert (HG : h <= g) by (apply bpow_le; lia). assert (HP : 0 < h) by apply bpow_gt_0. assert (EP : 0 < e) by apply bpow_gt_0.
  assert (UP : 0 < u) by apply bpow_gt_0. assert (U1 : u <= 1 / 4).
  { change (1 / 4) with (1 * / 4). replace (1 * / 4) with (bpow radix2 (-2)) by (cbn; lra). apply bpow_le. lia. }
  generalize dependent h. intros hh **. generalize dependent u. intros v **. generalize dependent g. intros gg **. generalize dependent e. intros ee **.
  split.
  - assert (W : 0 <= 1 - v <= 1) by lra. set (w := 1 - v) in *. clearbody w.
    assert (K : a * a * (w * w) * (w * w) - ee * ee <= s).
    { rewrite A2. assert (K1 : ((x * x + y * y) * (w * w * w) - 2 * gg) * w <= (p + q) * w) by (apply Rmult_le_compat_r; lra).
      assert (gg * w <= gg) by nra. nra. }
    destruct (Rle_lt_dec (a * (w * w) - ee) 0) as [C|C]; [pose proof (sqrt_pos s); lra|].
    rewrite <- (sqrt_square (a * (w * w) - ee)) by lra. apply sqrt_le_1; [nra|lra|]. nra.
  - assert (W : 1 <= 1 + v <= 5 / 4) by lra. set (w := 1 + v) in *. clearbody w.
    assert (K : s <= a * a * (w * w) * (w * w) + ee * ee).
    { rewrite A2. assert (K1 : (p + q) * w <= ((x * x + y * y) * (w * w * w) + 2 * gg) * w) by (apply Rmult_le_compat_r; lra).
      assert (gg * w <= 5 / 4 * gg) by nra. nra. }
    assert (0 <= a * (w * w)) by nra.
    rewrite <- (sqrt_square (a * (w * w) + ee)) by lra. apply sqrt_le_1; [lra|nra|]. nra.
Qed.

(** Coordinates up to 2^22. *)
Lemma distance_error x1 y1 x2 y2 : Rabs x1 <= bpow radix2 22 -> Rabs y1 <= bpow radix2 22 -> Rabs x2 <= bpow radix2 22 -> Rabs y2 <= bpow radix2 22 ->
  Rabs (euclid_rounded x1 y1 x2 y2 - R_sqrt.sqrt ((x2 - x1) ^ 2 + (y2 - y1) ^ 2)) <= bpow radix2 (-26).
Proof.
  intros X1 Y1 X2 Y2. unfold euclid_rounded.
  assert (D : forall s t, Rabs s <= bpow radix2 22 -> Rabs t <= bpow radix2 22 -> Rabs (t - s) <= bpow radix2 23).
  { intros s t HS HT. eapply Rle_trans; [apply Rabs_triang|]. rewrite Rabs_Ropp. change 23%Z with (22 + 1)%Z. rewrite bpow_plus. change (bpow radix2 1) with (IZR 2). lra. }
  pose proof (D _ _ X1 X2) as DX. pose proof (D _ _ Y1 Y2) as DY.
  assert (M : bpow radix2 23 <= bpow radix2 24) by (apply bpow_le; lia).
  destruct (root_error (x2 - x1) (y2 - y1) ltac:(lra) ltac:(lra)) as [RL RU].
  replace ((x2 - x1) ^ 2 + (y2 - y1) ^ 2) with ((x2 - x1) * (x2 - x1) + (y2 - y1) * (y2 - y1)) by ring.
  set (x := x2 - x1) in *. set (y := y2 - y1) in *. clearbody x y.
  pose proof (sqrt_pos (rnd (rnd (rnd x * rnd x) + rnd (rnd y * rnd y)))) as S0.
  set (s := R_sqrt.sqrt (rnd (rnd (rnd x * rnd x) + rnd (rnd y * rnd y)))) in *. clearbody s.
  pose proof (round_up s S0) as SU. pose proof (round_down s S0) as SD. set (t := rnd s) in *. clearbody t.
  assert (A0 : 0 <= x * x + y * y) by nra. pose proof (sqrt_pos (x * x + y * y)) as A1.
  assert (A2 : R_sqrt.sqrt (x * x + y * y) <= bpow radix2 24).
  { rewrite <- (sqrt_square (bpow radix2 24)) by apply bpow_ge_0. apply sqrt_le_1; [exact A0|nra|].
    assert (SQ : forall z, Rabs z <= bpow radix2 23 -> z * z <= bpow radix2 46).
    { intros z HZ. rewrite <- (Rabs_pos_eq (z * z)) by nra. rewrite Rabs_mult. change 46%Z with (23 + 23)%Z. rewrite bpow_plus.
      apply Rmult_le_compat; auto using Rabs_pos. }
    pose proof (SQ x DX). pose proof (SQ y DY). rewrite <- bpow_plus. change (24 + 24)%Z with (46 + 2)%Z. rewrite bpow_plus.
    change (bpow radix2 2) with (IZR 4). pose proof (bpow_gt_0 radix2 46). lra. }
  set (a := R_sqrt.sqrt (x * x + y * y)) in *. clearbody a.
  assert (AU : 4 * a * u <= bpow radix2 (-27)).
  { replace (-27)%Z with (2 + 24 + -53)%Z by lia. rewrite !bpow_plus. change (bpow radix2 2) with (IZR 4).
    apply Rmult_le_compat_r; [apply bpow_ge_0|]. lra. }
  assert (TE : 4 * e <= bpow radix2 (-27)) by (change 4 with (bpow radix2 2); rewrite <- bpow_plus; apply bpow_le; lia).
  assert (DB : bpow radix2 (-26) = 2 * bpow radix2 (-27)) by (change 2 with (bpow radix2 1); rewrite <- bpow_plus; reflexivity).
  assert (HE : h <= e) by (apply bpow_le; lia). assert (HP : 0 < h) by apply bpow_gt_0. assert (UP : 0 < u) by apply bpow_gt_0.
  assert (U1 : u <= 1 / 8).
  { change (1 / 8) with (1 * / 8). replace (1 * / 8) with (bpow radix2 (-3)) by (cbn; lra). apply bpow_le. lia. }
  rewrite DB. clear DB. generalize dependent (bpow radix2 (-27)). intros b **.
  generalize dependent h. intros hh **. generalize dependent u. intros v **. generalize dependent e. intros ee **.
  assert (AV : 0 <= a * v) by nra. assert (AVV : 0 <= a * (v * v) <= a * v / 8) by nra. assert (AV3 : 0 <= a * (v * v * v) <= a * v / 64) by nra.
  apply Rabs_le. split.
  - assert (K : (a * ((1 - v) * (1 - v)) - ee) * (1 - v) <= s * (1 - v)) by (apply Rmult_le_compat_r; lra).
    assert (ee * v >= 0) by nra. nra.
  - assert (K : s * (1 + v) <= (a * ((1 + v) * (1 + v)) + ee) * (1 + v)) by (apply Rmult_le_compat_r; lra).
    assert (ee * v <= ee) by nra. nra.
Qed.
