(** The annealing schedule (C23), over the real numbers. *)
From Coq Require Import Reals Arith Lia Lra Psatz List Bool.
From Verif.Model Require Import Num NumReal Prelude Evaluate Individual Config World Schedule.
From Verif.Proofs Require Import ExpBound.
Import ListNotations.
Local Open Scope R_scope.

(** The cooling curve: the fraction of the start temperature left after the fraction [t]. *)
Definition cooling (t : R) : R := exp (- (2 * t)) - t * (1353352832366127 / 10000000000000000).

Lemma cooling_0 : cooling 0 = 1.
Proof. unfold cooling. replace (- (2 * 0)) with 0 by lra. rewrite exp_0. lra. Qed.
Lemma cooling_decreasing t t' : t < t' -> cooling t' < cooling t.
Proof.
  intro H. unfold cooling. assert (exp (- (2 * t')) < exp (- (2 * t))) by (apply exp_increasing; lra). lra.
Qed.
Lemma cooling_1 : Rabs (cooling 1) <= 1 / 10 ^ 17.
Proof.
  unfold cooling. replace (- (2 * 1)) with (-2) by lra. rewrite Rmult_1_l. apply exp_m2_bounds.
Qed.
Lemma cooling_above t : t <= 1 -> (1 - t) * (1353352832366127 / 10000000000000000) - 1 / 10 ^ 17 <= cooling t.
Proof.
  intro H. pose proof cooling_1 as C.
  unfold cooling in *. replace (- (2 * 1)) with (-2) in C by lra.
  assert (exp (-2) <= exp (- (2 * t))).
  { destruct (Rle_lt_or_eq_dec t 1 H) as [L|EQ]; [left; apply exp_increasing; lra|right; f_equal; lra]. }
  pose proof exp_m2_bounds as B. unfold Rabs in B. destruct (Rcase_abs _) in B; lra.
Qed.

Lemma iter_S {A} (f : A -> A) k x : Nat.iter (S k) f x = f (Nat.iter k f x).
Proof. reflexivity. Qed.

Section Schedule.
  Variable E : @env NumR.
  Hypothesis real_exp : forall x, e_exp E x = exp x.

  Lemma temperature_cooling (start t : R) : @temperature NumR E start t = cooling t * start.
  Proof.
    unfold temperature, cooling, min_value. rewrite real_exp.
    cbn [f0 fsub fmul flit NumR F].
    replace (0 - t * (2 / 1)) with (- (2 * t)) by lra.
    replace (1353352832366127 / IZR (Z.pos (10 ^ 16))) with (1353352832366127 / 10000000000000000) by reflexivity.
    reflexivity.
  Qed.

  Lemma is_iter k s0 : let s := Nat.iter k (is_update E) s0 in
    is_start_temp s = is_start_temp s0 /\ is_total s = is_total s0 /\ is_iteration s = (is_iteration s0 + k)%nat.
  Proof.
    induction k as [|k IH]; cbn zeta in *.
    - change (Nat.iter 0 (is_update E) s0) with s0. split; [|split]; try reflexivity. lia.
    - rewrite iter_S. destruct IH as (A & B & C).
      set (s := Nat.iter k (is_update E) s0) in *. clearbody s. unfold is_update.
      cbn [is_start_temp is_total is_iteration]. split; [exact A|]. split; [exact B|]. rewrite C. lia.
  Qed.
  Lemma is_temp_iter (start : R) total k : (0 < total)%nat ->
    is_temp (Nat.iter k (is_update E) (is_new (start : @F NumR) total)) = cooling (INR k / INR total) * start.
  Proof.
    intro T. destruct k as [|k].
    - change (INR 0) with 0. unfold Rdiv. rewrite Rmult_0_l, cooling_0. cbn. lra.
    - rewrite iter_S. pose proof (is_iter k (is_new (start : @F NumR) total)) as (A & B & C).
      set (s := Nat.iter k (is_update E) (is_new (start : @F NumR) total)) in *. clearbody s.
      unfold is_update. cbn [is_temp is_start_temp is_total is_iteration]. rewrite temperature_cooling.
      unfold is_elapsed. cbn [is_iteration is_total]. rewrite A, B, C. cbn [is_new is_start_temp is_total is_iteration].
      cbn [fnat fdiv NumR]. rewrite Nat.add_0_l, Nat.add_1_r. reflexivity.
  Qed.
End Schedule.

(** After [k] updates of a new schedule of [total] iterations with temperature [start] > 0: it
    starts at [start], every update lowers the temperature, it is positive before the last update
    (for fewer than 10^16 iterations), within 1e-17 * start of zero after the last one, and the
    schedule is completed exactly from the [total]-th update on; reset starts it anew. *)
Theorem C23_iteration_schedule (E : @env NumR) (start : R) (total k : nat) :
  (forall x, e_exp E x = exp x) -> 0 < start -> (0 < total)%nat ->
  let s := fun k => Nat.iter k (is_update E) (is_new (start : @F NumR) total) in
  is_temp (s O) = start /\
  is_temp (s (S k)) < is_temp (s k) /\
  ((k < total)%nat -> INR total < 10 ^ 16 -> 0 < is_temp (s k)) /\
  Rabs (is_temp (s total)) <= start / 10 ^ 17 /\
  (is_completed (s k) = true <-> (total <= k)%nat) /\
  is_reset (s k) = s O.
Proof.
  intros EE Hs Ht s. unfold s. clear s.
  assert (HT : 0 < INR total) by (apply lt_0_INR; lia).
  split; [reflexivity|]. rewrite !(is_temp_iter E EE) by auto. split; [|split; [|split; [|split]]].
  - apply Rmult_lt_compat_r; auto. apply cooling_decreasing. apply Rmult_lt_compat_r; [now apply Rinv_0_lt_compat|].
    apply lt_INR. lia.
  - intros Hk Hb. apply Rmult_lt_0_compat; auto.
    assert (K : INR k + 1 <= INR total) by (rewrite <- S_INR; apply le_INR; lia).
    assert (Hq : INR k / INR total <= 1 - / INR total).
    { apply (Rmult_le_reg_r (INR total)); auto. unfold Rdiv. rewrite Rmult_assoc, Rinv_l by lra.
      rewrite Rmult_minus_distr_r, Rinv_l by lra. lra. }
    assert (HI : / 10 ^ 16 < / INR total) by (apply Rinv_lt_contravar; [apply Rmult_lt_0_compat; [exact HT|apply pow_lt; lra]|exact Hb]).
    assert (HI0 : 0 < / INR total) by now apply Rinv_0_lt_compat.
    pose proof (cooling_above (INR k / INR total) ltac:(lra)) as C.
    replace (10 ^ 17) with (10 * 10 ^ 16) in C by (cbn [pow]; lra).
    assert (P16 : 0 < / 10 ^ 16) by (apply Rinv_0_lt_compat, pow_lt; lra).
    unfold Rdiv in C at 3. rewrite Rinv_mult in C.
    set (z := / 10 ^ 16) in *. clearbody z. nra.
  - unfold Rdiv at 1. rewrite Rinv_r by lra. rewrite Rabs_mult, (Rabs_pos_eq start) by lra.
    pose proof cooling_1 as C. unfold Rdiv in *. rewrite Rmult_1_l in C. rewrite Rmult_comm.
    apply Rmult_le_compat_l; lra.
  - pose proof (is_iter E k (is_new (start : @F NumR) total)) as (_ & B & C).
    unfold is_completed. rewrite B, C. cbn [is_new is_total is_iteration]. rewrite Nat.add_0_l. apply Nat.leb_le.
  - pose proof (is_iter E k (is_new (start : @F NumR) total)) as (A & B & _). unfold is_reset. rewrite A, B. reflexivity.
Qed.
Print Assumptions C23_iteration_schedule.

(** The completion count in any arithmetic, also for zero iterations. *)
Theorem C23_completes_on_time (N : Num) (E : env) (start : F) (total k : nat) :
  is_completed (Nat.iter k (is_update E) (is_new start total)) = true <-> (total <= k)%nat.
Proof.
  assert (H : is_total (Nat.iter k (is_update E) (is_new start total)) = total /\
              is_iteration (Nat.iter k (is_update E) (is_new start total)) = k).
  { induction k as [|k IH]; [auto|]. rewrite iter_S. set (s := Nat.iter k (is_update E) (is_new start total)) in *.
    unfold is_update.
    cbn [is_total is_iteration]. destruct IH as [-> ->]. split; auto. lia. }
  unfold is_completed. destruct H as [-> ->]. apply Nat.leb_le.
Qed.
Print Assumptions C23_completes_on_time.

(** The time schedule looks at the clock at every hundredth update.  [reading s w] is the
    fraction of the duration that has passed at the next reading. *)
Definition reading (E : @env NumR) (s : @time_schedule NumR) (w : @world NumR) : R :=
  (e_clock E (w_clock w) - ts_start s) / ts_duration s.

Theorem C23_time_schedule (E : @env NumR) (s s' : @time_schedule NumR) (w w' : @world NumR) :
  (forall x, e_exp E x = exp x) ->
  ts_update E s w = (s', w') ->
  ts_start s' = ts_start s /\ ts_duration s' = ts_duration s /\ ts_start_temp s' = ts_start_temp s /\
  if Nat.eqb (ts_since s + 1) (ts_rate s)
  then w_clock w' = S (w_clock w) /\ ts_since s' = O /\
       (ts_temp s' : R) = cooling (reading E s w) * ts_start_temp s /\
       (ts_completed s' = true <-> ts_completed s = true \/ 1 <= reading E s w)
  else w_clock w' = w_clock w /\ ts_since s' = (ts_since s + 1)%nat /\ ts_temp s' = ts_temp s /\
       ts_completed s' = ts_completed s.
Proof.
  intros EE. unfold ts_update, now. cbn [ts_since ts_rate ts_start ts_duration ts_temp ts_start_temp ts_iterations ts_completed].
  destruct (Nat.eqb (ts_since s + 1) (ts_rate s)); intro H; injection H as <- <-;
    cbn [ts_since ts_rate ts_start ts_duration ts_temp ts_start_temp ts_completed w_clock]; repeat (split; [reflexivity|]).
  - split; [apply (temperature_cooling E EE)|]. cbn [fle NumR f1 fdiv fsub]. fold (reading E s w).
    destruct (Rle_dec 1 (reading E s w)) as [L|L].
    + split; auto.
    + split; [now left|]. intros [H|H]; [exact H|contradiction].
  - split; reflexivity.
Qed.
Print Assumptions C23_time_schedule.

(** A whole series.  [ts_reset] restarts a schedule [s1], fresh or used, in the world [w1]; then it is
    updated once per move; between the updates the world changes in any way, [ws] are the worlds
    the updates find.  Only every hundredth looks at the clock, counted from the restart; the
    temperature is that of the last look, and that of [s1] until the first; the schedule is
    completed if one of the looks found the duration passed, or if it was before the restart. *)
Theorem C23_time_restarted (E : @env NumR) (s1 : @time_schedule NumR) (w1 : @world NumR) (ws : list (@world NumR)) :
  (forall x, e_exp E x = exp x) -> ts_rate s1 = 100%nat ->
  let s := fold_left (fun s w => fst (ts_update E s w)) ws (fst (ts_reset E s1 w1)) in
  let looks := (length ws / 100)%nat in
  let passed := fun j => ((e_clock E (w_clock (nth (100 * j + 99) ws w1)) : R) - e_clock E (w_clock w1)) / ts_duration s1 in
  (ts_temp s : R) = (if Nat.eqb looks 0 then ts_temp s1 else cooling (passed (looks - 1)%nat) * ts_start_temp s1) /\
  (ts_completed s = true <-> ts_completed s1 = true \/ exists j, (j < looks)%nat /\ 1 <= passed j) /\
  ts_rate s = 100%nat /\ ts_duration s = ts_duration s1 /\ ts_start_temp s = ts_start_temp s1.
Proof.
  intros EE ER. cbv zeta. unfold ts_reset, now. cbn [fst ts_duration ts_temp ts_start_temp ts_rate ts_completed].
  set (s0 := mkTS _ _ _ _ _ _ _ _).
  set (P := fun (l : list (@world NumR)) j => ((e_clock E (w_clock (nth (100 * j + 99) l w1)) : R) - e_clock E (w_clock w1)) / ts_duration s1).
  set (S := fun l : list (@world NumR) => fold_left (fun s w => fst (ts_update E s w)) l s0).
  assert (I : forall l, (ts_start (S l) : R) = e_clock E (w_clock w1) /\ (ts_duration (S l) : R) = ts_duration s1 /\ (ts_start_temp (S l) : R) = ts_start_temp s1 /\
     ts_rate (S l) = 100%nat /\ ts_since (S l) = (length l mod 100)%nat /\
     (ts_temp (S l) : R) = (if Nat.eqb (length l / 100) 0 then ts_temp s1 else cooling (P l (length l / 100 - 1)%nat) * ts_start_temp s1) /\
     (ts_completed (S l) = true <-> ts_completed s1 = true \/ exists j, (j < length l / 100)%nat /\ 1 <= P l j)).
  { intro l. induction l as [|w l IH] using rev_ind.
    - unfold S. cbn. repeat (split; [reflexivity || exact ER|]). split; [now left|]. intros [X|(j & J & _)]; [exact X|lia].
    - assert (ES : S (l ++ [w]) = fst (ts_update E (S l) w)) by (unfold S; rewrite fold_left_app; reflexivity).
      assert (EP : forall j, (j < length l / 100)%nat -> P (l ++ [w]) j = P l j).
      { intros j J. unfold P. rewrite app_nth1; [reflexivity|]. pose proof (Nat.mul_div_le (length l) 100 ltac:(lia)). lia. }
      destruct IH as (A & B & C & D & F & G & H). rewrite ES, app_length. cbn [length].
      unfold ts_update, now. cbn [ts_since ts_rate ts_start ts_duration ts_temp ts_start_temp ts_iterations ts_completed].
      pose proof (Nat.div_mod (length l) 100 ltac:(lia)) as DM. pose proof (Nat.mod_upper_bound (length l) 100 ltac:(lia)) as MB.
      set (n := length l) in *. set (qn := (n / 100)%nat) in *. set (m := (n mod 100)%nat) in *.
      rewrite D, F. destruct (Nat.eqb_spec (m + 1) 100) as [X|X].
      + assert (Q : ((n + 1) / 100 = qn + 1)%nat) by (symmetry; apply (Nat.div_unique _ _ _ 0); lia).
        assert (M : ((n + 1) mod 100 = 0)%nat) by (symmetry; apply (Nat.mod_unique _ _ (qn + 1)); lia).
        rewrite Q, M. cbn [fst ts_since ts_rate ts_start ts_duration ts_temp ts_start_temp ts_completed].
        replace (qn + 1 - 1)%nat with qn by lia. replace (Nat.eqb (qn + 1) 0) with false by (symmetry; apply Nat.eqb_neq; lia).
        assert (R : (e_clock E (w_clock w) - ts_start (S l)) / ts_duration (S l) = P (l ++ [w]) qn).
        { unfold P. rewrite app_nth2 by (fold n; lia). replace (100 * qn + 99 - length l)%nat with O by (fold n; lia). cbn [nth].
          rewrite A, B. reflexivity. }
        cbn [fsub fdiv fle f1 NumR]. rewrite R. repeat (split; [assumption || reflexivity|]).
        split; [rewrite (temperature_cooling E EE), C; reflexivity|].
        destruct (Rle_dec 1 (P (l ++ [w]) qn)) as [LE|LE].
        * split; [|reflexivity]. intros _. right. exists qn. split; [lia|exact LE].
        * rewrite H. split.
          -- intros [X1|(j & J & L)]; [now left|right]. exists j. split; [lia|]. now rewrite EP.
          -- intros [X1|(j & J & L)]; [now left|right]. destruct (Nat.eq_dec j qn) as [->|]; [contradiction|]. exists j. split; [lia|]. rewrite <- EP by lia. exact L.
      + assert (Q : ((n + 1) / 100 = qn)%nat) by (symmetry; apply (Nat.div_unique _ _ _ (m + 1)); lia).
        assert (M : ((n + 1) mod 100 = m + 1)%nat) by (symmetry; apply (Nat.mod_unique _ _ qn); lia).
        rewrite Q, M. cbn [fst ts_since ts_rate ts_start ts_duration ts_temp ts_start_temp ts_completed].
        repeat (split; [assumption || reflexivity|]). split.
        * rewrite G. destruct (Nat.eqb_spec qn 0); [reflexivity|]. rewrite EP by lia. reflexivity.
        * rewrite H. split; (intros [X'|(j & J & L)]; [now left|right]); exists j; (split; [lia|]); [rewrite EP by lia|rewrite <- EP by lia]; exact L. }
  destruct (I ws) as (_ & B & C & D & _ & G & H). split; [exact G|]. split; [exact H|]. split; [exact D|]. split; [exact B|exact C].
Qed.
Print Assumptions C23_time_restarted.

(** A new schedule, started by [load] in the world [w1]. *)
Theorem C23_time_series (E : @env NumR) (start duration : R) (w0 w1 : @world NumR) (ws : list (@world NumR)) :
  (forall x, e_exp E x = exp x) ->
  let s0 := fst (ts_reset E (fst (ts_new E (start : @F NumR) duration w0)) w1) in
  let s := fold_left (fun s w => fst (ts_update E s w)) ws s0 in
  let looks := (length ws / 100)%nat in
  let passed := fun j => ((e_clock E (w_clock (nth (100 * j + 99) ws w1)) : R) - e_clock E (w_clock w1)) / duration in
  (ts_temp s : R) = (if Nat.eqb looks 0 then start else cooling (passed (looks - 1)%nat) * start) /\
  (ts_completed s = true <-> exists j, (j < looks)%nat /\ 1 <= passed j).
Proof.
  intros EE. cbv zeta. set (s1 := fst (ts_new E (start : @F NumR) duration w0)).
  destruct (C23_time_restarted E s1 w1 ws EE eq_refl) as (T & C & _). cbv zeta in T, C. split; [exact T|].
  rewrite C. split; [intros [X|X]; [discriminate|exact X]|now right].
Qed.
Print Assumptions C23_time_series.

(** ** Example *)
Definition real_env : @env NumR := @mkEnv NumR exp INR.
Example schedule_example :
  (forall x, e_exp real_env x = exp x) /\ 0 < 10 /\ (0 < 5)%nat /\
  is_completed (Nat.iter 4 (is_update real_env) (is_new (10 : @F NumR) 5)) = false /\
  is_completed (Nat.iter 5 (is_update real_env) (is_new (10 : @F NumR) 5)) = true.
Proof. split; [reflexivity|]. split; [lra|]. split; [lia|]. split; reflexivity. Qed.

(** 250 updates, one second each, with a duration of 150 seconds: the second look at the clock
    ends the schedule. *)
Definition at_second (k : nat) : @world NumR := @mkWorld NumR (1 : @F NumR) hist_new 0 (mkRng (fun _ => 0%N) 0) k.
Example time_series_example :
  let s := fun n => fold_left (fun s w => fst (ts_update real_env s w)) (map at_second (seq 1 n))
             (fst (ts_reset real_env (fst (ts_new real_env (10 : @F NumR) 150 (at_second 0))) (at_second 0))) in
  ts_completed (s 250%nat) = true /\ ts_completed (s 199%nat) = false /\ (ts_temp (s 199%nat) : R) = cooling (100 / 150) * 10.
Proof.
  cbv zeta.
  destruct (C23_time_series real_env 10 150 (at_second 0) (at_second 0) (map at_second (seq 1 250)) (fun x => eq_refl)) as [_ A].
  destruct (C23_time_series real_env 10 150 (at_second 0) (at_second 0) (map at_second (seq 1 199)) (fun x => eq_refl)) as [T B].
  rewrite map_length, seq_length in A, B, T. change (250 / 100)%nat with 2%nat in A. change (199 / 100)%nat with 1%nat in B, T.
  assert (K : forall n j, (100 * j + 99 < n)%nat -> nth (100 * j + 99) (map at_second (seq 1 n)) (at_second 0) = at_second (1 + (100 * j + 99))).
  { intros n j H. rewrite (map_nth at_second (seq 1 n) 0%nat). rewrite seq_nth by lia. reflexivity. }
  split; [|split].
  - apply A. exists 1%nat. split; [lia|]. rewrite K by lia. unfold at_second, real_env. cbn [w_clock e_clock].
    rewrite !INR_IZR_INZ. cbn. lra.
  - apply not_true_is_false. intro Q. apply B in Q. destruct Q as (j & J & L).
    assert (j = 0%nat) as -> by lia. rewrite K in L by lia. unfold at_second, real_env in L. cbn [w_clock e_clock] in L.
    rewrite !INR_IZR_INZ in L. cbn in L. lra.
  - rewrite T. change (Nat.eqb 1 0) with false. cbv iota. change (1 - 1)%nat with 0%nat. rewrite K by lia. unfold at_second, real_env.
    cbn [w_clock e_clock]. rewrite !INR_IZR_INZ. f_equal. f_equal. cbn. lra.
Qed.

(** A schedule that is completed after 250 updates, the last look being 50 updates ago, is restarted
    at second 300: it stays completed, and the first look comes after a hundred further updates, not
    after fifty. *)
Definition used_schedule : @time_schedule NumR := @mkTS NumR (0 : R) (150 : R) (5 : R) (10 : R) 250 50 100 true.
Example time_restarted_example :
  let s := fun n => fold_left (fun s w => fst (ts_update real_env s w)) (map at_second (seq 301 n)) (fst (ts_reset real_env used_schedule (at_second 300))) in
  ts_completed (s 99%nat) = true /\ (ts_temp (s 99%nat) : R) = 5 /\ (ts_temp (s 100%nat) : R) = cooling (100 / 150) * 10.
Proof.
  cbv zeta.
  destruct (C23_time_restarted real_env used_schedule (at_second 300) (map at_second (seq 301 99)) (fun x => eq_refl) eq_refl) as (T & C & _).
  destruct (C23_time_restarted real_env used_schedule (at_second 300) (map at_second (seq 301 100)) (fun x => eq_refl) eq_refl) as (T2 & _).
  rewrite map_length, seq_length in T, T2. change (99 / 100)%nat with 0%nat in T. change (100 / 100)%nat with 1%nat in T2.
  split; [apply C; now left|]. split; [exact T|]. rewrite T2. change (Nat.eqb 1 0) with false. cbv iota.
  change (100 * (1 - 1) + 99)%nat with 99%nat.
  change (nth 99 (map at_second (seq 301 100)) (at_second 300)) with (at_second 400).
  unfold at_second, real_env, used_schedule. cbn [w_clock e_clock ts_duration ts_start_temp]. rewrite !INR_IZR_INZ. f_equal. f_equal. cbn. lra.
Qed.
