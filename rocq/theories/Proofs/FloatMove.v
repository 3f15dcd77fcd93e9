(** The cost change of a move of the local search in double precision: how far it is from the change
    of the true cost, on integral data of moderate size. *)
From Coq Require Import List Arith ZArith Bool Lia Reals Lra Psatz Permutation.
From Flocq Require Import Core BinarySingleNaN Relative.
From Verif.Model Require Import Num NumFloat Prelude Evaluate Config Sector Matrix LinkedList LocalSearch.
From Verif.Spec Require Import Solution LocalSearch Floats.
From Verif.Proofs Require Import Lists LinkFacts EvalFacts FloatFacts FloatRun LsState LsMoves LsEffect LsStar LsSearch.
Import ListNotations.

Local Notation fx := (SpecFloat.fexp 53 1024).
Local Notation rnd := (round radix2 fx ZnearestE).
Local Existing Instance fx_valid.

(** ** Rounding errors *)
Section Errors.
  Local Open Scope R_scope.

  Lemma half_ulp x e : (-900 <= e <= 1000)%Z -> Rabs x <= bpow radix2 e -> Rabs (rnd x - x) <= bpow radix2 (e - 54).
  Proof.
    intros He H. destruct (Rle_lt_or_eq_dec _ _ H) as [L|E].
    - destruct (Req_dec x 0) as [->|NZ].
      { rewrite round_0 by apply valid_rnd_N. rewrite Rminus_0_r, Rabs_R0. apply bpow_ge_0. }
      eapply Rle_trans; [apply error_le_half_ulp; apply fx_valid|].
      assert (U : ulp radix2 fx x <= bpow radix2 (e - 53)).
      { rewrite ulp_neq_0 by auto. apply bpow_le. unfold cexp.
        assert (M : (mag radix2 x <= e)%Z) by (apply mag_le_bpow; auto).
        change fx with (FLT_exp (3 - 1024 - 53) 53). unfold FLT_exp. lia. }
      replace (e - 53)%Z with (e - 54 + 1)%Z in U by ring. rewrite bpow_plus in U. change (bpow radix2 1) with 2 in U. lra.
    - assert (G : generic_format radix2 fx x).
      { apply generic_format_abs_inv. rewrite E. apply generic_format_bpow.
        change fx with (FLT_exp (3 - 1024 - 53) 53). unfold FLT_exp. lia. }
      rewrite round_generic by (auto; apply valid_rnd_N). rewrite Rminus_diag_eq by auto. rewrite Rabs_R0. apply bpow_ge_0.
  Qed.

  Lemma round_abs_le x e : (-900 <= e <= 1000)%Z -> Rabs x <= bpow radix2 e -> Rabs (rnd x) <= bpow radix2 e.
  Proof.
    intros He H. apply abs_round_le_generic; auto; [apply fx_valid|apply valid_rnd_N|].
    apply generic_format_bpow. change fx with (FLT_exp (3 - 1024 - 53) 53). unfold FLT_exp. lia.
  Qed.
  Lemma round_fits x e : (-900 <= e <= 1000)%Z -> Rabs x <= bpow radix2 e -> Rlt_bool (Rabs (rnd x)) (bpow radix2 1024) = true.
  Proof.
    intros He H. apply Rlt_bool_true. eapply Rle_lt_trans; [apply round_abs_le; eauto|]. apply bpow_lt. lia.
  Qed.

  (** [x] is a double that is [a] up to [err]. *)
  Definition near_to (x : dbl) (a err : R) : Prop := is_finite x = true /\ Rabs (B2R x - a) <= err.

  Lemma near_int x z : is_int x z -> near_to x (IZR z) 0.
  Proof. intros [F E]. split; auto. rewrite E, Rminus_diag_eq, Rabs_R0 by auto. lra. Qed.

  Lemma near_add x y a b ea eb e : near_to x a ea -> near_to y b eb -> (-900 <= e <= 1000)%Z ->
    Rabs (a + b) + ea + eb <= bpow radix2 e -> near_to (dadd x y) (a + b) (ea + eb + bpow radix2 (e - 54)).
  Proof.
    intros [F1 E1] [F2 E2] He H.
    assert (S : Rabs (B2R x + B2R y) <= bpow radix2 e).
    { replace (B2R x + B2R y) with ((a + b) + ((B2R x - a) + (B2R y - b))) by ring.
      eapply Rle_trans; [apply Rabs_triang|]. pose proof (Rabs_triang (B2R x - a) (B2R y - b)). lra. }
    pose proof (Bplus_correct 53 1024 prec_pos prec_emax mode_NE x y F1 F2) as B.
    change (round_mode mode_NE) with ZnearestE in B. rewrite (round_fits _ e He S) in B.
    destruct B as (B1 & B2 & _). split; [exact B2|]. unfold dadd. rewrite B1.
    pose proof (half_ulp _ e He S) as R.
    replace (rnd (B2R x + B2R y) - (a + b)) with ((rnd (B2R x + B2R y) - (B2R x + B2R y)) + ((B2R x - a) + (B2R y - b))) by ring.
    eapply Rle_trans; [apply Rabs_triang|]. pose proof (Rabs_triang (B2R x - a) (B2R y - b)). lra.
  Qed.
  Lemma near_sub x y a b ea eb e : near_to x a ea -> near_to y b eb -> (-900 <= e <= 1000)%Z ->
    Rabs (a - b) + ea + eb <= bpow radix2 e -> near_to (dsub x y) (a - b) (ea + eb + bpow radix2 (e - 54)).
  Proof.
    intros [F1 E1] [F2 E2] He H.
    assert (T : Rabs ((B2R x - a) - (B2R y - b)) <= ea + eb).
    { unfold Rminus at 1. eapply Rle_trans; [apply Rabs_triang|]. rewrite Rabs_Ropp. lra. }
    assert (S : Rabs (B2R x - B2R y) <= bpow radix2 e).
    { replace (B2R x - B2R y) with ((a - b) + ((B2R x - a) - (B2R y - b))) by ring.
      eapply Rle_trans; [apply Rabs_triang|]. lra. }
    pose proof (Bminus_correct 53 1024 prec_pos prec_emax mode_NE x y F1 F2) as B.
    change (round_mode mode_NE) with ZnearestE in B. rewrite (round_fits _ e He S) in B.
    destruct B as (B1 & B2 & _). split; [exact B2|]. unfold dsub. rewrite B1.
    pose proof (half_ulp _ e He S) as R.
    replace (rnd (B2R x - B2R y) - (a - b)) with ((rnd (B2R x - B2R y) - (B2R x - B2R y)) + ((B2R x - a) - (B2R y - b))) by ring.
    eapply Rle_trans; [apply Rabs_triang|]. lra.
  Qed.
  Lemma near_mul x y a b e : is_finite x = true -> is_finite y = true -> B2R x = a -> B2R y = b -> (-900 <= e <= 1000)%Z ->
    Rabs (a * b) <= bpow radix2 e -> near_to (dmul x y) (a * b) (bpow radix2 (e - 54)).
  Proof.
    intros F1 F2 <- <- He H.
    pose proof (Bmult_correct 53 1024 prec_pos prec_emax mode_NE x y) as B.
    change (round_mode mode_NE) with ZnearestE in B. rewrite (round_fits _ e He H) in B.
    destruct B as (B1 & B2 & _). rewrite F1, F2 in B2. split; [exact B2|]. unfold dmul. rewrite B1.
    apply half_ulp; auto.
  Qed.
  Lemma near_more x a e e' : near_to x a e -> e <= e' -> near_to x a e'.
  Proof. intros [F H] L. split; auto. lra. Qed.

  (** The tolerance *)
  Lemma eps_value : is_finite (d_lit 1 1000000) = true /\ 99999999 / 100000000 / 1000000 <= B2R (d_lit 1 1000000).
  Proof.
    destruct eps_small as [_ F]. split; auto.
    rewrite <- SF2R_B2SF. replace (B2SF (d_lit 1 1000000)) with (SpecFloat.S754_finite false 4722366482869645 (-72)) by (vm_compute; reflexivity).
    unfold SF2R, F2R. cbn [SpecFloat.cond_Zopp Fnum Fexp].
    change (bpow radix2 (-72)) with (/ IZR 4722366482869645213696)%R. lra.
  Qed.

  Lemma lt_real (x y : dbl) : is_finite x = true -> is_finite y = true -> dlt x y = true -> B2R x < B2R y.
  Proof.
    intros F1 F2 L. unfold dlt in L. pose proof (Bltb_correct 53 1024 x y F1 F2) as B.
    rewrite L in B. symmetry in B. destruct (Rlt_bool_spec (B2R x) (B2R y)); auto; discriminate.
  Qed.
  Lemma not_lt_real (x y : dbl) : is_finite x = true -> is_finite y = true -> dlt x y = false -> B2R y <= B2R x.
  Proof.
    intros F1 F2 L. unfold dlt in L. pose proof (Bltb_correct 53 1024 x y F1 F2) as B.
    rewrite L in B. symmetry in B. destruct (Rlt_bool_spec (B2R x) (B2R y)); auto; discriminate.
  Qed.

  Lemma improving (x : dbl) a err : near_to x a err -> @approx_lt NumF x (@f0 NumF) = true ->
    a <= err - 99999999 / 100000000 / 1000000.
  Proof.
    intros [F E] L. change (dlt x (dsub (d_of_Z 0) (d_lit 1 1000000)) = true) in L.
    destruct eps_value as [FE VE]. destruct int_zero as [F0 V0].
    pose proof (Bminus_correct 53 1024 prec_pos prec_emax mode_NE (d_of_Z 0) (d_lit 1 1000000) F0 FE) as B.
    change (round_mode mode_NE) with ZnearestE in B. change (@f0 NumF) with (d_of_Z 0) in V0. rewrite V0 in B.
    replace (0 - B2R (d_lit 1 1000000)) with (- B2R (d_lit 1 1000000)) in B by ring.
    rewrite (round_generic radix2 fx ZnearestE (- _)) in B.
    2:{ apply generic_format_opp. apply generic_format_B2R. }
    rewrite Rabs_Ropp in B. rewrite Rlt_bool_true in B by apply abs_B2R_lt_emax.
    destruct B as (B1 & B2 & _). apply lt_real in L; auto. unfold dsub in L. rewrite B1 in L.
    apply Rabs_le_inv in E. lra.
  Qed.

  Lemma not_gte (x : dbl) a err : near_to x a err -> @approx_gte NumF x (@f0 NumF) = false ->
    a <= err - 99999999 / 100000000 / 1000000.
  Proof.
    intros [F E] L. unfold approx_gte in L. apply orb_false_iff in L. destruct L as [L1 L2].
    change (dlt (d_of_Z 0) x = false) in L1.
    change (dlt (Babs (dsub x (d_of_Z 0))) (d_lit 1 1000000) = false) in L2.
    destruct eps_value as [FE VE]. destruct int_zero as [F0 V0]. change (@f0 NumF) with (d_of_Z 0) in V0, F0.
    apply not_lt_real in L1; auto. rewrite V0 in L1.
    pose proof (Bminus_correct 53 1024 prec_pos prec_emax mode_NE x (d_of_Z 0) F F0) as B.
    change (round_mode mode_NE) with ZnearestE in B. rewrite V0 in B.
    replace (B2R x - 0) with (B2R x) in B by ring.
    rewrite (round_generic radix2 fx ZnearestE (B2R x)) in B by apply generic_format_B2R.
    rewrite Rlt_bool_true in B by apply abs_B2R_lt_emax. destruct B as (B1 & B2 & _).
    assert (FA : is_finite (Babs (dsub x (d_of_Z 0))) = true) by (rewrite is_finite_Babs; exact B2).
    apply not_lt_real in L2; auto. rewrite B2R_Babs in L2. unfold dsub in L2. rewrite B1 in L2.
    rewrite Rabs_left1 in L2 by lra. apply Rabs_le_inv in E. lra.
  Qed.
End Errors.
