(** The Bellman split in double precision: the cells of its tables are best among the cuts within the
    enlarged capacity, up to rounding errors. *)
From Coq Require Import List Arith ZArith Bool Lia Reals Lra Psatz Permutation.
From Flocq Require Import Core BinarySingleNaN.
From Verif.Model Require Import Num NumFloat Prelude Evaluate Individual Config Split.
From Verif.Spec Require Import Floats FloatProgram FloatSearch FloatSplit.
From Verif.Proofs Require Import Lists SplitStruct FloatFacts FloatRun FloatMove FloatPenalty FloatSplitQueue.
From Verif.Proofs Require SplitOpt SplitPart.
Import ListNotations.
Local Open Scope R_scope.
Local Notation fx := (SpecFloat.fexp 53 1024).
Local Notation rnd := (round radix2 fx ZnearestE).
Local Existing Instance fx_valid.

Notation BIG := (B2R (d_of_Z (10 ^ 30))).

Lemma huge_value : is_finite (d_lit (10 ^ 29) 1) = true /\ bpow radix2 30 <= B2R (d_lit (10 ^ 29) 1) /\ dlt (d_lit (10 ^ 29) 1) (d_of_Z (10 ^ 30)) = true.
Proof.
  assert (F : is_finite (d_lit (10 ^ 29) 1) = true) by (vm_compute; reflexivity). split; [exact F|].
  assert (L : dlt (d_of_Z (2 ^ 30)) (d_lit (10 ^ 29) 1) = true) by (vm_compute; reflexivity).
  split; [|vm_compute; reflexivity]. destruct (int_of_Z (2 ^ 30) eq_refl) as [F2 V2]. apply lt_real in L; auto. rewrite V2 in L.
  change (bpow radix2 30) with (IZR (2 ^ 30)). lra.
Qed.

Lemma real_lt (x y : dbl) : is_finite x = true -> is_finite y = true -> B2R x < B2R y -> dlt x y = true.
Proof. intros F1 F2 L. unfold dlt. rewrite Bltb_correct by auto. now apply Rlt_bool_true. Qed.
Lemma real_not_lt (x y : dbl) : is_finite x = true -> is_finite y = true -> B2R y <= B2R x -> dlt x y = false.
Proof. intros F1 F2 L. unfold dlt. rewrite Bltb_correct by auto. now apply Rlt_bool_false. Qed.

(** Adding something to a huge number does not make it smaller. *)
Lemma add_huge (x y : dbl) e : is_finite x = true -> is_finite y = true -> (60 <= e <= 200)%Z ->
  BIG <= B2R x <= bpow radix2 e -> 0 <= B2R y <= bpow radix2 60 ->
  is_finite (dadd x y) = true /\ BIG <= B2R (dadd x y) <= bpow radix2 (e + 1).
Proof.
  intros FX FY He HX HY.
  assert (T : BIG <= B2R x + B2R y <= bpow radix2 (e + 1)).
  { split; [lra|]. rewrite bpow_plus. change (bpow radix2 1) with 2. assert (bpow radix2 60 <= bpow radix2 e) by (apply bpow_le; lia). lra. }
  assert (Rr : BIG <= rnd (B2R x + B2R y) <= bpow radix2 (e + 1)).
  { split.
    - apply round_ge_generic; [apply fx_valid|apply valid_rnd_N|apply generic_format_B2R|apply T].
    - apply round_le_generic; [apply fx_valid|apply valid_rnd_N| |apply T].
      apply generic_format_bpow. unfold SpecFloat.fexp, SpecFloat.emin. lia. }
  assert (0 <= BIG) by (destruct big_large as [_ [B _]]; pose proof (bpow_ge_0 radix2 99); lra).
  pose proof (Bplus_correct 53 1024 prec_pos prec_emax mode_NE x y FX FY) as B. change (round_mode mode_NE) with ZnearestE in B.
  rewrite Rlt_bool_true in B.
  - destruct B as (B1 & B2 & _). unfold dadd. rewrite B1, B2. split; [reflexivity|exact Rr].
  - rewrite Rabs_pos_eq by lra. eapply Rle_lt_trans; [apply Rr|]. apply bpow_lt. lia.
Qed.

Section Bellman.
  Variable p : @problem NumF.
  Variables (d : nat -> nat -> Z) (q : nat -> Z) (cap : Z).
  Variable pen : dbl.
  Variable geno : list nat.
  Variable top : Z.
  Notation n := (p_dim p - 1)%nat.
  Notation pr := (B2R pen).
  Hypothesis HI : integral p d q cap.
  Hypothesis Hdim : (2 <= p_dim p)%nat.
  Hypothesis Hperm : Permutation geno (seq 1 n).
  Hypothesis Hdem : forall a, (1 <= a < p_dim p)%nat -> (1 <= q a)%Z.
  Hypothesis Hfin : is_finite pen = true.
  Hypothesis Hpen : 1 / 100000 <= pr.
  Hypothesis Htop1 : (1 <= top)%Z.
  Hypothesis Htop : forall a b, (a < p_dim p)%nat -> (b < p_dim p)%nat -> (d a b <= top)%Z.
  Hypothesis Hload : (zload q (seq 1 n) < exact_bound)%Z.
  Hypothesis Hsize : IZR (2 * Z.of_nat (p_dim p) * top) + pr * IZR (zload q (seq 1 n)) <= 200000000.
  Hypothesis Hsym : forall a, (a < p_dim p)%nat -> d 0%nat a = d a 0%nat.
  Variable factor : dbl.
  Hypothesis Hfac : is_finite factor = true /\ 0 <= B2R factor <= bpow radix2 100.
  Notation seg := (SplitOpt.seg geno).
  Notation RC := (true_route_cost d q cap pr).
  Notation TC := (true_cost d q cap pr).
  Notation okc := (okc q pen geno top).
  Notation Qz := (Qz q geno).
  Notation Dz := (Dz d geno).
  Notation ddz := (ddz d geno).
  Notation W i x := (Wr pr (IZR (Qz x) - IZR cap) (IZR (Qz i))).
  Notation all := (zload q (seq 1 n)).
  Notation A := (IZR (Z.of_nat (p_dim p) * top)).
  Notation B := (pr * IZR all).
  Let GL : length geno = n := geno_length p geno Hperm.
  Let gn i : (1 <= i <= n)%nat -> (1 <= gnode geno i < p_dim p)%nat.
  Proof. eapply gnode_range; eassumption. Qed.
  Let QA i : (i <= n)%nat -> (0 <= Qz i <= all)%Z.
  Proof. eapply Qz_all; eassumption. Qed.
  Let QM i j : (i <= j <= n)%nat -> (Qz i <= Qz j)%Z.
  Proof. eapply Qz_mono; eassumption. Qed.
  Let SR : 2 * A + B <= 200000000 /\ 0 <= B /\ 1 <= A.
  Proof. eapply sizes_R; eassumption. Qed.
  Let SZ : (4 * top <= 2 * Z.of_nat (p_dim p) * top /\ 2 * Z.of_nat (p_dim p) * top <= 200000000)%Z.
  Proof. eapply size_Z; eassumption. Qed.
  Let OB pc j : (j <= n)%nat -> okc pc j -> is_finite (pc j) = true /\ - 20 <= B2R (pc j) <= 2 * A + B + 20.
  Proof. eapply okc_bounds; eassumption. Qed.
  Let SC i x : (i < x <= n)%nat -> RC (seg i x) = IZR (ddz (i + 1)) + (IZR (Dz x) - IZR (Dz (i + 1))) + IZR (ddz x) + W i x.
  Proof. eapply seg_cost; eassumption. Qed.
  Let SB i x : (i < x <= n)%nat -> 0 <= RC (seg i x) <= IZR (2 * Z.of_nat (x - i) * top) + pr * (IZR (Qz x) - IZR (Qz i)).
  Proof. eapply seg_bounds; eassumption. Qed.
  Let DB i : (i <= n)%nat -> is_int (@cumD NumF p geno i) (Dz i) /\ (0 <= Dz i <= Z.of_nat i * top)%Z.
  Proof. eapply Dz_int; eassumption. Qed.
  Let WB i x : (i <= x <= n)%nat -> 0 <= W i x <= B.
  Proof. eapply W_bounds; eassumption. Qed.
  Let NX pc pc' i x : (i < x <= n)%nat -> okc pc i -> near_to (pc' x) (B2R (pc i) + RC (seg i x)) du -> okc pc' x.
  Proof. intros H O E. eapply okc_next; try eassumption. erewrite fq_cost; eassumption. Qed.
  Let SL i x : (i <= x <= n)%nat -> zload q (seg i x) = (Qz x - Qz i)%Z.
  Proof.
    intros H. replace x with (i + (x - i))%nat by lia. eapply seg_load; try eassumption. lia.
  Qed.
  Let DF i x : (1 <= i <= x)%nat -> (x <= n)%nat -> (0 <= Dz x - Dz i <= Z.of_nat (x - i) * top)%Z.
  Proof. eapply Dz_diff; eassumption. Qed.
  Let DI a b : (a < p_dim p)%nat -> (b < p_dim p)%nat -> is_int (p_dist p a b) (d a b) /\ (0 <= d a b <= top)%Z.
  Proof. eapply dz_int; eassumption. Qed.

  (** A load the split takes into one route. *)
  Definition okl (z : Z) : Prop := IZR z <= IZR cap * B2R factor.
  Definition bound : dbl := dmul (p_cap p) factor.
  Lemma bound_ok : is_finite bound = true /\ forall z, (0 <= z < exact_bound)%Z -> okl z -> IZR z <= B2R bound.
  Proof.
    destruct (ig_cap _ _ _ _ HI) as [[CF CV] C]. destruct Hfac as [FF FV].
    assert (CB : 0 <= IZR cap <= bpow radix2 53) by (change (bpow radix2 53) with (IZR (2 ^ 53)); unfold exact_bound in C; split; apply IZR_le; lia).
    assert (T : 0 <= IZR cap * B2R factor <= bpow radix2 153).
    { change 153%Z with (53 + 100)%Z. rewrite bpow_plus. split; [apply Rmult_le_pos; lra|apply Rmult_le_compat; lra]. }
    pose proof (Bmult_correct 53 1024 prec_pos prec_emax mode_NE (p_cap p) factor) as M. change (round_mode mode_NE) with ZnearestE in M.
    rewrite CV in M. rewrite Rlt_bool_true in M.
    - destruct M as (M1 & M2 & _). unfold bound, dmul. rewrite M1, M2, CF, FF. split; [reflexivity|].
      intros z Hz Hk. apply round_ge_generic; [apply fx_valid|apply valid_rnd_N|apply int_format; lia|exact Hk].
    - assert (0 <= rnd (IZR cap * B2R factor) <= bpow radix2 153).
      { split; [apply round_ge_generic|apply round_le_generic]; try apply fx_valid; try apply valid_rnd_N; try apply T.
        - apply generic_format_0.
        - apply generic_format_bpow. unfold SpecFloat.fexp, SpecFloat.emin. lia. }
      rewrite Rabs_pos_eq by lra. eapply Rle_lt_trans; [apply H|]. apply bpow_lt. lia.
  Qed.
  Lemma okl_less z z' : (z' <= z)%Z -> okl z -> okl z'.
  Proof. unfold okl. intros H. apply IZR_le in H. lra. Qed.
  Lemma ulim_ok (x : dbl) z : is_int x z -> (0 <= z < exact_bound)%Z -> okl z -> @approx_lte NumF x bound = true.
  Proof.
    intros [FX VX] Hz Hk. destruct bound_ok as [FB HB]. specialize (HB z Hz Hk). unfold approx_lte.
    destruct (Rlt_le_dec (IZR z) (B2R bound)) as [L|L].
    - change (dlt x bound || @approx_eq NumF x bound = true). rewrite real_lt; auto. now rewrite VX.
    - apply orb_true_iff. right. change (dlt (Babs (dsub x bound)) (d_lit 1 1000000) = true).
      assert (E : B2R x - B2R bound = 0) by lra. pose proof (Bminus_correct 53 1024 prec_pos prec_emax mode_NE x bound FX FB) as M.
      change (round_mode mode_NE) with ZnearestE in M. rewrite E in M. change 0 with (IZR 0) in M. rewrite int_small in M by reflexivity.
      destruct M as (M1 & M2 & _). destruct eps_value as [FE VE]. apply real_lt; auto.
      + rewrite is_finite_Babs. exact M2.
      + rewrite B2R_Babs. unfold dsub. rewrite M1, int_round by reflexivity. rewrite Rabs_R0. lra.
  Qed.
  Lemma llim_ok (x : dbl) z : is_int x z -> (0 <= z < exact_bound)%Z -> okl z -> @fle NumF x bound = true.
  Proof.
    intros [FX VX] Hz Hk. destruct bound_ok as [FB HB]. specialize (HB z Hz Hk). change (dle x bound = true).
    apply dle_R; auto. now rewrite VX.
  Qed.

  (** The value offered to a cell. *)
  Definition cand (pf load cost : @F NumF) (x : nat) : @F NumF :=
    let new := pf +: cost +: p_dist p (gnode geno x) 0 in
    if approx_gt (load -: p_cap p) f0 then new +: (load -: p_cap p) *: (pen : @F NumF) else new.

  Section Cand.
    Variables (i x : nat) (pf load cost : @F NumF).
    Hypothesis Hix : (i < x <= n)%nat.
    Hypothesis Hl : is_int load (Qz x - Qz i).
    Hypothesis Hc : is_int cost (ddz (i + 1) + (Dz x - Dz (i + 1))).
    Lemma over_int : is_int (@fsub NumF load (p_cap p)) (Qz x - Qz i - cap).
    Proof.
      destruct (ig_cap _ _ _ _ HI) as [C1 C2]. pose proof (QA x ltac:(lia)). pose proof (QA i ltac:(lia)). pose proof (QM i x ltac:(lia)).
      apply int_sub; auto. lia.
    Qed.
    Lemma over_pen : (0 < Qz x - Qz i - cap)%Z -> W i x = IZR (Qz x - Qz i - cap) * pr.
    Proof. intros H. rewrite Wr_hi; [|rewrite <- minus_IZR; apply IZR_le; lia]. rewrite !minus_IZR. ring. Qed.
    Lemma no_pen : (Qz x - Qz i - cap <= 0)%Z -> W i x = 0.
    Proof. intros H. apply Wr_lo. rewrite <- minus_IZR. apply IZR_le. lia. Qed.
    Lemma product_near : (0 < Qz x - Qz i - cap)%Z -> near_to (@fmul NumF (@fsub NumF load (p_cap p)) pen) (W i x) u25.
    Proof.
      intros H. destruct over_int as [OF OV]. pose proof (WB i x ltac:(lia)) as WB'. rewrite over_pen in * by auto. pose proof SR as (S1 & S2 & S3).
      change (-25)%Z with (29 - 54)%Z. apply (near_mul _ pen _ pr 29); auto; [lia|].
      rewrite Rabs_pos_eq by lra. destruct u25_value as (-> & _). lra.
    Qed.
    Lemma gt_cap : @approx_gt NumF (@fsub NumF load (p_cap p)) (@f0 NumF) = (0 <? Qz x - Qz i - cap)%Z.
    Proof. apply int_gt_zero. exact over_int. Qed.
    Lemma legs : (0 <= ddz (i + 1) + (Dz x - Dz (i + 1)) <= Z.of_nat (p_dim p) * top)%Z /\ is_int (p_dist p (gnode geno x) 0%nat) (ddz x) /\ (0 <= ddz x <= top)%Z.
    Proof.
      pose proof (DF (i + 1) x ltac:(lia) ltac:(lia)). pose proof (gn (i + 1) ltac:(lia)). pose proof (gn x ltac:(lia)).
      destruct (DI (gnode geno (i + 1)) 0%nat ltac:(lia) ltac:(lia)) as [_ D1]. fold (ddz (i + 1)) in D1.
      split; [|apply DI; lia]. assert (Z.of_nat (x - (i + 1)) * top <= Z.of_nat (p_dim p - 1) * top)%Z by nia.
      unfold ddz. rewrite Nat2Z.inj_sub in * by lia. unfold FloatSplitQueue.ddz in D1. nia.
    Qed.

    Lemma cand_near : is_finite (pf : dbl) = true -> - 20 <= B2R (pf : dbl) <= 2 * A + B + 20 ->
      near_to (cand pf load cost x) (B2R (pf : dbl) + RC (seg i x)) du.
    Proof.
      intros F PB. destruct legs as ([L1 L2] & L3 & L4). pose proof SR as (S1 & S2 & S3). pose proof u25_value as (_ & _ & _ & U).
      pose proof (WB i x ltac:(lia)) as W0. apply IZR_le in L1, L2.
      assert (X : 0 <= IZR (ddz x) <= A) by (split; apply IZR_le; nia).
      assert (N : near_to (@fadd NumF (@fadd NumF pf cost) (p_dist p (gnode geno x) 0%nat)) (B2R (pf : dbl) + IZR (ddz (i + 1) + (Dz x - Dz (i + 1))) + IZR (ddz x)) (0 + 0 + u25 + 0 + u25)).
      { apply (near_add29 p Hdim); [apply (near_add29 p Hdim); [now apply near_self|now apply near_int|]|now apply near_int|];
          (match goal with |- Rabs ?e + _ + _ <= _ => assert (Rabs e <= 500000000) by (apply Rabs_le; lra) end; lra). }
      unfold cand. rewrite gt_cap, SC by auto. rewrite plus_IZR, minus_IZR in *. destruct (Z.ltb_spec 0 (Qz x - Qz i - cap)) as [P|P].
      - eapply near_eq; [eapply near_more; [apply (near_add29 p Hdim); [exact N|now apply product_near|]|]|].
        + match goal with |- Rabs ?e + _ + _ <= _ => assert (Rabs e <= 500000000) by (apply Rabs_le; lra) end. lra.
        + unfold du. lra.
        + ring.
      - eapply near_eq; [eapply near_more; [exact N|]|]; [unfold du; lra|]. rewrite no_pen by auto. ring.
    Qed.

    Lemma cand_huge (v : dbl) : pf = @fbig NumF -> is_finite v = true -> B2R v <= BIG -> dlt (cand pf load cost x) v = false.
    Proof.
      intros -> FV HV. destruct legs as ([L1 L2] & [L3 L3'] & L4). destruct Hc as [CF CV]. destruct big_large as [BF [_ BU]].
      assert (P60 : forall z, (0 <= z <= 200000000)%Z -> 0 <= IZR z <= bpow radix2 60).
      { intros z Hz. change (bpow radix2 60) with (IZR (2 ^ 60)). split; apply IZR_le; lia. }
      pose proof SZ as [Z1 Z2].
      destruct (add_huge (d_of_Z (10 ^ 30)) cost 100 BF CF ltac:(lia) ltac:(lra)) as [F1 V1].
      { rewrite CV. apply P60. nia. }
      destruct (add_huge _ (p_dist p (gnode geno x) 0%nat) 101 F1 L3 ltac:(lia) V1) as [F2 V2].
      { rewrite L3'. apply P60. nia. }
      unfold cand. rewrite gt_cap. destruct (Z.ltb_spec 0 (Qz x - Qz i - cap)) as [P|P].
      - destruct (product_near P) as [PF PV]. pose proof (WB i x ltac:(lia)) as W0. apply Rabs_le_inv in PV. pose proof u25_value as (_ & _ & _ & U). pose proof SR as (S1 & S2 & S3).
        assert (P0 : 0 <= B2R (@fmul NumF (@fsub NumF load (p_cap p)) pen)).
        { destruct over_int as [OF OV]. pose proof (Bmult_correct 53 1024 prec_pos prec_emax mode_NE (@fsub NumF load (p_cap p)) pen) as M.
          change (round_mode mode_NE) with ZnearestE in M. change (@fmul NumF) with dmul in *. unfold dmul in *.
          destruct (Rlt_bool _ _) in M.
          - destruct M as [-> _]. apply round_ge_generic; [apply fx_valid|apply valid_rnd_N|apply generic_format_0|].
            rewrite OV. apply Rmult_le_pos; [apply IZR_le; lia|lra].
          - rewrite <- is_finite_SF_B2SF in PF. rewrite M in PF. unfold binary_overflow in PF. cbn in PF. discriminate PF. }
        destruct (add_huge _ (@fmul NumF (@fsub NumF load (p_cap p)) pen) 102 F2 PF ltac:(lia) V2) as [F3 V3].
        { split; [exact P0|]. change (bpow radix2 60) with (IZR (2 ^ 60)). assert (300000000 <= IZR (2 ^ 60)) by (apply IZR_le; lia). lra. }
        apply real_not_lt; auto. exact (Rle_trans _ _ _ HV (proj1 V3)).
      - apply real_not_lt; auto. exact (Rle_trans _ _ _ HV (proj1 V2)).
    Qed.
  End Cand.

  (** ** One start cell *)
  Section Inner.
    Variable limit : @F NumF -> bool.
    Hypothesis LIM : forall (x : dbl) z, is_int x z -> (0 <= z < exact_bound)%Z -> okl z -> limit x = true.

    Lemma load_next from to (load : @F NumF) : (from < to <= n)%nat -> is_int load (Qz (to - 1) - Qz from) ->
      is_int (load +: sdemand p geno to) (Qz to - Qz from).
    Proof.
      intros H L. destruct to as [|to]; [lia|]. replace (S to - 1)%nat with to in L by lia. cbn [FloatSplitQueue.Qz].
      replace (Qz to + q (gnode geno (S to)) - Qz from)%Z with ((Qz to - Qz from) + q (gnode geno (S to)))%Z by ring.
      pose proof (gn (S to) ltac:(lia)). pose proof (QA (S to) ltac:(lia)) as Q1. pose proof (QA from ltac:(lia)). pose proof (QM from (S to) ltac:(lia)) as Q2.
      cbn [FloatSplitQueue.Qz] in Q1, Q2. apply int_add; [exact L|apply (ig_demand _ _ _ _ HI); lia|lia].
    Qed.
    Lemma cost_next from to (cost : @F NumF) : (from < to <= n)%nat ->
      ((from + 1 < to)%nat -> is_int cost (ddz (from + 1) + (Dz (to - 1) - Dz (from + 1)))) ->
      is_int (if (to =? from + 1)%nat then p_dist p 0%nat (gnode geno to) else cost +: p_dist p (gnode geno (to - 1)) (gnode geno to))
        (ddz (from + 1) + (Dz to - Dz (from + 1))).
    Proof.
      intros H L. destruct (Nat.eqb_spec to (from + 1)) as [->|Hne].
      - pose proof (gn (from + 1) ltac:(lia)). rewrite Z.sub_diag, Z.add_0_r. unfold FloatSplitQueue.ddz. rewrite <- Hsym by lia. apply DI; lia.
      - specialize (L ltac:(lia)). destruct to as [|[|to]]; try lia. replace (S (S to) - 1)%nat with (S to) in * by lia.
        pose proof (gn (S to) ltac:(lia)). pose proof (gn (S (S to)) ltac:(lia)).
        assert (E : Dz (S (S to)) = (Dz (S to) + d (gnode geno (S to)) (gnode geno (S (S to))))%Z).
        { change (Dz (S (S to))) with (Dz (S to) + d (gnode geno (S to)) (gnode geno (S to + 1)))%Z. do 3 f_equal. lia. }
        destruct (legs from (S (S to)) ltac:(lia)) as ([L1 L2] & _). pose proof SZ as [_ S2]. rewrite E in *.
        replace (ddz (from + 1) + (Dz (S to) + d (gnode geno (S to)) (gnode geno (S (S to))) - Dz (from + 1)))%Z
          with (ddz (from + 1) + (Dz (S to) - Dz (from + 1)) + d (gnode geno (S to)) (gnode geno (S (S to))))%Z in * by ring.
        apply int_add; [exact L|apply DI; lia|unfold exact_bound; lia].
    Qed.

    Lemma inner_spec fuel : forall from to (pf load cost : @F NumF) (s : (nat -> @F NumF) * (nat -> nat)),
      (from < to)%nat -> (n + 1 - to <= fuel)%nat -> (from <= n)%nat ->
      is_finite (pf : dbl) = true -> - 20 <= B2R (pf : dbl) <= 2 * A + B + 20 ->
      (forall x, (1 <= x <= n)%nat -> is_finite (fst s x : dbl) = true) ->
      is_int load (Qz (to - 1) - Qz from) ->
      ((from + 1 < to)%nat -> is_int cost (ddz (from + 1) + (Dz (to - 1) - Dz (from + 1)))) ->
      let s' := @bellman_inner NumF p pen geno limit fuel from to pf load cost s in
      forall x,
        ((to <= x <= n)%nat -> okl (Qz x - Qz from) -> B2R (fst s' x : dbl) <= B2R (pf : dbl) + RC (seg from x) + du) /\
        ((fst s' x = fst s x /\ snd s' x = snd s x) \/
         ((to <= x <= n)%nat /\ near_to (fst s' x) (B2R (pf : dbl) + RC (seg from x)) du /\
          B2R (fst s' x : dbl) < B2R (fst s x : dbl) /\ snd s' x = from)).
    Proof.
      induction fuel as [|fuel IH]; intros from to pf load cost s Hft Hfu Hfn FP PB FS HL HC; cbn [bellman_inner]; cbv zeta.
      - intros x. split; [lia|left; auto].
      - destruct (to <? p_dim p)%nat eqn:Et; [apply Nat.ltb_lt in Et|apply Nat.ltb_ge in Et]; cbn [andb].
        2:{ intros x. split; [lia|left; auto]. }
        pose proof (load_next from to load ltac:(lia) HL) as HL'. pose proof (cost_next from to cost ltac:(lia) HC) as HC'.
        set (load' := load +: sdemand p geno to) in *. set (cost' := if (to =? from + 1)%nat then _ else _) in *.
        destruct (limit load') eqn:Elim.
        2:{ intros x. split; [|left; auto]. intros Hx Ha. exfalso.
            rewrite (LIM load' _ HL') in Elim; [discriminate| |].
            - pose proof (QA to ltac:(lia)). pose proof (QA from ltac:(lia)). pose proof (QM from to ltac:(lia)). lia.
            - apply (okl_less (Qz x - Qz from)); auto. pose proof (QM to x ltac:(lia)). lia. }
        change (if approx_gt (load' -: p_cap p) f0 then pf +: cost' +: p_dist p (gnode geno to) 0 +: (load' -: p_cap p) *: (pen : @F NumF) else pf +: cost' +: p_dist p (gnode geno to) 0)
          with (cand pf load' cost' to).
        pose proof (cand_near from to pf load' cost' ltac:(lia) HL' HC' FP PB) as NN. set (new := cand pf load' cost' to) in *.
        set (s1 := if new <:? fst s to then (fupd (fst s) to new, fupd (snd s) to from) else s).
        assert (NV := NN). destruct NV as [NF NV]. apply Rabs_le_inv in NV.
        assert (Hs1 : (forall x, x <> to -> fst s1 x = fst s x /\ snd s1 x = snd s x) /\ is_finite (fst s1 to : dbl) = true /\
                      (B2R (fst s1 to : dbl) <= B2R (pf : dbl) + RC (seg from to) + du) /\
                      ((fst s1 to = fst s to /\ snd s1 to = snd s to) \/
                       (near_to (fst s1 to) (B2R (pf : dbl) + RC (seg from to)) du /\ B2R (fst s1 to : dbl) < B2R (fst s to : dbl) /\ snd s1 to = from))).
        { unfold s1. destruct (new <:? fst s to) eqn:Enew; cbn [fst snd]; unfold fupd.
          - change (dlt new (fst s to) = true) in Enew. apply lt_real in Enew; auto; [|apply FS; lia].
            rewrite Nat.eqb_refl. split; [|split; [exact NF|split]].
            + intros x Hx. apply Nat.eqb_neq in Hx. rewrite Hx. auto.
            + lra.
            + right. auto.
          - change (dlt new (fst s to) = false) in Enew. apply not_lt_real in Enew; auto; [|apply FS; lia].
            split; auto. split; [apply FS; lia|]. split; [lra|left; auto]. }
        destruct Hs1 as (Ha & Hf & Hb & Hc).
        specialize (IH from (to + 1)%nat pf load' cost' s1 ltac:(lia) ltac:(lia) Hfn FP PB).
        replace (to + 1 - 1)%nat with to in IH by lia.
        specialize (IH ltac:(intros x Hx; destruct (Nat.eq_dec x to) as [->|Hne]; [exact Hf|rewrite (proj1 (Ha x Hne)); apply FS; lia]) HL' (fun _ => HC')).
        cbv zeta in IH. intros x. specialize (IH x). destruct IH as [IH1 IH2].
        destruct (Nat.eq_dec x to) as [->|Hxto].
        + destruct IH2 as [[E1 E2]|(Hr & _)]; [|lia]. split.
          * intros _ _. rewrite E1. exact Hb.
          * rewrite E1, E2. destruct Hc as [Hc|(C1 & C2 & C3)]; [left; auto|]. right. split; [lia|auto].
        + destruct (Ha x Hxto) as [A1 A2]. split.
          * intros Hx Had. apply IH1; auto. lia.
          * destruct IH2 as [[E1 E2]|(Hr & E1 & E2 & E3)].
            -- left. rewrite E1, E2. auto.
            -- right. rewrite A1 in E2. split; [lia|auto].
    Qed.

    (** From a cell that was not reached nothing is written. *)
    Lemma inner_huge fuel : forall from to (load cost : @F NumF) (s : (nat -> @F NumF) * (nat -> nat)),
      (from < to)%nat -> (from <= n)%nat ->
      (forall x, (1 <= x <= n)%nat -> is_finite (fst s x : dbl) = true /\ B2R (fst s x : dbl) <= BIG) ->
      is_int load (Qz (to - 1) - Qz from) ->
      ((from + 1 < to)%nat -> is_int cost (ddz (from + 1) + (Dz (to - 1) - Dz (from + 1)))) ->
      @bellman_inner NumF p pen geno limit fuel from to (@fbig NumF) load cost s = s.
    Proof.
      induction fuel as [|fuel IH]; intros from to load cost s Hft Hfn FS HL HC; cbn [bellman_inner]; cbv zeta; [reflexivity|].
      destruct (to <? p_dim p)%nat eqn:Et; [apply Nat.ltb_lt in Et|reflexivity]; cbn [andb].
      pose proof (load_next from to load ltac:(lia) HL) as HL'. pose proof (cost_next from to cost ltac:(lia) HC) as HC'.
      set (load' := load +: sdemand p geno to) in *. set (cost' := if (to =? from + 1)%nat then _ else _) in *.
      destruct (limit load') eqn:Elim; [|reflexivity].
      change (if approx_gt (load' -: p_cap p) f0 then @fbig NumF +: cost' +: p_dist p (gnode geno to) 0 +: (load' -: p_cap p) *: (pen : @F NumF) else @fbig NumF +: cost' +: p_dist p (gnode geno to) 0)
        with (cand (@fbig NumF) load' cost' to).
      destruct (FS to ltac:(lia)) as [F1 F2].
      change (@flt NumF (cand (@fbig NumF) load' cost' to) (fst s to)) with (dlt (cand (@fbig NumF) load' cost' to) (fst s to)).
      rewrite (cand_huge from to (@fbig NumF) load' cost' ltac:(lia) HL' HC' (fst s to) eq_refl F1 F2).
      apply IH; auto; [lia|replace (to + 1 - 1)%nat with to by lia; exact HL'|replace (to + 1 - 1)%nat with to by lia; intros _; exact HC'].
    Qed.
  End Inner.

  (** ** Without a limit on the number of routes *)
  Lemma big_apart (v : dbl) : B2R v <= 1000000000 -> v <> d_of_Z (10 ^ 30).
  Proof.
    intros H ->. destruct big_large as [_ [BV _]]. assert (bpow radix2 30 <= bpow radix2 99) by (apply bpow_le; lia).
    pose proof u25_value as (_ & U & _). lra.
  Qed.
  Lemma ok_small pc x : (x <= n)%nat -> okc pc x -> B2R (pc x) <= 200000020.
  Proof. intros H O. apply OB in O; auto. pose proof SR as (S1 & _). lra. Qed.
  Lemma RC_small i x : (i < x <= n)%nat -> RC (seg i x) <= 2 * A + B.
  Proof.
    intros H. destruct (SB i x H) as [_ S]. eapply Rle_trans; [exact S|].
    assert (IZR (2 * Z.of_nat (x - i) * top) <= 2 * A) by (rewrite <- mult_IZR; apply IZR_le; nia).
    assert (pr * (IZR (Qz x) - IZR (Qz i)) <= B).
    { apply Rmult_le_compat_l; [lra|]. rewrite <- minus_IZR. apply IZR_le. pose proof (QA x ltac:(lia)). pose proof (QA i ltac:(lia)). lia. }
    lra.
  Qed.

  Definition binv (f : nat) (s : (nat -> @F NumF) * (nat -> nat)) : Prop :=
    fst s 0%nat = @f0 NumF /\
    (forall x, (1 <= x <= n)%nat -> fst s x = @fbig NumF \/
       ((snd s x < x)%nat /\ (snd s x < f)%nat /\ okc (fst s) (snd s x) /\
        near_to (fst s x) (B2R (fst s (snd s x) : dbl) + RC (seg (snd s x) x)) du)) /\
    (forall i x, (i < f)%nat -> (i < x <= n)%nat -> okc (fst s) i -> okl (Qz x - Qz i) ->
       B2R (fst s x : dbl) <= B2R (fst s i : dbl) + RC (seg i x) + du).

  Lemma binv_cell f s x : binv f s -> (x <= n)%nat -> fst s x = @fbig NumF \/ okc (fst s) x.
  Proof.
    intros (I1 & I2 & _) Hx. destruct x as [|x]; [right; now apply okc_zero|].
    destruct (I2 (S x) ltac:(lia)) as [E|(J1 & J2 & J3 & J4)]; [now left|right]. eapply NX; [|exact J3|exact J4]. lia.
  Qed.
  Lemma cell_finite (pc : nat -> @F NumF) x : (x <= n)%nat -> pc x = @fbig NumF \/ okc pc x -> is_finite (pc x : dbl) = true /\ B2R (pc x : dbl) <= BIG.
  Proof.
    intros Hx [E|O].
    - rewrite E. destruct big_large as [F _]. split; [exact F|apply Rle_refl].
    - pose proof (ok_small _ _ Hx O). split; [apply O|]. destruct big_large as [_ [BV _]].
      assert (bpow radix2 30 <= bpow radix2 99) by (apply bpow_le; lia). pose proof u25_value as (_ & U & _). change (@F NumF) with dbl in *. lra.
  Qed.

  Lemma bellman_cells (pr0 : nat -> nat) : forall m, (m <= n)%nat ->
    binv m (fold_left (fun s from =>
          @bellman_inner NumF p pen geno (fun l => @approx_lte NumF l (@fmul NumF (p_cap p) factor))
                        (p_dim p) from (from + 1) (fst s from) (@f0 NumF) (@f0 NumF) s)
        (seq 0 m) (@reset_row0 NumF, pr0)).
  Proof.
    induction m as [|m IH]; intros Hm.
    - split; [reflexivity|]. split.
      + intros x Hx. left. destruct x; [lia|]. reflexivity.
      + intros i x Hi. lia.
    - replace (S m) with (m + 1)%nat by lia. rewrite seq_app, fold_left_app. cbn [Nat.add seq fold_left].
      specialize (IH ltac:(lia)). set (s := fold_left _ (seq 0 m) _) in *. pose proof IH as (I1 & I2 & I3).
      assert (FS : forall x, (1 <= x <= n)%nat -> is_finite (fst s x : dbl) = true /\ B2R (fst s x : dbl) <= BIG).
      { intros x Hx. apply cell_finite; [lia|]. apply (binv_cell m); auto. lia. }
      assert (L0 : is_int (@f0 NumF) (Qz (m + 1 - 1) - Qz m)).
      { replace (m + 1 - 1)%nat with m by lia. rewrite Z.sub_diag. exact int_zero. }
      set (lim := fun l : @F NumF => approx_lte l (@fmul NumF (p_cap p) factor)).
      destruct (binv_cell m s m IH ltac:(lia)) as [EB|OK].
      + rewrite EB. rewrite (inner_huge lim (p_dim p) m (m + 1)%nat f0 f0 s ltac:(lia) ltac:(lia) FS L0 ltac:(lia)).
        split; [exact I1|]. split.
        * intros x Hx. destruct (I2 x Hx) as [E|(J1 & J2 & J3)]; [now left|right]. split; [lia|]. split; [lia|]. exact J3.
        * intros i x Hi Hx OI. destruct (Nat.eq_dec i m) as [->|]; [|apply I3; auto; lia].
          exfalso. apply ok_small in OI; [|lia]. apply (big_apart (fst s m)); [change (@F NumF) with dbl in *; lra|exact EB].
      + destruct (OB (fst s) m ltac:(lia) OK) as [FM BM].
        pose proof (inner_spec lim ulim_ok (p_dim p) m (m + 1)%nat (fst s m) f0 f0 s ltac:(lia) ltac:(lia) ltac:(lia) FM BM
          (fun x Hx => proj1 (FS x Hx)) L0 ltac:(lia)) as H. cbv zeta in H.
        set (s' := bellman_inner p pen geno lim _ _ _ _ _ _ _) in *.
        assert (Hlow : forall x, (x <= m)%nat -> fst s' x = fst s x /\ snd s' x = snd s x).
        { intros x Hx. destruct (proj2 (H x)) as [E|(E & _)]; [auto|lia]. }
        assert (OE : forall i, (i <= m)%nat -> okc (fst s') i <-> okc (fst s) i).
        { intros i Hi. destruct (Hlow i Hi) as [E _]. unfold FloatSplitQueue.okc. rewrite E. reflexivity. }
        split; [|split].
        * destruct (Hlow 0%nat ltac:(lia)) as [-> _]. exact I1.
        * intros x Hx. destruct (proj2 (H x)) as [[E1 E2]|(Hr & E1 & E2 & E3)].
          -- rewrite E1, E2. destruct (I2 x Hx) as [I|(J1 & J2 & J3 & J4)]; [left; auto|right].
             destruct (Hlow (snd s x) ltac:(lia)) as [-> _]. split; [lia|]. split; [lia|]. split; [apply OE; [lia|exact J3]|exact J4].
          -- right. rewrite E3. destruct (Hlow m ltac:(lia)) as [Em _]. rewrite Em. split; [lia|]. split; [lia|]. split; [apply OE; [lia|exact OK]|exact E1].
        * intros i x Hi Hx OI Ha. apply OE in OI; [|lia]. destruct (Nat.eq_dec i m) as [->|].
          -- destruct (Hlow m ltac:(lia)) as [-> _]. apply (H x); auto. lia.
          -- destruct (Hlow i ltac:(lia)) as [-> _]. specialize (I3 i x ltac:(lia) Hx OI Ha).
             destruct (proj2 (H x)) as [[-> _]|(_ & _ & E2 & _)]; [exact I3|]. change (@F NumF) with dbl in *. lra.
  Qed.

  Notation within_factor segs := (forall r, In r segs -> okl (zload q r)).
  Lemma TC_one r rs : TC (rs ++ [r]) = TC rs + RC r.
  Proof. unfold true_cost. induction rs as [|s rs IH]; cbn [map app rsum]; [ring|]. rewrite IH. ring. Qed.
  Lemma first_nil x : (x <= n)%nat -> concat [] = firstn x geno -> x = 0%nat.
  Proof. intros Hx E. assert (L : length (firstn x geno) = 0%nat) by now rewrite <- E. rewrite firstn_length in L. lia. Qed.

  Lemma unlimited_best s : binv n s -> forall segs x, (x <= n)%nat -> Forall (fun r => r <> []) segs -> within_factor segs ->
    concat segs = firstn x geno -> okc (fst s) x /\ B2R (fst s x : dbl) <= TC segs + INR (length segs) * du.
  Proof.
    intros IV. pose proof IV as (I1 & I2 & I3). induction segs as [|r init IH] using rev_ind; intros x Hx Hne Hcap E.
    - apply first_nil in E; auto. subst x. split; [now apply okc_zero|]. rewrite I1. change (B2R (@f0 NumF)) with 0. unfold true_cost. cbn [map rsum length INR]. lra.
    - apply Forall_app in Hne as [Hne Hs]. apply Forall_inv in Hs.
      destruct (last_seg p geno Hdim Hperm init r x Hx Hs E) as (j & Hj & Ej & Es). subst r.
      destruct (IH j ltac:(lia) Hne ltac:(intros r Hr; apply Hcap; apply in_or_app; auto) Ej) as [OJ IHj].
      assert (Ha : okl (Qz x - Qz j)) by (rewrite <- SL by lia; apply Hcap; apply in_or_app; right; now left).
      specialize (I3 j x ltac:(lia) ltac:(lia) OJ Ha). split.
      + destruct (binv_cell n s x IV Hx) as [EB|O]; [|exact O]. exfalso. apply (big_apart (fst s x)); [|exact EB].
        pose proof (ok_small (fst s) j ltac:(lia) OJ). pose proof (RC_small j x ltac:(lia)). pose proof SR as (S1 & _). pose proof du_pos.
        change (@F NumF) with dbl in *. lra.
      + rewrite TC_one, app_length, plus_INR. cbn [length INR]. lra.
  Qed.

  Lemma unlimited_trace s : binv n s -> forall e fuel rs, (e <= n)%nat -> okc (fst s) e ->
    traceback geno fuel (snd s) e = Ok rs -> TC rs <= B2R (fst s e : dbl) + INR (length rs) * du.
  Proof.
    intros (I1 & I2 & I3). induction e as [e IH] using (well_founded_induction lt_wf).
    intros fuel rs He OE H. destruct e as [|e].
    - assert (E : rs = []) by (destruct fuel; injection H as <-; auto). subst rs.
      rewrite I1. change (B2R (@f0 NumF)) with 0. unfold true_cost. cbn [map rsum length INR]. lra.
    - destruct fuel as [|fuel]; [discriminate|]. cbn [traceback] in H. unfold rbind in H.
      set (b := snd s (S e)) in *.
      destruct (traceback geno fuel (snd s) b) as [rest|] eqn:E; [|discriminate].
      destruct (I2 (S e) ltac:(lia)) as [J|(J1 & J2 & J3 & [_ J4])].
      { exfalso. apply ok_small in OE; [|lia]. apply (big_apart (fst s (S e))); [change (@F NumF) with dbl in *; lra|exact J]. }
      fold b in J1, J2, J3, J4. apply Rabs_le_inv in J4.
      specialize (IH b ltac:(lia) fuel rest ltac:(lia) J3 E). injection H as <-.
      change (TC (seg b (S e) :: rest) <= B2R (fst s (S e) : dbl) + INR (S (length rest)) * du). rewrite S_INR.
      change (TC (seg b (S e) :: rest)) with (RC (seg b (S e)) + TC rest). change (@F NumF) with dbl in *. lra.
  Qed.

  Lemma pieces (segs : list (list nat)) : Forall (fun r => r <> []) segs -> (length segs <= length (concat segs))%nat.
  Proof. induction 1 as [|r l Hr _ IH]; cbn; auto. rewrite app_length. destruct r; [congruence|]. cbn. lia. Qed.
  Lemma errors (a b : nat) : (a <= n)%nat -> (b <= n)%nat -> INR a * du + INR b * du <= INR n * (4 / 10000000).
  Proof.
    intros H1 H2. apply le_INR in H1, H2. pose proof du_pos as [D1 D2]. pose proof (pos_INR n).
    assert (INR a * du <= INR n * du) by (apply Rmult_le_compat_r; lra). assert (INR b * du <= INR n * du) by (apply Rmult_le_compat_r; lra).
    assert (INR n * du <= INR n * (1 / 5000000)) by (apply Rmult_le_compat_l; lra). lra.
  Qed.

  Lemma bellman_optimal (pr0 : nat -> nat) rs : (length rs <= n)%nat ->
    traceback geno (p_dim p) (snd (@bellman_split NumF p pen geno factor pr0)) n = Ok rs ->
    forall segs, concat segs = geno -> Forall (fun r => r <> []) segs -> within_factor segs ->
      TC rs <= TC segs + INR n * (4 / 10000000).
  Proof.
    intros Hr Er segs Es Hne Hcap. pose proof (bellman_cells pr0 n ltac:(lia)) as HI'.
    change (binv n (@bellman_split NumF p pen geno factor pr0)) in HI'.
    destruct (unlimited_best _ HI' segs n ltac:(lia) Hne Hcap) as [O L]; [rewrite Es, <- GL; symmetry; apply firstn_all|].
    pose proof (unlimited_trace _ HI' n (p_dim p) rs ltac:(lia) O Er).
    pose proof (pieces segs Hne) as P. rewrite Es, GL in P. pose proof (errors (length segs) (length rs) P Hr).
    change (@F NumF) with dbl in *. lra.
  Qed.

  (** ** With a limit on the number of routes *)
  Definition lim2 (l : @F NumF) : bool := @fle NumF l (@fmul NumF (p_cap p) factor).
  Lemma break_ok (pc : nat -> @F NumF) i : (i <= n)%nat -> okc pc i -> @flt NumF (@flit NumF (10 ^ 29) 1) (pc i) = false.
  Proof.
    intros Hi O. destruct huge_value as (F & V & _). change (dlt (d_lit (10 ^ 29) 1) (pc i) = false).
    pose proof (ok_small pc i Hi O). pose proof u25_value as (_ & U & _). apply real_not_lt; auto; [apply O|lra].
  Qed.

  Lemma froms_spec (pck : nat -> @F NumF) : forall m a (s : (nat -> @F NumF) * (nat -> nat)), (a + m <= n)%nat ->
    (forall x, (1 <= x <= n)%nat -> is_finite (fst s x : dbl) = true) ->
    (forall i, (a <= i <= n)%nat -> pck i = @fbig NumF \/ okc pck i) ->
    let s' := @bellman_layer_froms NumF p pen geno factor (seq a m) pck s in
    forall x,
      ((fst s' x = fst s x /\ snd s' x = snd s x) \/
       ((a <= snd s' x < x)%nat /\ (x <= n)%nat /\ okc pck (snd s' x) /\
        near_to (fst s' x) (B2R (pck (snd s' x) : dbl) + RC (seg (snd s' x) x)) du /\ B2R (fst s' x : dbl) < B2R (fst s x : dbl))) /\
      (forall i, (a <= i < a + m)%nat -> (i < x <= n)%nat -> (forall i', (a <= i' <= i)%nat -> okc pck i') ->
         okl (Qz x - Qz i) -> B2R (fst s' x : dbl) <= B2R (pck i : dbl) + RC (seg i x) + du).
  Proof.
    induction m as [|m IH]; intros a s Ham FS PK; cbn [seq bellman_layer_froms]; cbv zeta; intros x.
    - split; [left; auto|]. lia.
    - destruct (PK a ltac:(lia)) as [EB|OK].
      + rewrite EB. assert (E : @flt NumF (@flit NumF (10 ^ 29) 1) (@fbig NumF) = true) by (vm_compute; reflexivity). rewrite E.
        split; [left; auto|]. intros i Hi Hx Hall _. exfalso. specialize (Hall a ltac:(lia)). apply ok_small in Hall; [|lia].
        apply (big_apart (pck a)); [change (@F NumF) with dbl in *; lra|exact EB].
      + rewrite (break_ok pck a) by (auto; lia).
        destruct (OB pck a ltac:(lia) OK) as [FM BM].
        assert (L0 : is_int (@f0 NumF) (Qz (a + 1 - 1) - Qz a)).
        { replace (a + 1 - 1)%nat with a by lia. rewrite Z.sub_diag. exact int_zero. }
        pose proof (inner_spec lim2 llim_ok (p_dim p) a (a + 1)%nat (pck a) f0 f0 s ltac:(lia) ltac:(lia) ltac:(lia) FM BM FS L0 ltac:(lia)) as HA. cbv zeta in HA.
        change (fun l : @F NumF => l <=:? @fmul NumF (p_cap p) factor) with lim2.
        set (s1 := bellman_inner p pen geno lim2 _ _ _ _ _ _ _) in *.
        assert (FS1 : forall y, (1 <= y <= n)%nat -> is_finite (fst s1 y : dbl) = true).
        { intros y Hy. destruct (proj2 (HA y)) as [[-> _]|(_ & [F _] & _)]; auto. }
        specialize (IH (a + 1)%nat s1 ltac:(lia) FS1 ltac:(intros i Hi; apply PK; lia) x). cbv zeta in IH.
        replace (S a) with (a + 1)%nat by lia. destruct (HA x) as [H1 H2].
        set (s' := bellman_layer_froms p pen geno factor (seq (a + 1) m) pck s1) in *.
        destruct IH as [I1 I2]. split.
        * destruct I1 as [[E1 E2]|(J1 & J2 & J3 & J4 & J5)].
          -- rewrite E1, E2. destruct H2 as [[F1 F2]|(K1 & K2 & K3 & K4)]; [left; auto|].
             right. rewrite K4. split; [lia|]. split; [lia|]. auto.
          -- right. split; [lia|]. split; auto. split; auto. split; auto.
             destruct H2 as [[F1 F2]|(K1 & K2 & K3 & K4)]; [now rewrite <- F1|change (@F NumF) with dbl in *; lra].
        * intros i Hi Hx Hall Ha. destruct (Nat.eq_dec i a) as [->|Hne].
          -- specialize (H1 ltac:(lia) Ha).
             destruct I1 as [[E1 _]|(_ & _ & _ & _ & J5)]; [rewrite E1; exact H1|change (@F NumF) with dbl in *; lra].
          -- apply I2; auto; [lia|]. intros i' Hi'. apply Hall. lia.
  Qed.

  Definition brows (st : @split_state NumF) (m : nat) : Prop :=
    (forall x, sp_pc st 0%nat x = @reset_row0 NumF x) /\
    (forall k x, (m < k)%nat -> (1 <= x)%nat -> sp_pc st k x = @fbig NumF) /\
    (forall k x, (k < m)%nat -> (1 <= x <= n)%nat ->
       sp_pc st (k + 1) x = @fbig NumF \/
       ((k <= sp_pred st (k + 1) x < x)%nat /\ okc (sp_pc st k) (sp_pred st (k + 1) x) /\
        near_to (sp_pc st (k + 1) x) (B2R (sp_pc st k (sp_pred st (k + 1) x) : dbl) + RC (seg (sp_pred st (k + 1) x) x)) du)) /\
    (forall k i x, (k < m)%nat -> (k <= i < x)%nat -> (x <= n)%nat ->
       (forall i', (k <= i' <= i)%nat -> okc (sp_pc st k) i') -> okl (Qz x - Qz i) ->
       B2R (sp_pc st (k + 1) x : dbl) <= B2R (sp_pc st k i : dbl) + RC (seg i x) + du).

  Lemma brow_cell st m k x : brows st m -> (k <= x <= n)%nat -> sp_pc st k x = @fbig NumF \/ okc (sp_pc st k) x.
  Proof.
    intros (R0 & R1 & R2 & _) Hx. destruct k as [|k].
    - rewrite R0. destruct x as [|x]; [right; apply okc_zero; apply R0|left; reflexivity].
    - destruct (le_lt_dec m k) as [L|L]; [left; apply R1; lia|].
      specialize (R2 k x L ltac:(lia)). replace (k + 1)%nat with (S k) in R2 by lia.
      destruct R2 as [E|(J1 & J2 & J3)]; [now left|right]. eapply NX; [|exact J2|exact J3]. lia.
  Qed.

  Lemma bellman_rows (st0 : @split_state NumF) : forall m,
    brows (fold_left (@bellman_layer NumF p pen geno factor) (seq 0 m)
             (mkSplit (@reset_all NumF (sp_pc st0)) (sp_pred st0))) m.
  Proof.
    induction m as [|m IH].
    - cbn [seq fold_left]. split; [|split; [|split]]; cbn [sp_pc sp_pred].
      + intros [|x]; reflexivity.
      + intros k [|x] Hk Hx; [lia|]. reflexivity.
      + intros k x Hk. lia.
      + intros k i x Hk. lia.
    - replace (S m) with (m + 1)%nat by lia. rewrite seq_app, fold_left_app. cbn [Nat.add seq fold_left].
      set (st := fold_left _ (seq 0 m) _) in *. pose proof IH as (R0 & R1 & R2 & R3).
      assert (FS : forall x, (1 <= x <= n)%nat -> is_finite (sp_pc st (m + 1) x : dbl) = true).
      { intros x Hx. rewrite R1 by lia. apply big_large. }
      assert (Hs : forall x,
        let s' := @bellman_layer_froms NumF p pen geno factor (seq m (n - m)) (sp_pc st m) (sp_pc st (m + 1), sp_pred st (m + 1)) in
        ((fst s' x = sp_pc st (m + 1) x /\ snd s' x = sp_pred st (m + 1) x) \/
         ((m <= snd s' x < x)%nat /\ (x <= n)%nat /\ okc (sp_pc st m) (snd s' x) /\
          near_to (fst s' x) (B2R (sp_pc st m (snd s' x) : dbl) + RC (seg (snd s' x) x)) du /\ B2R (fst s' x : dbl) < B2R (sp_pc st (m + 1) x : dbl))) /\
        (forall i, (m <= i < x)%nat -> (x <= n)%nat -> (forall i', (m <= i' <= i)%nat -> okc (sp_pc st m) i') ->
           okl (Qz x - Qz i) -> B2R (fst s' x : dbl) <= B2R (sp_pc st m i : dbl) + RC (seg i x) + du)).
      { intros x. destruct (le_lt_dec n m) as [Hnm|Hnm].
        - replace (n - m)%nat with 0%nat by lia. cbn [seq bellman_layer_froms]. cbv zeta. split; [left; auto|].
          intros i Hi Hx. lia.
        - pose proof (froms_spec (sp_pc st m) (n - m)%nat m (sp_pc st (m + 1), sp_pred st (m + 1)) ltac:(lia) FS
            ltac:(intros i Hi; apply (brow_cell st m); auto) x) as H.
          cbv zeta in *. cbn [fst snd] in H. destruct H as [Ha Hb]. split; auto.
          intros i Hi Hx. apply Hb; lia. }
      unfold bellman_layer. cbv zeta in Hs.
      destruct (@bellman_layer_froms NumF p pen geno factor (seq m (n - m)) (sp_pc st m) (sp_pc st (m + 1), sp_pred st (m + 1))) as [pc' pr'].
      cbn [fst snd] in Hs. unfold brows. cbn [sp_pc sp_pred].
      assert (Eq : forall k, (k <> m + 1)%nat -> (k =? m + 1)%nat = false) by (intros; now apply Nat.eqb_neq).
      split; [|split; [|split]].
      + intros x. rewrite Eq by lia. apply R0.
      + intros k x Hk Hx. rewrite Eq by lia. apply R1; lia.
      + intros k x Hk Hx. rewrite (Eq k) by lia. destruct (Nat.eqb_spec (k + 1) (m + 1)) as [E|E].
        * assert (k = m) by lia. subst k. destruct (proj1 (Hs x)) as [[E1 E2]|(J1 & J2 & J3 & J4 & J5)].
          -- left. rewrite E1. apply R1; lia.
          -- right. auto.
        * apply R2; auto. lia.
      + intros k i x Hk. rewrite (Eq k) by lia. destruct (Nat.eqb_spec (k + 1) (m + 1)) as [E|E].
        * assert (k = m) by lia. subst k. intros Hi Hx. now apply (proj2 (Hs x)).
        * apply R3. lia.
  Qed.

  (** The first [x] nodes can be cut into [k] pieces that the split takes. *)
  Fixpoint reach (k x : nat) : Prop :=
    match k with
    | O => x = 0%nat
    | S k => exists i, (i < x <= n)%nat /\ reach k i /\ okl (Qz x - Qz i)
    end.
  Lemma reach_single k : forall x, reach k x -> forall y, (1 <= y <= x)%nat -> okl (Qz y - Qz (y - 1)).
  Proof.
    induction k as [|k IH]; cbn [reach]; intros x H y Hy; [lia|]. destruct H as (i & Hi & Ri & Oi).
    destruct (le_lt_dec y i) as [L|L]; [apply (IH i Ri); lia|]. apply (okl_less (Qz x - Qz i)); auto.
    pose proof (QM y x ltac:(lia)). pose proof (QM i (y - 1) ltac:(lia)). lia.
  Qed.
  Lemma reach_le k : forall x, reach k x -> (k <= x)%nat.
  Proof. induction k as [|k IH]; cbn [reach]; intros x H; [lia|]. destruct H as (i & Hi & Ri & _). apply IH in Ri. lia. Qed.
  Lemma reach_less k : forall x i, reach k x -> (k <= i <= x)%nat -> (1 <= k \/ i = 0)%nat -> reach k i.
  Proof.
    induction k as [|k IH]; intros x i H Hi H1; [cbn; lia|]. pose proof (reach_single _ _ H i ltac:(lia)) as SI.
    cbn [reach] in *. destruct H as (j & Hj & Rj & Oj). destruct (le_lt_dec i j) as [L|L].
    - exists (i - 1)%nat. split; [lia|]. split; [|exact SI]. apply (IH j); auto; [lia|].
      destruct k as [|k]; [cbn in Rj; lia|left; lia].
    - exists j. split; [lia|]. split; [exact Rj|]. apply (okl_less (Qz x - Qz j)); auto. pose proof (QM i x ltac:(lia)). lia.
  Qed.
  Lemma reach_segs segs : forall x, (x <= n)%nat -> Forall (fun r => r <> []) segs -> within_factor segs ->
    concat segs = firstn x geno -> reach (length segs) x.
  Proof.
    induction segs as [|r init IH] using rev_ind; intros x Hx Hne Hcap E; [now apply first_nil|].
    apply Forall_app in Hne as [Hne Hs]. apply Forall_inv in Hs.
    destruct (last_seg p geno Hdim Hperm init r x Hx Hs E) as (j & Hj & Ej & Es). subst r.
    rewrite app_length. cbn [length]. rewrite Nat.add_1_r. cbn [reach]. exists j. split; [lia|]. split.
    - apply IH; auto; [lia|]. intros r Hr. apply Hcap. apply in_or_app. auto.
    - rewrite <- SL by lia. apply Hcap. apply in_or_app. right. now left.
  Qed.

  Section Rows.
    Variables (st : @split_state NumF) (m : nat).
    Hypothesis BR : brows st m.

    Lemma reach_row k x i : reach k x -> (k <= i <= x)%nat -> (forall y, reach k y -> okc (sp_pc st k) y) -> okc (sp_pc st k) i.
    Proof.
      intros R Hi H. apply H. apply (reach_less k x); auto. destruct k as [|k]; [cbn in R; lia|left; lia].
    Qed.
    Lemma reach_ok k : forall x, (k <= m)%nat -> reach k x -> okc (sp_pc st k) x.
    Proof.
      pose proof BR as (R0 & R1 & R2 & R3). induction k as [|k IH]; intros x Hk H; cbn [reach] in H.
      - subst x. apply okc_zero. apply R0.
      - destruct H as (i & Hi & Ri & Oi). pose proof (reach_le k i Ri) as Hki.
        specialize (R3 k i x ltac:(lia) ltac:(lia) ltac:(lia)
          ltac:(intros i' Hi'; apply (reach_row k i); auto; intros y Ry; apply IH; auto; lia) Oi).
        destruct (brow_cell st m (S k) x BR ltac:(lia)) as [EB|O]; [|exact O]. exfalso. replace (k + 1)%nat with (S k) in R3 by lia.
        apply (big_apart (sp_pc st (S k) x)); [|exact EB].
        pose proof (ok_small (sp_pc st k) i ltac:(lia) ltac:(apply IH; auto; lia)). pose proof (RC_small i x ltac:(lia)). pose proof SR as (S1 & _). pose proof du_pos.
        change (@F NumF) with dbl in *. lra.
    Qed.

    Lemma rows_best segs : forall x, (length segs <= m)%nat -> (x <= n)%nat -> Forall (fun r => r <> []) segs -> within_factor segs ->
      concat segs = firstn x geno -> B2R (sp_pc st (length segs) x : dbl) <= TC segs + INR (length segs) * du.
    Proof.
      pose proof BR as (R0 & R1 & R2 & R3). induction segs as [|r init IH] using rev_ind; intros x Hm Hx Hne Hcap E.
      - apply first_nil in E; auto. subst x. cbn [length]. rewrite R0. change (B2R (@reset_row0 NumF 0)) with 0. unfold true_cost. cbn [map rsum INR]. lra.
      - apply Forall_app in Hne as [Hne Hs]. apply Forall_inv in Hs.
        destruct (last_seg p geno Hdim Hperm init r x Hx Hs E) as (j & Hj & Ej & Es). subst r.
        rewrite app_length in *. cbn [length] in *.
        assert (Hci : within_factor init) by (intros r Hr; apply Hcap; apply in_or_app; auto).
        specialize (IH j ltac:(lia) ltac:(lia) Hne Hci Ej). pose proof (reach_segs init j ltac:(lia) Hne Hci Ej) as RJ. pose proof (reach_le _ _ RJ).
        specialize (R3 (length init) j x ltac:(lia) ltac:(lia) Hx
          ltac:(intros i' Hi'; apply (reach_row _ j); auto; intros y Ry; apply reach_ok; auto; lia)
          ltac:(rewrite <- SL by lia; apply Hcap; apply in_or_app; right; now left)).
        rewrite TC_one, plus_INR. cbn [INR]. change (@F NumF) with dbl in *. lra.
    Qed.

    Lemma rows_trace k : forall x acc, (k <= m)%nat -> (k <= x <= n)%nat -> okc (sp_pc st k) x ->
      exists rs, traceback_limited geno st k x acc = (rs ++ acc, 0%nat) /\ length rs = k /\
        TC rs <= B2R (sp_pc st k x : dbl) + INR k * du.
    Proof.
      pose proof BR as (R0 & R1 & R2 & R3). induction k as [|k IH]; intros x acc Hk Hx OX.
      - assert (x = 0)%nat.
        { destruct x; auto. exfalso. apply ok_small in OX; [|lia]. apply (big_apart (sp_pc st 0 (S x))); [change (@F NumF) with dbl in *; lra|]. rewrite R0. reflexivity. }
        subst x. exists []. split; [reflexivity|]. split; [reflexivity|]. rewrite R0. change (B2R (@reset_row0 NumF 0)) with 0. unfold true_cost. cbn [map rsum INR]. lra.
      - cbn [traceback_limited]. specialize (R2 k x ltac:(lia) ltac:(lia)).
        replace (k + 1)%nat with (S k) in R2 by lia. set (b := sp_pred st (S k) x) in *.
        destruct R2 as [J|(J1 & J2 & [_ J3])].
        { exfalso. apply ok_small in OX; [|lia]. apply (big_apart (sp_pc st (S k) x)); [change (@F NumF) with dbl in *; lra|exact J]. }
        apply Rabs_le_inv in J3.
        destruct (IH b (firstn (x - b) (skipn b geno) :: acc) ltac:(lia) ltac:(lia) J2) as (rs & Er & Hl & Ht).
        exists (rs ++ [seg b x]). rewrite Er, <- app_assoc. split; [reflexivity|]. split; [rewrite app_length; cbn; lia|].
        rewrite TC_one, S_INR. change (@F NumF) with dbl in *. lra.
    Qed.
  End Rows.

  Lemma bellman_limited_optimal (st0 : @split_state NumF) m rs : (1 <= m)%nat ->
    let st := fold_left (@bellman_layer NumF p pen geno factor) (seq 0 m)
                    (mkSplit (@reset_all NumF (sp_pc st0)) (sp_pred st0)) in
    traceback_limited geno st (@cheapest_row NumF p st m) n [] = (rs, 0%nat) ->
    forall segs, concat segs = geno -> Forall (fun s => s <> []) segs -> (length segs <= m)%nat -> within_factor segs ->
      TC rs <= TC segs + INR n * (4 / 10000000).
  Proof.
    intros Hm st Et segs Es Hne Hl Hcap. pose proof (bellman_rows st0 m) as HR. fold st in HR.
    assert (En : concat segs = firstn n geno) by (rewrite Es, <- GL; symmetry; apply firstn_all).
    pose proof (reach_segs segs n ltac:(lia) Hne Hcap En) as RS. pose proof (reach_le _ _ RS) as Hn.
    pose proof (reach_ok st m HR (length segs) n Hl RS) as OS.
    pose proof (rows_best st m HR segs n Hl ltac:(lia) Hne Hcap En) as LB.
    pose proof (segs_nonempty p geno Hdim Hperm segs Es) as H1.
    destruct big_large as [BF [BV _]].
    assert (CF : forall k, (1 <= k <= m)%nat -> is_finite (sp_pc st k n : dbl) = true).
    { intros k Hk. pose proof HR as (_ & _ & R2 & _). specialize (R2 (k - 1)%nat n ltac:(lia) ltac:(lia)).
      replace (k - 1 + 1)%nat with k in R2 by lia. destruct R2 as [->|(_ & _ & [F _])]; [exact BF|exact F]. }
    destruct (cheapest_spec p Hdim st m Hm CF) as [Hv Hmin]. set (v := cheapest_row p st m) in *.
    specialize (Hmin (length segs) ltac:(lia)).
    assert (SM : B2R (sp_pc st v n : dbl) <= 1000000000) by (apply ok_small in OS; [|lia]; change (@F NumF) with dbl in *; lra).
    pose proof HR as (_ & _ & R2 & _). specialize (R2 (v - 1)%nat n ltac:(lia) ltac:(lia)). replace (v - 1 + 1)%nat with v in R2 by lia.
    destruct R2 as [EB|(J1 & J2 & J3)]; [exfalso; exact (big_apart _ SM EB)|].
    assert (OV : okc (sp_pc st v) n) by (eapply NX; [|exact J2|exact J3]; lia).
    assert (Hvn : (v <= n)%nat) by lia.
    destruct (rows_trace st m HR v n [] ltac:(lia) ltac:(lia) OV) as (rs' & Er & Hlr & Ht).
    rewrite Et, app_nil_r in Er. injection Er as <-.
    pose proof (errors (length segs) v Hn Hvn). change (@F NumF) with dbl in *. lra.
  Qed.
End Bellman.
