(** The queue of the linear split in double precision: its front is a best predecessor up to the
    comparison tolerance and the rounding errors. *)
From Coq Require Import List Arith ZArith Bool Lia Reals Lra Psatz Permutation Sorted.
From Flocq Require Import Core BinarySingleNaN.
From Verif.Model Require Import Num NumFloat Prelude Evaluate Individual Config Split.
From Verif.Spec Require Import Floats FloatProgram FloatSearch FloatSplit.
From Verif.Proofs Require Import Lists SplitStruct FloatFacts FloatRun FloatMove.
From Verif.Proofs Require SplitQueue SplitOpt SplitPart.
Import ListNotations.
Local Open Scope R_scope.

Section W.
  Variable pen : R.
  Hypothesis Hpen : 0 <= pen.
  (** Penalty of an overload. *)
  Definition Wr (X q : R) : R := pen * Rmax 0 (X - q).

  Lemma pen_le a b : a <= b -> pen * a <= pen * b.
  Proof. intros H. now apply Rmult_le_compat_l. Qed.
  Lemma Wr_hi X q : q <= X -> Wr X q = pen * (X - q).
  Proof. intros H. unfold Wr. rewrite Rmax_right by lra. reflexivity. Qed.
  Lemma Wr_lo X q : X <= q -> Wr X q = 0.
  Proof. intros H. unfold Wr. rewrite Rmax_left by lra. ring. Qed.
  Lemma Wr_nonneg X q : 0 <= Wr X q.
  Proof. unfold Wr. apply Rmult_le_pos; auto. apply Rmax_l. Qed.
  Lemma Wr_anti X q q' : q <= q' -> Wr X q' <= Wr X q.
  Proof. intros H. unfold Wr. apply pen_le. apply Rle_max_compat_l. lra. Qed.
  Lemma Wr_shift X q q' : q <= q' -> Wr X q <= Wr X q' + pen * (q' - q).
  Proof.
    intros H. unfold Wr. rewrite <- Rmult_plus_distr_l. apply pen_le. apply Rmax_lub.
    - pose proof (Rmax_l 0 (X - q')). lra.
    - pose proof (Rmax_r 0 (X - q')). lra.
  Qed.
  Lemma Wr_diff_mono X X' q q' : q <= q' -> X <= X' -> Wr X q - Wr X q' <= Wr X' q - Wr X' q'.
  Proof.
    intros Hq HX.
    destruct (Rlt_le_dec q' X) as [H1|H1].
    - rewrite !Wr_hi by lra. lra.
    - rewrite (Wr_lo X q') by lra.
      destruct (Rlt_le_dec q X) as [H2|H2].
      + rewrite (Wr_hi X q), (Wr_hi X' q) by lra.
        destruct (Rlt_le_dec q' X') as [H3|H3].
        * rewrite (Wr_hi X' q') by lra.
          assert (H4 : X <= q') by lra. apply pen_le in H4. lra.
        * rewrite (Wr_lo X' q') by lra. apply pen_le in HX. lra.
      + rewrite (Wr_lo X q) by lra. pose proof (Wr_anti X' q q' Hq). lra.
  Qed.
  Lemma Wr_top X q m : 0 <= m -> X - q <= m -> Wr X q <= pen * m.
  Proof. intros H0 H. unfold Wr. apply pen_le. now apply Rmax_lub. Qed.
End W.

(** The rounding error of one operation. *)
Notation u25 := (bpow radix2 (-25)).
Lemma u25_value : bpow radix2 29 = 536870912 /\ bpow radix2 30 = 1073741824 /\ bpow radix2 (-24) = 2 * u25 /\ 0 < u25 < / 33000000.
Proof.
  change (bpow radix2 29) with (IZR 536870912). change (bpow radix2 30) with (IZR 1073741824).
  change (bpow radix2 (-24)) with (/ IZR 16777216). change u25 with (/ IZR 33554432). lra.
Qed.

Lemma eps_top : B2R (d_lit 1 1000000) <= 100000001 / 100000000 / 1000000.
Proof.
  rewrite <- SF2R_B2SF. replace (B2SF (d_lit 1 1000000)) with (SpecFloat.S754_finite false 4722366482869645 (-72)) by (vm_compute; reflexivity).
  unfold SF2R, F2R. cbn [SpecFloat.cond_Zopp Fnum Fexp].
  change (bpow radix2 (-72)) with (/ IZR 4722366482869645213696)%R. lra.
Qed.

(** Comparing two numbers that are known up to rounding errors. *)
Section Compare.
  Variables (x y : dbl) (a b ea eb : R).
  Hypothesis HX : near_to x a ea.
  Hypothesis HY : near_to y b eb.
  Hypothesis Hsize : Rabs (a - b) + ea + eb <= bpow radix2 30.

  Lemma lt_near : dlt x y = true -> a < b + (ea + eb).
  Proof.
    intros L. destruct HX as [FX EX], HY as [FY EY]. apply lt_real in L; auto.
    apply Rabs_le_inv in EX, EY. lra.
  Qed.
  Lemma not_lt_near : dlt x y = false -> b <= a + (ea + eb).
  Proof.
    intros L. destruct HX as [FX EX], HY as [FY EY]. apply not_lt_real in L; auto.
    apply Rabs_le_inv in EX, EY. lra.
  Qed.

  Lemma eq_near : @approx_eq NumF x y = true -> Rabs (a - b) <= ea + eb + 2 * u25 + 100000001 / 100000000 / 1000000.
  Proof.
    intros L. change (dlt (Babs (dsub x y)) (d_lit 1 1000000) = true) in L.
    destruct (near_sub x y a b ea eb 30 HX HY ltac:(lia) Hsize) as [F E]. change (30 - 54)%Z with (-24)%Z in E.
    destruct eps_value as [FE VE]. pose proof eps_top. pose proof u25_value as (_ & _ & U & _). rewrite U in E.
    apply lt_real in L; auto; [|now rewrite is_finite_Babs]. rewrite B2R_Babs in L.
    replace (a - b) with (B2R (dsub x y) - (B2R (dsub x y) - (a - b))) by ring.
    eapply Rle_trans; [apply Rabs_triang|]. rewrite Rabs_Ropp. lra.
  Qed.
  Lemma not_eq_near : @approx_eq NumF x y = false -> 99999999 / 100000000 / 1000000 - (ea + eb + 2 * u25) <= Rabs (a - b).
  Proof.
    intros L. change (dlt (Babs (dsub x y)) (d_lit 1 1000000) = false) in L.
    destruct (near_sub x y a b ea eb 30 HX HY ltac:(lia) Hsize) as [F E]. change (30 - 54)%Z with (-24)%Z in E.
    destruct eps_value as [FE VE]. pose proof u25_value as (_ & _ & U & _). rewrite U in E.
    apply not_lt_real in L; auto; [|now rewrite is_finite_Babs]. rewrite B2R_Babs in L.
    replace (B2R (dsub x y)) with ((a - b) + (B2R (dsub x y) - (a - b))) in L by ring.
    pose proof (Rabs_triang (a - b) (B2R (dsub x y) - (a - b))). lra.
  Qed.

  (** [approx_lte x y] and [approx_gte y x] *)
  Lemma lte_near : @approx_lte NumF x y = true -> a <= b + (ea + eb + 2 * u25 + 100000001 / 100000000 / 1000000).
  Proof.
    intros L. unfold approx_lte in L. apply orb_true_iff in L. pose proof u25_value.
    destruct L as [L|L]; [apply lt_near in L; lra|]. apply eq_near in L. apply Rabs_le_inv in L. lra.
  Qed.
  Lemma not_lte_near : @approx_lte NumF x y = false -> 2 * (ea + eb + u25) < 99999999 / 100000000 / 1000000 ->
    b + (99999999 / 100000000 / 1000000 - (ea + eb + 2 * u25)) <= a.
  Proof.
    intros L S. unfold approx_lte in L. apply orb_false_iff in L. destruct L as [L1 L2].
    apply not_lt_near in L1. apply not_eq_near in L2. unfold Rabs in L2. destruct (Rcase_abs (a - b)); lra.
  Qed.
  Lemma gte_near : @approx_gte NumF x y = true -> b <= a + (ea + eb + 2 * u25 + 100000001 / 100000000 / 1000000).
  Proof.
    intros L. unfold approx_gte in L. apply orb_true_iff in L. pose proof u25_value.
    destruct L as [L|L].
    - destruct HX as [FX EX], HY as [FY EY]. change (dlt y x = true) in L. apply lt_real in L; auto. apply Rabs_le_inv in EX, EY. lra.
    - apply eq_near in L. apply Rabs_le_inv in L. lra.
  Qed.
  Lemma not_gte_near : @approx_gte NumF x y = false -> 2 * (ea + eb + u25) < 99999999 / 100000000 / 1000000 ->
    a + (99999999 / 100000000 / 1000000 - (ea + eb + 2 * u25)) <= b.
  Proof.
    intros L S. unfold approx_gte in L. apply orb_false_iff in L. destruct L as [L1 L2].
    change (dlt y x = false) in L1. destruct HX as [FX EX], HY as [FY EY]. apply not_lt_real in L1; auto.
    apply not_eq_near in L2. apply Rabs_le_inv in EX, EY. unfold Rabs in L2. destruct (Rcase_abs (a - b)); lra.
  Qed.
End Compare.

Section Queue.
  Variable p : @problem NumF.
  Variables (d : nat -> nat -> Z) (q : nat -> Z) (cap : Z).
  Variable pen : dbl.
  Variable geno : list nat.
  Variable top : Z.
  Notation n := (p_dim p - 1)%nat.
  Notation pr := (B2R pen).
  Hypothesis HI : integral p d q cap.
  Hypothesis Hdim : (2 <= p_dim p)%nat.
  Hypothesis Hperm : Permutation geno (seq 1 n).
  Hypothesis Hdem : forall a, (1 <= a < p_dim p)%nat -> (1 <= q a)%Z.
  Hypothesis Hfin : is_finite pen = true.
  Hypothesis Hpen : 1 / 100000 <= pr.
  Hypothesis Htop1 : (1 <= top)%Z.
  Hypothesis Htop : forall a b, (a < p_dim p)%nat -> (b < p_dim p)%nat -> (d a b <= top)%Z.
  Hypothesis Hload : (zload q (seq 1 n) < exact_bound)%Z.
  Hypothesis Hsize : IZR (2 * Z.of_nat (p_dim p) * top) + pr * IZR (zload q (seq 1 n)) <= 200000000.

  Lemma geno_length : length geno = n.
  Proof. rewrite (Permutation_length Hperm). apply seq_length. Qed.
  Lemma gnode_range i : (1 <= i <= n)%nat -> (1 <= gnode geno i < p_dim p)%nat.
  Proof.
    intros H. assert (I : In (gnode geno i) geno) by (unfold gnode; apply nth_In; rewrite geno_length; lia).
    eapply Permutation_in in I; [|exact Hperm]. apply in_seq in I. lia.
  Qed.
  Lemma pen_nonneg : 0 <= pr. Proof. lra. Qed.

  (** The data of [load] as integers. *)
  Definition ddz (i : nat) : Z := d (gnode geno i) 0%nat.
  Fixpoint Dz (i : nat) : Z :=
    match i with O => 0%Z | S i' => (Dz i' + match i' with O => 0%Z | _ => d (gnode geno i') (gnode geno (i' + 1)) end)%Z end.
  Fixpoint Qz (i : nat) : Z := match i with O => 0%Z | S i' => (Qz i' + q (gnode geno (S i')))%Z end.

  Lemma dz_int a b : (a < p_dim p)%nat -> (b < p_dim p)%nat -> is_int (p_dist p a b) (d a b) /\ (0 <= d a b <= top)%Z.
  Proof. intros A B. destruct (ig_dist _ _ _ _ HI a b A B) as [I P]. split; [exact I|]. pose proof (Htop a b A B). lia. Qed.
  Lemma size_Z : (4 * top <= 2 * Z.of_nat (p_dim p) * top /\ 2 * Z.of_nat (p_dim p) * top <= 200000000)%Z.
  Proof.
    split; [nia|]. apply le_IZR. assert (0 <= pr * IZR (zload q (seq 1 n))); [|lra].
    apply Rmult_le_pos; [lra|]. apply IZR_le. apply (zload_nonneg p d q cap HI ltac:(lia)).
    intros a Ha. apply in_seq in Ha. lia.
  Qed.
  Lemma ddz_int i : (1 <= i <= n)%nat -> is_int (@ddepot NumF p geno i) (ddz i) /\ (0 <= ddz i <= top)%Z.
  Proof. intros H. apply gnode_range in H. apply dz_int; lia. Qed.
  Lemma Dz_int i : (i <= n)%nat -> is_int (@cumD NumF p geno i) (Dz i) /\ (0 <= Dz i <= Z.of_nat i * top)%Z.
  Proof.
    induction i as [|i IH]; intros H; [split; [apply int_zero|cbn; lia]|].
    destruct (IH ltac:(lia)) as [I B]. pose proof size_Z as [_ SZ]. cbn [cumD Dz].
    assert (G : is_int (@dnext NumF p geno i) (match i with O => 0%Z | _ => d (gnode geno i) (gnode geno (i + 1)) end) /\
      (0 <= match i with O => 0%Z | _ => d (gnode geno i) (gnode geno (i + 1)) end <= top)%Z).
    { unfold dnext. destruct i as [|i]; [split; [apply int_zero|lia]|].
      assert (E : (S i <? n)%nat = true) by (apply Nat.ltb_lt; lia). rewrite E.
      pose proof (gnode_range (S i) ltac:(lia)). pose proof (gnode_range (S i + 1) ltac:(lia)). apply dz_int; lia. }
    destruct G as [G1 G2]. split; [|lia]. apply int_add; auto.
    assert (Z.of_nat (S i) * top <= Z.of_nat (p_dim p) * top)%Z by nia. unfold exact_bound. lia.
  Qed.
  Lemma Qz_step i : (S i <= n)%nat -> (Qz i + 1 <= Qz (S i))%Z.
  Proof. intros H. cbn [Qz]. pose proof (Hdem _ (gnode_range (S i) ltac:(lia))). lia. Qed.
  Lemma Qz_lt i j : (i < j <= n)%nat -> (Qz i + 1 <= Qz j)%Z.
  Proof.
    intros [H1 H2]. induction j as [|j IH]; [lia|]. pose proof (Qz_step j ltac:(lia)).
    destruct (Nat.eq_dec i j) as [->|]; [lia|]. specialize (IH ltac:(lia) ltac:(lia)). lia.
  Qed.
  Lemma Qz_mono i j : (i <= j <= n)%nat -> (Qz i <= Qz j)%Z.
  Proof. intros H. destruct (Nat.eq_dec i j) as [->|]; [lia|]. pose proof (Qz_lt i j ltac:(lia)). lia. Qed.
  Lemma Qz_firstn i : (i <= n)%nat -> Qz i = zload q (firstn i geno).
  Proof.
    induction i as [|i IH]; intros H; [reflexivity|]. cbn [Qz]. rewrite IH by lia.
    assert (E : firstn (S i) geno = firstn i geno ++ [gnode geno (S i)]).
    { unfold gnode. cbn [Nat.sub]. rewrite Nat.sub_0_r. pose proof geno_length as L.
      clear - H L. revert i H L. generalize (p_dim p - 1)%nat as m. induction geno as [|a g IH]; intros m i H L; cbn [length] in L; [lia|].
      destruct i as [|i]; [reflexivity|]. cbn [firstn nth app]. f_equal. apply (IH (m - 1)%nat); lia. }
    rewrite E, zload_app. unfold zload at 3. cbn [map zsum]. lia.
  Qed.
  Notation all := (zload q (seq 1 n)).
  Lemma Qz_all i : (i <= n)%nat -> (0 <= Qz i <= all)%Z.
  Proof.
    intros H. assert (E : Qz n = all).
    { rewrite Qz_firstn by lia. rewrite <- geno_length, firstn_all. apply zload_perm. rewrite geno_length. exact Hperm. }
    rewrite <- E. split; [apply (Qz_mono 0 i)|apply Qz_mono]; lia.
  Qed.
  Lemma Qz_int i : (i <= n)%nat -> is_int (@cumQ NumF p geno i) (Qz i).
  Proof.
    induction i as [|i IH]; intros H; [apply int_zero|]. cbn [cumQ Qz].
    pose proof (Qz_all (S i) H) as A. pose proof (gnode_range (S i) ltac:(lia)). cbn [Qz] in A.
    apply int_add; [apply IH; lia|apply (ig_demand _ _ _ _ HI); lia|lia].
  Qed.

  Definition gq (pc : nat -> dbl) (i : nat) : R := B2R (pc i) + IZR (ddz (i + 1)) - IZR (Dz (i + 1)).
  Notation Qr i := (IZR (Qz i)).
  Notation W X q := (Wr pr X q).
  Definition fq (pc : nat -> dbl) (i x : nat) : R :=
    gq pc i + (IZR (Dz x) + IZR (ddz x)) + W (Qr x - IZR cap) (Qr i).
  Lemma Qr_mono i j : (i <= j <= n)%nat -> Qr i <= Qr j.
  Proof. intros H. apply IZR_le. now apply Qz_mono. Qed.

  (** A computed path cost: between zero and the price of the nodes up to here, up to rounding. *)
  Definition du : R := 6 * u25.
  Definition okc (pc : nat -> dbl) (j : nat) : Prop :=
    is_finite (pc j) = true /\ - (INR j * du) <= B2R (pc j) <= IZR (2 * Z.of_nat j * top) + pr * Qr j + INR j * du.

  Notation A := (IZR (Z.of_nat (p_dim p) * top)).
  Notation B := (pr * IZR all).
  Lemma sizes_R : 2 * A + B <= 200000000 /\ 0 <= B /\ 1 <= A.
  Proof.
    rewrite <- mult_IZR. replace (2 * (Z.of_nat (p_dim p) * top))%Z with (2 * Z.of_nat (p_dim p) * top)%Z by ring.
    split; [exact Hsize|]. split.
    - apply Rmult_le_pos; [lra|]. apply IZR_le. pose proof (Qz_all 0 ltac:(lia)). lia.
    - apply (IZR_le 1). nia.
  Qed.
  Lemma du_small j : (j <= n)%nat -> 0 <= INR j * du <= 20.
  Proof.
    intros H. pose proof u25_value as (_ & _ & _ & U). unfold du.
    assert (0 <= INR j <= 100000000).
    { split; [apply pos_INR|]. rewrite INR_IZR_INZ. apply IZR_le. pose proof size_Z as [_ S]. nia. }
    split; [apply Rmult_le_pos; lra|]. apply Rle_trans with (100000000 * (6 * u25)); [apply Rmult_le_compat_r; lra|lra].
  Qed.
  Lemma okc_bounds pc j : (j <= n)%nat -> okc pc j -> is_finite (pc j) = true /\ - 20 <= B2R (pc j) <= 2 * A + B + 20.
  Proof.
    intros H [F O]. split; auto. pose proof (du_small j H).
    assert (IZR (2 * Z.of_nat j * top) <= 2 * A) by (rewrite <- mult_IZR; apply IZR_le; nia).
    assert (pr * Qr j <= B) by (apply Rmult_le_compat_l; [lra|apply IZR_le; apply Qz_all; lia]). lra.
  Qed.
  Lemma D_bounds i : (i <= n)%nat -> 0 <= IZR (Dz i) <= A.
  Proof. intros H. destruct (Dz_int i H) as [_ [D1 D2]]. split; apply IZR_le; [lia|]. nia. Qed.
  Lemma dd_bounds i : (1 <= i <= n)%nat -> 0 <= IZR (ddz i) /\ 2 * IZR (ddz i) <= A.
  Proof. intros H. destruct (ddz_int i H) as [_ [D1 D2]]. split; [apply IZR_le; lia|]. rewrite <- mult_IZR. apply IZR_le. nia. Qed.
  Lemma W_bounds i x : (i <= x <= n)%nat -> 0 <= W (Qr x - IZR cap) (Qr i) <= B.
  Proof.
    intros H. split; [apply Wr_nonneg; lra|]. apply Wr_top; [lra| |].
    - apply IZR_le. pose proof (Qz_all 0 ltac:(lia)). lia.
    - rewrite <- !minus_IZR. apply IZR_le. pose proof (Qz_all x ltac:(lia)). pose proof (Qz_all i ltac:(lia)).
      destruct (ig_cap _ _ _ _ HI) as [_ C]. lia.
  Qed.

  Lemma near_eq x a b err : near_to x a err -> a = b -> near_to x b err.
  Proof. now intros H <-. Qed.
  Lemma near_add29 x y a b ea eb : near_to x a ea -> near_to y b eb -> Rabs (a + b) + ea + eb <= 536870912 ->
    near_to (@fadd NumF x y) (a + b) (ea + eb + u25).
  Proof. intros H1 H2 H. apply (near_add x y a b ea eb 29); [exact H1|exact H2|lia|]. destruct u25_value as (-> & _). exact H. Qed.
  Lemma near_sub29 x y a b ea eb : near_to x a ea -> near_to y b eb -> Rabs (a - b) + ea + eb <= 536870912 ->
    near_to (@fsub NumF x y) (a - b) (ea + eb + u25).
  Proof. intros H1 H2 H. apply (near_sub x y a b ea eb 29); [exact H1|exact H2|lia|]. destruct u25_value as (-> & _). exact H. Qed.
  Lemma near_self (x : dbl) : is_finite x = true -> near_to x (B2R x) 0.
  Proof. intros F. split; auto. rewrite Rminus_diag_eq, Rabs_R0 by auto. lra. Qed.

  Ltac small := match goal with |- Rabs ?e + _ + _ <= _ => rewrite (Rabs_pos_eq e) by lra; lra || fail 1 | _ => idtac end.
  Ltac small2 := match goal with |- Rabs ?e + _ + _ <= _ => assert (Rabs e <= 500000000) by (apply Rabs_le; lra); lra end.

  Lemma propagate_near pc i x : (i < x <= n)%nat -> okc pc i ->
    near_to (@propagate NumF p pen geno pc i x) (fq pc i x) du.
  Proof.
    intros H O. destruct (okc_bounds pc i ltac:(lia) O) as [F PB].
    pose proof sizes_R as (S1 & S2 & S3). pose proof u25_value as (_ & _ & _ & U).
    destruct (Dz_int x ltac:(lia)) as [Dx _]. destruct (Dz_int (i + 1) ltac:(lia)) as [Di _].
    destruct (ddz_int x ltac:(lia)) as [Ex _]. destruct (ddz_int (i + 1) ltac:(lia)) as [Ei _].
    pose proof (D_bounds x ltac:(lia)). pose proof (D_bounds (i + 1) ltac:(lia)).
    pose proof (dd_bounds x ltac:(lia)). pose proof (dd_bounds (i + 1) ltac:(lia)). pose proof (W_bounds i x ltac:(lia)) as WB.
    assert (M : near_to (@fmul NumF pen (@fmax NumF (@f0 NumF) (@fsub NumF (@fsub NumF (@cumQ NumF p geno x) (@cumQ NumF p geno i)) (p_cap p)))) (W (Qr x - IZR cap) (Qr i)) u25).
    { pose proof (Qz_all x ltac:(lia)). pose proof (Qz_all i ltac:(lia)). pose proof (Qz_lt i x ltac:(lia)). destruct (ig_cap _ _ _ _ HI) as [C1 C2].
      assert (I : is_int (@fsub NumF (@fsub NumF (@cumQ NumF p geno x) (@cumQ NumF p geno i)) (p_cap p)) (Qz x - Qz i - cap)).
      { apply int_sub; [apply int_sub; [apply Qz_int; lia|apply Qz_int; lia|lia]|exact C1|lia]. }
      pose proof (int_max _ _ _ _ int_zero I) as [MF MV].
      assert (E : W (Qr x - IZR cap) (Qr i) = pr * IZR (Z.max 0 (Qz x - Qz i - cap))).
      { unfold Wr. f_equal. unfold Rmax. rewrite <- !minus_IZR. replace (Qz x - cap - Qz i)%Z with (Qz x - Qz i - cap)%Z by ring.
        destruct (Rle_dec 0 (IZR (Qz x - Qz i - cap))) as [L|L].
        - apply (le_IZR 0) in L. now rewrite Z.max_r.
        - rewrite Z.max_l; auto. destruct (Z_le_gt_dec (Qz x - Qz i - cap) 0); auto. exfalso. apply L. apply (IZR_le 0). lia. }
      rewrite E in WB |- *. change (-25)%Z with (29 - 54)%Z. apply (near_mul pen _ pr _ 29); auto; [lia|].
      rewrite Rabs_pos_eq by lra. destruct u25_value as (-> & _). lra. }
    unfold propagate. eapply near_eq; [eapply near_more|].
    - apply near_add29; [|exact M|].
      + apply near_add29; [|apply near_int; exact Ex|].
        * apply near_add29; [|apply near_int; exact Ei|].
          -- apply near_sub29; [|apply near_int; exact Di|].
             ++ apply near_add29; [apply near_self; exact F|apply near_int; exact Dx|small2].
             ++ small2.
          -- small2.
        * small2.
      + small2.
    - unfold du. lra.
    - unfold fq, gq. ring.
  Qed.

  (** Left of both comparisons with [pc j + ddepot (j + 1)], after adding the distance up to [j + 1]. *)
  Lemma left_near pc i j : (i < j < n)%nat -> okc pc i ->
    near_to (@fsub NumF (@fadd NumF (@fadd NumF (pc i) (@ddepot NumF p geno (i + 1))) (@cumD NumF p geno (j + 1))) (@cumD NumF p geno (i + 1)))
      (gq pc i + IZR (Dz (j + 1))) (3 * u25) /\
    near_to (@fadd NumF (pc i) (@ddepot NumF p geno (i + 1))) (gq pc i + IZR (Dz (i + 1))) u25 /\
    (-300000000 <= gq pc i <= 2 * A + B + A + 20).
  Proof.
    intros H O. destruct (okc_bounds pc i ltac:(lia) O) as [F PB].
    pose proof sizes_R as (S1 & S2 & S3). pose proof u25_value as (_ & _ & _ & U).
    destruct (Dz_int (j + 1) ltac:(lia)) as [Dx _]. destruct (Dz_int (i + 1) ltac:(lia)) as [Di _].
    destruct (ddz_int (i + 1) ltac:(lia)) as [Ei _].
    pose proof (D_bounds (j + 1) ltac:(lia)). pose proof (D_bounds (i + 1) ltac:(lia)). pose proof (dd_bounds (i + 1) ltac:(lia)).
    assert (N1 : near_to (@fadd NumF (pc i) (@ddepot NumF p geno (i + 1))) (B2R (pc i) + IZR (ddz (i + 1))) (0 + 0 + u25)).
    { apply near_add29; [apply near_self; exact F|apply near_int; exact Ei|small2]. }
    split; [|split].
    - eapply near_eq; [eapply near_more|].
      + apply near_sub29; [apply near_add29; [exact N1|apply near_int; exact Dx|small2]|apply near_int; exact Di|small2].
      + lra.
      + unfold gq. ring.
    - eapply near_eq; [eapply near_more; [exact N1|lra]|]. unfold gq. ring.
    - unfold gq. lra.
  Qed.
  Lemma right_near pc j : (j < n)%nat -> okc pc j ->
    near_to (@fadd NumF (pc j) (@ddepot NumF p geno (j + 1))) (gq pc j + IZR (Dz (j + 1))) u25 /\ (-20 <= gq pc j + IZR (Dz (j + 1)) <= 2 * A + B + A + 20).
  Proof.
    intros H O. destruct (okc_bounds pc j ltac:(lia) O) as [F PB].
    pose proof sizes_R as (S1 & S2 & S3). pose proof u25_value as (_ & _ & _ & U).
    destruct (ddz_int (j + 1) ltac:(lia)) as [Ei _]. pose proof (dd_bounds (j + 1) ltac:(lia)).
    split.
    - eapply near_eq; [eapply near_more|].
      + apply near_add29; [apply near_self; exact F|apply near_int; exact Ei|small2].
      + lra.
      + unfold gq. ring.
    - unfold gq. lra.
  Qed.

  Lemma dominates_near pc i j : (i < j < n)%nat -> okc pc i -> okc pc j ->
    (@dominates NumF p pen geno pc i j = true -> gq pc i + pr * (Qr j - Qr i) <= gq pc j + du) /\
    (@dominates NumF p pen geno pc i j = false -> gq pc j <= gq pc i + pr * (Qr j - Qr i) + du).
  Proof.
    intros H Oi Oj. pose proof sizes_R as (S1 & S2 & S3). pose proof u25_value as (_ & _ & _ & U).
    destruct (left_near pc i j H Oi) as (L & _ & LB). destruct (right_near pc j ltac:(lia) Oj) as (R & RB).
    pose proof (D_bounds (j + 1) ltac:(lia)). pose proof (Qz_all i ltac:(lia)). pose proof (Qz_all j ltac:(lia)). pose proof (Qz_lt i j ltac:(lia)).
    assert (PB : 0 <= pr * (Qr j - Qr i) <= B).
    { rewrite <- minus_IZR. split; [apply Rmult_le_pos; [lra|apply IZR_le; lia]|apply Rmult_le_compat_l; [lra|apply IZR_le; lia]]. }
    assert (M : near_to (@fmul NumF pen (@fsub NumF (@cumQ NumF p geno j) (@cumQ NumF p geno i))) (pr * (Qr j - Qr i)) u25).
    { assert (I : is_int (@fsub NumF (@cumQ NumF p geno j) (@cumQ NumF p geno i)) (Qz j - Qz i)) by (apply int_sub; [apply Qz_int; lia|apply Qz_int; lia|lia]).
      destruct I as [MF MV]. rewrite minus_IZR in MV. change (-25)%Z with (29 - 54)%Z. apply (near_mul pen _ pr _ 29); auto; [lia|].
      rewrite Rabs_pos_eq by lra. destruct u25_value as (-> & _). lra. }
    assert (DB : 0 <= gq pc i + IZR (Dz (j + 1)) + 20).
    { destruct (okc_bounds pc i ltac:(lia) Oi) as [_ PB']. pose proof (dd_bounds (i + 1) ltac:(lia)).
      assert (IZR (Dz (i + 1)) <= IZR (Dz (j + 1))); [|unfold gq; lra]. apply IZR_le.
      clear - H HI Hdim Hperm Htop. assert (G : forall m, (i + 1 + m <= n)%nat -> (Dz (i + 1) <= Dz (i + 1 + m))%Z).
      { induction m as [|m IH]; intros M; [rewrite Nat.add_0_r; lia|]. specialize (IH ltac:(lia)).
        replace (i + 1 + S m)%nat with (S (S (i + m))) by lia. replace (i + 1 + m)%nat with (S (i + m)) in IH by lia.
        change (Dz (S (S (i + m)))) with (Dz (S (i + m)) + d (gnode geno (S (i + m))) (gnode geno (S (i + m) + 1)))%Z.
        pose proof (gnode_range (S (i + m)) ltac:(lia)). pose proof (gnode_range (S (i + m) + 1) ltac:(lia)).
        destruct (ig_dist _ _ _ _ HI (gnode geno (S (i + m))) (gnode geno (S (i + m) + 1)) ltac:(lia) ltac:(lia)) as [_ P]. lia. }
      replace (j + 1)%nat with (i + 1 + (j - i))%nat by lia. apply G. lia. }
    assert (L2 : near_to (@fadd NumF (@fsub NumF (@fadd NumF (@fadd NumF (pc i) (@ddepot NumF p geno (i + 1))) (@cumD NumF p geno (j + 1))) (@cumD NumF p geno (i + 1)))
       (@fmul NumF pen (@fsub NumF (@cumQ NumF p geno j) (@cumQ NumF p geno i)))) (gq pc i + IZR (Dz (j + 1)) + pr * (Qr j - Qr i)) (5 * u25)).
    { eapply near_more; [apply near_add29; [exact L|exact M|small2]|lra]. }
    unfold dominates, du. split; intros E.
    - pose proof (lt_near _ _ _ _ _ _ L2 R E). lra.
    - pose proof (not_lt_near _ _ _ _ _ _ L2 R E). lra.
  Qed.

  Lemma dominates_right_near pc i j : (i < j < n)%nat -> okc pc i -> okc pc j ->
    (@dominates_right NumF p geno pc i j = true -> gq pc j <= gq pc i + 6 / 5000000) /\
    (@dominates_right NumF p geno pc i j = false -> gq pc i <= gq pc j).
  Proof.
    intros H Oi Oj. pose proof sizes_R as (S1 & S2 & S3). pose proof u25_value as (_ & B30 & _ & U).
    destruct (left_near pc i j H Oi) as (L & _ & LB). destruct (right_near pc j ltac:(lia) Oj) as (R & RB).
    pose proof (D_bounds (j + 1) ltac:(lia)).
    assert (SZ : Rabs (gq pc j + IZR (Dz (j + 1)) - (gq pc i + IZR (Dz (j + 1)))) + u25 + 3 * u25 <= bpow radix2 30).
    { rewrite B30. assert (Rabs (gq pc j + IZR (Dz (j + 1)) - (gq pc i + IZR (Dz (j + 1)))) <= 1000000000) by (apply Rabs_le; lra). lra. }
    unfold dominates_right. split; intros E.
    - pose proof (lte_near _ _ _ _ _ _ R L SZ E). lra.
    - pose proof (not_lte_near _ _ _ _ _ _ R L SZ E ltac:(lra)). lra.
  Qed.

  Definition tau : R := 3 / 2000000.

  Lemma fq_bounds pc i x : (i < x <= n)%nat -> okc pc i -> - 300000000 <= fq pc i x <= 450000000.
  Proof.
    intros H O. destruct (okc_bounds pc i ltac:(lia) O) as [_ PB]. pose proof sizes_R as (S1 & S2 & S3).
    pose proof (D_bounds x ltac:(lia)). pose proof (D_bounds (i + 1) ltac:(lia)).
    pose proof (dd_bounds x ltac:(lia)). pose proof (dd_bounds (i + 1) ltac:(lia)). pose proof (W_bounds i x ltac:(lia)) as WB.
    unfold fq, gq. lra.
  Qed.
  Lemma front_near pc a b x : (a < x <= n)%nat -> (b < x <= n)%nat -> okc pc a -> okc pc b ->
    (@approx_gte NumF (@propagate NumF p pen geno pc a x) (@propagate NumF p pen geno pc b x) = true -> fq pc b x <= fq pc a x + tau) /\
    (@approx_gte NumF (@propagate NumF p pen geno pc a x) (@propagate NumF p pen geno pc b x) = false -> fq pc a x + / 2500000 <= fq pc b x).
  Proof.
    intros Ha Hb Oa Ob. pose proof (propagate_near pc a x Ha Oa) as NA. pose proof (propagate_near pc b x Hb Ob) as NB.
    pose proof (fq_bounds pc a x Ha Oa). pose proof (fq_bounds pc b x Hb Ob). pose proof u25_value as (_ & B30 & _ & U).
    assert (SZ : Rabs (fq pc a x - fq pc b x) + du + du <= bpow radix2 30).
    { rewrite B30. unfold du. assert (Rabs (fq pc a x - fq pc b x) <= 1000000000) by (apply Rabs_le; lra). lra. }
    unfold tau. split; intros E.
    - pose proof (gte_near _ _ _ _ _ _ NA NB SZ E). unfold du in *. lra.
    - pose proof (not_gte_near _ _ _ _ _ _ NA NB SZ E ltac:(unfold du; lra)). unfold du in *. lra.
  Qed.

  Section Fixed.
    Variable pc : nat -> dbl.
    Notation f := (fq pc).
    Notation g := (gq pc).
    (** The queue is sorted by [gq]; of neighbours, the second has the lower cost once overloaded. *)
    Definition Gr (a b : nat) : Prop := (a < b)%nat /\ g a <= g b.
    Definition adj (l : list nat) : Prop := forall l1 a b l2, l = l1 ++ a :: b :: l2 ->
      g b - pr * Qr b <= g a - pr * Qr a + du.
    Definition covered (base i k : nat) (l : list nat) : Prop :=
      forall j, (base <= j <= i)%nat -> exists a, In a l /\ forall x, (i < x <= n)%nat -> f a x <= f j x + INR k * tau.

    Record QI (base i : nat) (l : list nat) : Prop := {
      qi_ne : l <> [];
      qi_sorted : StronglySorted Gr l;
      qi_adj : adj l;
      qi_range : forall a, In a l -> (base <= a <= i)%nat;
      qi_ok : forall j, (base <= j <= i)%nat -> okc pc j;
      qi_cov : exists k, (k + length l <= i + 1 - base)%nat /\ covered base i k l;
      qi_front : forall a t, l = a :: t -> (i + 1 <= n)%nat -> forall b, In b l -> f a (i + 1) <= f b (i + 1)
    }.

    Lemma T_S k : INR (S k) * tau = INR k * tau + tau.
    Proof. rewrite S_INR. ring. Qed.
    Lemma tau_pos : 0 < tau. Proof. unfold tau. lra. Qed.
    Lemma T_le k k' : (k <= k')%nat -> INR k * tau <= INR k' * tau.
    Proof. intros H. apply Rmult_le_compat_r; [unfold tau; lra|]. now apply le_INR. Qed.
    Lemma T_pos k : 0 <= INR k * tau.
    Proof. apply Rmult_le_pos; [apply pos_INR|unfold tau; lra]. Qed.

    Lemma takeover a b x x' : (a <= b <= n)%nat -> (x <= x' <= n)%nat -> f b x <= f a x + tau -> f b x' <= f a x' + tau.
    Proof.
      intros Hab Hx H. unfold fq in *.
      pose proof (Wr_diff_mono pr pen_nonneg (Qr x - IZR cap) (Qr x' - IZR cap) (Qr a) (Qr b)) as Hw.
      pose proof (Qr_mono a b Hab) as H0. pose proof (Qr_mono x x' Hx) as H1.
      specialize (Hw H0 ltac:(lra)). lra.
    Qed.

    Lemma front_best a b t x : StronglySorted Gr (a :: b :: t) -> adj (a :: b :: t) -> (forall c, In c (a :: b :: t) -> (c <= n)%nat) ->
      f a x + / 2500000 <= f b x -> forall c, In c (a :: b :: t) -> f a x <= f c x.
    Proof.
      intros Hs Hadj Hr H c Hc. pose proof u25_value as (_ & _ & _ & U).
      inversion Hs as [|? ? Hs' Ha]; subst. inversion Hs' as [|? ? Hs'' Hb]; subst.
      rewrite Forall_forall in Ha, Hb.
      destruct Hc as [->|[->|Hc]]; [lra|lra|].
      destruct (Ha b (or_introl eq_refl)) as (Hab & Gab). pose proof (Hadj [] a b t eq_refl) as Sab.
      destruct (Hb c Hc) as (Hbc & Gbc).
      pose proof (Qr_mono a b ltac:(split; [lia|apply Hr; simpl; auto])) as Qab.
      pose proof (Qr_mono b c ltac:(split; [lia|apply Hr; simpl; auto])) as Qbc.
      unfold fq in *. set (X := Qr x - IZR cap) in *. unfold du in Sab.
      destruct (Rlt_le_dec (Qr b) X) as [H1|H1].
      - exfalso. rewrite (Wr_hi pr X (Qr a)), (Wr_hi pr X (Qr b)) in H by lra. lra.
      - rewrite (Wr_lo pr X (Qr b)) in H by lra.
        pose proof (Wr_nonneg pr pen_nonneg X (Qr c)). lra.
    Qed.

    Lemma pop_front_ok base i : forall l k,
      (i + 1 <= n)%nat ->
      l <> [] -> StronglySorted Gr l -> adj l -> (forall a, In a l -> (base <= a <= i)%nat) ->
      (forall j, (base <= j <= i)%nat -> okc pc j) ->
      (k + length l <= i + 1 - base)%nat -> covered base i k l ->
      QI base i (pop_front_while
        (fun a b => @approx_gte NumF (@propagate NumF p pen geno pc a (i + 1)) (@propagate NumF p pen geno pc b (i + 1))) l).
    Proof.
      induction l as [|a l IH]; intros k Hi Hne Hs Hadj Hr HL Hk Hc; [congruence|].
      cbn [pop_front_while]. destruct l as [|b t].
      { constructor; auto; eauto. intros a' t [= <- <-] _ b [<-|[]]. lra. }
      assert (Ha : (base <= a <= i)%nat) by (apply Hr; simpl; auto).
      assert (Hb : (base <= b <= i)%nat) by (apply Hr; simpl; auto).
      inversion Hs as [|? ? Hs' Hall]; subst.
      assert (Rab : Gr a b) by (rewrite Forall_forall in Hall; apply Hall; now left).
      destruct (front_near pc a b (i + 1) ltac:(lia) ltac:(lia) (HL a Ha) (HL b Hb)) as [NT NF].
      destruct (@approx_gte NumF _ _) eqn:E.
      - specialize (NT eq_refl). apply (IH (S k)); auto.
        + discriminate.
        + intros l1 x y l2 El. apply (Hadj (a :: l1) x y l2). cbn [app]. now f_equal.
        + intros; apply Hr. now right.
        + simpl in *. lia.
        + intros j Hj. destruct (Hc j Hj) as (c & Hc1 & Hc2). pose proof tau_pos.
          destruct Hc1 as [<-|Hc1].
          * exists b. split; [now left|]. intros x Hx. specialize (Hc2 x Hx).
            rewrite T_S. pose proof (takeover a b (i + 1) x ltac:(destruct Rab; lia) ltac:(lia) NT). lra.
          * exists c. split; auto. intros x Hx. specialize (Hc2 x Hx). rewrite T_S. lra.
      - specialize (NF eq_refl). constructor; auto; eauto.
        intros a' t' [= <- <-] _ c Hin.
        apply (front_best a b t (i + 1)); auto.
        intros c' Hc'. specialize (Hr c' Hc'). lia.
    Qed.

    Lemma queue_update_QI base i l :
      (i + 1 <= n)%nat -> okc pc i -> (0 < i)%nat -> (base <= i - 1)%nat -> QI base (i - 1) l ->
      exists l', @queue_update NumF p pen geno pc l i = Ok l' /\ QI base i l'.
    Proof.
      intros Hi HLi Hpos Hb1 [Hne Hs Hadj Hr HL (k & Hk & Hc) _]. pose proof u25_value as (_ & _ & _ & U).
      unfold queue_update. assert (E : (i <? n)%nat = true) by (apply Nat.ltb_lt; lia). rewrite E.
      destruct (rev l) as [|back t] eqn:Er.
      { exfalso. apply Hne. rewrite <- (rev_involutive l), Er. reflexivity. }
      assert (El : l = rev t ++ [back]) by (rewrite <- (rev_involutive l), Er; reflexivity).
      assert (Hbin : In back l) by (apply in_rev; rewrite Er; now left).
      assert (HbR : (base <= back <= i - 1)%nat) by auto.
      assert (HL' : forall j, (base <= j <= i)%nat -> okc pc j).
      { intros j Hj. destruct (Nat.eq_dec j i) as [->|]; auto. apply HL. lia. }
      pose proof (Qr_mono back i ltac:(lia)) as HQb.
      destruct (dominates_near pc back i ltac:(lia) (HL back HbR) HLi) as [DT DF].
      eexists. split; [reflexivity|].
      destruct (@dominates NumF p pen geno pc back i) eqn:Ed.
      - specialize (DT eq_refl). apply pop_front_ok with (k := S k); auto.
        + intros a Ha. specialize (Hr a Ha). lia.
        + lia.
        + intros j Hj. destruct (Nat.eq_dec j i) as [->|Hji].
          * exists back. split; auto. intros x Hx. unfold fq.
            pose proof (Wr_shift pr pen_nonneg (Qr x - IZR cap) (Qr back) (Qr i) HQb).
            pose proof (T_pos k). rewrite T_S. unfold tau, du in *. lra.
          * destruct (Hc j ltac:(lia)) as (a & Ha & Hax). exists a. split; auto.
            intros x Hx. specialize (Hax x ltac:(lia)). pose proof tau_pos. rewrite T_S. lra.
      - specialize (DF eq_refl).
        destruct (pop_back_while_prefix (fun b => @dominates_right NumF p geno pc b i) l) as (popped & Eq & Hpop & Hlast).
        set (lk := pop_back_while _ l) in *.
        assert (Hinq : forall a, In a lk -> In a l) by (intros a Ha; rewrite Eq; apply in_or_app; auto).
        assert (Hsk : StronglySorted Gr lk) by (rewrite Eq in Hs; now apply SplitQueue.ss_app_l in Hs).
        rewrite Forall_forall in Hpop.
        assert (PG : forall a, In a popped -> (a < i)%nat /\ g i <= g a + 6 / 5000000).
        { intros a Ha. assert (Haq : In a l) by (rewrite Eq; apply in_or_app; auto). pose proof (Hr a Haq) as Har.
          split; [lia|]. apply (dominates_right_near pc a i ltac:(lia) (HL a Har) HLi). now apply Hpop. }
        apply pop_front_ok with (k := (k + length popped)%nat); auto.
        + intros H. apply app_eq_nil in H as [_ H]. discriminate.
        + apply SplitQueue.ss_snoc; auto. apply Forall_forall. intros a Ha.
          pose proof (Hr a (Hinq a Ha)) as Har. unfold Gr. split; [lia|].
          destruct (rev lk) as [|z tl] eqn:Elk.
          { assert (lk = []) by (rewrite <- (rev_involutive lk), Elk; reflexivity). rewrite H in Ha. destruct Ha. }
          pose proof (Hlast z tl eq_refl) as Hl.
          assert (Hz : In z lk) by (apply in_rev; rewrite Elk; now left). pose proof (Hr z (Hinq z Hz)) as Hzr.
          apply (dominates_right_near pc z i ltac:(lia) (HL z Hzr) HLi) in Hl.
          destruct (SplitQueue.ss_last Gr lk z tl Hsk Elk a Ha) as [->|(_ & Hg)]; lra.
        + intros l1 a b l2 Ea. destruct l2 as [|z l2' _] using rev_ind.
          * change (l1 ++ [a; b]) with (l1 ++ [a] ++ [b]) in Ea. rewrite app_assoc in Ea. apply app_inj_tail in Ea as [Ek <-].
            destruct popped as [|b' pt].
            -- rewrite app_nil_r in Eq. rewrite <- Eq, El in Ek. apply app_inj_tail in Ek as [_ <-]. lra.
            -- destruct (PG b' (or_introl eq_refl)) as [Lb Gb]. pose proof (Hadj l1 a b' pt) as Sb.
               rewrite Eq, Ek, <- app_assoc in Sb. specialize (Sb eq_refl).
               pose proof (Qz_lt b' i ltac:(lia)) as Qb. apply IZR_le in Qb. rewrite plus_IZR in Qb.
               assert (P1 : pr * (Qr b' + 1) <= pr * Qr i) by (apply Rmult_le_compat_l; lra). lra.
          * rewrite app_comm_cons, app_comm_cons, app_assoc in Ea. apply app_inj_tail in Ea as [Ek _].
            apply (Hadj l1 a b (l2' ++ popped)). rewrite Eq, Ek, <- app_assoc. reflexivity.
        + intros a Ha. apply in_app_or in Ha as [Ha|[<-|[]]]; [|lia]. specialize (Hr a (Hinq a Ha)). lia.
        + rewrite app_length. simpl. rewrite Eq, app_length in Hk. lia.
        + intros j Hj. destruct (Nat.eq_dec j i) as [->|Hji].
          * exists i. split; [apply in_or_app; right; now left|]. intros x Hx. pose proof (T_pos (k + length popped)). lra.
          * destruct (Hc j ltac:(lia)) as (a & Ha & Hax).
            rewrite Eq in Ha. apply in_app_or in Ha as [Ha|Ha].
            -- exists a. split; [apply in_or_app; auto|]. intros x Hx.
               specialize (Hax x ltac:(lia)). pose proof (T_le k (k + length popped) ltac:(lia)). lra.
            -- exists i. split; [apply in_or_app; right; now left|]. intros x Hx.
               specialize (Hax x ltac:(lia)).
               assert (Hk1 : (S k <= k + length popped)%nat) by (destruct popped; [destruct Ha|simpl; lia]).
               pose proof (T_le _ _ Hk1) as Hm. rewrite T_S in Hm. destruct (PG a Ha) as [Lai Gai].
               pose proof (Qr_mono a i ltac:(lia)) as Hai.
               pose proof (Wr_anti pr pen_nonneg (Qr x - IZR cap) (Qr a) (Qr i) Hai) as Hw.
               assert (f i x <= f a x + tau) by (unfold fq, tau; lra). lra.
    Qed.

    Lemma QI_init base : okc pc base -> QI base base [base].
    Proof.
      intros H. constructor.
      - discriminate.
      - repeat constructor.
      - intros l1 a b l2 E. assert (L : length [base] = length (l1 ++ a :: b :: l2)) by now rewrite E. rewrite app_length in L. cbn in L. lia.
      - intros a [<-|[]]. lia.
      - intros j Hj. replace j with base by lia. auto.
      - exists 0%nat. split; [simpl; lia|]. intros j Hj. exists base. split; [now left|].
        intros x Hx. replace j with base by lia. pose proof (T_pos 0). lra.
      - intros a t [= <- <-] _ b [<-|[]]. lra.
    Qed.

    Lemma QI_best base i a t : QI base i (a :: t) -> (base <= i)%nat -> (i + 1 <= n)%nat ->
      (base <= a <= i)%nat /\
      forall j, (base <= j <= i)%nat -> f a (i + 1) <= f j (i + 1) + INR (i - base) * tau.
    Proof.
      intros [Hne Hs Hadj Hr HL (k & Hk & Hc) Hf] Hb Hi. split; [apply Hr; now left|].
      intros j Hj. destruct (Hc j Hj) as (c & Hc1 & Hc2).
      specialize (Hf a t eq_refl Hi c Hc1). specialize (Hc2 (i + 1)%nat ltac:(lia)).
      pose proof (T_le k (i - base) ltac:(simpl in Hk; lia)). lra.
    Qed.
  End Fixed.

  (** The queue only looks at path costs of cells it contains. *)
  Lemma gq_ext pc pc' i : pc i = pc' i -> gq pc i = gq pc' i.
  Proof. intros H. unfold gq. now rewrite H. Qed.
  Lemma fq_ext pc pc' i x : pc i = pc' i -> fq pc i x = fq pc' i x.
  Proof. intros H. unfold fq. now rewrite (gq_ext pc pc' i H). Qed.
  Lemma okc_ext pc pc' i : pc i = pc' i -> okc pc i -> okc pc' i.
  Proof. intros H. unfold okc. now rewrite H. Qed.

  Lemma QI_ext pc pc' base i l : (forall j, (base <= j <= i)%nat -> pc j = pc' j) -> QI pc base i l -> QI pc' base i l.
  Proof.
    intros E [Hne Hs Hadj Hr HL (k & Hk & Hc) Hf]. constructor; auto.
    - assert (G : forall l, (forall a, In a l -> (base <= a <= i)%nat) -> StronglySorted (Gr pc) l -> StronglySorted (Gr pc') l).
      { intros m Hl. induction 1 as [|a m Hs' IH Ha]; constructor.
        - apply IH. intros; apply Hl; now right.
        - rewrite Forall_forall in *. intros b Hb. destruct (Ha b Hb) as (H1 & H2).
          rewrite (gq_ext pc pc' a) in H2 by (apply E, Hl; now left).
          rewrite (gq_ext pc pc' b) in H2 by (apply E, Hl; now right). split; auto. }
      auto.
    - intros l1 a b l2 El. specialize (Hadj l1 a b l2 El).
      rewrite (gq_ext pc pc' a) in Hadj by (apply E, Hr; rewrite El; apply in_or_app; right; now left).
      rewrite (gq_ext pc pc' b) in Hadj by (apply E, Hr; rewrite El; apply in_or_app; right; right; now left). exact Hadj.
    - intros j Hj. apply (okc_ext pc pc'); auto.
    - exists k. split; auto. intros j Hj. destruct (Hc j Hj) as (a & Ha & Hax).
      exists a. split; auto. intros x Hx.
      rewrite <- (fq_ext pc pc' a) by (apply E; auto). rewrite <- (fq_ext pc pc' j) by (apply E; auto). auto.
    - intros a t -> Hi b Hb.
      rewrite <- (fq_ext pc pc' a) by (apply E, Hr; now left). rewrite <- (fq_ext pc pc' b) by (apply E; auto).
      eapply Hf; eauto.
  Qed.

  (** *** Costs of segments *)
  Hypothesis Hsym : forall a, (a < p_dim p)%nat -> d 0%nat a = d a 0%nat.
  Notation seg := (SplitOpt.seg geno).
  Notation RC := (true_route_cost d q cap pr).
  Notation TC := (true_cost d q cap pr).

  Lemma skipn_gnode i : (i < length geno)%nat -> skipn i geno = gnode geno (i + 1) :: skipn (i + 1) geno.
  Proof.
    clear. unfold gnode. replace (i + 1 - 1)%nat with i by lia. replace (i + 1)%nat with (S i) by lia.
    revert i. induction geno as [|a g IH]; intros i Hi; simpl in *; [lia|].
    destruct i; auto. apply IH. lia.
  Qed.
  Lemma seg_cons i x : (i < x <= n)%nat -> seg i x = gnode geno (i + 1) :: seg (i + 1) x.
  Proof.
    intros H. unfold SplitOpt.seg. pose proof geno_length. rewrite skipn_gnode by lia.
    replace (x - i)%nat with (S (x - (i + 1))) by lia. reflexivity.
  Qed.
  Lemma seg_nil i : seg i i = [].
  Proof. unfold SplitOpt.seg. now rewrite Nat.sub_diag. Qed.

  Lemma seg_load m : forall i, (i + m <= n)%nat -> zload q (seg i (i + m)) = (Qz (i + m) - Qz i)%Z.
  Proof.
    induction m as [|m IH]; intros i H.
    - rewrite Nat.add_0_r, seg_nil. cbn. lia.
    - rewrite seg_cons by lia. replace (i + S m)%nat with ((i + 1) + m)%nat by lia.
      unfold zload in *. cbn [map zsum]. rewrite IH by lia.
      replace (i + 1)%nat with (S i) by lia. cbn [Qz]. lia.
  Qed.
  Lemma seg_walk m : forall i, (1 <= i)%nat -> (i + m <= n)%nat ->
    zwalk d (gnode geno i :: seg i (i + m) ++ [0%nat]) = (Dz (i + m) - Dz i + ddz (i + m))%Z.
  Proof.
    induction m as [|m IH]; intros i H1 H.
    - rewrite Nat.add_0_r, seg_nil. cbn [app zwalk]. unfold ddz. lia.
    - rewrite seg_cons by lia. cbn [app].
      replace (i + S m)%nat with ((i + 1) + m)%nat by lia.
      change (zwalk d (gnode geno i :: gnode geno (i + 1) :: seg (i + 1) (i + 1 + m) ++ [0%nat]))
        with (d (gnode geno i) (gnode geno (i + 1)) + zwalk d (gnode geno (i + 1) :: seg (i + 1) (i + 1 + m) ++ [0%nat]))%Z.
      rewrite IH by lia. replace (Dz (i + 1)) with (Dz (S i)) by (f_equal; lia). cbn [Dz]. destruct i; [lia|]. lia.
  Qed.
  Lemma seg_cost i x : (i < x <= n)%nat ->
    RC (seg i x) = IZR (ddz (i + 1)) + (IZR (Dz x) - IZR (Dz (i + 1))) + IZR (ddz x) + W (Qr x - IZR cap) (Qr i).
  Proof.
    intros H. unfold true_route_cost. f_equal.
    - unfold ztour. rewrite seg_cons by lia. cbn [app].
      change (zwalk d (0%nat :: gnode geno (i + 1) :: seg (i + 1) x ++ [0%nat]))
        with (d 0%nat (gnode geno (i + 1)) + zwalk d (gnode geno (i + 1) :: seg (i + 1) x ++ [0%nat]))%Z.
      pose proof (gnode_range (i + 1) ltac:(lia)). rewrite Hsym by lia.
      replace x with ((i + 1) + (x - (i + 1)))%nat at 1 by lia. rewrite seg_walk by lia.
      replace (i + 1 + (x - (i + 1)))%nat with x by lia. fold (ddz (i + 1)). rewrite !plus_IZR, minus_IZR. ring.
    - unfold Wr. f_equal. replace x with (i + (x - i))%nat at 1 by lia. rewrite seg_load by lia.
      replace (i + (x - i))%nat with x by lia. unfold Rmax. rewrite <- !minus_IZR.
      replace (Qz x - cap - Qz i)%Z with (Qz x - Qz i - cap)%Z by ring.
      destruct (Rle_dec 0 (IZR (Qz x - Qz i - cap))) as [L|L].
      + apply (le_IZR 0) in L. now rewrite Z.max_r.
      + rewrite Z.max_l; auto. destruct (Z_le_gt_dec (Qz x - Qz i - cap) 0); auto. exfalso. apply L. apply (IZR_le 0). lia.
  Qed.
  Lemma fq_cost pc i x : (i < x <= n)%nat -> fq pc i x = B2R (pc i) + RC (seg i x).
  Proof. intros H. rewrite seg_cost by auto. unfold fq, gq. ring. Qed.

  Lemma Dz_diff i x : (1 <= i <= x)%nat -> (x <= n)%nat -> (0 <= Dz x - Dz i <= Z.of_nat (x - i) * top)%Z.
  Proof.
    intros [H1 H2] H. induction x as [|x IH]; [lia|]. destruct (Nat.eq_dec i (S x)) as [->|].
    - rewrite Nat.sub_diag. lia.
    - specialize (IH ltac:(lia) ltac:(lia)). cbn [Dz]. destruct x as [|x]; [lia|].
      pose proof (gnode_range (S x) ltac:(lia)). pose proof (gnode_range (S x + 1) ltac:(lia)).
      destruct (dz_int (gnode geno (S x)) (gnode geno (S x + 1)) ltac:(lia) ltac:(lia)) as [_ B1].
      replace (S (S x) - i)%nat with (S (S x - i)) by lia. rewrite Nat2Z.inj_succ. lia.
  Qed.
  Lemma seg_bounds i x : (i < x <= n)%nat ->
    0 <= RC (seg i x) <= IZR (2 * Z.of_nat (x - i) * top) + pr * (Qr x - Qr i).
  Proof.
    intros H. rewrite seg_cost by auto. pose proof (Wr_nonneg pr pen_nonneg (Qr x - IZR cap) (Qr i)).
    destruct (ddz_int (i + 1) ltac:(lia)) as [_ A1]. destruct (ddz_int x ltac:(lia)) as [_ A2].
    pose proof (Dz_diff (i + 1) x ltac:(lia) ltac:(lia)) as A3. pose proof (Qr_mono i x ltac:(lia)).
    assert (Wr pr (Qr x - IZR cap) (Qr i) <= pr * (Qr x - Qr i)).
    { apply Wr_top; [lra|lra|]. destruct (ig_cap _ _ _ _ HI) as [_ C]. assert (0 <= IZR cap) by (apply IZR_le; lia). lra. }
    assert (E : IZR (ddz (i + 1)) + (IZR (Dz x) - IZR (Dz (i + 1))) + IZR (ddz x) = IZR (ddz (i + 1) + (Dz x - Dz (i + 1)) + ddz x)).
    { rewrite !plus_IZR, minus_IZR. ring. }
    rewrite E. assert (0 <= IZR (ddz (i + 1) + (Dz x - Dz (i + 1)) + ddz x)) by (apply IZR_le; lia).
    assert (IZR (ddz (i + 1) + (Dz x - Dz (i + 1)) + ddz x) <= IZR (2 * Z.of_nat (x - i) * top)).
    { apply IZR_le. replace (x - i)%nat with (S (x - (i + 1))) by lia. rewrite Nat2Z.inj_succ. nia. }
    lra.
  Qed.

  Lemma du_pos : 0 < du /\ du <= 1 / 5000000.
  Proof. pose proof u25_value as (_ & _ & _ & U). unfold du. lra. Qed.

  (** A cell computed from a sound cell is sound. *)
  Lemma okc_next pc pc' i x : (i < x <= n)%nat -> okc pc i -> near_to (pc' x) (fq pc i x) du -> okc pc' x.
  Proof.
    intros H [F [O1 O2]] [F' E]. split; auto. rewrite fq_cost in E by auto. apply Rabs_le_inv in E.
    pose proof (seg_bounds i x H). pose proof du_pos.
    assert (INR x = INR i + INR (x - i)) by (rewrite <- plus_INR; f_equal; lia).
    assert (INR i * du + du <= INR x * du).
    { assert (1 <= INR (x - i)) by (apply (le_INR 1); lia). rewrite H2. nra. }
    assert (E2 : IZR (2 * Z.of_nat x * top) = IZR (2 * Z.of_nat i * top) + IZR (2 * Z.of_nat (x - i) * top)).
    { rewrite <- plus_IZR. f_equal. rewrite Nat2Z.inj_sub by lia. ring. }
    rewrite E2. lra.
  Qed.

  Lemma okc_zero pc : pc 0%nat = @f0 NumF -> okc pc 0.
  Proof.
    intros E. unfold okc. rewrite E. split; [reflexivity|]. change (B2R (@f0 NumF)) with 0. cbn [Qz INR Z.of_nat].
    replace (2 * 0 * top)%Z with 0%Z by ring. lra.
  Qed.

  (** *** The unlimited linear split *)
  Definition cell_ok (P P' : nat -> dbl) (pr' : nat -> nat) (k x : nat) : Prop :=
    (k <= pr' x < x)%nat /\ okc P' x /\ near_to (P' x) (fq P (pr' x) x) du /\
    forall j, (k <= j < x)%nat -> B2R (P' x) <= fq P j x + INR n * tau + du.

  Lemma front_cell P P' pr' k x front t v : (k < x <= n)%nat -> QI P k (x - 1) (front :: t) ->
    v = @propagate NumF p pen geno P front x -> P' x = v -> pr' x = front -> cell_ok P P' pr' k x.
  Proof.
    intros Hx Hq Ev E1 E2. pose proof (QI_best P k (x - 1) front t Hq ltac:(lia) ltac:(lia)) as [Hfr Hbest].
    replace (x - 1 + 1)%nat with x in Hbest by lia.
    assert (O : okc P front) by (apply (qi_ok _ _ _ _ Hq); lia).
    pose proof (propagate_near P front x ltac:(lia) O) as NN. rewrite <- Ev, <- E1 in NN.
    unfold cell_ok. rewrite E2. split; [lia|]. split; [apply (okc_next P P' front x); auto; lia|]. split; [exact NN|].
    intros j Hj. destruct NN as [_ NN]. apply Rabs_le_inv in NN. specialize (Hbest j ltac:(lia)).
    pose proof (T_le (x - 1 - k) n ltac:(lia)). lra.
  Qed.

  Lemma cell_ok_ext P P2 P' P2' pr1 pr2 k x : (forall j, (k <= j < x)%nat -> P j = P2 j) -> P' x = P2' x -> pr1 x = pr2 x ->
    cell_ok P P' pr1 k x -> cell_ok P2 P2' pr2 k x.
  Proof.
    intros E E' Er (H1 & H2 & H3 & H4). unfold cell_ok. rewrite <- Er, <- E'. split; auto. split; [apply (okc_ext P' P2'); auto|]. split.
    - rewrite <- (fq_ext P P2) by (apply E; lia). exact H3.
    - intros j Hj. rewrite <- (fq_ext P P2) by (apply E; lia). now apply H4.
  Qed.

  Lemma linear_cells pr0 :
    exists pc pr', @linear_split NumF p pen geno pr0 = Ok (pc, pr') /\ pc 0%nat = @f0 NumF /\
      forall x, (1 <= x <= n)%nat -> cell_ok pc pc pr' 0 x.
  Proof.
    unfold linear_split.
    assert (G : forall k i (pc : nat -> @F NumF) pr q,
      (i + k = n + 1)%nat -> (1 <= i)%nat -> pc 0%nat = @f0 NumF ->
      (forall x, (1 <= x < i)%nat -> cell_ok pc pc pr 0 x) ->
      ((i <= n)%nat -> QI pc 0 (i - 1) q) ->
      exists pc' pr' q', foldm (@linear_step NumF p pen geno) (seq i k) (pc, pr, q) = Ok (pc', pr', q') /\
        pc' 0%nat = @f0 NumF /\ forall x, (1 <= x <= n)%nat -> cell_ok pc' pc' pr' 0 x).
    { induction k as [|k IH]; intros i pc pr1 l Hik Hi H0 Hc Hq.
      - exists pc, pr1, l. simpl. split; auto. split; auto. intros x Hx. apply Hc. lia.
      - cbn [seq foldm linear_step]. specialize (Hq ltac:(lia)).
        destruct l as [|front l]; [destruct Hq; congruence|].
        set (v := @propagate NumF p pen geno pc front i).
        set (pc1 := fupd pc i v).
        assert (Ext : forall j, (0 <= j <= i - 1)%nat -> pc j = pc1 j).
        { intros j Hj. unfold pc1, fupd. destruct (Nat.eqb_spec j i); [lia|reflexivity]. }
        assert (Ei : pc1 i = v) by (unfold pc1, fupd; now rewrite Nat.eqb_refl).
        assert (Hq1 : QI pc1 0 (i - 1) (front :: l)) by (now apply (QI_ext pc pc1)).
        assert (Hc' : forall x, (1 <= x < S i)%nat -> cell_ok pc1 pc1 (fupd pr1 i front) 0 x).
        { intros x Hx. destruct (Nat.eq_dec x i) as [->|Hxi].
          - apply (cell_ok_ext pc pc1 pc1 pc1 (fupd pr1 i front) (fupd pr1 i front)); auto; [intros j Hj; apply Ext; lia|].
            apply (front_cell pc pc1 _ 0 i front l v); auto; [lia|]. unfold fupd. now rewrite Nat.eqb_refl.
          - apply (cell_ok_ext pc pc1 pc pc1 pr1 (fupd pr1 i front)); auto.
            + intros j Hj. apply Ext. lia.
            + apply Ext. lia.
            + unfold fupd. destruct (Nat.eqb_spec x i); [lia|reflexivity].
            + apply Hc. lia. }
        match goal with |- context [@queue_update NumF p pen geno ?P (front :: l) i] => change P with pc1 end.
        destruct (Nat.eq_dec i n) as [Ein|Ein].
        + unfold queue_update.
          assert (Elt : (i <? n)%nat = false) by (apply Nat.ltb_ge; lia). rewrite Elt. cbn [rbind].
          apply IH; [lia|lia|rewrite <- Ext by lia; auto|exact Hc'|lia].
        + destruct (queue_update_QI pc1 0 i (front :: l)) as (l' & El & Hl'); [lia| |lia|lia|exact Hq1|].
          * apply (Hc' i). lia.
          * rewrite El. cbn [rbind]. apply IH; [lia|lia|rewrite <- Ext by lia; auto|exact Hc'|].
            intros _. replace (S i - 1)%nat with i by lia. exact Hl'. }
    destruct (G n 1%nat (@reset_row0 NumF) pr0 [0%nat]) as (pc & pr' & l & E & H1 & H2).
    - lia.
    - lia.
    - reflexivity.
    - intros x Hx. lia.
    - intros _. apply QI_init. now apply okc_zero.
    - rewrite E. simpl. eauto.
  Qed.

  Lemma TC_cons r rs : TC (r :: rs) = RC r + TC rs.
  Proof. reflexivity. Qed.
  Lemma TC_app r1 r2 : TC (r1 ++ r2) = TC r1 + TC r2.
  Proof. unfold true_cost. induction r1 as [|r r1 IH]; cbn [map app rsum]; [ring|]. rewrite IH. ring. Qed.
  Lemma TC_nil : TC [] = 0. Proof. reflexivity. Qed.

  Lemma last_seg init s x : (x <= n)%nat -> s <> [] -> concat (init ++ [s]) = firstn x geno ->
    exists j, (j < x)%nat /\ concat init = firstn j geno /\ s = seg j x.
  Proof.
    intros Hx Hs E. rewrite concat_app in E. cbn [concat] in E. rewrite app_nil_r in E. pose proof geno_length.
    assert (Hl : (length (concat init) + length s = x)%nat).
    { rewrite <- app_length, E, firstn_length. lia. }
    assert (0 < length s)%nat by (destruct s; [congruence|simpl; lia]).
    exists (length (concat init)). split; [lia|].
    assert (E1 : concat init = firstn (length (concat init)) (firstn x geno)).
    { rewrite <- E. rewrite firstn_app, Nat.sub_diag, firstn_O, app_nil_r. symmetry. apply firstn_all. }
    rewrite firstn_firstn, Nat.min_l in E1 by lia. split; auto.
    unfold SplitOpt.seg. rewrite <- (firstn_skipn (length (concat init)) (firstn x geno)) in E.
    rewrite firstn_firstn, Nat.min_l, <- E1 in E by lia. apply app_inv_head in E.
    rewrite E, firstn_skipn_comm. f_equal. f_equal. lia.
  Qed.

  Notation per_route := (INR n * tau + du).
  Lemma per_route_pos : 0 < per_route.
  Proof. pose proof du_pos. pose proof (pos_INR n). unfold tau. nra. Qed.

  Section Unlimited.
    Variables (pc : nat -> dbl) (pr' : nat -> nat).
    Hypothesis Hpc0 : pc 0%nat = @f0 NumF.
    Hypothesis Hcells : forall x, (1 <= x <= n)%nat -> cell_ok pc pc pr' 0 x.

    Lemma unlimited_lower segs : forall x, (x <= n)%nat -> Forall (fun s => s <> []) segs ->
      concat segs = firstn x geno -> B2R (pc x) <= TC segs + INR (length segs) * per_route.
    Proof.
      induction segs as [|s init IH] using rev_ind; intros x Hx Hne E.
      - assert (x = 0)%nat.
        { simpl in E. assert (L : length (firstn x geno) = 0%nat) by now rewrite <- E.
          rewrite firstn_length in L. pose proof geno_length. lia. }
        subst x. rewrite Hpc0. change (B2R (@f0 NumF)) with 0. cbn [length INR]. rewrite TC_nil. lra.
      - apply Forall_app in Hne as [Hne Hs]. apply Forall_inv in Hs.
        destruct (last_seg init s x Hx Hs E) as (j & Hj & Ej & Es). subst s.
        specialize (IH j ltac:(lia) Hne Ej).
        destruct (Hcells x ltac:(lia)) as (_ & _ & _ & Hb). specialize (Hb j ltac:(lia)).
        rewrite fq_cost in Hb by lia. rewrite TC_app, TC_cons, TC_nil, app_length, plus_INR. cbn [length INR]. lra.
    Qed.

    Lemma traceback_cost : forall e fuel rs, (e <= n)%nat ->
      traceback geno fuel pr' e = Ok rs -> TC rs <= B2R (pc e) + INR (length rs) * du.
    Proof.
      induction e as [e IH] using (well_founded_induction lt_wf). intros fuel rs He H.
      destruct e as [|e].
      - destruct fuel; injection H as <-; rewrite Hpc0, TC_nil; change (B2R (@f0 NumF)) with 0; cbn [length INR]; lra.
      - destruct fuel as [|fuel]; [discriminate|]. cbn [traceback] in H. unfold rbind in H.
        destruct (traceback geno fuel pr' (pr' (S e))) as [rest|] eqn:E; [|discriminate].
        injection H as <-. destruct (Hcells (S e) ltac:(lia)) as (H1 & _ & [_ H2] & _).
        rewrite fq_cost in H2 by lia. apply Rabs_le_inv in H2.
        pose proof (IH (pr' (S e)) ltac:(lia) fuel rest ltac:(lia) E) as IHe.
        rewrite TC_cons. cbn [length]. rewrite S_INR. unfold SplitOpt.seg in H2.
        change (match pr' (S e) with 0%nat => S e | S l => (e - l)%nat end) with (S e - pr' (S e))%nat. lra.
    Qed.
  End Unlimited.

  (** All the errors of a run together. *)
  Lemma total_error (segs rs : list (list nat)) : (1 <= length segs)%nat -> (length rs <= n)%nat ->
    INR (length segs) * per_route + INR (length rs) * du <= INR (length segs * n) * (2 / 1000000).
  Proof.
    intros H1 H2. pose proof du_pos as [D1 D2]. rewrite mult_INR.
    assert (1 <= INR (length segs)) by (apply (le_INR 1); lia). assert (INR (length rs) <= INR n) by (now apply le_INR).
    assert (1 <= INR n) by (apply (le_INR 1); lia). set (s := INR (length segs)) in *. set (m := INR n) in *.
    assert (INR (length rs) * du <= m * du) by (apply Rmult_le_compat_r; lra).
    assert (1 * m <= s * m) by (apply Rmult_le_compat_r; lra). assert (s * 1 <= s * m) by (apply Rmult_le_compat_l; lra).
    assert (m * du <= s * m * du) by (apply Rmult_le_compat_r; lra). assert (s * du <= s * m * du) by (apply Rmult_le_compat_r; lra).
    assert (s * m * du <= s * m * (1 / 5000000)) by (apply Rmult_le_compat_l; lra). unfold tau. lra.
  Qed.

  Lemma segs_nonempty segs : concat segs = geno -> (1 <= length segs)%nat.
  Proof.
    intros E. destruct segs; [|cbn; lia]. exfalso. pose proof geno_length as L. rewrite <- E in L. cbn in L. lia.
  Qed.

  Lemma linear_optimal pr0 :
    exists pc pr' rs, @linear_split NumF p pen geno pr0 = Ok (pc, pr') /\
      traceback geno (p_dim p) pr' n = Ok rs /\ concat (rev rs) = geno /\
      Forall (fun r => r <> []) rs /\ (length rs <= n)%nat /\
      forall segs, concat segs = geno -> Forall (fun s => s <> []) segs ->
        TC rs <= TC segs + INR (length segs * n) * (2 / 1000000).
  Proof.
    destruct (linear_cells pr0) as (pc & pr' & E & H0 & Hc). pose proof geno_length as L.
    destruct (traceback_ok geno pr' n (p_dim p)) as (rs & Er & Hcc & Hne & Hl).
    - intros x Hx. apply (Hc x). lia.
    - lia.
    - lia.
    - exists pc, pr', rs. repeat split; auto.
      + rewrite Hcc, <- L. apply firstn_all.
      + intros segs Es Hns. pose proof (traceback_cost pc pr' H0 Hc n (p_dim p) rs ltac:(lia) Er).
        assert (B2R (pc n) <= TC segs + INR (length segs) * per_route).
        { apply (unlimited_lower pc pr' H0 Hc segs n); auto. rewrite Es, <- L. symmetry. apply firstn_all. }
        pose proof (total_error segs rs (segs_nonempty segs Es) Hl). lra.
  Qed.

  (** *** Layers of the limited fleet split *)
  Definition layer_ok (k : nat) (P P' : nat -> dbl) (pr' : nat -> nat) : Prop :=
    forall x, (k + 1 <= x <= n)%nat -> cell_ok P P' pr' k x.

  Lemma layer_steps (k : nat) (P : nat -> @F NumF) :
    (forall j, (k <= j <= n)%nat -> okc P j) ->
    forall m i (pc' : nat -> @F NumF) pr' l,
      (i + m = n + 1)%nat -> (k + 1 <= i)%nat ->
      (forall x, (k + 1 <= x < i)%nat -> cell_ok P pc' pr' k x) ->
      ((i <= n)%nat -> QI P k (i - 1) l) ->
      exists pc2 pr2 l2, foldm (@layer_step NumF p pen geno k P) (seq i m) (pc', pr', l) = Ok (pc2, pr2, l2) /\
        layer_ok k P pc2 pr2.
  Proof.
    intros HLP. induction m as [|m IH]; intros i pc' pr' l Him Hi Hc Hq.
    - exists pc', pr', l. simpl. split; auto. intros x Hx. apply Hc. lia.
    - cbn [seq foldm layer_step]. specialize (Hq ltac:(lia)).
      destruct l as [|front l]; [destruct Hq; congruence|].
      set (v := @propagate NumF p pen geno P front i).
      assert (Hc' : forall x, (k + 1 <= x < S i)%nat -> cell_ok P (fupd pc' i v) (fupd pr' i front) k x).
      { intros x Hx. destruct (Nat.eq_dec x i) as [->|Hxi].
        - apply (front_cell P _ _ k i front l v); auto; [lia| |]; unfold fupd; now rewrite Nat.eqb_refl.
        - apply (cell_ok_ext P P pc' (fupd pc' i v) pr' (fupd pr' i front)); auto.
          + unfold fupd. destruct (Nat.eqb_spec x i); [lia|reflexivity].
          + unfold fupd. destruct (Nat.eqb_spec x i); [lia|reflexivity].
          + apply Hc. lia. }
      destruct (Nat.eq_dec i n) as [Ein|Ein].
      + unfold queue_update.
        assert (Elt : (i <? n)%nat = false) by (apply Nat.ltb_ge; lia). rewrite Elt. cbn [rbind].
        apply IH; [lia|lia|exact Hc'|lia].
      + destruct (queue_update_QI P k i (front :: l)) as (l' & El & Hl'); [lia|apply HLP; lia|lia|lia|exact Hq|].
        rewrite El. cbn [rbind]. apply IH; [lia|lia|exact Hc'|].
        intros _. replace (S i - 1)%nat with i by lia. exact Hl'.
  Qed.

  Lemma layer_unchanged (k : nat) (P : nat -> @F NumF) : forall l s s',
    foldm (@layer_step NumF p pen geno k P) l s = Ok s' ->
    forall x, ~ In x l -> fst (fst s') x = fst (fst s) x /\ snd (fst s') x = snd (fst s) x.
  Proof.
    induction l as [|i l IH]; intros s s' H x Hx; simpl in H.
    - injection H as <-. auto.
    - destruct (layer_step p pen geno k P s i) as [s1|] eqn:E; [|discriminate].
      destruct (IH s1 s' H x) as [H1 H2]; [intros Hin; apply Hx; now right|].
      rewrite H1, H2. destruct s as [[pc pr0] l0]. simpl in E.
      destruct l0; [injection E as <-; auto|]. unfold rbind in E.
      destruct (queue_update _ _ _ _ _ _); [|discriminate]. injection E as <-. simpl.
      unfold fupd. destruct (Nat.eqb_spec x i); [subst; exfalso; apply Hx; now left|auto].
  Qed.

  Lemma layer_general (st : @split_state NumF) (k : nat) :
    (forall j, (k <= j <= n)%nat -> okc (sp_pc st k) j) -> (k <= n)%nat ->
    exists st', @limited_layer NumF p pen geno st k = Ok st' /\
      layer_ok k (sp_pc st k) (sp_pc st' (k + 1)) (sp_pred st' (k + 1)) /\
      (forall x, (x <= k)%nat -> sp_pc st' (k + 1) x = sp_pc st (k + 1) x) /\
      (forall r, r <> (k + 1)%nat -> sp_pc st' r = sp_pc st r /\ sp_pred st' r = sp_pred st r).
  Proof.
    intros HLP Hk. unfold limited_layer.
    destruct (layer_steps k (sp_pc st k) HLP (p_dim p - (k + 1)) (k + 1)
                (sp_pc st (k + 1)) (sp_pred st (k + 1)) [k]) as (pc2 & pr2 & q2 & E & H); try lia.
    - intros _. replace (k + 1 - 1)%nat with k by lia. apply QI_init. apply HLP. lia.
    - rewrite E. cbn [rbind]. eexists. split; [reflexivity|]. cbn [sp_pc sp_pred].
      rewrite Nat.eqb_refl. split; auto. split.
      + intros x Hx. apply (layer_unchanged _ _ _ _ _ E x). rewrite in_seq. lia.
      + intros r Hr. apply Nat.eqb_neq in Hr. rewrite Hr. auto.
  Qed.

  (** First layer: cells from 1 on cost 1e30 and are dominated by cell 0. *)
  Hypothesis Hbig : @SplitPart.big_enough NumF p pen geno.
  Definition layer0_ok (P' : nat -> dbl) (pr' : nat -> nat) : Prop :=
    forall x, (1 <= x <= n)%nat -> pr' x = 0%nat /\ okc P' x /\ near_to (P' x) (RC (seg 0 x)) du.

  Lemma layer_first (st : @split_state NumF) : (forall c, sp_pc st 0 c = @reset_row0 NumF c) ->
    exists st', @limited_layer NumF p pen geno st 0 = Ok st' /\
      layer0_ok (sp_pc st' 1) (sp_pred st' 1) /\
      (forall x, (x <= 0)%nat -> sp_pc st' 1 x = sp_pc st 1 x) /\
      (forall r, r <> 1%nat -> sp_pc st' r = sp_pc st r /\ sp_pred st' r = sp_pred st r).
  Proof.
    intros Hrow. unfold limited_layer. set (P := sp_pc st 0) in *.
    assert (O : okc P 0) by (apply okc_zero; apply Hrow).
    assert (G : forall m i (pc' : nat -> @F NumF) pr', (i + m = n + 1)%nat -> (1 <= i)%nat ->
      (forall x, (1 <= x < i)%nat -> pr' x = 0%nat /\ okc pc' x /\ near_to (pc' x) (RC (seg 0 x)) du) ->
      exists pc2 pr2 q2, foldm (@layer_step NumF p pen geno 0 P) (seq i m) (pc', pr', [0%nat]) = Ok (pc2, pr2, q2)
        /\ layer0_ok pc2 pr2).
    { induction m as [|m IH]; intros i pc' pr' Him Hi Hc.
      - exists pc', pr', [0%nat]. split; auto. intros x Hx. apply Hc. lia.
      - cbn [seq foldm layer_step].
        assert (Eq : @queue_update NumF p pen geno P [0%nat] i = Ok [0%nat]).
        { unfold queue_update. destruct (i <? n)%nat eqn:El; auto. apply Nat.ltb_lt in El.
          cbn [rev app].
          assert (Ed : @dominates NumF p pen geno P 0 i = true).
          { rewrite <- (Hbig i) by lia. unfold dominates. now rewrite !Hrow. }
          rewrite Ed. reflexivity. }
        rewrite Eq. cbn [rbind]. apply IH; [lia|lia|].
        intros x Hx. destruct (Nat.eq_dec x i) as [->|].
        + set (v := @propagate NumF p pen geno P 0 i).
          assert (Ev : fupd pc' i v i = v) by (unfold fupd; now rewrite Nat.eqb_refl).
          pose proof (propagate_near P 0 i ltac:(lia) O) as NN. fold v in NN.
          split; [unfold fupd; now rewrite Nat.eqb_refl|]. split.
          * apply (okc_next P _ 0 i); [lia|exact O|]. rewrite Ev. exact NN.
          * rewrite Ev. rewrite fq_cost in NN by lia. rewrite Hrow in NN. change (B2R (@reset_row0 NumF 0)) with 0 in NN.
            now rewrite Rplus_0_l in NN.
        + destruct (Hc x ltac:(lia)) as (C1 & C2 & C3).
          assert (Ex : pc' x = fupd pc' i (@propagate NumF p pen geno P 0 i) x) by (unfold fupd; destruct (Nat.eqb_spec x i); [lia|reflexivity]).
          split; [unfold fupd; destruct (Nat.eqb_spec x i); [lia|exact C1]|]. split.
          * apply (okc_ext pc'); auto.
          * rewrite <- Ex. exact C3. }
    destruct (G (p_dim p - (0 + 1))%nat (0 + 1)%nat (sp_pc st 1) (sp_pred st 1)) as (pc2 & pr2 & q2 & E & H); [lia|lia|intros x Hx; lia|].
    cbn [Nat.add] in *. rewrite E. cbn [rbind]. eexists. split; [reflexivity|]. cbn [sp_pc sp_pred Nat.eqb].
    split; auto. split.
    - intros x Hx. apply (layer_unchanged _ _ _ _ _ E x). rewrite in_seq. lia.
    - intros r Hr. apply Nat.eqb_neq in Hr. rewrite Hr. auto.
  Qed.

  (** Row relations of the final tables. *)
  Definition rows_ok (st : @split_state NumF) (m : nat) : Prop :=
    (forall c, sp_pc st 0 c = @reset_row0 NumF c) /\
    (1 <= m -> layer0_ok (sp_pc st 1%nat) (sp_pred st 1%nat))%nat /\
    (forall k, (1 <= k < m)%nat -> layer_ok k (sp_pc st k) (sp_pc st (k + 1)%nat) (sp_pred st (k + 1)%nat)) /\
    (forall k x, (k > m \/ (x < k))%nat -> (1 <= x)%nat -> sp_pc st k x = @fbig NumF).

  Lemma row_ok st m : rows_ok st m -> forall k x, (1 <= k <= m)%nat -> (k <= x <= n)%nat -> okc (sp_pc st k) x.
  Proof.
    intros (H0 & H1 & Hk & _) k x Hkm Hx. destruct k as [|k]; [lia|]. destruct k as [|k].
    - apply (H1 ltac:(lia) x). lia.
    - destruct (Hk (S k) ltac:(lia) x ltac:(lia)) as (_ & O & _). replace (S k + 1)%nat with (S (S k)) in O by lia. exact O.
  Qed.

  Lemma limited_rows (st0 : @split_state NumF) : forall m,
    exists st, foldm (@limited_layer NumF p pen geno) (seq 0 m)
                 (mkSplit (@reset_all NumF (sp_pc st0)) (sp_pred st0)) = Ok st /\ rows_ok st m.
  Proof.
    induction m as [|m IH].
    - eexists. split; [reflexivity|]. unfold rows_ok. cbn [sp_pc]. split; [intros [|c]; reflexivity|].
      split; [lia|]. split; [lia|].
      intros k x _ Hx. destruct x; [lia|]. reflexivity.
    - destruct IH as (st & E & HR). pose proof HR as (H0 & H1 & Hk & Hu).
      replace (S m) with (m + 1)%nat by lia. rewrite seq_app, foldm_app, E. cbn [Nat.add seq foldm rbind].
      destruct (Nat.eq_dec m 0) as [->|Hm0].
      + destruct (layer_first st H0) as (st' & E' & Hl & Hcol & Hoth).
        rewrite E'. exists st'. split; auto.
        destruct (Hoth 0%nat ltac:(lia)) as [R0 _]. split; [rewrite R0; auto|]. split.
        { intros _. exact Hl. }
        split; [lia|].
        intros k x Hkx Hx. destruct (Nat.eq_dec k 1) as [->|Hk1].
        * lia.
        * destruct (Hoth k Hk1) as [Rk _]. rewrite Rk. apply Hu; lia.
      + destruct (le_lt_dec m n) as [Hmn|Hmn].
        * destruct (layer_general st m) as (st' & E' & Hl & Hcol & Hoth); auto.
          { intros j Hj. apply (row_ok st m HR); lia. }
          rewrite E'. exists st'. split; auto.
          assert (Rle : forall k, (k <= m)%nat -> sp_pc st' k = sp_pc st k /\ sp_pred st' k = sp_pred st k).
          { intros k Hk'. apply Hoth. lia. }
          unfold rows_ok. destruct (Rle 0%nat ltac:(lia)) as [R0 _]. destruct (Rle 1%nat ltac:(lia)) as [R1 R1'].
          rewrite R0, R1, R1'. split; auto. split; [intros; apply H1; lia|]. split.
          -- intros k Hk'. destruct (Nat.eq_dec k m) as [->|Hneq].
             ++ destruct (Rle m ltac:(lia)) as [Rm _]. rewrite Rm. exact Hl.
             ++ destruct (Rle k ltac:(lia)) as [Rk _]. destruct (Rle (k + 1)%nat ltac:(lia)) as [Rk1 Rk1'].
                rewrite Rk, Rk1, Rk1'. apply Hk. lia.
          -- intros k x Hkx Hx. destruct (Nat.eq_dec k (m + 1)) as [->|Hk1].
             ++ rewrite Hcol by lia. apply Hu; lia.
             ++ destruct (Hoth k Hk1) as [Rk _]. rewrite Rk. apply Hu; lia.
        * (* beyond the number of customers nothing is written *)
          assert (Eseq : (p_dim p - (m + 1) = 0)%nat) by lia.
          unfold limited_layer. rewrite Eseq. cbn [seq foldm rbind]. eexists. split; [reflexivity|].
          assert (Hpc : forall r, (if r =? m + 1 then sp_pc st (m + 1)%nat else sp_pc st r)%nat = sp_pc st r).
          { intros r. destruct (Nat.eqb_spec r (m + 1)); subst; auto. }
          assert (Hpr : forall r, (if r =? m + 1 then sp_pred st (m + 1)%nat else sp_pred st r)%nat = sp_pred st r).
          { intros r. destruct (Nat.eqb_spec r (m + 1)); subst; auto. }
          unfold rows_ok. cbn [sp_pc sp_pred]. rewrite !Hpc, !Hpr. split; auto. split; [intros; apply H1; lia|].
          split.
          -- intros k Hk'. rewrite !Hpc, !Hpr. destruct (Nat.eq_dec k m) as [->|Hneq].
             ++ intros x Hx. lia.
             ++ apply Hk. lia.
          -- intros k x Hkx Hx. rewrite !Hpc. apply Hu; lia.
  Qed.

  Lemma limited_lower st m : rows_ok st m -> forall segs x,
    (1 <= length segs <= m)%nat -> (x <= n)%nat -> Forall (fun s => s <> []) segs ->
    concat segs = firstn x geno ->
    (length segs <= x)%nat /\ B2R (sp_pc st (length segs) x) <= TC segs + INR (length segs) * per_route.
  Proof.
    intros (H0 & H1 & Hk & _). pose proof du_pos. pose proof geno_length as GL.
    induction segs as [|s init IH] using rev_ind; intros x Hm Hx Hne E.
    - simpl in Hm. lia.
    - rewrite app_length in *. cbn [length] in *.
      apply Forall_app in Hne as [Hne Hs]. apply Forall_inv in Hs.
      destruct (last_seg init s x Hx Hs E) as (j & Hj & Ej & Es). subst s.
      rewrite TC_app, TC_cons, TC_nil.
      destruct init as [|s0 init0].
      + assert (j = 0)%nat.
        { simpl in Ej. assert (L : length (firstn j geno) = 0%nat) by now rewrite <- Ej.
          rewrite firstn_length in L. lia. }
        subst j. cbn [length Nat.add]. split; [lia|].
        destruct (H1 ltac:(lia) x ltac:(lia)) as (_ & _ & [_ Ex]). apply Rabs_le_inv in Ex.
        rewrite TC_nil. cbn [INR]. pose proof (T_pos n). lra.
      + set (init := s0 :: init0) in *. assert (Hli : (1 <= length init)%nat) by (simpl; lia).
        destruct (IH j ltac:(lia) ltac:(lia) Hne Ej) as [Hlj IH']. clear IH.
        split; [lia|].
        destruct (Hk (length init) ltac:(lia) x ltac:(lia)) as (_ & _ & _ & Hb).
        specialize (Hb j ltac:(lia)). rewrite fq_cost in Hb by lia.
        rewrite plus_INR. cbn [INR]. lra.
  Qed.

  Lemma limited_trace st m : rows_ok st m -> forall k x acc,
    (1 <= k <= m)%nat -> (k <= x <= n)%nat ->
    exists rs, traceback_limited geno st k x acc = (rs ++ acc, 0%nat) /\
      concat rs = firstn x geno /\ length rs = k /\ Forall (fun r => r <> []) rs /\
      TC rs <= B2R (sp_pc st k x) + INR k * du.
  Proof.
    intros (H0 & H1 & Hk & _). pose proof geno_length as GL. induction k as [|k IH]; intros x acc Hkm Hx; [lia|].
    cbn [traceback_limited]. destruct k as [|k].
    - destruct (H1 ltac:(lia) x ltac:(lia)) as (Ep & _ & [_ Ex]). rewrite Ep. cbn [traceback_limited]. apply Rabs_le_inv in Ex.
      exists [firstn (x - 0) (skipn 0 geno)]. split; [reflexivity|]. split; [|split; [reflexivity|split]].
      + rewrite Nat.sub_0_r. cbn [skipn concat]. now rewrite app_nil_r.
      + constructor; auto. rewrite Nat.sub_0_r. cbn [skipn]. intros E. assert (L : length (firstn x geno) = 0%nat) by now rewrite E.
        rewrite firstn_length in L. lia.
      + rewrite TC_cons, TC_nil. fold (SplitOpt.seg geno 0 x). cbn [INR]. lra.
    - destruct (Hk (S k) ltac:(lia) x ltac:(lia)) as (Hp & _ & [_ Ex] & _).
      replace (S k + 1)%nat with (S (S k)) in * by lia.
      set (b := sp_pred st (S (S k)) x) in *. rewrite fq_cost in Ex by lia. apply Rabs_le_inv in Ex.
      destruct (IH b (firstn (x - b) (skipn b geno) :: acc)) as (rs & Er & Hc & Hl & Hne & Ht); try lia.
      exists (rs ++ [firstn (x - b) (skipn b geno)]).
      rewrite Er, <- app_assoc. split; [reflexivity|]. split.
      { rewrite concat_app, Hc. cbn [concat]. rewrite app_nil_r. apply firstn_split_at. lia. }
      split; [rewrite app_length; simpl; lia|]. split.
      { apply Forall_app. split; auto. constructor; auto. intros E.
        assert (L : length (firstn (x - b) (skipn b geno)) = 0%nat) by now rewrite E.
        rewrite firstn_length, skipn_length in L. lia. }
      rewrite TC_app, TC_cons, TC_nil, S_INR. fold (SplitOpt.seg geno b x). lra.
  Qed.

  Lemma cheapest_spec (st : @split_state NumF) m : (1 <= m)%nat ->
    (forall k, (1 <= k <= m)%nat -> is_finite (sp_pc st k n) = true) ->
    let v := @cheapest_row NumF p st m in
    (1 <= v <= m)%nat /\ forall k, (1 <= k <= m)%nat -> B2R (sp_pc st v n) <= B2R (sp_pc st k n).
  Proof.
    intros Hm HF. unfold cheapest_row.
    assert (G : forall l (best : @F NumF) num, (1 <= num <= m)%nat -> (forall v, In v l -> 1 <= v <= m)%nat ->
      best = sp_pc st num n ->
      let r := fold_left (fun '(best, num) v =>
                if sp_pc st v n <:? best then (sp_pc st v n, v) else (best, num)) l (best, num) in
      (1 <= snd r <= m)%nat /\ fst r = sp_pc st (snd r) n /\ B2R (fst r) <= B2R best /\
      forall v, In v l -> B2R (fst r) <= B2R (sp_pc st v n)).
    { induction l as [|v l IH]; intros best num Hnum Hl Hb; cbn [fold_left].
      - simpl. repeat split; try lia; auto; try lra.
      - assert (Hv : (1 <= v <= m)%nat) by (apply Hl; now left).
        assert (Fb : is_finite (best : dbl) = true) by (rewrite Hb; apply HF; lia). pose proof (HF v Hv) as Fv.
        destruct (sp_pc st v n <:? best) eqn:El.
        + change (dlt (sp_pc st v n) best = true) in El. apply lt_real in El; auto.
          destruct (IH (sp_pc st v n) v) as (A & B & C & E); auto.
          { intros; apply Hl; now right. }
          split; auto. split; auto. split; [change (@F NumF) with dbl in *; lra|].
          intros w [<-|Hw]; auto.
        + change (dlt (sp_pc st v n) best = false) in El. apply not_lt_real in El; auto.
          destruct (IH best num) as (A & B & C & E); auto.
          { intros; apply Hl; now right. }
          split; auto. split; auto. split; auto.
          intros w [<-|Hw]; auto. change (@F NumF) with dbl in *; lra. }
    destruct (G (seq 1 (m - 1)) (sp_pc st m n) m) as (A & B & C & E); auto; try lia.
    { intros v Hv. apply in_seq in Hv. lia. }
    cbv zeta. split; auto. intros k Hk. rewrite <- B.
    destruct (Nat.eq_dec k m) as [->|Hneq]; auto. apply E. apply in_seq. lia.
  Qed.

  Lemma limited_optimal (st0 : @split_state NumF) m : (1 <= m)%nat ->
    exists st rs, foldm (@limited_layer NumF p pen geno) (seq 0 m)
                    (mkSplit (@reset_all NumF (sp_pc st0)) (sp_pred st0)) = Ok st /\
      traceback_limited geno st (@cheapest_row NumF p st m) n [] = (rs, 0%nat) /\
      concat rs = geno /\ Forall (fun r => r <> []) rs /\ (length rs <= m)%nat /\
      forall segs, concat segs = geno -> Forall (fun s => s <> []) segs -> (length segs <= m)%nat ->
        TC rs <= TC segs + INR (length segs * n) * (2 / 1000000).
  Proof.
    intros Hm. destruct (limited_rows st0 m) as (st & E & HR). pose proof geno_length as GL. destruct big_large as [BF BV].
    assert (Hun : forall k, (k > n)%nat -> (1 <= n)%nat -> sp_pc st k n = @fbig NumF) by (intros k Hk _; apply HR; lia).
    destruct (cheapest_spec st m Hm) as [Hv Hmin].
    { intros k Hk. destruct (le_lt_dec k n) as [L|L]; [apply (row_ok st m HR); lia|].
      rewrite Hun by lia. exact BF. }
    set (v := cheapest_row p st m) in *.
    assert (Hvn : (v <= n)%nat).
    { destruct (le_lt_dec v n) as [L|L]; auto. exfalso. specialize (Hmin 1%nat ltac:(lia)). rewrite Hun in Hmin by lia.
      destruct (okc_bounds _ n ltac:(lia) (row_ok st m HR 1%nat n ltac:(lia) ltac:(lia))) as [_ [_ Hb]].
      pose proof sizes_R as (S1 & _). change (B2R (@fbig NumF)) with (B2R (d_of_Z (10 ^ 30))) in Hmin.
      assert (bpow radix2 30 <= bpow radix2 99) by (apply bpow_le; lia). pose proof u25_value as (_ & U & _). lra. }
    destruct (limited_trace st m HR v n [] ltac:(lia) ltac:(lia)) as (rs & Et & Hc & Hl & Hne & Ht).
    rewrite app_nil_r in Et. rewrite <- GL, firstn_all in Hc.
    exists st, rs. split; auto. split; auto. split; auto. split; auto. split; [lia|].
    intros segs Es Hns Hlm. pose proof (segs_nonempty segs Es) as Hl1.
    destruct (limited_lower st m HR segs n) as [Hle Hlow]; auto; try lia.
    { rewrite Es, <- GL. symmetry. apply firstn_all. }
    specialize (Hmin (length segs) ltac:(lia)). pose proof (total_error segs rs Hl1 ltac:(lia)).
    rewrite Hl in H. lra.
  Qed.
End Queue.
