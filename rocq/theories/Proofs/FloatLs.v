(** The local search run in double precision: never worse, and it terminates, as long as the
    numbers are of moderate size. *)
From Coq Require Import List Arith ZArith Bool Lia Reals Lra Psatz Permutation.
From Flocq Require Import Core BinarySingleNaN Relative.
From Verif.Model Require Import Num NumFloat Prelude Evaluate Individual Config Sector Random Matrix LinkedList LocalSearch.
From Verif.Spec Require Import Solution LocalSearch Floats FloatProgram FloatSearch.
From Verif.Proofs Require Import Lists LinkFacts EvalFacts EvalThms SplitStruct FloatFacts FloatRun FloatMove FloatDelta FloatFine
  LsState LsMoves LsEffect LsStar LsSearch LsRun.
Import ListNotations.
Open Scope nat_scope.

Section RunF.
  Variable p : @problem NumF.
  Variable c : @config NumF.
  Variable d : nat -> nat -> Z.
  Variable q : nat -> Z.
  Variable cap : Z.
  Variable pen : dbl.
  Notation nv := (c_num_vehicles c).
  Notation dim := (p_dim p).
  Hypothesis II : integral_instance p c d q cap.
  Hypothesis MO : moderate p d q cap pen.
  Hypothesis DR : drawable p.
  Local Open Scope R_scope.
  Notation cost rs := (true_cost d q cap (B2R pen) rs).
  Notation total rs := (totalR c d q cap pen rs).

  Lemma total_true rs : total rs = cost (all_routes c rs).
  Proof. unfold totalR, true_cost. induction (all_routes c rs) as [|r l IH]; cbn; [reflexivity|]. rewrite IH. reflexivity. Qed.

  Lemma gstep_lowersF rs rs' : gstep p c pen rs rs' -> total rs' + sure_gain <= total rs.
  Proof.
    pose proof (mo_depot _ _ _ _ _ MO) as D0. pose proof (mo_sym _ _ _ _ _ MO) as SY.
    destruct (mo_pen _ _ _ _ _ MO) as [PF PN0]. pose proof (mo_load _ _ _ _ _ MO) as AL.
    destruct (mo_size _ _ _ _ _ MO) as (top & TOP & SZ).
    assert (SS : ((Z.of_nat dim + 8) * top <= 2 ^ 29)%Z).
    { apply le_IZR. assert (0 <= B2R pen * IZR (Z.max 0 (zload q (seq 1 (dim - 1)) - cap))) by (apply Rmult_le_pos; [exact PN0|apply IZR_le; lia]).
      change (2 ^ 29)%Z with 536870912%Z. lra. }
    destruct bounds29 as (_ & _ & _ & [_ E25] & _). unfold sure_gain.
    assert (GAIN : forall x, near_to x (total rs' - total rs) (16 * bpow radix2 (-25)) ->
      total rs' - total rs <= 16 * bpow radix2 (-25) - 99999999 / 100000000 / 1000000 -> total rs' + / 2000000 <= total rs).
    { intros x _ L. lra. }
    intros [s m u v r1 r2 l1 l2 dl H AP H1 H2 EF L ->|s r1 r2 b l1 l2 dl H H1 H2 NE ST L ->].
    - pose proof (effect_near p c d q cap pen II D0 SY top TOP SS AL PF PN0 SZ s rs H m u v r1 r2 l1 l2 dl EF) as E.
      exact (GAIN _ E (improving dl _ _ E L)).
    - destruct (star_links p c pen s (s_links s) rs r1 r2 b l1 l2 dl (h_serves _ _ _ _ _ H) (h_runs _ _ _ _ _ H) H1 H2 NE ST)
        as (_ & _ & _ & _ & SV & _).
      set (rs2 := nupd (nupd rs r1 l1) r2 l2) in *.
      assert (P : forall r, (r < nv)%nat -> proper p (rs2 r)).
      { intros r Hr. split; [apply (serves_nodup p c _ SV r Hr)|].
        intros n I. pose proof (serves_bound p c _ SV r n Hr I). lia. }
      assert (P1 : proper p l1) by (replace l1 with (rs2 r1) by (unfold rs2; rewrite nupd_other, nupd_same by auto; auto); auto).
      assert (P2 : proper p l2) by (replace l2 with (rs2 r2) by (unfold rs2; rewrite nupd_same by auto; auto); auto).
      pose proof (star_near p c d q cap pen II D0 top TOP SS AL PF PN0 SZ s rs H r1 r2 b l1 l2 dl H1 H2 NE P1 P2 ST) as E.
      exact (GAIN _ E (not_gte dl _ _ E L)).
  Qed.

  Lemma trace_lowersF n rs rs' : trace p c pen n rs rs' -> total rs' + INR n * sure_gain <= total rs.
  Proof.
    induction 1 as [rs|n rs rs1 rs2 T IH G]; [cbn; lra|].
    apply gstep_lowersF in G. rewrite S_INR. lra.
  Qed.

  Lemma true_cost_perm L L' : Permutation L L' -> cost L = cost L'.
  Proof.
    unfold true_cost. induction 1; cbn [map rsum]; lra.
  Qed.

  Lemma zwalk_nonneg l : (forall a, In a l -> (a < dim)%nat) -> (0 <= zwalk d l)%Z.
  Proof.
    induction l as [|a l IH]; intros HL; [cbn; lia|]. destruct l as [|b l]; [cbn; lia|].
    change (0 <= d a b + zwalk d (b :: l))%Z.
    destruct (ig_dist _ _ _ _ (ii_data _ _ _ _ _ II) a b) as [_ X]; [apply HL; now left|apply HL; right; now left|].
    assert (0 <= zwalk d (b :: l))%Z by (apply IH; intros x Hx; apply HL; now right). lia.
  Qed.
  Lemma true_nonneg L : serves_all_once dim L -> 0 <= cost L.
  Proof.
    intros SV. pose proof (ii_dim _ _ _ _ _ II) as D2.
    assert (HB : forall r, In r L -> forall a, In a (0%nat :: r ++ [0%nat]) -> (a < dim)%nat).
    { intros r Hr a [<-|Ha]; [lia|]. apply in_app_or in Ha as [Ha|[<-|[]]]; [|lia].
      assert (IC : In a (concat L)) by (apply in_concat; eauto). eapply Permutation_in in IC; [|exact SV]. apply in_seq in IC. lia. }
    clear SV. unfold true_cost. induction L as [|r L IH]; [cbn; lra|]. cbn [map rsum].
    assert (0 <= rsum (map (true_route_cost d q cap (B2R pen)) L)).
    { apply IH. intros r' Hr'. apply HB. now right. }
    assert (0 <= true_route_cost d q cap (B2R pen) r).
    { unfold true_route_cost. destruct (mo_pen _ _ _ _ _ MO) as [_ PN0].
      assert (0 <= IZR (ztour d r)) by (apply IZR_le, zwalk_nonneg, HB; now left).
      assert (0 <= B2R pen * IZR (Z.max 0 (zload q r - cap))) by (apply Rmult_le_pos; [exact PN0|apply IZR_le; lia]). lra. }
    lra.
  Qed.

  Lemma zero_not_lt_F : @approx_lt NumF f0 f0 = false.
  Proof. vm_compute. reflexivity. Qed.

  Lemma loaded_routes (i : @individual NumF) : length (i_pheno i) = nv -> all_routes c (fun r => nth r (i_pheno i) []) = i_pheno i.
  Proof. intros HL. apply map_nth_seq; auto. Qed.

  Theorem ls_never_worseF fuel epen (s : @lsearch NumF) i r s' i' r' :
    ls_ready p c s -> length (i_pheno i) = nv -> serves_all_once dim (i_pheno i) ->
    @ls_run NumF p c pen fuel epen s i r = Ok (s', i', r') ->
    exists n, s_count s' = Z.of_nat n /\ cost (i_pheno i') + INR n * sure_gain <= cost (i_pheno i).
  Proof.
    intros R HL SV E. pose proof (ii_dim _ _ _ _ _ II) as D2. pose proof (ii_gran _ _ _ _ _ II) as G1.
    destruct (ls_run_partial_ok p c pen zero_not_lt_F ltac:(lia) ltac:(lia) _ _ _ _ _ _ _ _ R HL SV E)
      as (_ & _ & rs & n & lc & T & K & (P & _) & _).
    exists n. split; auto. apply trace_lowersF in T. rewrite !total_true, (loaded_routes i HL) in T.
    rewrite (true_cost_perm _ _ P). exact T.
  Qed.

  Theorem ls_terminatesF fuel epen (s : @lsearch NumF) i r :
    ls_ready p c s -> length (i_pheno i) = nv -> serves_all_once dim (i_pheno i) ->
    cost (i_pheno i) < INR fuel * sure_gain ->
    exists s' i' r', @ls_run NumF p c pen fuel epen s i r = Ok (s', i', r') /\ outcome p c pen epen s i s' i'.
  Proof.
    intros R HL SV HF. pose proof (ii_dim _ _ _ _ _ II) as D2. pose proof (ii_gran _ _ _ _ _ II) as G1.
    destruct (ls_run_ok p c pen zero_not_lt_F ltac:(lia) ltac:(lia) fuel epen s i r R HL SV (anglesF p c d q cap II DR))
      as [X|(_ & rs & n & s' & T & L & H')]; auto.
    exfalso. apply trace_lowersF in T. rewrite !total_true, (loaded_routes i HL) in T.
    pose proof (true_nonneg (all_routes c rs) (h_serves _ _ _ _ _ H')).
    assert (INR fuel <= INR n) by (apply le_INR; lia).
    assert (0 < sure_gain) by (unfold sure_gain; lra).
    assert (INR fuel * sure_gain <= INR n * sure_gain) by (apply Rmult_le_compat_r; lra). lra.
  Qed.
End RunF.
