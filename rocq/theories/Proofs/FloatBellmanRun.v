(** A whole run of the Bellman split in double precision. *)
From Coq Require Import List Arith ZArith Bool Lia Reals Lra Permutation.
From Flocq Require Import Core BinarySingleNaN.
From Verif.Model Require Import Num NumFloat Prelude Evaluate Individual Config Split.
From Verif.Spec Require Import Solution Floats FloatProgram FloatSearch FloatSplit.
From Verif.Spec Require Split.
From Verif.Proofs Require Import Lists EvalFacts SplitStruct SplitPart FloatFacts FloatRun FloatMove FloatLs FloatSplitQueue FloatSplitRun FloatBellman.
From Verif.Proofs Require SplitThms.
Import ListNotations.
Import Spec.Split.
Local Open Scope R_scope.

Section Run.
  Variable p : @problem NumF.
  Variable c : @config NumF.
  Variables (d : nat -> nat -> Z) (q : nat -> Z) (cap : Z).
  Variable pen : dbl.
  Hypothesis II : integral_instance p c d q cap.
  Hypothesis SS : split_sizes p d q pen.
  Hypothesis FA : is_finite (c_split_capacity_factor c : dbl) = true /\ 0 <= B2R (c_split_capacity_factor c : dbl) <= bpow radix2 100.
  Hypothesis Hlin : c_linear_split c = false.
  Notation n := (p_dim p - 1)%nat.
  Notation TC := (true_cost d q cap (B2R pen)).
  Notation inside segs := (forall r, In r segs -> IZR (zload q r) <= IZR cap * B2R (c_split_capacity_factor c : dbl)).

  Lemma bellman_break : @flt NumF (@flit NumF (10 ^ 29) 1) (@fbig NumF) = true.
  Proof. vm_compute. reflexivity. Qed.

  Section Tour.
    Variable geno : list nat.
    Hypothesis Hperm : Permutation geno (seq 1 n).
    Let Hl : length geno = n.
    Proof. rewrite (Permutation_length Hperm). apply seq_length. Qed.
    Lemma inside_ne segs : inside segs -> inside (SplitThms.nonempties segs).
    Proof. intros H r Hr. apply filter_In in Hr. apply H, Hr. Qed.

    Lemma bellman_unlimited_run st mv : (forall e, (1 <= e)%nat -> (sp_pred st 0 e < e)%nat) ->
      exists st' rs, @split_unlimited NumF p c pen st geno mv = Ok (st', pad_routes (c_num_vehicles c) rs, length rs <=? mv) /\
        concat (rev rs) = geno /\
        forall segs, concat segs = geno -> inside segs -> TC rs <= TC segs + INR n * (4 / 10000000).
    Proof.
      intros Hwf. destruct (split_unlimited_ok p pen geno Hl c st mv Hwf) as (st' & rs & E & _ & Hc & Hne & Hln).
      exists st', rs. split; [exact E|]. split; [exact Hc|]. intros segs Es Hin.
      destruct (ss_size _ _ _ _ SS) as (top & T1 & T2 & T3). destruct (ss_pen _ _ _ _ SS) as [PF PV].
      unfold split_unlimited in E. rewrite Hlin in E.
      destruct (@bellman_split NumF p pen geno (c_split_capacity_factor c) (sp_pred st 0)) as [pc pr] eqn:Eb.
      cbn [rbind] in E. unfold rbind in E. destruct (traceback geno (p_dim p) pr n) as [rs0|] eqn:Et; [|discriminate].
      injection E as _ E El.
      assert (TE : TC rs = TC rs0) by (rewrite <- (TC_pad p c d q cap pen II (c_num_vehicles c) rs), <- (TC_pad p c d q cap pen II (c_num_vehicles c) rs0); now rewrite E).
      rewrite TE, <- (TC_nonempties p c d q cap pen II segs).
      refine (bellman_optimal p d q cap pen geno top (ii_data _ _ _ _ _ II) (ii_dim _ _ _ _ _ II) Hperm (ss_demand _ _ _ _ SS) PF PV T1 T2
                  (ii_load _ _ _ _ _ II) T3 (ss_sym _ _ _ _ SS) (c_split_capacity_factor c) FA (sp_pred st 0%nat) rs0 _ _
                  (SplitThms.nonempties segs) _ (SplitThms.nonempties_ne segs) (inside_ne segs Hin)).
      - destruct (traceback_ok geno pr n (p_dim p)) as (rs1 & E1 & _ & _ & L1); [|lia|lia|].
        + intros x Hx. pose proof (bellman_split_pred p pen geno (c_split_capacity_factor c) _ Hwf x ltac:(lia)) as X. rewrite Eb in X. exact X.
        + rewrite Et in E1. injection E1 as ->. exact L1.
      - rewrite Eb. exact Et.
      - now rewrite SplitThms.nonempties_concat.
    Qed.

    Lemma bellman_limited_run st mv : sp_bwf st -> (1 <= mv)%nat -> (mv <= c_num_vehicles c)%nat ->
      exists st' rs, @split_limited NumF p c pen st geno mv = Ok (st', pad_routes (c_num_vehicles c) rs, true) /\
        concat rs = geno /\
        forall segs, concat segs = geno -> (length segs <= mv)%nat -> inside segs -> TC rs <= TC segs + INR n * (4 / 10000000).
    Proof.
      intros Hwf H1 Hv. destruct (split_limited_bellman_ok p pen geno Hl bellman_break c st mv Hlin Hwf H1 Hv) as (st' & rs & E & _ & Hc & _).
      exists st', rs. split; [exact E|]. split; [exact Hc|]. intros segs Es Hls Hin.
      destruct (ss_size _ _ _ _ SS) as (top & T1 & T2 & T3). destruct (ss_pen _ _ _ _ SS) as [PF PV].
      unfold split_limited in E. destruct (Nat.ltb_spec (c_num_vehicles c) mv); [lia|]. rewrite Hlin in E. cbn [rbind] in E.
      destruct (traceback_limited _ _ _ _ _) as [rs0 e0] eqn:Et. injection E as _ E Ee. apply Nat.eqb_eq in Ee. subst e0.
      assert (TE : TC rs = TC rs0) by (rewrite <- (TC_pad p c d q cap pen II (c_num_vehicles c) rs), <- (TC_pad p c d q cap pen II (c_num_vehicles c) rs0); now rewrite E).
      rewrite TE, <- (TC_nonempties p c d q cap pen II segs). pose proof (SplitThms.nonempties_length segs).
      refine (bellman_limited_optimal p d q cap pen geno top (ii_data _ _ _ _ _ II) (ii_dim _ _ _ _ _ II) Hperm (ss_demand _ _ _ _ SS) PF PV T1 T2
                  (ii_load _ _ _ _ _ II) T3 (ss_sym _ _ _ _ SS) (c_split_capacity_factor c) FA st mv rs0 H1 Et
                  (SplitThms.nonempties segs) _ (SplitThms.nonempties_ne segs) _ (inside_ne segs Hin)).
      - now rewrite SplitThms.nonempties_concat.
      - lia.
    Qed.
  End Tour.

  Lemma bellman_run_near st (ind : @individual NumF) mv st' ind' :
    sp_bwf st -> Permutation (i_geno ind) (seq 1 n) -> (1 <= mv)%nat ->
    (Nat.max mv (@vehicle_lower_bound NumF p) <= c_num_vehicles c)%nat ->
    @split_run NumF p c pen st ind mv = Ok (st', ind') ->
    forall segs, segmentation (i_geno ind) segs -> (length segs <= Nat.max mv (@vehicle_lower_bound NumF p))%nat -> inside segs ->
      TC (i_pheno ind') <= TC segs + INR n * (4 / 10000000).
  Proof.
    intros Hwf Hperm Hmv Hmax Er. set (M := Nat.max mv (vehicle_lower_bound p)) in *.
    assert (Hl : length (i_geno ind) = n) by (rewrite (Permutation_length Hperm); apply seq_length).
    assert (Hok : exists st1 ph,
       rbind (@split_unlimited NumF p c pen st (i_geno ind) M)
         (fun '(st, ph, ok) => if ok : bool then Ok (st, ph)
                    else rbind (@split_limited NumF p c pen st (i_geno ind) M) (fun '(st, ph, _) => Ok (st, ph)))
        = Ok (st1, ph) /\ Permutation (concat ph) (i_geno ind) /\
         forall segs, concat segs = i_geno ind -> (length segs <= M)%nat -> inside segs ->
           TC ph <= TC segs + INR n * (4 / 10000000)).
    { destruct (split_unlimited_bellman_ok p pen (i_geno ind) Hl c st M Hlin Hwf) as (st1 & rs1 & E1 & Hwf1 & _).
      destruct (bellman_unlimited_run (i_geno ind) Hperm st M ltac:(intros e He; now apply Hwf)) as (st1' & rs & E & Hc & Hopt).
      rewrite E in E1. injection E1 as -> _ _. rewrite E. cbn [rbind]. destruct (length rs <=? M)%nat.
      - eexists _, _. split; [reflexivity|]. split.
        + rewrite pad_routes_concat, <- Hc. apply concat_perm, Permutation_rev.
        + intros segs Es _ Hi. rewrite (TC_pad p c d q cap pen II). now apply Hopt.
      - destruct (bellman_limited_run (i_geno ind) Hperm st1 M Hwf1 ltac:(lia) Hmax) as (st2 & rs2 & E2 & Hc2 & Hopt2).
        rewrite E2. cbn [rbind]. eexists _, _. split; [reflexivity|]. split.
        + rewrite pad_routes_concat, Hc2. reflexivity.
        + intros segs Es Hls Hi. rewrite (TC_pad p c d q cap pen II). now apply Hopt2. }
    destruct Hok as (st1 & ph & E & Hp & Hopt).
    pose proof (split_run_pheno p c pen st ind mv st1 ph st' ind' Hl E Hp Er) as HP.
    intros segs Es Hls Hi. rewrite (true_cost_perm d q cap pen _ _ HP). now apply Hopt.
  Qed.
End Run.
