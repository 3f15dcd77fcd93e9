(** A whole run of the linear split in double precision. *)
From Coq Require Import List Arith ZArith Bool Lia Reals Lra Permutation.
From Flocq Require Import Core BinarySingleNaN.
From Verif.Model Require Import Num NumFloat Prelude Evaluate Individual Config Split.
From Verif.Spec Require Import Solution Floats FloatProgram FloatSearch FloatSplit.
From Verif.Spec Require Split.
From Verif.Proofs Require Import Lists EvalFacts SplitStruct SplitPart FloatFacts FloatRun FloatMove FloatLs FloatSplitQueue.
From Verif.Proofs Require SplitThms.
Import ListNotations.
Import Spec.Split.
Local Open Scope R_scope.

(** The routes of the finished individual are those the split chose, in another order. *)
Lemma split_run_pheno {N : Num} (p : problem) (c : config) (pen : F) st (ind : individual) mv st1 ph st' ind' :
  length (i_geno ind) = (p_dim p - 1)%nat ->
  rbind (split_unlimited p c pen st (i_geno ind) (Nat.max mv (vehicle_lower_bound p)))
       (fun '(st, ph, ok) => if ok : bool then Ok (st, ph)
                  else rbind (split_limited p c pen st (i_geno ind) (Nat.max mv (vehicle_lower_bound p)))
                         (fun '(st, ph, _) => Ok (st, ph)))
      = Ok (st1, ph) -> Permutation (concat ph) (i_geno ind) ->
  split_run p c pen st ind mv = Ok (st', ind') -> Permutation (i_pheno ind') ph.
Proof.
  intros Hl E Hp H. unfold split_run in H. set (M := Nat.max mv (vehicle_lower_bound p)) in *.
  rewrite Hl, Nat.ltb_irrefl in H. unfold rbind in *.
  destruct (split_unlimited p c pen st (i_geno ind) M) as [[[sta pha] ok]|]; [|discriminate].
  destruct (if ok then Ok (sta, pha) else _) as [[stb phb]|]; [|discriminate].
  injection E as -> ->.
  destruct (sort_routes p (set_pheno ind ph)) as [ind1|] eqn:Es; [|discriminate].
  apply sort_routes_spec in Es.
  2:{ cbn [i_geno i_pheno set_pheno]. symmetry. now apply Permutation_length. }
  destruct Es as (Hs1 & _). cbn [i_pheno set_pheno] in Hs1.
  unfold ind_evaluate, rbind in H. destruct (evaluate p pen (i_eval ind1) (i_pheno ind1)) as [ev|]; [|discriminate].
  injection H as _ <-. exact Hs1.
Qed.

Section Run.
  Variable p : @problem NumF.
  Variable c : @config NumF.
  Variables (d : nat -> nat -> Z) (q : nat -> Z) (cap : Z).
  Variable pen : dbl.
  Hypothesis II : integral_instance p c d q cap.
  Hypothesis SS : split_sizes p d q pen.
  Notation n := (p_dim p - 1)%nat.
  Notation TC := (true_cost d q cap (B2R pen)).

  Lemma TC_empty : true_route_cost d q cap (B2R pen) [] = 0.
  Proof.
    unfold true_route_cost. change (ztour d []) with (d 0%nat 0%nat + 0)%Z. rewrite (ii_depot _ _ _ _ _ II).
    destruct (ig_cap _ _ _ _ (ii_data _ _ _ _ _ II)) as [_ C]. change (zload q []) with 0%Z. rewrite Z.max_l by lia.
    change (IZR (0 + 0)) with 0. lra.
  Qed.
  Lemma TC_plus a b : TC (a ++ b) = TC a + TC b.
  Proof. unfold true_cost. induction a as [|r a IH]; cbn [map app rsum]; [ring|]. rewrite IH. ring. Qed.
  Lemma TC_pad k rs : TC (pad_routes k rs) = TC rs.
  Proof.
    unfold pad_routes. rewrite TC_plus. assert (E : forall m, TC (repeat [] m) = 0); [|rewrite E; ring].
    induction m as [|m IH]; [reflexivity|]. cbn [repeat]. unfold true_cost in *. cbn [map rsum]. rewrite IH, TC_empty. ring.
  Qed.
  Lemma TC_nonempties segs : TC (SplitThms.nonempties segs) = TC segs.
  Proof.
    unfold true_cost. induction segs as [|[|a s] segs IH]; cbn [SplitThms.nonempties filter map rsum]; [reflexivity| |].
    - unfold SplitThms.nonempties in IH. rewrite IH, TC_empty. ring.
    - unfold SplitThms.nonempties in IH. rewrite IH. reflexivity.
  Qed.

  Lemma pen_within : (0 < n)%nat -> within pen 44.
  Proof.
    intros Hn. destruct (ss_pen _ _ _ _ SS) as [F P]. split; auto. split; [lra|].
    destruct (ss_size _ _ _ _ SS) as (top & T1 & _ & T2).
    assert (L : (1 <= zload q (seq 1 n))%Z).
    { assert (G : forall l, l <> [] -> (forall a, In a l -> (1 <= q a)%Z) -> (1 <= zload q l)%Z).
      { induction l as [|a l IH]; [congruence|]. intros _ H. unfold zload in *. cbn [map zsum].
        pose proof (H a (or_introl eq_refl)). destruct l as [|b l]; [cbn [map zsum]; lia|].
        pose proof (IH ltac:(discriminate) ltac:(intros; apply H; now right)). lia. }
      apply G; [destruct n; [lia|discriminate]|]. intros a Ha. apply in_seq in Ha. apply (ss_demand _ _ _ _ SS). lia. }
    apply IZR_le in L. assert (0 <= IZR (2 * Z.of_nat (p_dim p) * top)) by (apply IZR_le; lia).
    assert (B2R pen * 1 <= B2R pen * IZR (zload q (seq 1 n))) by (apply Rmult_le_compat_l; lra).
    assert (bpow radix2 30 <= bpow radix2 44) by (apply bpow_le; lia). pose proof u25_value as (_ & U & _). lra.
  Qed.

  Section Tour.
    Variable geno : list nat.
    Hypothesis Hperm : Permutation geno (seq 1 n).
    Hypothesis Hlin : c_linear_split c = true.
    Notation err segs := (INR (length segs * n) * (2 / 1000000)).

    Lemma err_mono (a b : list (list nat)) : (length a <= length b)%nat -> err a <= err b.
    Proof. intros H. apply Rmult_le_compat_r; [lra|]. apply le_INR. nia. Qed.

    Lemma tour_big : @big_enough NumF p pen geno.
    Proof. apply (big_enough_F p c d q cap II pen geno); auto. apply pen_within. pose proof (ii_dim _ _ _ _ _ II). lia. Qed.

    Lemma unlimited_run st mv :
      exists st' routes ok, @split_unlimited NumF p c pen st geno mv = Ok (st', routes, ok) /\
        concat (rev routes) = geno /\
        forall segs, concat segs = geno -> TC routes <= TC segs + err segs.
    Proof.
      unfold split_unlimited. rewrite Hlin. destruct (ss_size _ _ _ _ SS) as (top & T1 & T2 & T3). destruct (ss_pen _ _ _ _ SS) as [PF PV].
      destruct (linear_optimal p d q cap pen geno top (ii_data _ _ _ _ _ II) (ii_dim _ _ _ _ _ II) Hperm (ss_demand _ _ _ _ SS) PF PV T1 T2
                  (ii_load _ _ _ _ _ II) T3 (ss_sym _ _ _ _ SS) (sp_pred st 0%nat)) as (pc & pr' & rs & E & Et & Hc & Hne & Hl & Hopt).
      rewrite E. cbn [rbind]. rewrite Et. cbn [rbind]. eexists _, _, _. split; [reflexivity|]. split.
      - unfold pad_routes. rewrite rev_app_distr, concat_app.
        assert (E0 : forall k, concat (rev (repeat (@nil nat) k)) = []).
        { intros k. induction k; simpl; auto. rewrite concat_app, IHk. reflexivity. }
        rewrite E0. exact Hc.
      - intros segs Es. rewrite TC_pad, <- (TC_nonempties segs).
        pose proof (Hopt (SplitThms.nonempties segs) ltac:(now rewrite SplitThms.nonempties_concat) (SplitThms.nonempties_ne segs)).
        pose proof (err_mono _ _ (SplitThms.nonempties_length segs)). lra.
    Qed.

    Lemma limited_run st mv : (1 <= mv)%nat -> (mv <= c_num_vehicles c)%nat ->
      exists st' routes, @split_limited NumF p c pen st geno mv = Ok (st', routes, true) /\
        partitioned_into geno routes mv /\
        forall segs, concat segs = geno -> (length segs <= mv)%nat -> TC routes <= TC segs + err segs.
    Proof.
      intros H1 Hv. unfold split_limited. rewrite Hlin. destruct (Nat.ltb_spec (c_num_vehicles c) mv); [lia|].
      destruct (ss_size _ _ _ _ SS) as (top & T1 & T2 & T3). destruct (ss_pen _ _ _ _ SS) as [PF PV].
      destruct (limited_optimal p d q cap pen geno top (ii_data _ _ _ _ _ II) (ii_dim _ _ _ _ _ II) Hperm (ss_demand _ _ _ _ SS) PF PV T1 T2
                  (ii_load _ _ _ _ _ II) T3 (ss_sym _ _ _ _ SS) tour_big st mv H1) as (st' & rs & E & Et & Hc & Hne & Hl & Hopt).
      rewrite E. cbn [rbind]. rewrite Et. eexists _, _. split; [reflexivity|]. split.
      - exists rs, (c_num_vehicles c - length rs)%nat. repeat split; auto.
      - intros segs Es Hls. rewrite TC_pad, <- (TC_nonempties segs). pose proof (SplitThms.nonempties_length segs).
        pose proof (Hopt (SplitThms.nonempties segs) ltac:(now rewrite SplitThms.nonempties_concat) (SplitThms.nonempties_ne segs) ltac:(lia)).
        pose proof (err_mono _ _ (SplitThms.nonempties_length segs)). lra.
    Qed.
  End Tour.

  Lemma split_run_near st (ind : @individual NumF) mv st' ind' :
    c_linear_split c = true -> Permutation (i_geno ind) (seq 1 n) -> (1 <= mv)%nat ->
    (Nat.max mv (@vehicle_lower_bound NumF p) <= c_num_vehicles c)%nat ->
    @split_run NumF p c pen st ind mv = Ok (st', ind') ->
    forall segs, segmentation (i_geno ind) segs -> (length segs <= Nat.max mv (@vehicle_lower_bound NumF p))%nat ->
      TC (i_pheno ind') <= TC segs + INR (length segs * n) * (2 / 1000000).
  Proof.
    intros Hlin Hperm Hmv Hmax Er. set (M := Nat.max mv (vehicle_lower_bound p)) in *.
    assert (Hl : length (i_geno ind) = n) by (rewrite (Permutation_length Hperm); apply seq_length).
    assert (Hok : exists st1 ph,
       rbind (@split_unlimited NumF p c pen st (i_geno ind) M)
         (fun '(st, ph, ok) => if ok : bool then Ok (st, ph)
                    else rbind (@split_limited NumF p c pen st (i_geno ind) M) (fun '(st, ph, _) => Ok (st, ph)))
        = Ok (st1, ph) /\ Permutation (concat ph) (i_geno ind) /\
         forall segs, concat segs = i_geno ind -> (length segs <= M)%nat ->
           TC ph <= TC segs + INR (length segs * n) * (2 / 1000000)).
    { destruct (unlimited_run (i_geno ind) Hperm Hlin st M) as (st1 & rs & ok & E & Hc & Hopt).
      rewrite E. cbn [rbind]. destruct ok.
      - exists st1, rs. split; auto. split.
        + rewrite <- Hc. apply concat_perm, Permutation_rev.
        + intros segs Es _. now apply Hopt.
      - destruct (limited_run (i_geno ind) Hperm Hlin st1 M ltac:(lia) Hmax) as (st2 & rs2 & E2 & Hp & Hopt2).
        rewrite E2. cbn [rbind]. exists st2, rs2. split; auto. split; auto.
        destruct Hp as (segs & k & Hs & _ & _ & HP). rewrite (concat_perm _ _ HP), concat_app, concat_repeat_nil, app_nil_r.
        now rewrite Hs. }
    destruct Hok as (st1 & ph & E & Hp & Hopt).
    pose proof (split_run_pheno p c pen st ind mv st1 ph st' ind' Hl E Hp Er) as HP.
    intros segs Es Hls. rewrite (true_cost_perm d q cap pen _ _ HP). now apply Hopt.
  Qed.
End Run.
