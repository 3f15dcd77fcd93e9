(** Final forms of the split theorems. *)
From Coq Require Import List Arith ZArith QArith Bool Lia Lqa Permutation.
From Verif.Model Require Import Num Prelude Evaluate Individual Config.
From Verif.Model Require Import Split.
From Verif.Spec Require Import Solution.
From Verif.Spec Require Split.
From Verif.Proofs Require Import Lists QNum EvalFacts SplitStruct SplitQueue SplitOpt SplitPart SplitThms BellmanOpt.
Import ListNotations.
Import Spec.Split.

Lemma split_run_partition (p : @problem NumQ) (pen : Q) (c : @config NumQ) st
    (ind : @individual NumQ) (mv : nat) :
  split_data (p_dim p) (p_dist p) (p_demand p) (p_cap p) pen (i_geno ind) -> sp_wf st ->
  c_linear_split c = true -> (1 <= mv)%nat ->
  (Nat.max mv (vehicle_lower_bound p) <= c_num_vehicles c)%nat ->
  exists st' ind', @split_run NumQ p c pen st ind mv = Ok (st', ind') /\ sp_wf st' /\
    partitioned_into (i_geno ind) (i_pheno ind') (Nat.max mv (vehicle_lower_bound p)) /\
    length (i_pheno ind') = c_num_vehicles c /\
    serves_all_once (p_dim p) (i_pheno ind') /\
    i_geno ind' = concat (i_pheno ind').
Proof.
  intros HD Hwf Hlin Hmv Hmax.
  destruct (split_run_optimal p pen c st ind mv _ _ (tol_eps p pen) HD Hwf Hlin Hmv Hmax)
    as (st' & ind' & cost & E & _).
  exists st', ind'. split; auto.
  pose proof (split_run_ok p pen c st ind mv Hlin Hwf ltac:(apply HD) ltac:(apply HD)
    (big_enough_Q p pen _ HD) Hmv Hmax st' ind' E). intuition.
Qed.

Lemma split_run_generic {N : Num} (p : problem) (pen : F) (c : config) st
    (ind : individual) (mv : nat) :
  c_linear_split c = true -> sp_wf st ->
  (0 < p_dim p)%nat -> Permutation (i_geno ind) (seq 1 (p_dim p - 1)) ->
  big_enough p pen (i_geno ind) -> (1 <= mv)%nat ->
  (Nat.max mv (vehicle_lower_bound p) <= c_num_vehicles c)%nat ->
  forall st' ind', split_run p c pen st ind mv = Ok (st', ind') ->
    sp_wf st' /\
    partitioned_into (i_geno ind) (i_pheno ind') (Nat.max mv (vehicle_lower_bound p)) /\
    length (i_pheno ind') = c_num_vehicles c /\
    serves_all_once (p_dim p) (i_pheno ind') /\
    i_geno ind' = concat (i_pheno ind').
Proof.
  intros H1 H2 H3 H4 H5 H6 H7 st' ind' E.
  pose proof (split_run_ok p pen c st ind mv H1 H2 H3 H4 H5 H6 H7 st' ind' E). intuition.
Qed.

Lemma filter_repeat_nil k : filter (fun r : list nat => negb (length r =? 0)%nat) (repeat [] k) = [].
Proof. induction k; auto. Qed.
Lemma filter_ne (rs : list (list nat)) : Forall (fun r => r <> []) rs ->
  filter (fun r => negb (length r =? 0)%nat) rs = rs.
Proof.
  induction 1 as [|r rs Hr _ IH]; auto. simpl. destruct r; [congruence|]. simpl. now rewrite IH.
Qed.

Lemma split_unlimited_partition {N : Num} (p : problem) (pen : F) (c : config) st
    (tour : list nat) (mv : nat) :
  length tour = (p_dim p - 1)%nat -> sp_wf st ->
  exists st' routes, split_unlimited p c pen st tour mv = Ok (st', routes, length (filter (fun r => negb (length r =? 0)) routes) <=? mv)%nat /\
    sp_wf st' /\ partitioned_into tour routes (p_dim p - 1) /\ (c_num_vehicles c <= length routes)%nat.
Proof.
  intros Hl Hwf. destruct (split_unlimited_ok p pen tour Hl c st mv Hwf) as (st' & rs & E & Hwf' & Hc & Hne & Hn).
  exists st', (pad_routes (c_num_vehicles c) rs). split.
  { rewrite E. do 2 f_equal. unfold pad_routes.
    rewrite filter_app, filter_repeat_nil, app_nil_r, (filter_ne _ Hne). reflexivity. }
  split; auto. split.
  - exists (rev rs), (c_num_vehicles c - length rs)%nat. split; auto. split; [now apply Forall_rev|].
    rewrite rev_length. split; auto. unfold pad_routes. apply Permutation_app_tail, Permutation_rev.
  - unfold pad_routes. rewrite app_length, repeat_length. lia.
Qed.

Lemma split_state_reachable {N : Num} : sp_wf split_new /\
  forall p c pen st ind mv st' ind', sp_wf st ->
    length (i_geno ind) = (p_dim p - 1)%nat -> c_linear_split c = true ->
    split_run p c pen st ind mv = Ok (st', ind') ->
    (1 <= Nat.max mv (vehicle_lower_bound p))%nat -> big_enough p pen (i_geno ind) -> sp_wf st'.
Proof.
  split; [apply split_new_wf|].
  intros p c pen st ind mv st' ind' Hwf Hl Hlin E Hmv Hbig. unfold split_run in E.
  rewrite Hl, Nat.ltb_irrefl in E. set (M := Nat.max _ _) in *.
  destruct (split_unlimited_ok p pen (i_geno ind) Hl c st M Hwf) as (st1 & rs & E1 & Hwf1 & Hc & Hne & Hn).
  rewrite E1 in E. cbn [rbind] in E. destruct (Nat.leb_spec (length rs) M) as [HM|HM].
  - cbn [rbind] in E. unfold rbind in E. destruct (sort_routes _ _); [|discriminate].
    destruct (ind_evaluate _ _ _); [|discriminate]. now injection E as -> _.
  - destruct (Nat.ltb_spec (c_num_vehicles c) M) as [Hv|Hv].
    { unfold split_limited in E. apply Nat.ltb_lt in Hv. rewrite Hv in E. discriminate. }
    destruct (split_limited_ok p pen (i_geno ind) Hl c st1 M Hlin Hwf1 Hbig Hmv ltac:(lia) Hv)
      as (st2 & rs2 & E2 & Hwf2 & _).
    rewrite E2 in E. unfold rbind in E. destruct (sort_routes _ _); [|discriminate].
    destruct (ind_evaluate _ _ _); [|discriminate]. now injection E as -> _.
Qed.

Local Open Scope Q_scope.

Lemma tri_half n : tri n = (n * (n - 1) / 2)%nat.
Proof.
  rewrite <- (tri_double n), Nat.mul_comm. symmetry. apply Nat.div_mul. lia.
Qed.

Lemma linear_near_optimal (p : @problem NumQ) (pen : Q) (tour : list nat)
    (c : @config NumQ) st (mv : nat) :
  split_data (p_dim p) (p_dist p) (p_demand p) (p_cap p) pen tour -> c_linear_split c = true ->
  exists st' routes ok, @split_unlimited NumQ p c pen st tour mv = Ok (st', routes, ok) /\
    segmentation tour (rev routes) /\
    forall segs, segmentation tour segs ->
      total_penalized (p_dist p) (p_demand p) (p_cap p) pen routes
      <= total_penalized (p_dist p) (p_demand p) (p_cap p) pen segs
         + inject_Z (Z.of_nat ((p_dim p - 1) * (p_dim p - 2) / 2)) * (1 # 1000000).
Proof.
  intros HD Hlin. destruct (unlimited_run p pen tour HD c st mv _ _ (tol_eps p pen) Hlin)
    as (st' & rs & ok & E & Hs & Ho).
  exists st', rs, ok. split; auto. split; auto. intros segs Hsg. specialize (Ho segs Hsg).
  rewrite tri_half in Ho. replace (p_dim p - 2)%nat with (p_dim p - 1 - 1)%nat by lia. exact Ho.
Qed.

Lemma linear_optimal_grid (p : @problem NumQ) (pen : Q) (tour : list nat)
    (c : @config NumQ) st (mv : nat) :
  split_data (p_dim p) (p_dist p) (p_demand p) (p_cap p) pen tour -> c_linear_split c = true ->
  on_grid (p_dim p) (p_dist p) (p_demand p) (p_cap p) pen ->
  exists st' routes ok, @split_unlimited NumQ p c pen st tour mv = Ok (st', routes, ok) /\
    segmentation tour (rev routes) /\
    forall segs, segmentation tour segs ->
      total_penalized (p_dist p) (p_demand p) (p_cap p) pen routes
      <= total_penalized (p_dist p) (p_demand p) (p_cap p) pen segs.
Proof.
  intros HD Hlin Hg. destruct (tol_grid p pen Hg) as (L & HT).
  destruct (unlimited_run p pen tour HD c st mv _ _ HT Hlin) as (st' & rs & ok & E & Hs & Ho).
  exists st', rs, ok. split; auto. split; auto. intros segs Hsg. specialize (Ho segs Hsg). lra.
Qed.

Lemma limited_near_optimal (p : @problem NumQ) (pen : Q) (c : @config NumQ) st
    (ind : @individual NumQ) (mv : nat) :
  split_data (p_dim p) (p_dist p) (p_demand p) (p_cap p) pen (i_geno ind) -> sp_wf st ->
  c_linear_split c = true -> (1 <= mv)%nat ->
  (Nat.max mv (vehicle_lower_bound p) <= c_num_vehicles c)%nat ->
  exists st' ind' cost, @split_run NumQ p c pen st ind mv = Ok (st', ind') /\
    partitioned_into (i_geno ind) (i_pheno ind') (Nat.max mv (vehicle_lower_bound p)) /\
    penalized_cost ind' = Some cost /\
    cost == total_penalized (p_dist p) (p_demand p) (p_cap p) pen (i_pheno ind') /\
    forall segs, segmentation (i_geno ind) segs ->
      (length segs <= Nat.max mv (vehicle_lower_bound p))%nat ->
      cost <= total_penalized (p_dist p) (p_demand p) (p_cap p) pen segs
              + inject_Z (Z.of_nat ((p_dim p - 1) * (p_dim p - 1))) * (1 # 1000000).
Proof.
  intros HD Hwf Hlin Hmv Hmax.
  destruct (split_run_optimal p pen c st ind mv _ _ (tol_eps p pen) HD Hwf Hlin Hmv Hmax)
    as (st' & ind' & cost & E & Hp & _ & _ & Hc & Hcc & Ho).
  exists st', ind', cost. auto 10.
Qed.

Lemma limited_optimal_grid (p : @problem NumQ) (pen : Q) (c : @config NumQ) st
    (ind : @individual NumQ) (mv : nat) :
  split_data (p_dim p) (p_dist p) (p_demand p) (p_cap p) pen (i_geno ind) -> sp_wf st ->
  on_grid (p_dim p) (p_dist p) (p_demand p) (p_cap p) pen ->
  c_linear_split c = true -> (1 <= mv)%nat ->
  (Nat.max mv (vehicle_lower_bound p) <= c_num_vehicles c)%nat ->
  exists st' ind' cost, @split_run NumQ p c pen st ind mv = Ok (st', ind') /\
    partitioned_into (i_geno ind) (i_pheno ind') (Nat.max mv (vehicle_lower_bound p)) /\
    penalized_cost ind' = Some cost /\
    cost == total_penalized (p_dist p) (p_demand p) (p_cap p) pen (i_pheno ind') /\
    forall segs, segmentation (i_geno ind) segs ->
      (length segs <= Nat.max mv (vehicle_lower_bound p))%nat ->
      cost <= total_penalized (p_dist p) (p_demand p) (p_cap p) pen segs.
Proof.
  intros HD Hwf Hg Hlin Hmv Hmax. destruct (tol_grid p pen Hg) as (L & HT).
  destruct (split_run_optimal p pen c st ind mv _ _ HT HD Hwf Hlin Hmv Hmax)
    as (st' & ind' & cost & E & Hp & _ & _ & Hc & Hcc & Ho).
  exists st', ind', cost. split; auto. split; auto. split; auto. split; auto.
  intros segs Hs Hl. specialize (Ho segs Hs Hl). lra.
Qed.

Lemma bellman_near_optimal (p : @problem NumQ) (pen : Q) (tour : list nat)
    (c : @config NumQ) st (mv : nat) :
  split_data (p_dim p) (p_dist p) (p_demand p) (p_cap p) pen tour -> sp_wf st ->
  c_linear_split c = false ->
  exists st' routes ok, @split_unlimited NumQ p c pen st tour mv = Ok (st', routes, ok) /\
    segmentation tour (rev routes) /\
    forall segs, segmentation tour segs ->
      (forall r, In r segs -> route_load (p_demand p) r <= p_cap p * c_split_capacity_factor c) ->
      total_penalized (p_dist p) (p_demand p) (p_cap p) pen segs < inject_Z (10 ^ 30) ->
      total_penalized (p_dist p) (p_demand p) (p_cap p) pen routes
      <= total_penalized (p_dist p) (p_demand p) (p_cap p) pen segs
         + inject_Z (Z.of_nat (p_dim p - 1)) * (pen * (1 # 1000000)).
Proof.
  intros HD Hwf Hlin. pose proof HD as [A1 A2 A3 A4 A5 A6 A7 A8 A9].
  destruct (bellman_optimal p pen tour (c_split_capacity_factor c) ltac:(lia) (Hlen p pen tour HD)
              (Hin p pen tour HD) A3 A5 A6 (sp_pred st 0%nat) Hwf) as (rs & Et & Hc & Ho).
  unfold split_unlimited. rewrite Hlin.
  destruct (bellman_split p pen tour (c_split_capacity_factor c) (sp_pred st 0%nat)) as [pc pr] eqn:Eb.
  cbn [rbind snd] in *. rewrite Et. cbn [rbind]. eexists _, _, _. split; [reflexivity|]. split.
  - unfold segmentation, pad_routes. rewrite rev_app_distr, concat_app.
    assert (E0 : forall k, concat (rev (repeat (@nil nat) k)) = []).
    { intros k. induction k; simpl; auto. rewrite concat_app, IHk. reflexivity. }
    rewrite E0. exact Hc.
  - intros segs Hs Hcap Hb. rewrite (TP_pad p pen tour HD), <- (nonempties_TP p pen tour HD segs).
    apply Ho.
    + rewrite nonempties_concat. exact Hs.
    + apply nonempties_ne.
    + intros r Hr. apply filter_In in Hr. apply Hcap, Hr.
    + rewrite (nonempties_TP p pen tour HD segs). exact Hb.
Qed.

Lemma split_run_bellman_optimal (p : @problem NumQ) (pen : Q) (c : @config NumQ) st
    (ind : @individual NumQ) (mv : nat) :
  split_data (p_dim p) (p_dist p) (p_demand p) (p_cap p) pen (i_geno ind) -> sp_bwf st ->
  tour_weight (p_dist p) (p_demand p) pen (i_geno ind) <= inject_Z (10 ^ 29) ->
  c_linear_split c = false -> (1 <= mv)%nat ->
  (Nat.max mv (vehicle_lower_bound p) <= c_num_vehicles c)%nat ->
  exists st' ind' cost, @split_run NumQ p c pen st ind mv = Ok (st', ind') /\ sp_bwf st' /\
    partitioned_into (i_geno ind) (i_pheno ind') (Nat.max mv (vehicle_lower_bound p)) /\
    length (i_pheno ind') = c_num_vehicles c /\
    serves_all_once (p_dim p) (i_pheno ind') /\
    penalized_cost ind' = Some cost /\
    cost == total_penalized (p_dist p) (p_demand p) (p_cap p) pen (i_pheno ind') /\
    forall segs, segmentation (i_geno ind) segs ->
      (length segs <= Nat.max mv (vehicle_lower_bound p))%nat ->
      (forall r, In r segs -> route_load (p_demand p) r <= p_cap p * c_split_capacity_factor c) ->
      cost <= total_penalized (p_dist p) (p_demand p) (p_cap p) pen segs
              + inject_Z (Z.of_nat (p_dim p - 1)) * (pen * (1 # 1000000)).
Proof.
  intros HD Hwf HW Hlin Hmv Hmax.
  set (M := Nat.max mv (vehicle_lower_bound p)) in *.
  set (n := (p_dim p - 1)%nat).
  pose proof (Hlen p pen (i_geno ind) HD) as Hl. pose proof HD as [A1 A2 A3 A4 A5 A6 A7 A8 A9].
  assert (Hbreak : @flt NumQ (@flit NumQ (10 ^ 29) 1) fbig = true) by (vm_compute; reflexivity).
  assert (Hok : exists st1 ph, 
       rbind (split_unlimited p c pen st (i_geno ind) M)
         (fun '(st, ph, ok) => if ok : bool then Ok (st, ph)
                    else rbind (split_limited p c pen st (i_geno ind) M) (fun '(st, ph, _) => Ok (st, ph)))
        = Ok (st1, ph) /\ Permutation (concat ph) (i_geno ind) /\
         forall segs, concat segs = i_geno ind -> (length segs <= M)%nat ->
           (forall r, In r segs -> route_load (p_demand p) r <= p_cap p * c_split_capacity_factor c) ->
           total_penalized (p_dist p) (p_demand p) (p_cap p) pen ph
           <= total_penalized (p_dist p) (p_demand p) (p_cap p) pen segs + inject_Z (Z.of_nat n) * (pen * qeps)).
  { destruct (bellman_near_optimal p pen (i_geno ind) c st M HD ltac:(intros e He; now apply Hwf) Hlin)
      as (st1 & rs & ok & E & Hc & Hopt).
    rewrite E. cbn [rbind]. destruct ok.
    - exists st1, rs. split; auto. split.
      + unfold segmentation in Hc. rewrite <- Hc. apply concat_perm, Permutation_rev.
      + intros segs Es _ Hcap. apply Hopt; auto.
        rewrite <- (nonempties_TP p pen (i_geno ind) HD segs).
        pose proof (prefix_TP p pen (i_geno ind) ltac:(lia) Hl (Hin p pen _ HD) A3 A5 A6 A4 HW (nonempties segs) n
                      ltac:(unfold n; lia) (nonempties_ne segs)) as Hb.
        rewrite nonempties_concat in Hb. unfold n in Hb. rewrite <- Hl, firstn_all in Hb.
        specialize (Hb Es). pose proof huge_big. lra.
    - destruct (split_unlimited_bellman_ok p pen (i_geno ind) Hl c st M Hlin Hwf) as (st1' & rs1 & E1 & Hwf1 & _ & _ & Hl1).
      rewrite E in E1. injection E1 as <- _ Eok. symmetry in Eok. apply Nat.leb_gt in Eok.
      destruct (split_limited_bellman_ok p pen (i_geno ind) Hl Hbreak c st1 M Hlin Hwf1 ltac:(lia) Hmax)
        as (st2 & rs2 & E2 & Hwf2 & Hc2 & Hl2).
      rewrite E2. cbn [rbind]. eexists _, _. split; [reflexivity|]. split.
      { rewrite pad_routes_concat, Hc2. reflexivity. }
      intros segs Es Hls Hcap. rewrite (TP_pad p pen (i_geno ind) HD), <- (nonempties_TP p pen (i_geno ind) HD segs).
      unfold split_limited in E2. destruct (Nat.ltb_spec (c_num_vehicles c) M); [lia|].
      rewrite Hlin in E2. cbn [rbind] in E2.
      destruct (traceback_limited _ _ _ _ _) as [rs3 e3] eqn:Et. injection E2 as _ E2 Ee.
      apply Nat.eqb_eq in Ee. subst e3.
      assert (Hr3 : total_penalized (p_dist p) (p_demand p) (p_cap p) pen rs2 == total_penalized (p_dist p) (p_demand p) (p_cap p) pen rs3).
      { rewrite <- (TP_pad p pen (i_geno ind) HD (c_num_vehicles c) rs2), <- (TP_pad p pen (i_geno ind) HD (c_num_vehicles c) rs3).
        now rewrite E2. }
      rewrite Hr3.
      apply (bellman_limited_optimal p pen (i_geno ind) (c_split_capacity_factor c) ltac:(lia) Hl (Hin p pen _ HD) A3 A5 A6 A4 HW st1 M rs3
               ltac:(lia) ltac:(lia)).
      + exact Et.
      + now rewrite nonempties_concat.
      + apply nonempties_ne.
      + pose proof (nonempties_length segs). lia.
      + intros r Hr. apply filter_In in Hr. apply Hcap, Hr. }
  destruct Hok as (st1 & ph & E & Hp & Hopt).
  destruct (split_run_value p pen c st ind mv st1 ph HD E Hp) as (ind' & Er & HP).
  destruct (split_run_bellman_ok p pen c st ind mv Hbreak Hlin Hwf A1 A2 Hmv Hmax st1 ind' Er)
    as (Hwf' & Hpart & Hlv & Hserv & _ & Hev & _).
  exists st1, ind', (@gtotal NumQ p pen (i_pheno ind')). split; auto. split; auto. split; auto. split; auto. split; auto.
  split.
  { unfold penalized_cost. rewrite Hev. reflexivity. }
  split; [apply gtotal_Q|].
  intros segs Es Hls Hcap. rewrite gtotal_Q, (TP_perm _ _ _ _ HP). now apply Hopt.
Qed.

Lemma split_run_bellman_generic {N : Num} (p : problem) (pen : F) (c : config) st
    (ind : individual) (mv : nat) :
  flit (10 ^ 29) 1 <:? fbig = true ->
  c_linear_split c = false -> sp_bwf st ->
  (0 < p_dim p)%nat -> Permutation (i_geno ind) (seq 1 (p_dim p - 1)) -> (1 <= mv)%nat ->
  (Nat.max mv (vehicle_lower_bound p) <= c_num_vehicles c)%nat ->
  forall st' ind', split_run p c pen st ind mv = Ok (st', ind') ->
    sp_bwf st' /\
    partitioned_into (i_geno ind) (i_pheno ind') (Nat.max mv (vehicle_lower_bound p)) /\
    length (i_pheno ind') = c_num_vehicles c /\
    serves_all_once (p_dim p) (i_pheno ind') /\
    i_geno ind' = concat (i_pheno ind').
Proof.
  intros H1 H2 H3 H4 H5 H6 H7 st' ind' E.
  pose proof (split_run_bellman_ok p pen c st ind mv H1 H2 H3 H4 H5 H6 H7 st' ind' E). intuition.
Qed.
