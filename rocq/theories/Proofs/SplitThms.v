(** Optimality of a whole split run in exact arithmetic. *)
From Coq Require Import List Arith ZArith QArith Bool Lia Lqa Permutation Sorted.
From Verif.Model Require Import Num Prelude Evaluate Individual Config.
From Verif.Model Require Import Split.
From Verif.Spec Require Import Solution.
From Verif.Spec Require Split.
From Verif.Proofs Require Import Lists QNum EvalFacts SplitStruct SplitQueue SplitOpt SplitPart.
Import ListNotations.
Import Spec.Split.
Local Open Scope Q_scope.

Section Run.
  Variable p : @problem NumQ.
  Variable pen : Q.
  Notation n := (p_dim p - 1)%nat.
  Notation TP := (total_penalized (p_dist p) (p_demand p) (p_cap p) pen).
  Notation data := (split_data (p_dim p) (p_dist p) (p_demand p) (p_cap p) pen).

  Lemma TP_perm r1 r2 : Permutation r1 r2 -> TP r1 == TP r2.
  Proof.
    unfold total_penalized. induction 1; simpl; try lra.
  Qed.
  Lemma TP_app' r1 r2 : TP (r1 ++ r2) == TP r1 + TP r2.
  Proof. unfold total_penalized. rewrite map_app. apply Qsum_app. Qed.

  Section Tour.
  Variable tour : list nat.
  Hypothesis Hd : data tour.

  Lemma RP_nil : route_penalized (p_dist p) (p_demand p) (p_cap p) pen [] == 0.
  Proof.
    destruct Hd. unfold route_penalized, route_length, route_load. cbn [app walk_length map Qsum].
    rewrite sd_00. unfold Qpos. destruct (Qle_bool (0 - p_cap p) 0) eqn:E; qdec; [ring|].
    numq. lra.
  Qed.
  Lemma TP_empties k : TP (repeat [] k) == 0.
  Proof.
    induction k; [reflexivity|]. unfold total_penalized in *. cbn [repeat map Qsum].
    rewrite RP_nil, IHk. ring.
  Qed.
  Lemma TP_pad k rs : TP (pad_routes k rs) == TP rs.
  Proof. unfold pad_routes. rewrite TP_app', TP_empties. ring. Qed.

  Definition nonempties (segs : list (list nat)) : list (list nat) :=
    filter (fun s => match s with [] => false | _ => true end) segs.
  Lemma nonempties_concat segs : concat (nonempties segs) = concat segs.
  Proof. induction segs as [|[|a s] segs IH]; simpl; auto. now rewrite IH. Qed.
  Lemma nonempties_ne segs : Forall (fun s => s <> []) (nonempties segs).
  Proof.
    apply Forall_forall. intros s Hs. apply filter_In in Hs as [_ Hs]. destruct s; congruence.
  Qed.
  Lemma nonempties_length segs : (length (nonempties segs) <= length segs)%nat.
  Proof. induction segs as [|[|a s] segs IH]; simpl; lia. Qed.
  Lemma nonempties_TP segs : TP (nonempties segs) == TP segs.
  Proof.
    unfold total_penalized in *. induction segs as [|[|a s] segs IH]; cbn [nonempties filter map Qsum].
    - reflexivity.
    - unfold nonempties in IH. rewrite IH, RP_nil. ring.
    - unfold nonempties in IH. rewrite IH. reflexivity.
  Qed.

  Lemma Hlen : length tour = n.
  Proof. destruct Hd. rewrite (Permutation_length sd_tour). apply seq_length. Qed.
  Lemma Hin a : In a tour -> (a < p_dim p)%nat.
  Proof.
    destruct Hd. intros H. eapply Permutation_in in H; [|exact sd_tour]. apply in_seq in H. lia.
  Qed.

  (** Admissible tolerance: either one epsilon, or none on a grid. *)
  Definition tol_set (L : Q -> Prop) (tau : Q) : Prop :=
    0 <= tau /\ (forall x y, L x -> L y -> x < y + qeps -> x <= y + tau) /\
    L 0 /\ (forall a b, a == b -> L a -> L b) /\ (forall a b, L a -> L b -> L (a + b)) /\
    (forall a b, L a -> L b -> L (a - b)) /\
    (forall a b, (a < p_dim p)%nat -> (b < p_dim p)%nat -> L (p_dist p a b)) /\
    (forall a, (a < p_dim p)%nat -> L (pen * p_demand p a)) /\ L (pen * p_cap p).

  Lemma tol_eps : tol_set (fun _ => True) qeps.
  Proof. unfold tol_set, qeps. repeat apply conj; auto; intros; lra. Qed.

  Lemma tol_grid : on_grid (p_dim p) (p_dist p) (p_demand p) (p_cap p) pen ->
    exists L, tol_set L 0.
  Proof.
    intros (u & Hu & Hdist & Hdem & Hcap). exists (fun x => exists z, x == inject_Z z * u).
    assert (Hu0 : 0 < u) by (unfold qeps in *; lra).
    repeat split; auto; try lra.
    - intros x y (z1 & E1) (z2 & E2) H. rewrite E1, E2 in *.
      assert (Hz : (z1 < z2 + 1)%Z).
      { apply Z.lt_nge. intros Hge. assert (inject_Z (z2 + 1) <= inject_Z z1) by (rewrite <- Zle_Qle; lia).
        rewrite inject_Z_plus in H0. apply (Qmult_le_compat_r _ _ u) in H0; [|lra].
        unfold qeps in *. change (inject_Z 1) with 1 in H0. lra. }
      assert (inject_Z z1 <= inject_Z z2) by (rewrite <- Zle_Qle; lia).
      apply (Qmult_le_compat_r _ _ u) in H0; lra.
    - exists 0%Z. unfold inject_Z. ring.
    - intros a b E (z & Ez). exists z. now rewrite <- E.
    - intros a b (z1 & E1) (z2 & E2). exists (z1 + z2)%Z. rewrite inject_Z_plus, E1, E2. ring.
    - intros a b (z1 & E1) (z2 & E2). exists (z1 - z2)%Z.
      unfold Zminus. rewrite inject_Z_plus, inject_Z_opp, E1, E2. ring.
  Qed.

  Lemma unlimited_run (c : @config NumQ) st mv L tau :
    tol_set L tau -> c_linear_split c = true ->
    exists st' routes ok, @split_unlimited NumQ p c pen st tour mv = Ok (st', routes, ok) /\
      concat (rev routes) = tour /\
      forall segs, concat segs = tour ->
        TP routes <= TP segs + inject_Z (Z.of_nat (tri n)) * tau.
  Proof.
    intros (T1 & T2 & T3 & T4 & T5 & T6 & T7 & T8 & T9) Hlin. unfold split_unlimited. rewrite Hlin.
    pose proof Hd as [A1 A2 A3 A4 A5 A6 A7 A8 A9].
    destruct (linear_optimal p pen tour ltac:(lia) Hlen Hin A3 A5 A7 L tau T1 T2 T3 T4 T5 T6 T7 T8 T9
                (sp_pred st 0%nat)) as (pc & pr' & rs & E & Et & Hc & Hne & Hl & Hopt).
    rewrite E. cbn [rbind]. rewrite Et. cbn [rbind]. eexists _, _, _. split; [reflexivity|]. split.
    - unfold pad_routes. rewrite rev_app_distr, concat_app.
      assert (E0 : forall k, concat (rev (repeat (@nil nat) k)) = []).
      { intros k. induction k; simpl; auto. rewrite concat_app, IHk. reflexivity. }
      rewrite E0. exact Hc.
    - intros segs Es. rewrite TP_pad, <- (nonempties_TP segs). apply Hopt.
      + now rewrite nonempties_concat.
      + apply nonempties_ne.
  Qed.

  Lemma big_enough_Q : big_enough p pen tour.
  Proof.
    pose proof Hd as [A1 A2 A3 A4 A5 A6 A7 A8 A9].
    intros i Hi. unfold dominates. numq. apply Qltb_lt.
    pose proof (first_layer_dominated p pen tour ltac:(lia) Hlen Hin A3 A5 A7 A6 A9 ltac:(lia)
                  (@reset_row0 NumQ)) as H.
    specialize (H ltac:(reflexivity)).
    assert (Hr : forall i, (1 <= i)%nat -> @reset_row0 NumQ i == inject_Z (10 ^ 30)).
    { intros [|k] Hk; [lia|reflexivity]. }
    specialize (H Hr i Hi). unfold gq in H. numq. lra.
  Qed.

  Lemma limited_run (c : @config NumQ) st mv L tau :
    tol_set L tau -> c_linear_split c = true -> (1 <= mv)%nat -> (1 <= n)%nat ->
    (mv <= c_num_vehicles c)%nat ->
    exists st' routes, @split_limited NumQ p c pen st tour mv = Ok (st', routes, true) /\
      partitioned_into tour routes mv /\
      forall segs, concat segs = tour -> (length segs <= mv)%nat ->
        TP routes <= TP segs + inject_Z (Z.of_nat (n * n)) * tau.
  Proof.
    intros (T1 & T2 & T3 & T4 & T5 & T6 & T7 & T8 & T9) Hlin H1 Hn Hv. unfold split_limited. rewrite Hlin.
    pose proof Hd as [A1 A2 A3 A4 A5 A6 A7 A8 A9].
    destruct (Nat.ltb_spec (c_num_vehicles c) mv); [lia|].
    destruct (limited_optimal p pen tour ltac:(lia) Hlen Hin A3 A5 A7 L tau T1 T2 T3 T4 T5 T6 T7 T8 T9
                A6 A4 A9 Hn st mv H1) as (st' & rs & E & Et & Hc & Hne & Hl & Hopt).
    rewrite E. cbn [rbind]. rewrite Et. eexists _, _. split; [reflexivity|]. split.
    - exists rs, (c_num_vehicles c - length rs)%nat. repeat split; auto.
    - intros segs Es Hls. rewrite TP_pad, <- (nonempties_TP segs). apply Hopt.
      + now rewrite nonempties_concat.
      + apply nonempties_ne.
      + pose proof (nonempties_length segs). lia.
  Qed.
  End Tour.

  Lemma split_run_value (c : @config NumQ) st (ind : @individual NumQ) mv st1 ph :
    data (i_geno ind) ->
    rbind (split_unlimited p c pen st (i_geno ind) (Nat.max mv (vehicle_lower_bound p)))
         (fun '(st, ph, ok) => if ok : bool then Ok (st, ph)
                    else rbind (split_limited p c pen st (i_geno ind) (Nat.max mv (vehicle_lower_bound p)))
                           (fun '(st, ph, _) => Ok (st, ph)))
        = Ok (st1, ph) -> Permutation (concat ph) (i_geno ind) ->
    exists ind', @split_run NumQ p c pen st ind mv = Ok (st1, ind') /\ Permutation (i_pheno ind') ph.
  Proof.
    intros HD E Hp. pose proof (Hlen (i_geno ind) HD) as Hl.
    set (M := Nat.max mv (vehicle_lower_bound p)) in *.
    unfold split_run. fold M. rewrite Hl, Nat.ltb_irrefl. unfold rbind in *.
      destruct (split_unlimited p c pen st (i_geno ind) M) as [[[sta pha] ok]|]; [|discriminate].
      destruct (if ok then Ok (sta, pha) else _) as [[stb phb]|]; [|discriminate].
      injection E as -> ->.
      destruct (sort_routes p (set_pheno ind ph)) as [ind1|] eqn:Es.
      - apply sort_routes_spec in Es.
        2:{ cbn [i_geno i_pheno set_pheno]. symmetry. now apply Permutation_length. }
        destruct Es as (Hs1 & _). cbn [i_pheno set_pheno] in Hs1.
        unfold ind_evaluate, rbind. rewrite evaluate_eq.
        + eexists. split; [reflexivity|]. exact Hs1.
        + intros m Hm. eapply Permutation_in in Hm; [|apply concat_perm; exact Hs1].
          eapply Permutation_in in Hm; [|exact Hp]. now apply (Hin (i_geno ind) HD).
        + apply HD.
      - exfalso. unfold sort_routes in Es.
        assert (Hnan : forall l, existsb (fun k : @F NumQ * list nat => fisnan (fst k)) l = false).
        { intros l. apply not_true_is_false. intros H. apply existsb_exists in H as (k & _ & Hk).
          unfold fisnan in Hk. numq. rewrite Qeq_bool_refl in Hk. discriminate. }
        rewrite Hnan, andb_false_r in Es. rewrite overwrite_exact in Es; [discriminate|].
        cbn [i_geno i_pheno set_pheno]. symmetry. apply Permutation_length.
        rewrite <- Hp. apply concat_perm. rewrite isort_perm, map_map. cbn [snd]. rewrite map_id. reflexivity.
  Qed.

  Lemma split_run_optimal (c : @config NumQ) st (ind : @individual NumQ) mv L tau :
    tol_set L tau -> data (i_geno ind) -> sp_wf st ->
    c_linear_split c = true -> (1 <= mv)%nat ->
    (Nat.max mv (vehicle_lower_bound p) <= c_num_vehicles c)%nat ->
    exists st' ind' cost, @split_run NumQ p c pen st ind mv = Ok (st', ind') /\
      partitioned_into (i_geno ind) (i_pheno ind') (Nat.max mv (vehicle_lower_bound p)) /\
      length (i_pheno ind') = c_num_vehicles c /\
      serves_all_once (p_dim p) (i_pheno ind') /\
      penalized_cost ind' = Some cost /\ cost == TP (i_pheno ind') /\
      forall segs, segmentation (i_geno ind) segs ->
        (length segs <= Nat.max mv (vehicle_lower_bound p))%nat ->
        cost <= TP segs + inject_Z (Z.of_nat (n * n)) * tau.
  Proof.
    intros HT HD Hwf Hlin Hmv Hmax.
    set (M := Nat.max mv (vehicle_lower_bound p)) in *.
    pose proof (Hlen (i_geno ind) HD) as Hl.
    assert (Hok : exists st1 ph, 
       rbind (split_unlimited p c pen st (i_geno ind) M)
         (fun '(st, ph, ok) => if ok : bool then Ok (st, ph)
                    else rbind (split_limited p c pen st (i_geno ind) M) (fun '(st, ph, _) => Ok (st, ph)))
        = Ok (st1, ph) /\ Permutation (concat ph) (i_geno ind) /\
         forall segs, concat segs = i_geno ind -> (length segs <= M)%nat ->
           TP ph <= TP segs + inject_Z (Z.of_nat (n * n)) * tau).
    { destruct (unlimited_run (i_geno ind) HD c st M L tau HT Hlin) as (st1 & rs & ok & E & Hc & Hopt).
      rewrite E. cbn [rbind]. destruct ok.
      - exists st1, rs. split; auto. split.
        + rewrite <- Hc. apply concat_perm, Permutation_rev.
        + intros segs Es _. specialize (Hopt segs Es).
          assert (Ht : inject_Z (Z.of_nat (tri n)) * tau <= inject_Z (Z.of_nat (n * n)) * tau).
          { apply Qmult_le_compat_r; [|apply HT]. rewrite <- Zle_Qle. pose proof (tri_double n). nia. }
          lra.
      - destruct (Nat.eq_dec n 0) as [Hn0|Hn0].
        { (* no customers: the unlimited split has no route *)
          exfalso. destruct (split_unlimited_ok p pen (i_geno ind) Hl c st M Hwf) as (st2 & rs2 & E2 & _ & _ & _ & Hl2).
          rewrite E in E2. injection E2 as _ _ E2. symmetry in E2. apply Nat.leb_gt in E2. lia. }
        destruct (limited_run (i_geno ind) HD c st1 M L tau HT Hlin ltac:(lia) ltac:(lia) Hmax)
          as (st2 & rs2 & E2 & Hp & Hopt2).
        rewrite E2. cbn [rbind]. exists st2, rs2. split; auto. split; auto.
        destruct Hp as (segs & k & Hs & _ & _ & HP). rewrite (concat_perm _ _ HP), concat_app, concat_repeat_nil, app_nil_r.
        now rewrite Hs. }
    destruct Hok as (st1 & ph & E & Hp & Hopt).
    pose proof (split_run_value c st ind mv st1 ph HD E Hp) as Hrun.
    destruct Hrun as (ind' & Er & HP).
    destruct (split_run_ok p pen c st ind mv Hlin Hwf) with (st' := st1) (ind' := ind')
      as (_ & Hpart & Hlv & Hserv & _ & Hev & _); auto; try apply HD.
    { now apply big_enough_Q. }
    exists st1, ind', (gtotal p pen (i_pheno ind')). split; auto. split; auto. split; auto. split; auto.
    split.
    { unfold penalized_cost. rewrite Hev. reflexivity. }
    split; [apply gtotal_Q|].
    intros segs Es Hls. rewrite gtotal_Q, (TP_perm _ _ HP). now apply Hopt.
  Qed.
End Run.
