(** The split partitions the giant tour, for any arithmetic. *)
From Coq Require Import List Arith ZArith Bool Lia Permutation.
From Verif.Model Require Import Num Prelude Evaluate Individual Config.
From Verif.Model Require Import Split.
From Verif.Spec Require Import Solution Split.
From Verif.Proofs Require Import Lists EvalFacts SplitStruct.
Import ListNotations.

Section Generic.
  Context {N : Num}.
  Variable p : problem.
  Variable pen : F.
  Notation n := (p_dim p - 1).

  (** The table of predecessors left by earlier splits points to smaller cells. *)
  Definition sp_wf (st : split_state) : Prop := forall e, 1 <= e -> sp_pred st 0 e < e.

  Lemma split_new_wf : sp_wf split_new.
  Proof. intros e He. simpl. lia. Qed.

  Section Tour.
  Variable geno : list nat.
  Hypothesis Hlen : length geno = n.

  (** Serving a prefix of the tour with one route costs less than 1e30: the comparison made by
      the first layer of the limited fleet split. *)
  Definition big_enough : Prop :=
    forall i, 1 <= i < n -> dominates p pen geno reset_row0 0 i = true.

  Lemma linear_split_wf pr pc pr' :
    (forall e, 1 <= e -> pr e < e) ->
    linear_split p pen geno pr = Ok (pc, pr') -> forall e, 1 <= e -> pr' e < e.
  Proof.
    intros Hpr E e He. destruct (le_lt_dec e n) as [Hen|Hen].
    - destruct (linear_split_ok p pen geno pr) as (pc2 & pr2 & E2 & H2).
      rewrite E in E2. injection E2 as <- <-. apply H2. lia.
    - unfold linear_split in E. unfold rbind in E.
      destruct (foldm _ _ _) as [[[pc1 pr1] q1]|] eqn:Ef; [|discriminate].
      injection E as -> ->.
      assert (G : forall l s s', foldm (linear_step p pen geno) l s = Ok s' -> ~ In e l ->
                  snd (fst s') e = snd (fst s) e).
      { induction l as [|i l IH]; intros s s' H Hin; simpl in H.
        - injection H as <-. reflexivity.
        - destruct (linear_step p pen geno s i) as [s1|] eqn:E1; [|discriminate].
          rewrite (IH s1 s' H) by (intros X; apply Hin; now right).
          destruct s as [[a b] q]. simpl in E1. destruct q; [discriminate|]. unfold rbind in E1.
          destruct (queue_update _ _ _ _ _ _); [|discriminate]. injection E1 as <-. simpl.
          unfold fupd. destruct (Nat.eqb_spec e i); auto. subst. exfalso. apply Hin. now left. }
      pose proof (G _ _ _ Ef) as Hg. simpl in Hg. rewrite Hg; auto.
      rewrite in_seq. lia.
  Qed.

  Lemma split_unlimited_ok c st mv :
    sp_wf st ->
    exists st' rs, split_unlimited p c pen st geno mv =
        Ok (st', pad_routes (c_num_vehicles c) rs, length rs <=? mv) /\
      sp_wf st' /\ concat (rev rs) = geno /\ Forall (fun r => r <> []) rs /\ length rs <= n.
  Proof.
    intros Hwf. unfold split_unlimited.
    assert (G : exists pc pr, (if c_linear_split c then linear_split p pen geno (sp_pred st 0)
                  else Ok (bellman_split p pen geno (c_split_capacity_factor c) (sp_pred st 0))) = Ok (pc, pr)
                /\ forall e, 1 <= e -> pr e < e).
    { destruct (c_linear_split c).
      - destruct (linear_split_ok p pen geno (sp_pred st 0)) as (pc & pr & E & H).
        exists pc, pr. split; auto. exact (linear_split_wf _ _ _ Hwf E).
      - destruct (bellman_split p pen geno (c_split_capacity_factor c) (sp_pred st 0)) as [pc pr] eqn:E.
        exists pc, pr. split; auto. intros e He.
        pose proof (bellman_split_pred p pen geno (c_split_capacity_factor c) _ Hwf e He) as H.
        rewrite E in H. exact H. }
    destruct G as (pc & pr & E & Hpr). rewrite E. cbn [rbind].
    destruct (traceback_ok geno pr n (p_dim p)) as (rs & Er & Hc & Hne & Hl); try lia.
    { intros x Hx. apply Hpr. lia. }
    rewrite Er. cbn [rbind]. eexists _, rs. split; [reflexivity|].
    split; [exact Hpr|]. split; [rewrite Hc, <- Hlen; apply firstn_all|]. auto.
  Qed.

  (** *** Limited fleet *)
  Lemma layer_step_struct k P : forall m i pc' pr' q,
    i + m = n + 1 -> k + 1 <= i -> q <> [] -> (forall x, In x q -> k <= x < i) ->
    (forall x, k + 1 <= x < i -> k <= pr' x < x) ->
    exists pc2 pr2 q2, foldm (layer_step p pen geno k P) (seq i m) (pc', pr', q) = Ok (pc2, pr2, q2) /\
      (forall x, k + 1 <= x <= n -> k <= pr2 x < x).
  Proof.
    induction m as [|m IH]; intros i pc' pr' q Him Hi Hq Hr Hc.
    - exists pc', pr', q. split; auto. intros x Hx. apply Hc. lia.
    - cbn [seq foldm layer_step]. destruct q as [|front q]; [congruence|].
      destruct (queue_update_ok p pen geno P (front :: q) i) as (q' & E & Hq' & Hle & Hsub); auto.
      { intros x Hx. apply Hr in Hx. lia. }
      rewrite E. cbn [rbind]. apply IH; auto; try lia.
      + intros x Hx. pose proof (Hle x Hx). destruct (Hsub x Hx) as [Hin|]; [apply Hr in Hin|]; lia.
      + intros x Hx. unfold fupd. destruct (Nat.eqb_spec x i) as [->|].
        * apply Hr. now left.
        * apply Hc. lia.
  Qed.

  Lemma limited_layer_struct st k :
    exists st', limited_layer p pen geno st k = Ok st' /\
      (forall x, k + 1 <= x <= n -> k <= sp_pred st' (k + 1) x < x) /\
      (forall r, r <> k + 1 -> sp_pc st' r = sp_pc st r /\ sp_pred st' r = sp_pred st r).
  Proof.
    unfold limited_layer.
    assert (G : exists pc2 pr2 q2, foldm (layer_step p pen geno k (sp_pc st k)) (seq (k + 1) (p_dim p - (k + 1)))
                       (sp_pc st (k + 1), sp_pred st (k + 1), [k]) = Ok (pc2, pr2, q2) /\
                  (forall x, k + 1 <= x <= n -> k <= pr2 x < x)).
    { destruct (le_lt_dec k n) as [Hk|Hk].
      - destruct (le_lt_dec (p_dim p) 0) as [H0|H0].
        + replace (p_dim p - (k + 1)) with 0 by lia. simpl. eexists _, _, _. split; [reflexivity|]. lia.
        + apply layer_step_struct; try lia; [discriminate|]. intros x [<-|[]]. lia.
      - replace (p_dim p - (k + 1)) with 0 by lia. simpl. eexists _, _, _. split; [reflexivity|]. lia. }
    destruct G as (pc2 & pr2 & q2 & E & H). rewrite E. cbn [rbind]. eexists. split; [reflexivity|].
    cbn [sp_pc sp_pred]. rewrite Nat.eqb_refl. split; auto.
    intros r Hr. apply Nat.eqb_neq in Hr. rewrite Hr. auto.
  Qed.

  Lemma limited_layer_first st :
    (forall c, sp_pc st 0 c = reset_row0 c) -> big_enough ->
    forall st', limited_layer p pen geno st 0 = Ok st' ->
    forall x, 1 <= x <= n -> sp_pred st' 1 x = 0.
  Proof.
    intros Hrow Hbig st' E x Hx. unfold limited_layer in E. cbn [Nat.add] in E.
    set (P := sp_pc st 0) in *.
    assert (G : forall m i pc' pr', i + m = n + 1 -> 1 <= i ->
      (forall x, 1 <= x < i -> pr' x = 0) ->
      exists pc2 pr2 q2, foldm (layer_step p pen geno 0 P) (seq i m) (pc', pr', [0]) = Ok (pc2, pr2, q2)
        /\ (forall x, 1 <= x <= n -> pr2 x = 0)).
    { induction m as [|m IH]; intros i pc' pr' Him Hi Hc.
      - exists pc', pr', [0]. split; auto. intros y Hy. apply Hc. lia.
      - cbn [seq foldm layer_step].
        assert (Eq : queue_update p pen geno P [0] i = Ok [0]).
        { unfold queue_update. destruct (i <? n) eqn:El; auto. apply Nat.ltb_lt in El.
          cbn [rev app].
          assert (Ed : dominates p pen geno P 0 i = true).
          { rewrite <- (Hbig i) by lia. unfold dominates. now rewrite !Hrow. }
          rewrite Ed. reflexivity. }
        rewrite Eq. cbn [rbind]. apply IH; try lia.
        intros y Hy. unfold fupd. destruct (Nat.eqb_spec y i) as [->|]; auto. apply Hc. lia. }
    destruct (G (p_dim p - 1) 1 (sp_pc st 1) (sp_pred st 1)) as (pc2 & pr2 & q2 & E2 & H); try lia.
    rewrite E2 in E. cbn [rbind] in E. injection E as <-. cbn [sp_pred Nat.eqb]. auto.
  Qed.

  Lemma limited_layers_struct st0 : big_enough -> forall m,
    exists st, foldm (limited_layer p pen geno) (seq 0 m)
                 (mkSplit (reset_all (sp_pc st0)) (sp_pred st0)) = Ok st /\
      (forall c, sp_pc st 0 c = reset_row0 c) /\ sp_pred st 0 = sp_pred st0 0 /\
      (1 <= m -> forall x, 1 <= x <= n -> sp_pred st 1 x = 0) /\
      (forall k x, 1 <= k < m -> k + 1 <= x <= n -> k <= sp_pred st (k + 1) x < x).
  Proof.
    intros Hbig. induction m as [|m IH].
    - eexists. split; [reflexivity|]. cbn [sp_pc sp_pred]. repeat split; try lia.
    - destruct IH as (st & E & H0 & Hp0 & H1 & Hk).
      replace (S m) with (m + 1) by lia. rewrite seq_app, foldm_app, E. cbn [rbind Nat.add seq foldm].
      destruct (limited_layer_struct st m) as (st' & E' & Hl & Hoth). rewrite E'.
      exists st'. split; auto. destruct (Hoth 0 ltac:(lia)) as [R0 R0'].
      rewrite R0, R0'. split; auto. split; auto. split.
      + intros _. destruct (Nat.eq_dec m 0) as [->|Hm].
        * exact (limited_layer_first st H0 Hbig st' E').
        * destruct (Hoth 1 ltac:(lia)) as [_ R1]. rewrite R1. apply H1. lia.
      + intros k x Hkm Hx. destruct (Nat.eq_dec k m) as [->|]; [now apply Hl|].
        destruct (Hoth (k + 1) ltac:(lia)) as [_ R]. rewrite R. apply Hk; lia.
  Qed.

  Lemma limited_trace_struct st m :
    (forall x, 1 <= x <= n -> sp_pred st 1 x = 0) ->
    (forall k x, 1 <= k < m -> k + 1 <= x <= n -> k <= sp_pred st (k + 1) x < x) ->
    forall k x acc, 1 <= k <= m -> k <= x <= n ->
    exists rs, traceback_limited geno st k x acc = (rs ++ acc, 0) /\
      concat rs = firstn x geno /\ length rs = k /\ Forall (fun r => r <> []) rs.
  Proof.
    intros H1 Hk. induction k as [|k IH]; intros x acc Hkm Hx; [lia|].
    cbn [traceback_limited]. destruct k as [|k].
    - rewrite H1 by lia. cbn [traceback_limited].
      exists [firstn (x - 0) (skipn 0 geno)]. rewrite Nat.sub_0_r. cbn [skipn app concat].
      rewrite app_nil_r. repeat split; auto.
      constructor; auto. intros E. assert (length (firstn x geno) = 0) by now rewrite E.
      rewrite firstn_length in H. lia.
    - pose proof (Hk (S k) x ltac:(lia) ltac:(lia)) as Hp.
      replace (S k + 1) with (S (S k)) in * by lia.
      set (b := sp_pred st (S (S k)) x) in *.
      destruct (IH b (firstn (x - b) (skipn b geno) :: acc)) as (rs & Er & Hc & Hl & Hne); try lia.
      exists (rs ++ [firstn (x - b) (skipn b geno)]).
      rewrite Er, <- app_assoc. split; [reflexivity|]. split.
      { rewrite concat_app, Hc. cbn [concat]. rewrite app_nil_r. apply firstn_split_at. lia. }
      split; [rewrite app_length; simpl; lia|].
      apply Forall_app. split; auto. constructor; auto. intros E.
      assert (length (firstn (x - b) (skipn b geno)) = 0) by now rewrite E.
      rewrite firstn_length, skipn_length in H. lia.
  Qed.

  Lemma cheapest_row_range st m : 1 <= m -> 1 <= cheapest_row p st m <= m.
  Proof.
    intros Hm. unfold cheapest_row.
    assert (G : forall l best num, 1 <= num <= m -> (forall v, In v l -> 1 <= v <= m) ->
      1 <= snd (fold_left (fun '(best, num) v =>
                if sp_pc st v n <:? best then (sp_pc st v n, v) else (best, num)) l (best, num)) <= m).
    { induction l as [|v l IH]; intros best num Hnum Hl; cbn [fold_left]; auto.
      assert (Hv : 1 <= v <= m) by (apply Hl; now left).
      destruct (sp_pc st v n <:? best); apply IH; auto; intros; apply Hl; now right. }
    apply G; [lia|]. intros v Hv. apply in_seq in Hv. lia.
  Qed.

  Lemma split_limited_ok c st mv :
    c_linear_split c = true -> sp_wf st -> big_enough -> 1 <= mv -> mv <= n -> mv <= c_num_vehicles c ->
    exists st' rs, split_limited p c pen st geno mv =
        Ok (st', pad_routes (c_num_vehicles c) rs, true) /\
      sp_wf st' /\ concat rs = geno /\ Forall (fun r => r <> []) rs /\ length rs <= mv.
  Proof.
    intros Hlin Hwf Hbig H1 Hn Hv. unfold split_limited.
    destruct (Nat.ltb_spec (c_num_vehicles c) mv); [lia|]. rewrite Hlin.
    destruct (limited_layers_struct st Hbig mv) as (st' & E & _ & Hp0 & Hr1 & Hrk).
    rewrite E. cbn [rbind].
    pose proof (cheapest_row_range st' mv H1) as Hc. set (v := cheapest_row p st' mv) in *.
    destruct (limited_trace_struct st' mv (Hr1 H1) Hrk v n [] ltac:(lia) ltac:(lia))
      as (rs & Et & Hcc & Hl & Hne).
    rewrite app_nil_r in Et. rewrite Et. exists st', rs. cbn [Nat.eqb]. split; auto. split.
    { intros e He. rewrite Hp0. now apply Hwf. }
    split; [rewrite Hcc, <- Hlen; apply firstn_all|]. split; auto. lia.
  Qed.
  End Tour.

  Lemma repeat_app {A} (a : A) m k : repeat a m ++ repeat a k = repeat a (m + k).
  Proof. induction m; simpl; congruence. Qed.
  Lemma pad_perm k rs segs j : Permutation rs (segs ++ repeat [] j) ->
    exists m, Permutation (pad_routes k rs) (segs ++ repeat [] m).
  Proof.
    intros H. exists (j + (k - length rs)). unfold pad_routes. rewrite <- repeat_app, app_assoc.
    now apply Permutation_app_tail.
  Qed.

  (** The routes chosen by the unlimited or the limited split. *)
  Definition split_core (Inv : split_state -> Prop) c st ind mv : Prop :=
    exists st1 rs segs j,
       rbind (split_unlimited p c pen st (i_geno ind) (Nat.max mv (vehicle_lower_bound p)))
         (fun '(st, ph, ok) => if ok : bool then Ok (st, ph)
                    else rbind (split_limited p c pen st (i_geno ind) (Nat.max mv (vehicle_lower_bound p)))
                               (fun '(st, ph, _) => Ok (st, ph)))
         = Ok (st1, pad_routes (c_num_vehicles c) rs) /\
         Inv st1 /\ Permutation rs (segs ++ repeat [] j) /\ concat segs = i_geno ind /\
         Forall (fun s => s <> []) segs /\ length rs <= c_num_vehicles c /\
         length segs <= Nat.max mv (vehicle_lower_bound p).

  (** From the chosen routes to the finished individual. *)
  Lemma split_run_finish (Inv : split_state -> Prop) c st ind mv :
    0 < p_dim p -> Permutation (i_geno ind) (seq 1 (p_dim p - 1)) ->
    split_core Inv c st ind mv ->
    forall st' ind', split_run p c pen st ind mv = Ok (st', ind') ->
    Inv st' /\
    partitioned_into (i_geno ind) (i_pheno ind') (Nat.max mv (vehicle_lower_bound p)) /\
    length (i_pheno ind') = c_num_vehicles c /\
    serves_all_once (p_dim p) (i_pheno ind') /\
    i_geno ind' = concat (i_pheno ind') /\
    i_eval ind' = geval p pen (i_eval ind) (i_pheno ind') /\
    i_number ind' = i_number ind /\ i_fitness ind' = i_fitness ind.
  Proof.
    intros Hdim Hperm G st' ind' H. unfold split_run in H.
    set (M := Nat.max mv (vehicle_lower_bound p)) in *.
    assert (Hl : length (i_geno ind) = n).
    { rewrite (Permutation_length Hperm), seq_length. reflexivity. }
    rewrite Hl, Nat.ltb_irrefl in H.
    destruct G as (st1 & rs & segs & j & E & Hwf1 & Hp & Hc & Hne & Hlr & Hln). fold M in E, Hln.
    unfold rbind in E, H.
    destruct (split_unlimited p c pen st (i_geno ind) M) as [[[sta pha] ok]|]; [|discriminate].
    destruct (if ok then Ok (sta, pha) else _) as [[stb phb]|]; [|discriminate].
    injection E as -> ->.
    destruct (sort_routes p (set_pheno ind _)) as [ind1|] eqn:Es; [|discriminate].
    destruct (pad_perm (c_num_vehicles c) rs segs j Hp) as (k & Hk).
    assert (Hcp : Permutation (concat (pad_routes (c_num_vehicles c) rs)) (i_geno ind)).
    { rewrite pad_routes_concat, <- Hc, (concat_perm _ _ Hp), concat_app, concat_repeat_nil, app_nil_r.
      reflexivity. }
    apply sort_routes_spec in Es; cbn [i_geno i_pheno set_pheno] in *.
    2:{ symmetry. now apply Permutation_length. }
    destruct Es as (Hs1 & Hs2 & Hs3 & Hs4 & Hs5).
    assert (Hserv : serves_all_once (p_dim p) (i_pheno ind1)).
    { unfold serves_all_once. rewrite (concat_perm _ _ Hs1), Hcp. exact Hperm. }
    unfold ind_evaluate, rbind in H. rewrite evaluate_eq in H; auto.
    2:{ intros m Hm. eapply Permutation_in in Hm; [|exact Hserv]. apply in_seq in Hm. lia. }
    injection H as <- <-. cbn [i_geno i_pheno i_eval i_number i_fitness set_eval].
    split; auto. split.
    { exists segs, k. repeat split; auto. now rewrite Hs1. }
    split.
    { rewrite (Permutation_length Hs1). now apply pad_routes_length. }
    repeat split; auto. now rewrite Hs5.
  Qed.

  Lemma split_run_total (Inv : split_state -> Prop) c st ind mv :
    0 < p_dim p -> Permutation (i_geno ind) (seq 1 (p_dim p - 1)) ->
    angles_ok p -> split_core Inv c st ind mv ->
    exists st' ind', split_run p c pen st ind mv = Ok (st', ind').
  Proof.
    intros Hdim Hperm Hang G. unfold split_run.
    set (M := Nat.max mv (vehicle_lower_bound p)) in *.
    assert (Hl : length (i_geno ind) = n).
    { rewrite (Permutation_length Hperm), seq_length. reflexivity. }
    rewrite Hl, Nat.ltb_irrefl.
    destruct G as (st1 & rs & segs & j & E & Hwf1 & Hp & Hc & Hne & Hlr & Hln). fold M in E.
    unfold rbind in *.
    destruct (split_unlimited p c pen st (i_geno ind) M) as [[[sta pha] ok]|]; [|discriminate].
    destruct (if ok then Ok (sta, pha) else _) as [[stb phb]|]; [|discriminate].
    injection E as -> ->.
    assert (Hcp : Permutation (concat (pad_routes (c_num_vehicles c) rs)) (i_geno ind)).
    { rewrite pad_routes_concat, <- Hc, (concat_perm _ _ Hp), concat_app, concat_repeat_nil, app_nil_r.
      reflexivity. }
    destruct (sort_routes p (set_pheno ind _)) as [ind1|] eqn:Es.
    - apply sort_routes_spec in Es; cbn [i_geno i_pheno set_pheno] in *.
      2:{ symmetry. now apply Permutation_length. }
      destruct Es as (Hs1 & _). unfold ind_evaluate, rbind. rewrite evaluate_eq; eauto.
      intros m Hm. rewrite (concat_perm _ _ Hs1), Hcp, Hperm in Hm. apply in_seq in Hm. lia.
    - exfalso. edestruct (sort_routes_total p) as (ind' & Es'); [exact Hang| | |rewrite Es' in Es; discriminate];
        cbn [i_geno i_pheno set_pheno].
      + symmetry. now apply Permutation_length.
      + now rewrite Hcp.
  Qed.

  Lemma split_run_core_linear c st ind mv :
    c_linear_split c = true -> sp_wf st ->
    0 < p_dim p -> Permutation (i_geno ind) (seq 1 (p_dim p - 1)) ->
    big_enough (i_geno ind) -> 1 <= mv ->
    Nat.max mv (vehicle_lower_bound p) <= c_num_vehicles c ->
    split_core sp_wf c st ind mv.
  Proof.
    intros Hlin Hwf Hdim Hperm Hbig Hmv Hmax. unfold split_core.
    set (M := Nat.max mv (vehicle_lower_bound p)) in *.
    assert (Hl : length (i_geno ind) = n).
    { rewrite (Permutation_length Hperm), seq_length. reflexivity. }
    destruct (split_unlimited_ok (i_geno ind) Hl c st M Hwf) as (st1 & rs & E & Hwf1 & Hc & Hne & Hln).
    rewrite E. cbn [rbind]. destruct (Nat.leb_spec (length rs) M) as [Hle|Hgt].
    - exists st1, rs, (rev rs), 0. cbn [rbind repeat]. rewrite app_nil_r, rev_length. split; auto. split; auto.
      split; [apply Permutation_rev|]. split; auto. split; [now apply Forall_rev|]. lia.
    - destruct (split_limited_ok (i_geno ind) Hl c st1 M Hlin Hwf1 Hbig) as (st2 & rs2 & E2 & Hwf2 & Hc2 & Hne2 & Hl2); try lia.
      rewrite E2. cbn [rbind]. exists st2, rs2, rs2, 0. cbn [repeat]. rewrite app_nil_r. repeat split; auto. lia.
  Qed.

  Lemma split_run_ok c st ind mv :
    c_linear_split c = true -> sp_wf st ->
    0 < p_dim p -> Permutation (i_geno ind) (seq 1 (p_dim p - 1)) ->
    big_enough (i_geno ind) -> 1 <= mv ->
    Nat.max mv (vehicle_lower_bound p) <= c_num_vehicles c ->
    forall st' ind', split_run p c pen st ind mv = Ok (st', ind') ->
    sp_wf st' /\
    partitioned_into (i_geno ind) (i_pheno ind') (Nat.max mv (vehicle_lower_bound p)) /\
    length (i_pheno ind') = c_num_vehicles c /\
    serves_all_once (p_dim p) (i_pheno ind') /\
    i_geno ind' = concat (i_pheno ind') /\
    i_eval ind' = geval p pen (i_eval ind) (i_pheno ind') /\
    i_number ind' = i_number ind /\ i_fitness ind' = i_fitness ind.
  Proof.
    intros Hlin Hwf Hdim Hperm Hbig Hmv Hmax. apply split_run_finish; auto. now apply split_run_core_linear.
  Qed.

  (** The Bellman variant: no numeric hypothesis beyond 1e29 < 1e30. *)
  Definition sp_bwf (st : split_state) : Prop :=
    (forall r e, 1 <= e -> sp_pred st r e < e) /\ (forall r, sp_pred st r 0 = 0) /\
    (forall e, sp_pred st 1 e = 0).

  Lemma split_new_bwf : sp_bwf split_new.
  Proof. repeat split; simpl; intros; lia. Qed.

  Section BTour.
  Variable geno : list nat.
  Hypothesis Hlen : length geno = n.

  Lemma bellman_inner_zero limit fuel : forall from to pf load cost s, 1 <= to ->
    snd (bellman_inner p pen geno limit fuel from to pf load cost s) 0 = snd s 0.
  Proof.
    induction fuel as [|fuel IH]; intros from to pf load cost s Ht; cbn [bellman_inner]; auto.
    destruct ((to <? p_dim p) && limit _); auto. rewrite IH by lia.
    match goal with |- context [if ?b then _ else _] => destruct b end; auto.
    simpl. unfold fupd. destruct to; [lia|]. reflexivity.
  Qed.
  Lemma bellman_inner_from0 limit fuel : forall to pf load cost s e,
    snd s e = 0 -> snd (bellman_inner p pen geno limit fuel 0 to pf load cost s) e = 0.
  Proof.
    induction fuel as [|fuel IH]; intros to pf load cost s e He; cbn [bellman_inner]; auto.
    destruct ((to <? p_dim p) && limit _); auto. apply IH.
    match goal with |- context [if ?b then _ else _] => destruct b end; auto.
    simpl. unfold fupd. destruct (e =? to); auto.
  Qed.

  Lemma bellman_split_zero factor pr : snd (bellman_split p pen geno factor pr) 0 = pr 0.
  Proof.
    unfold bellman_split.
    assert (G : forall l s, snd (fold_left (fun s from =>
          bellman_inner p pen geno (fun l => approx_lte l (p_cap p *: factor))
                        (p_dim p) from (from + 1) (fst s from) f0 f0 s) l s) 0 = snd s 0).
    { induction l as [|a l IH]; intros s; simpl; auto. rewrite IH. apply bellman_inner_zero. lia. }
    apply G.
  Qed.

  Lemma bellman_froms_pred factor pck : forall froms s,
    (forall e, 1 <= e -> snd s e < e) ->
    (forall e, 1 <= e -> snd (bellman_layer_froms p pen geno factor froms pck s) e < e) /\
    snd (bellman_layer_froms p pen geno factor froms pck s) 0 = snd s 0.
  Proof.
    induction froms as [|a l IH]; intros s Hs; simpl; auto.
    destruct (flit _ _ <:? pck a); auto.
    match goal with |- context [bellman_layer_froms _ _ _ _ l pck ?s'] => destruct (IH s') as [IH1 IH2] end.
    { apply bellman_inner_pred; auto. lia. }
    split; auto. rewrite IH2. apply bellman_inner_zero. lia.
  Qed.

  Hypothesis Hbreak : flit (10 ^ 29)%Z 1 <:? fbig = true.

  Lemma bellman_layer_bwf factor st v :
    (v = 0 -> forall x, 1 <= x -> sp_pc st 0 x = fbig) -> sp_bwf st ->
    sp_bwf (bellman_layer p pen geno factor st v).
  Proof.
    intros Hv0 (H1 & H2 & H3). unfold bellman_layer.
    destruct (bellman_layer_froms p pen geno factor (seq v (n - v)) (sp_pc st v)
                (sp_pc st (v + 1), sp_pred st (v + 1))) as [pc' pr'] eqn:E.
    destruct (bellman_froms_pred factor (sp_pc st v) (seq v (n - v)) (sp_pc st (v + 1), sp_pred st (v + 1)))
      as [P1 P2]; [exact (H1 (v + 1))|]. rewrite E in P1, P2. cbn [snd] in P1, P2.
    unfold sp_bwf. cbn [sp_pred]. repeat split.
    - intros r e He. destruct (r =? v + 1); auto.
    - intros r. destruct (r =? v + 1); auto. now rewrite P2.
    - intros e. destruct (Nat.eqb_spec 1 (v + 1)) as [Ev|]; auto.
      assert (v = 0) by lia. subst v. cbn [Nat.add] in *. rewrite Nat.sub_0_r in E.
      assert (Es : snd (bellman_layer_froms p pen geno factor (seq 0 n) (sp_pc st 0) (sp_pc st 1, sp_pred st 1)) e = 0).
      { destruct n as [|m]; cbn [seq bellman_layer_froms]; [apply H3|].
        destruct (flit _ _ <:? sp_pc st 0 0); [apply H3|].
        destruct m as [|m]; cbn [seq bellman_layer_froms].
        - apply bellman_inner_from0. apply H3.
        - rewrite (Hv0 eq_refl 1) by lia. rewrite Hbreak. apply bellman_inner_from0. apply H3. }
      now rewrite E in Es.
  Qed.

  Lemma bellman_layers_bwf factor : forall m k st,
    (forall x, 1 <= x -> sp_pc st 0 x = fbig) -> sp_bwf st ->
    sp_bwf (fold_left (bellman_layer p pen geno factor) (seq k m) st).
  Proof.
    induction m as [|m IH]; intros k st H0 Hwf; cbn [seq fold_left]; auto.
    apply IH.
    - intros x Hx. unfold bellman_layer. destruct (bellman_layer_froms _ _ _ _ _ _ _). cbn [sp_pc].
      destruct (Nat.eqb_spec 0 (k + 1)); [lia|]. auto.
    - apply bellman_layer_bwf; auto.
  Qed.

  Lemma bellman_trace_struct st : sp_bwf st -> forall k x acc, 1 <= k -> x <= n ->
    exists rs, traceback_limited geno st k x acc = (rs ++ acc, 0) /\ concat rs = firstn x geno /\ length rs = k.
  Proof.
    intros (H1 & H2 & H3). induction k as [|k IH]; intros x acc Hk Hx; [lia|].
    cbn [traceback_limited].
    assert (Hb : sp_pred st (S k) x <= x).
    { destruct x; [rewrite H2; auto|]. specialize (H1 (S k) (S x) ltac:(lia)). lia. }
    destruct k as [|k].
    - rewrite H3. cbn [traceback_limited]. rewrite Nat.sub_0_r. cbn [skipn].
      exists [firstn x geno]. cbn [concat app length]. rewrite app_nil_r. auto.
    - set (b := sp_pred st (S (S k)) x) in *.
      destruct (IH b (firstn (x - b) (skipn b geno) :: acc)) as (rs & Er & Hc & Hl); try lia.
      exists (rs ++ [firstn (x - b) (skipn b geno)]). rewrite Er, <- app_assoc. split; [reflexivity|]. split.
      + rewrite concat_app, Hc. cbn [concat]. rewrite app_nil_r. apply firstn_split_at. lia.
      + rewrite app_length. simpl. lia.
  Qed.

  Lemma split_limited_bellman_ok c st mv :
    c_linear_split c = false -> sp_bwf st -> 1 <= mv -> mv <= c_num_vehicles c ->
    exists st' rs, split_limited p c pen st geno mv = Ok (st', pad_routes (c_num_vehicles c) rs, true) /\
      sp_bwf st' /\ concat rs = geno /\ length rs <= mv.
  Proof.
    intros Hlin Hwf H1 Hv. unfold split_limited.
    destruct (Nat.ltb_spec (c_num_vehicles c) mv); [lia|]. rewrite Hlin. cbn [rbind].
    set (st' := fold_left _ _ _).
    assert (Hwf' : sp_bwf st').
    { apply bellman_layers_bwf; [|exact Hwf]. intros [|x] Hx; [lia|]. reflexivity. }
    pose proof (cheapest_row_range geno Hlen st' mv H1) as Hc. set (v := cheapest_row p st' mv) in *.
    destruct (bellman_trace_struct st' Hwf' v n [] ltac:(lia) ltac:(lia)) as (rs & Et & Hcc & Hl).
    rewrite app_nil_r in Et. rewrite Et. exists st', rs. cbn [Nat.eqb]. split; auto. split; auto.
    split; [rewrite Hcc, <- Hlen; apply firstn_all|]. lia.
  Qed.

  Lemma split_unlimited_bellman_ok c st mv :
    c_linear_split c = false -> sp_bwf st ->
    exists st' rs, split_unlimited p c pen st geno mv =
        Ok (st', pad_routes (c_num_vehicles c) rs, length rs <=? mv) /\
      sp_bwf st' /\ concat (rev rs) = geno /\ Forall (fun r => r <> []) rs /\ length rs <= n.
  Proof.
    intros Hlin Hwf. destruct (split_unlimited_ok geno Hlen c st mv) as (st' & rs & E & Hwf' & Hr).
    { intros e He. now apply Hwf. }
    exists st', rs. split; auto. split; auto. unfold split_unlimited in E. rewrite Hlin in E.
    destruct (bellman_split p pen geno (c_split_capacity_factor c) (sp_pred st 0)) as [pc pr] eqn:Eb.
    cbn [rbind] in E. unfold rbind in E. destruct (traceback geno (p_dim p) pr n); [|discriminate].
    injection E as <- _ _. destruct Hwf as (H1 & H2 & H3).
    unfold sp_bwf, set_row0. cbn [sp_pred]. repeat split.
    - intros [|r] e He; [|now apply H1].
      pose proof (bellman_split_pred p pen geno (c_split_capacity_factor c) _ (H1 0) e He) as X.
      now rewrite Eb in X.
    - intros [|r]; [|apply H2]. pose proof (bellman_split_zero (c_split_capacity_factor c) (sp_pred st 0)) as X.
      rewrite Eb in X. cbn [snd] in X. now rewrite X.
    - apply H3.
  Qed.
  End BTour.

  Lemma drop_empty (rs : list (list nat)) :
    exists segs j, Permutation rs (segs ++ repeat [] j) /\ concat segs = concat rs /\
      Forall (fun s => s <> []) segs /\ length segs <= length rs.
  Proof.
    induction rs as [|r rs (segs & j & Hp & Hc & Hne & Hl)].
    - exists [], 0. simpl. auto.
    - destruct r as [|a r].
      + exists segs, (S j). cbn [repeat concat app length]. split; [|auto].
        rewrite Hp. apply Permutation_middle.
      + exists ((a :: r) :: segs), j. cbn [app concat length]. split; [|split; [|split]].
        * now constructor.
        * now rewrite Hc.
        * constructor; auto. discriminate.
        * lia.
  Qed.

  Lemma split_run_core_bellman c st ind mv :
    flit (10 ^ 29)%Z 1 <:? fbig = true ->
    c_linear_split c = false -> sp_bwf st ->
    0 < p_dim p -> Permutation (i_geno ind) (seq 1 (p_dim p - 1)) -> 1 <= mv ->
    Nat.max mv (vehicle_lower_bound p) <= c_num_vehicles c ->
    split_core sp_bwf c st ind mv.
  Proof.
    intros Hbreak Hlin Hwf Hdim Hperm Hmv Hmax. unfold split_core.
    set (M := Nat.max mv (vehicle_lower_bound p)) in *.
    assert (Hl : length (i_geno ind) = n).
    { rewrite (Permutation_length Hperm), seq_length. reflexivity. }
    destruct (split_unlimited_bellman_ok (i_geno ind) Hl c st M Hlin Hwf) as (st1 & rs & E & Hwf1 & Hc & Hne & Hln).
    rewrite E. cbn [rbind]. destruct (Nat.leb_spec (length rs) M) as [Hle|Hgt].
    - exists st1, rs, (rev rs), 0. cbn [rbind repeat]. rewrite app_nil_r, rev_length. split; auto. split; auto.
      split; [apply Permutation_rev|]. split; auto. split; [now apply Forall_rev|]. lia.
    - destruct (split_limited_bellman_ok (i_geno ind) Hl Hbreak c st1 M Hlin Hwf1) as (st2 & rs2 & E2 & Hwf2 & Hc2 & Hl2); try lia.
      rewrite E2. cbn [rbind]. destruct (drop_empty rs2) as (segs & j & Hp & Hcs & Hns & Hls).
      exists st2, rs2, segs, j. rewrite Hcs. split; [reflexivity|]. split; [exact Hwf2|]. split; [exact Hp|]. split; [exact Hc2|]. split; [exact Hns|]. lia.
  Qed.

  Lemma split_run_bellman_ok c st ind mv :
    flit (10 ^ 29)%Z 1 <:? fbig = true ->
    c_linear_split c = false -> sp_bwf st ->
    0 < p_dim p -> Permutation (i_geno ind) (seq 1 (p_dim p - 1)) -> 1 <= mv ->
    Nat.max mv (vehicle_lower_bound p) <= c_num_vehicles c ->
    forall st' ind', split_run p c pen st ind mv = Ok (st', ind') ->
    sp_bwf st' /\
    partitioned_into (i_geno ind) (i_pheno ind') (Nat.max mv (vehicle_lower_bound p)) /\
    length (i_pheno ind') = c_num_vehicles c /\
    serves_all_once (p_dim p) (i_pheno ind') /\
    i_geno ind' = concat (i_pheno ind') /\
    i_eval ind' = geval p pen (i_eval ind) (i_pheno ind') /\
    i_number ind' = i_number ind /\ i_fitness ind' = i_fitness ind.
  Proof.
    intros Hbreak Hlin Hwf Hdim Hperm Hmv Hmax. apply split_run_finish; auto. now apply split_run_core_bellman.
  Qed.
End Generic.
