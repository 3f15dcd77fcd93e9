(** The linear split does not depend on the tables left by earlier splits. *)
From Coq Require Import List Arith ZArith Bool Lia.
From Verif.Model Require Import Num Prelude Evaluate Individual Config Split.
From Verif.Proofs Require Import Lists SplitStruct SplitPart.
Import ListNotations.
Open Scope nat_scope.

Section Fresh.
  Context {N : Num}.
  Variables (p : problem) (pen : F) (geno : list nat).
  Notation n := (p_dim p - 1).

  Lemma drop_while_ext f g l : (forall x, In x l -> f x = g x) -> drop_while f l = drop_while g l.
  Proof.
    induction l as [|x l IH]; intros H; cbn [drop_while]; auto. rewrite <- (H x) by now left.
    destruct (f x); auto. apply IH. intros y Hy. apply H. now right.
  Qed.
  Lemma pop_back_ext f g l : (forall x, In x l -> f x = g x) -> pop_back_while f l = pop_back_while g l.
  Proof. intros H. unfold pop_back_while. f_equal. apply drop_while_ext. intros x Hx. apply H. now apply in_rev. Qed.
  Lemma pop_front_ext f g l : (forall x y, In x l -> In y l -> f x y = g x y) -> pop_front_while f l = pop_front_while g l.
  Proof.
    induction l as [|x l IH]; intros H; cbn [pop_front_while]; auto. destruct l as [|y l]; auto.
    rewrite <- (H x y) by (cbn; auto). destruct (f x y); auto. apply IH. intros a b Ha Hb. apply H; now right.
  Qed.

  Lemma queue_update_ext (P1 P2 : nat -> F) q i : (forall x, In x q \/ x = i -> P1 x = P2 x) ->
    queue_update p pen geno P1 q i = queue_update p pen geno P2 q i.
  Proof.
    intros H. unfold queue_update. destruct (i <? n); auto. destruct (rev q) as [|back t] eqn:E; auto.
    assert (Hb : In back q) by (apply in_rev; rewrite E; now left).
    assert (Ed : dominates p pen geno P1 back i = dominates p pen geno P2 back i).
    { unfold dominates. rewrite (H back), (H i) by auto. reflexivity. }
    assert (Ep : pop_back_while (fun b => dominates_right p geno P1 b i) q = pop_back_while (fun b => dominates_right p geno P2 b i) q).
    { apply pop_back_ext. intros x Hx. unfold dominates_right. rewrite (H x), (H i) by auto. reflexivity. }
    rewrite Ed, Ep. cbv zeta. f_equal. apply pop_front_ext. intros x y Hx Hy.
    assert (K : forall z, In z (if dominates p pen geno P2 back i then q else pop_back_while (fun b => dominates_right p geno P2 b i) q ++ [i]) -> P1 z = P2 z).
    { intros z Hz. apply H. destruct (dominates p pen geno P2 back i); [auto|]. apply in_app_or in Hz as [Hz|[<-|[]]]; auto.
      destruct (pop_back_while_prefix (fun b => dominates_right p geno P2 b i) q) as (l2 & E2 & _). left. rewrite E2. apply in_or_app. auto. }
    unfold propagate. rewrite (K x Hx), (K y Hy). reflexivity.
  Qed.

  (** *** Without a limit *)
  Lemma linear_fold_same (l : list nat) : forall pc pr1 pr2 q (D : nat -> Prop), (forall x, D x -> pr1 x = pr2 x) ->
    match foldm (linear_step p pen geno) l (pc, pr1, q), foldm (linear_step p pen geno) l (pc, pr2, q) with
    | Ok (pc1, r1, q1), Ok (pc2, r2, q2) => pc1 = pc2 /\ forall x, D x \/ In x l -> r1 x = r2 x
    | Err a, Err b => a = b
    | _, _ => False
    end.
  Proof.
    induction l as [|i l IH]; intros pc pr1 pr2 q D H; cbn [foldm].
    - split; auto. intros x [Hx|[]]. auto.
    - cbn [linear_step]. destruct q as [|front q]; [reflexivity|].
      destruct (queue_update p pen geno _ (front :: q) i) as [q'|]; cbn [rbind]; [|reflexivity].
      specialize (IH (fupd pc i (propagate p pen geno pc front i)) (fupd pr1 i front) (fupd pr2 i front) q' (fun x => D x \/ x = i)).
      destruct (foldm _ l (_, fupd pr1 i front, q')) as [[[? ?] ?]|]; destruct (foldm _ l (_, fupd pr2 i front, q')) as [[[? ?] ?]|];
        try (apply IH; intros x [Hx|Hx]; unfold fupd; destruct (Nat.eqb_spec x i); auto; contradiction).
      destruct IH as [A B].
      { intros x Hx. unfold fupd. destruct (Nat.eqb_spec x i); auto. destruct Hx; [auto|contradiction]. }
      split; auto. intros x [Hx|[Hx|Hx]]; apply B; auto.
  Qed.

  Lemma linear_split_same pr1 pr2 : exists pc r1 r2,
    linear_split p pen geno pr1 = Ok (pc, r1) /\ linear_split p pen geno pr2 = Ok (pc, r2) /\
    forall x, 1 <= x <= n -> r1 x = r2 x /\ r1 x < x.
  Proof.
    destruct (linear_split_ok p pen geno pr1) as (pc1 & r1 & E1 & H1). destruct (linear_split_ok p pen geno pr2) as (pc2 & r2 & E2 & _).
    exists pc1, r1, r2. split; [exact E1|].
    pose proof (linear_fold_same (seq 1 n) reset_row0 pr1 pr2 [0] (fun _ => False) (fun x h => False_ind _ h)) as G.
    unfold linear_split, rbind in E1, E2 |- *.
    destruct (foldm _ _ (reset_row0, pr1, _)) as [[[a b] q]|]; [|discriminate].
    destruct (foldm _ _ (reset_row0, pr2, _)) as [[[a' b'] q']|]; [|discriminate].
    injection E1 as -> ->. injection E2 as -> ->. destruct G as [-> G]. split; [reflexivity|].
    intros x Hx. split; [|now apply H1]. apply G. right. apply in_seq. lia.
  Qed.

  Lemma traceback_same r1 r2 : (forall x, 1 <= x <= n -> r1 x = r2 x /\ r1 x < x) ->
    forall fuel e, e <= n -> traceback geno fuel r1 e = traceback geno fuel r2 e.
  Proof.
    intros H. induction fuel as [|fuel IH]; intros e He; destruct e as [|e]; cbn [traceback]; auto.
    destruct (H (S e) ltac:(lia)) as [E L]. rewrite <- E, IH by lia. reflexivity.
  Qed.

  (** *** With a limit *)
  Lemma layer_fold_same k (P1 P2 : nat -> F) : (forall x, k <= x -> P1 x = P2 x) ->
    forall m i pcA pcB prA prB q,
    i + m = n + 1 -> k + 1 <= i -> q <> [] -> (forall x, In x q -> k <= x < i) ->
    (forall x, 1 <= x -> pcA x = pcB x) ->
    (forall x, k + 1 <= x < i -> prA x = prB x /\ k <= prA x < x) ->
    exists pc1 r1 pc2 r2 q', foldm (layer_step p pen geno k P1) (seq i m) (pcA, prA, q) = Ok (pc1, r1, q') /\
      foldm (layer_step p pen geno k P2) (seq i m) (pcB, prB, q) = Ok (pc2, r2, q') /\
      (forall x, 1 <= x -> pc1 x = pc2 x) /\
      (forall x, k + 1 <= x <= n -> r1 x = r2 x /\ k <= r1 x < x).
  Proof.
    intros HP. induction m as [|m IH]; intros i pcA pcB prA prB q Him Hi Hq Hr Hpc Hpr.
    - exists pcA, prA, pcB, prB, q. repeat split; auto; apply Hpr; lia.
    - cbn [seq foldm layer_step]. destruct q as [|front q]; [congruence|].
      destruct (queue_update_ok p pen geno P1 (front :: q) i) as (q' & E & Hq' & Hle & Hsub); auto.
      { intros x Hx. apply Hr in Hx. lia. }
      rewrite <- (queue_update_ext P1 P2) by (intros x [Hx| ->]; apply HP; [apply Hr in Hx|]; lia).
      rewrite E. cbn [rbind]. pose proof (Hr front (or_introl eq_refl)) as Hf. apply IH; auto; try lia.
      + intros x Hx. pose proof (Hle x Hx). destruct (Hsub x Hx) as [Hin|]; [apply Hr in Hin|]; lia.
      + intros x Hx. unfold fupd. destruct (Nat.eqb_spec x i); auto. unfold propagate. rewrite (HP front) by lia. reflexivity.
      + intros x Hx. unfold fupd. destruct (Nat.eqb_spec x i) as [->|]; [split; [reflexivity|lia]|]. apply Hpr. lia.
  Qed.

  Definition agree (m : nat) (s1 s2 : split_state) : Prop :=
    (forall r x, 1 <= x \/ r = 0 -> sp_pc s1 r x = sp_pc s2 r x) /\
    (forall k x, k < m -> k + 1 <= x <= n -> sp_pred s1 (k + 1) x = sp_pred s2 (k + 1) x /\ k <= sp_pred s1 (k + 1) x < x).

  Lemma layers_same st1 st2 : forall m, m <= n -> exists s1 s2,
    foldm (limited_layer p pen geno) (seq 0 m) (mkSplit (reset_all (sp_pc st1)) (sp_pred st1)) = Ok s1 /\
    foldm (limited_layer p pen geno) (seq 0 m) (mkSplit (reset_all (sp_pc st2)) (sp_pred st2)) = Ok s2 /\ agree m s1 s2.
  Proof.
    induction m as [|m IH]; intros Hm.
    - eexists _, _. split; [reflexivity|]. split; [reflexivity|]. split; cbn [sp_pc sp_pred]; [|lia].
      intros r [|x] H; [|reflexivity]. destruct H as [H| ->]; [lia|reflexivity].
    - destruct IH as (s1 & s2 & E1 & E2 & A & B); [lia|].
      replace (S m) with (m + 1) by lia. rewrite !seq_app, !foldm_app, E1, E2. cbn [rbind Nat.add seq foldm].
      unfold limited_layer.
      destruct (layer_fold_same m (sp_pc s1 m) (sp_pc s2 m) ltac:(intros x Hx; apply A; lia) (p_dim p - (m + 1)) (m + 1)
                  (sp_pc s1 (m + 1)) (sp_pc s2 (m + 1)) (sp_pred s1 (m + 1)) (sp_pred s2 (m + 1)) [m])
        as (pc1 & r1 & pc2 & r2 & q' & F1 & F2 & G1 & G2); try lia; [discriminate|intros x [<-|[]]; lia|intros x Hx; apply A; lia|].
      rewrite F1, F2. cbn [rbind]. eexists _, _. split; [reflexivity|]. split; [reflexivity|]. split; cbn [sp_pc sp_pred].
      + intros r x H. destruct (Nat.eqb_spec r (m + 1)); [apply G1; lia|now apply A].
      + intros k x Hk Hx. destruct (Nat.eqb_spec (k + 1) (m + 1)) as [Q|Q].
        * assert (k = m) by lia. subst k. now apply G2.
        * apply B; lia.
  Qed.

  Lemma cheapest_same s1 s2 m : (forall r, sp_pc s1 r n = sp_pc s2 r n) -> cheapest_row p s1 m = cheapest_row p s2 m.
  Proof.
    intros H. unfold cheapest_row. rewrite (H m). f_equal. generalize (sp_pc s2 m n, m). generalize (seq 1 (m - 1)).
    induction l as [|v l IH]; intros [b k]; cbn [fold_left]; auto. rewrite (H v). apply IH.
  Qed.

  Lemma traceback_limited_same s1 s2 m : agree m s1 s2 -> forall k x acc, k <= m -> k <= x <= n ->
    traceback_limited geno s1 k x acc = traceback_limited geno s2 k x acc.
  Proof.
    intros [_ B]. induction k as [|k IH]; intros x acc Hk Hx; cbn [traceback_limited]; auto.
    destruct (B k x ltac:(lia) ltac:(lia)) as [E R]. replace (k + 1) with (S k) in * by lia. rewrite <- E. apply IH; lia.
  Qed.

  Lemma split_limited_same c st1 st2 mv : c_linear_split c = true -> length geno = n -> 1 <= n -> mv <= n ->
    match split_limited p c pen st1 geno mv, split_limited p c pen st2 geno mv with
    | Ok (_, a, x), Ok (_, b, y) => a = b /\ x = y
    | Err a, Err b => a = b
    | _, _ => False
    end.
  Proof.
    intros Hlin Hlen Hn Hmv. unfold split_limited. destruct (c_num_vehicles c <? mv); [reflexivity|]. rewrite Hlin.
    destruct (layers_same st1 st2 mv Hmv) as (s1 & s2 & E1 & E2 & G). rewrite E1, E2. cbn [rbind].
    rewrite <- (cheapest_same s1 s2 mv) by (intros r; apply G; lia).
    rewrite <- (traceback_limited_same s1 s2 mv G).
    - destruct (traceback_limited geno s1 _ n []). auto.
    - destruct mv as [|m]; [reflexivity|]. apply (cheapest_row_range p geno Hlen s1 (S m)). lia.
    - destruct mv as [|m]; [cbn; lia|]. pose proof (cheapest_row_range p geno Hlen s1 (S m) ltac:(lia)). lia.
  Qed.
End Fresh.

Lemma split_run_same {N : Num} (p : problem) (c : config) (pen : F) st1 st2 (ind : individual) mv :
  c_linear_split c = true -> 2 <= p_dim p -> length (i_geno ind) = p_dim p - 1 ->
  match split_run p c pen st1 ind mv, split_run p c pen st2 ind mv with
  | Ok (_, a), Ok (_, b) => a = b
  | Err a, Err b => a = b
  | _, _ => False
  end.
Proof.
  intros Hlin Hd Hl. unfold split_run. rewrite Hl, Nat.ltb_irrefl. set (M := Nat.max mv (vehicle_lower_bound p)).
  unfold split_unlimited. rewrite Hlin.
  destruct (linear_split_same p pen (i_geno ind) (sp_pred st1 0) (sp_pred st2 0)) as (pc & r1 & r2 & E1 & E2 & H).
  rewrite E1, E2. cbn [rbind]. rewrite <- (traceback_same p (i_geno ind) r1 r2 H) by lia.
  destruct (traceback_ok (i_geno ind) r1 (p_dim p - 1) (p_dim p)) as (rs & Er & _ & _ & Hn); try lia; [intros x Hx; now apply H|].
  rewrite Er. cbn [rbind]. destruct (Nat.leb_spec (length rs) M) as [L|L]; cbn [rbind].
  - destruct (sort_routes p _) as [i1|]; cbn [rbind]; [|reflexivity]. destruct (ind_evaluate p pen i1); reflexivity.
  - pose proof (split_limited_same p pen (i_geno ind) c (set_row0 st1 pc r1) (set_row0 st2 pc r2) M Hlin Hl ltac:(lia) ltac:(lia)) as G.
    destruct (split_limited p c pen (set_row0 st1 pc r1) (i_geno ind) M) as [[[sa pha] oa]|];
      destruct (split_limited p c pen (set_row0 st2 pc r2) (i_geno ind) M) as [[[sb phb] ob]|]; cbn [rbind]; try contradiction.
    + destruct G as [-> _]. destruct (sort_routes p _) as [i1|]; cbn [rbind]; [|reflexivity]. destruct (ind_evaluate p pen i1); reflexivity.
    + exact G.
Qed.
