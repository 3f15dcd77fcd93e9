(** The Bellman split without fleet limit is optimal among segmentations into routes within the
    enlarged capacity, exact arithmetic. *)
From Coq Require Import List Arith ZArith QArith Bool Lia Lqa Permutation.
From Verif.Model Require Import Num Prelude Evaluate Individual Config.
From Verif.Model Require Import Split.
From Verif.Spec Require Import Solution.
From Verif.Spec Require Split.
From Verif.Proofs Require Import Lists QNum EvalFacts SplitStruct SplitQueue SplitOpt.
Import ListNotations.
Import Spec.Split.
Local Open Scope Q_scope.

Section Bellman.
  Variable p : @problem NumQ.
  Variable pen : Q.
  Variable geno : list nat.
  Variable factor : Q.
  Notation n := (p_dim p - 1)%nat.
  Notation D := (cumD p geno).
  Notation Ql := (cumQ p geno).
  Notation dd := (ddepot p geno).
  Notation d := (p_dist p).
  Notation dem := (p_demand p).
  Notation cap := (p_cap p).
  Hypothesis Hdim : (1 <= p_dim p)%nat.
  Hypothesis Hlen : length geno = n.
  Hypothesis Hin : forall a, In a geno -> (a < p_dim p)%nat.
  Hypothesis Hpen : 0 <= pen.
  Hypothesis Hdem : forall a, (a < p_dim p)%nat -> 0 <= dem a.
  Hypothesis Hdist : forall a b, (a < p_dim p)%nat -> (b < p_dim p)%nat -> 0 <= d a b.
  Hypothesis Hsym : forall a, (a < p_dim p)%nat -> d 0%nat a == d a 0%nat.
  Notation RP := (route_penalized d dem cap pen).
  Notation TP := (total_penalized d dem cap pen).
  Notation BIG := (inject_Z (10 ^ 30)).

  Definition bpen (l : Q) : Q := if @approx_gt NumQ (l - cap) 0 then (l - cap) * pen else 0.
  Definition bc (i x : nat) : Q :=
    d 0%nat (gnode geno (i + 1)) + (D x - D (i + 1)) + dd x + bpen (Ql x - Ql i).

  Lemma bpen_comp a b : a == b -> bpen a == bpen b.
  Proof.
    intros E. unfold bpen. destruct (@approx_gt NumQ (a - cap) 0) eqn:E1, (@approx_gt NumQ (b - cap) 0) eqn:E2; qapx; try lra.
    rewrite E. reflexivity.
  Qed.
  Lemma bpen_bounds l : 0 <= bpen l /\ bpen l <= pen * Qpos (l - cap) /\ pen * Qpos (l - cap) <= bpen l + pen * qeps.
  Proof.
    unfold bpen, qeps. destruct (@approx_gt NumQ (l - cap) 0) eqn:E; qapx.
    - unfold Qpos. destruct (Qle_bool (l - cap) 0) eqn:E2; qdec; [lra|].
      assert (H : 0 <= l - cap) by lra. apply (pen_mul_le pen Hpen) in H.
      assert (H2 : 0 <= 1 # 1000000) by lra. apply (pen_mul_le pen Hpen) in H2. lra.
    - unfold Qpos. destruct (Qle_bool (l - cap) 0) eqn:E2; qdec.
      + assert (H2 : 0 <= 1 # 1000000) by lra. apply (pen_mul_le pen Hpen) in H2. lra.
      + assert (H : 0 <= l - cap) by lra. apply (pen_mul_le pen Hpen) in H.
        assert (H2 : l - cap <= 1 # 1000000) by lra. apply (pen_mul_le pen Hpen) in H2. lra.
  Qed.

  Lemma bc_RP i x : (i < x <= n)%nat -> bc i x <= RP (seg geno i x) /\ RP (seg geno i x) <= bc i x + pen * qeps.
  Proof.
    intros H. unfold route_penalized. unfold bc.
    assert (El : route_load dem (seg geno i x) == Ql x - Ql i).
    { replace x with (i + (x - i))%nat at 1 by lia. rewrite (seg_load p geno Hdim Hlen) by lia.
      replace (i + (x - i))%nat with x by lia. numq. ring. }
    assert (Er : route_length d (seg geno i x) == d 0%nat (gnode geno (i + 1)) + (D x - D (i + 1)) + dd x).
    { unfold route_length. rewrite (seg_cons p geno Hdim Hlen) by lia. cbn [app]. rewrite walk_cons_app.
      replace x with ((i + 1) + (x - (i + 1)))%nat at 1 by lia.
      rewrite (seg_walk p geno Hdim Hlen) by lia. replace (i + 1 + (x - (i + 1)))%nat with x by lia. numq. ring. }
    assert (Ep : Qpos (route_load dem (seg geno i x) - cap) == Qpos (Ql x - Ql i - cap)).
    { apply Qpos_comp. rewrite El. reflexivity. }
    rewrite Er, Ep. destruct (bpen_bounds (Ql x - Ql i)) as (B0 & B1 & B2). lra.
  Qed.

  Lemma D_mono' i j : (i <= j <= n)%nat -> D i <= D j.
  Proof.
    intros H. induction j as [|j IH].
    - replace i with 0%nat by lia. lra.
    - destruct (Nat.eq_dec i (S j)) as [->|Hneq]; [lra|].
      specialize (IH ltac:(lia)). cbn [cumD]. unfold dnext. destruct j as [|j]; [numq; lra|].
      assert (E : (S j <? n)%nat = true) by (apply Nat.ltb_lt; lia). rewrite E.
      assert (G : forall k, (1 <= k <= n)%nat -> (gnode geno k < p_dim p)%nat).
      { intros k Hk. apply Hin. unfold gnode. apply nth_In. lia. }
      pose proof (Hdist (gnode geno (S j)) (gnode geno (S j + 1)) ltac:(apply G; lia) ltac:(apply G; lia)).
      numq. lra.
  Qed.

  Lemma bc_nonneg i x : (i < x <= n)%nat -> 0 <= bc i x.
  Proof.
    intros H. unfold bc. destruct (bpen_bounds (Ql x - Ql i)) as (B0 & _).
    assert (G : forall k, (1 <= k <= n)%nat -> (gnode geno k < p_dim p)%nat).
    { intros k Hk. apply Hin. unfold gnode. apply nth_In. lia. }
    pose proof (Hdist 0%nat (gnode geno (i + 1)) ltac:(lia) ltac:(apply G; lia)).
    pose proof (Hdist (gnode geno x) 0%nat ltac:(apply G; lia) ltac:(lia)).
    pose proof (D_mono' (i + 1) x ltac:(lia)). unfold ddepot. numq. lra.
  Qed.

  (** The admission test of the inner loop, and the loads it accepts. *)
  Section Inner.
  Variable limit : @F NumQ -> bool.
  Variable okl : Q -> Prop.
  Hypothesis limit_ok : forall a b, a == b -> (limit a = true <-> okl b).
  Definition adm (i x : nat) : Prop := forall y, (i < y <= x)%nat -> okl (Ql y - Ql i).
  (** One start cell. *)
  Lemma inner_spec fuel : forall from to (pf load cost : @F NumQ) (s : (nat -> @F NumQ) * (nat -> nat)),
    (from < to)%nat -> (n + 1 - to <= fuel)%nat ->
    load == Ql (to - 1) - Ql from ->
    ((from + 1 < to)%nat -> cost == d 0%nat (gnode geno (from + 1)) + (D (to - 1) - D (from + 1))) ->
    (forall y, (from < y < to)%nat -> okl (Ql y - Ql from)) ->
    let s' := @bellman_inner NumQ p pen geno limit fuel from to pf load cost s in
    forall x,
      ((to <= x <= n)%nat -> adm from x -> fst s' x <= pf + bc from x) /\
      ((fst s' x = fst s x /\ snd s' x = snd s x) \/
       ((to <= x <= n)%nat /\ fst s' x == pf + bc from x /\ fst s' x < fst s x /\ snd s' x = from)).
  Proof.
    induction fuel as [|fuel IH]; intros from to pf load cost s Hft Hfu Hload Hcost Hprev; cbn [bellman_inner]; cbv zeta.
    - intros x. split; [lia|left; auto].
    - destruct (to <? p_dim p)%nat eqn:Et; [apply Nat.ltb_lt in Et|apply Nat.ltb_ge in Et]; cbn [andb].
      2:{ intros x. split; [lia|left; auto]. }
      set (load' := load +: sdemand p geno to).
      assert (El : load' == Ql to - Ql from).
      { unfold load'. numq. rewrite Hload. destruct to as [|to]; [lia|].
        replace (S to - 1)%nat with to by lia. cbn [cumQ]. numq. ring. }
      destruct (limit load') eqn:Elim.
      2:{ intros x. split; [|left; auto]. intros Hx Ha. exfalso.
          specialize (Ha to ltac:(lia)). apply (limit_ok _ _ El) in Ha. congruence. }
      pose proof (proj1 (limit_ok _ _ El) Elim) as Hle.
      set (cost' := if (to =? from + 1)%nat then _ else _).
      assert (Ec : cost' == d 0%nat (gnode geno (from + 1)) + (D to - D (from + 1))).
      { unfold cost'. destruct (Nat.eqb_spec to (from + 1)) as [->|Hne].
        - numq. lra.
        - numq. rewrite (Hcost ltac:(lia)). destruct to as [|[|to]]; try lia.
          replace (S (S to) - 1)%nat with (S to) by lia.
          assert (E : D (S (S to)) == D (S to) + d (gnode geno (S to)) (gnode geno (S (S to)))).
          { change (D (S (S to))) with (D (S to) +: dnext p geno (S to)). unfold dnext.
            assert (E : (S to <? n)%nat = true) by (apply Nat.ltb_lt; lia). rewrite E.
            replace (S to + 1)%nat with (S (S to)) by lia. numq. reflexivity. }
          rewrite E. numq. ring. }
      set (new0 := pf +: cost' +: p_dist p (gnode geno to) 0).
      set (new := if approx_gt (load' -: cap) f0 then new0 +: (load' -: cap) *: pen else new0).
      assert (En : new == pf + bc from to).
      { unfold new, new0, bc. rewrite <- (bpen_comp _ _ El). unfold bpen. numq.
        destruct (@approx_gt NumQ (load' - cap) 0); unfold ddepot; numq; lra. }
      set (s1 := if new <:? fst s to then (fupd (fst s) to new, fupd (snd s) to from) else s).
      specialize (IH from (to + 1)%nat pf load' cost' s1 ltac:(lia) ltac:(lia)).
      replace (to + 1 - 1)%nat with to in IH by lia.
      specialize (IH El (fun _ => Ec)).
      specialize (IH ltac:(intros y Hy; destruct (Nat.eq_dec y to) as [->|]; [exact Hle|apply Hprev; lia])).
      cbv zeta in IH.
      change (if to =? from + 1 then p_dist p 0 (gnode geno to) else cost +: p_dist p (gnode geno (to - 1)) (gnode geno to)) with cost'.
      intros x. specialize (IH x). destruct IH as [IH1 IH2].
      assert (Hs1 : (x <> to -> fst s1 x = fst s x /\ snd s1 x = snd s x) /\
                    (fst s1 to <= pf + bc from to) /\
                    ((fst s1 to = fst s to /\ snd s1 to = snd s to) \/
                     (fst s1 to == pf + bc from to /\ fst s1 to < fst s to /\ snd s1 to = from))).
      { unfold s1. destruct (new <:? fst s to) eqn:Enew; numq; qdec; cbn [fst snd]; unfold fupd.
        - rewrite Nat.eqb_refl. split; [|split].
          + intros Hx. apply Nat.eqb_neq in Hx. rewrite Hx. auto.
          + rewrite En. lra.
          + right. auto.
        - split; auto. split; [numq; lra|left; auto]. }
      destruct Hs1 as (Ha & Hb & Hc).
      destruct (Nat.eq_dec x to) as [->|Hxto].
      + destruct IH2 as [[E1 E2]|(Hr & _)]; [|lia]. split.
        * intros _ _. rewrite E1. exact Hb.
        * rewrite E1, E2. destruct Hc as [Hc|(C1 & C2 & C3)]; [left; auto|]. right. split; [lia|auto].
      + destruct (Ha Hxto) as [A1 A2]. split.
        * intros Hx Had. apply IH1; auto. lia.
        * destruct IH2 as [[E1 E2]|(Hr & E1 & E2 & E3)].
          -- left. rewrite E1, E2. auto.
          -- right. rewrite A1 in E2. split; [lia|auto].
  Qed.

  End Inner.

  Definition ulim (l : @F NumQ) : bool := @approx_lte NumQ l (cap * factor).
  Definition uok (l : Q) : Prop := l < cap * factor + qeps.
  Lemma ulim_ok a b : a == b -> (ulim a = true <-> uok b).
  Proof. intros E. unfold ulim, uok, qeps. rewrite approx_lte_Q. split; lra. Qed.
  Notation admu := (adm uok).

  Definition bell_inv (f : nat) (s : (nat -> @F NumQ) * (nat -> nat)) : Prop :=
    fst s 0%nat == 0 /\
    (forall x, (1 <= x)%nat -> fst s x == BIG \/
       ((x <= n)%nat /\ (snd s x < x)%nat /\ (snd s x < f)%nat /\
        fst s x == fst s (snd s x) + bc (snd s x) x /\ fst s x < BIG)) /\
    (forall i x, (i < f)%nat -> (i < x <= n)%nat -> admu i x -> fst s x <= fst s i + bc i x).

  Lemma bellman_inv (pr : nat -> nat) : forall m, (m <= n)%nat ->
    bell_inv m (fold_left (fun s from =>
          @bellman_inner NumQ p pen geno (fun l => @approx_lte NumQ l (@fmul NumQ cap factor))
                        (p_dim p) from (from + 1) (fst s from) 0 0 s)
        (seq 0 m) (@reset_row0 NumQ, pr)).
  Proof.
    induction m as [|m IH]; intros Hm.
    - split; [reflexivity|]. split.
      + intros x Hx. left. destruct x; [lia|]. reflexivity.
      + intros i x Hi. lia.
    - replace (S m) with (m + 1)%nat by lia. rewrite seq_app, fold_left_app. cbn [Nat.add seq fold_left].
      specialize (IH ltac:(lia)). set (s := fold_left _ (seq 0 m) _) in *. destruct IH as (I1 & I2 & I3).
      pose proof (inner_spec ulim uok ulim_ok (p_dim p) m (m + 1)%nat (fst s m) 0 0 s ltac:(lia) ltac:(lia)) as H.
      replace (m + 1 - 1)%nat with m in H by lia.
      specialize (H ltac:(numq; ring) ltac:(lia) ltac:(lia)). cbv zeta in H.
      set (s' := bellman_inner p pen geno ulim _ _ _ _ _ _ _) in H.
      change (bell_inv (m + 1) s').
      assert (Hlow : forall x, (x <= m)%nat -> fst s' x = fst s x /\ snd s' x = snd s x).
      { intros x Hx. destruct (proj2 (H x)) as [E|(E & _)]; [auto|lia]. }
      split; [|split].
      + destruct (Hlow 0%nat ltac:(lia)) as [-> _]. exact I1.
      + intros x Hx. destruct (proj2 (H x)) as [[E1 E2]|(Hr & E1 & E2 & E3)].
        * rewrite E1, E2. destruct (I2 x Hx) as [I|(J1 & J2 & J3 & J4 & J5)]; [left; auto|right].
          destruct (Hlow (snd s x) ltac:(lia)) as [-> _]. repeat split; auto; lia.
        * right. rewrite E3. destruct (Hlow m ltac:(lia)) as [Em _]. rewrite Em.
          repeat split; auto; try lia.
          assert (fst s x <= BIG); [|lra]. destruct (I2 x Hx) as [I|(_ & _ & _ & _ & J)]; lra.
      + intros i x Hi Hx Ha. destruct (Nat.eq_dec i m) as [->|].
        * destruct (Hlow m ltac:(lia)) as [-> _]. apply (H x); auto. lia.
        * destruct (Hlow i ltac:(lia)) as [-> _]. specialize (I3 i x ltac:(lia) Hx Ha).
          destruct (proj2 (H x)) as [[-> _]|(_ & _ & E2 & _)]; lra.
  Qed.

  Lemma bellman_lower s : bell_inv n s -> forall segs x, (x <= n)%nat -> Forall (fun r => r <> []) segs ->
    (forall r, In r segs -> route_load dem r <= cap * factor) ->
    concat segs = firstn x geno -> fst s x <= TP segs.
  Proof.
    intros (I1 & I2 & I3). induction segs as [|r init IH] using rev_ind; intros x Hx Hne Hcap E.
    - assert (x = 0)%nat.
      { simpl in E. assert (length (firstn x geno) = 0)%nat by now rewrite <- E.
        rewrite firstn_length in H. lia. }
      subst x. rewrite I1. unfold total_penalized. simpl. lra.
    - apply Forall_app in Hne as [Hne Hs]. apply Forall_inv in Hs.
      destruct (last_seg p geno Hdim Hlen init r x Hx Hs E) as (j & Hj & Ej & Es). subst r.
      specialize (IH j ltac:(lia) Hne ltac:(intros r Hr; apply Hcap; apply in_or_app; auto) Ej).
      assert (Ha : admu j x).
      { intros y Hy. assert (Hl : route_load dem (seg geno j x) <= cap * factor)
          by (apply Hcap; apply in_or_app; right; now left).
        replace x with (j + (x - j))%nat in Hl by lia. rewrite (seg_load p geno Hdim Hlen) in Hl by lia.
        replace (j + (x - j))%nat with x in Hl by lia.
        pose proof (Ql_mono p geno Hdim Hlen Hin Hdem y x ltac:(lia)). unfold uok, qeps. lra. }
      specialize (I3 j x ltac:(lia) ltac:(lia) Ha).
      destruct (bc_RP j x ltac:(lia)) as [B _].
      unfold total_penalized. rewrite map_app, Qsum_app. cbn [map Qsum]. unfold total_penalized in IH. lra.
  Qed.

  Lemma bellman_trace s : bell_inv n s -> forall e fuel rs, (e <= n)%nat -> fst s e < BIG ->
    traceback geno fuel (snd s) e = Ok rs -> TP rs <= fst s e + inject_Z (Z.of_nat e) * (pen * qeps).
  Proof.
    intros (I1 & I2 & I3). induction e as [e IH] using (well_founded_induction lt_wf).
    intros fuel rs He Hb H. destruct e as [|e].
    - assert (E : rs = []) by (destruct fuel; injection H as <-; auto). subst rs.
      rewrite I1. unfold total_penalized. simpl. unfold inject_Z. lra.
    - destruct fuel as [|fuel]; [discriminate|]. cbn [traceback] in H. unfold rbind in H.
      set (b := snd s (S e)) in *.
      destruct (traceback geno fuel (snd s) b) as [rest|] eqn:E; [|discriminate].
      destruct (I2 (S e) ltac:(lia)) as [J|(J1 & J2 & J3 & J4 & J5)]; [lra|]. fold b in J2, J3, J4.
      pose proof (bc_nonneg b (S e) ltac:(lia)) as Hbc.
      specialize (IH b ltac:(lia) fuel rest ltac:(lia) ltac:(lra) E).
      destruct (bc_RP b (S e) ltac:(lia)) as [_ B].
      assert (Ert : TP rs == RP (seg geno b (S e)) + TP rest).
      { injection H as <-. unfold total_penalized. cbn [map Qsum]. reflexivity. }
      assert (Ht : (inject_Z (Z.of_nat b) + 1) * (pen * qeps) <= inject_Z (Z.of_nat (S e)) * (pen * qeps)).
      { apply Qmult_le_compat_r.
        - rewrite <- (inject_S b), <- Zle_Qle. lia.
        - assert (H2 : 0 <= qeps) by (unfold qeps; lra). apply (pen_mul_le pen Hpen) in H2. lra. }
      rewrite Ert. lra.
  Qed.

  Lemma bellman_optimal (pr : nat -> nat) :
    (forall e, (1 <= e)%nat -> (pr e < e)%nat) ->
    exists rs, traceback geno (p_dim p) (snd (@bellman_split NumQ p pen geno factor pr)) n = Ok rs /\
      concat (rev rs) = geno /\
      forall segs, concat segs = geno -> Forall (fun r => r <> []) segs ->
        (forall r, In r segs -> route_load dem r <= cap * factor) -> TP segs < BIG ->
        TP rs <= TP segs + inject_Z (Z.of_nat n) * (pen * qeps).
  Proof.
    intros Hpr. pose proof (bellman_inv pr n ltac:(lia)) as HI.
    change (bell_inv n (@bellman_split NumQ p pen geno factor pr)) in HI.
    pose proof (bellman_split_pred p pen geno factor pr Hpr) as Hwf.
    destruct (traceback_ok geno (snd (@bellman_split NumQ p pen geno factor pr)) n (p_dim p)) as (rs & Er & Hc & Hne & Hl).
    - intros x Hx. apply Hwf. lia.
    - lia.
    - lia.
    - exists rs. split; auto. split; [rewrite Hc, <- Hlen; apply firstn_all|].
      intros segs Es Hns Hcap Hb.
      assert (Hlow : fst (@bellman_split NumQ p pen geno factor pr) n <= TP segs).
      { apply (bellman_lower _ HI); auto. rewrite Es, <- Hlen. symmetry. apply firstn_all. }
      pose proof (bellman_trace _ HI n (p_dim p) rs ltac:(lia) ltac:(lra) Er). lra.
  Qed.

  (** ** Limited fleet *)
  Definition llim (l : @F NumQ) : bool := @fle NumQ l (cap * factor).
  Definition lok (l : Q) : Prop := l <= cap * factor.
  Lemma llim_ok a b : a == b -> (llim a = true <-> lok b).
  Proof. intros E. unfold llim, lok. numq. rewrite Qle_bool_iff. split; lra. Qed.
  Notation adml := (adm lok).
  Notation HUGE := (inject_Z (10 ^ 29)).
  Lemma huge_big : HUGE < BIG.
  Proof. apply Qltb_lt. vm_compute. reflexivity. Qed.
  Lemma flit_huge (x : Q) : @flt NumQ (@flit NumQ (10 ^ 29) 1) x = true <-> HUGE < x.
  Proof. numq. rewrite Qltb_lt. change (10 ^ 29 # 1) with HUGE. reflexivity. Qed.

  Lemma froms_spec (pck : nat -> @F NumQ) : forall m a (s : (nat -> @F NumQ) * (nat -> nat)), (a + m <= n)%nat ->
    let s' := @bellman_layer_froms NumQ p pen geno factor (seq a m) pck s in
    forall x,
      ((fst s' x = fst s x /\ snd s' x = snd s x) \/
       ((a <= snd s' x < x)%nat /\ (x <= n)%nat /\ pck (snd s' x) <= HUGE /\
        fst s' x == pck (snd s' x) + bc (snd s' x) x /\ fst s' x < fst s x)) /\
      (forall i, (a <= i < a + m)%nat -> (i < x <= n)%nat -> (forall i', (a <= i' <= i)%nat -> pck i' <= HUGE) ->
         adml i x -> fst s' x <= pck i + bc i x).
  Proof.
    induction m as [|m IH]; intros a s Ham; cbn [seq bellman_layer_froms]; cbv zeta; intros x.
    - split; [left; auto|]. lia.
    - destruct (@flt NumQ (@flit NumQ (10 ^ 29) 1) (pck a)) eqn:Eb.
      + split; [left; auto|]. intros i Hi Hx Hall _. exfalso. apply flit_huge in Eb.
        specialize (Hall a ltac:(lia)). lra.
      + assert (Hle : pck a <= HUGE).
        { apply Qnot_lt_le. intros H. apply flit_huge in H. congruence. }
        pose proof (inner_spec llim lok llim_ok (p_dim p) a (a + 1)%nat (pck a) 0 0 s ltac:(lia) ltac:(lia)) as H.
        replace (a + 1 - 1)%nat with a in H by lia.
        specialize (H ltac:(numq; ring) ltac:(lia) ltac:(lia) x). cbv zeta in H.
        set (s1 := bellman_inner p pen geno llim _ _ _ _ _ _ _) in H. destruct H as [H1 H2].
        specialize (IH (a + 1)%nat s1 ltac:(lia) x). cbv zeta in IH.
        replace (S a) with (a + 1)%nat by lia.
        change (@bellman_inner NumQ p pen geno (fun l : @F NumQ => l <=:? @fmul NumQ cap factor) (p_dim p) a (a + 1) (pck a) f0 f0 s) with s1.
        set (s' := bellman_layer_froms p pen geno factor (seq (a + 1) m) pck s1) in *.
        destruct IH as [I1 I2]. split.
        * destruct I1 as [[E1 E2]|(J1 & J2 & J3 & J4 & J5)].
          -- rewrite E1, E2. destruct H2 as [[F1 F2]|(K1 & K2 & K3 & K4)]; [left; auto|].
             right. rewrite K4. split; [lia|]. split; [lia|]. auto.
          -- right. split; [lia|]. split; auto. split; auto. split; auto.
             destruct H2 as [[F1 F2]|(K1 & K2 & K3 & K4)]; [now rewrite <- F1|lra].
        * intros i Hi Hx Hall Ha. destruct (Nat.eq_dec i a) as [->|Hne].
          -- specialize (H1 ltac:(lia) Ha).
             destruct I1 as [[E1 _]|(_ & _ & _ & _ & J5)]; [rewrite E1; exact H1|lra].
          -- apply I2; auto; [lia|]. intros i' Hi'. apply Hall. lia.
  Qed.

  Definition brows (st : @split_state NumQ) (m : nat) : Prop :=
    (forall x, sp_pc st 0%nat x = @reset_row0 NumQ x) /\
    (forall k x, (m < k)%nat -> (1 <= x)%nat -> sp_pc st k x == BIG) /\
    (forall k x, (k < m)%nat -> (1 <= x)%nat ->
       sp_pc st (k + 1) x == BIG \/
       ((k <= sp_pred st (k + 1) x < x)%nat /\ (x <= n)%nat /\ sp_pc st k (sp_pred st (k + 1) x) <= HUGE /\
        sp_pc st (k + 1) x == sp_pc st k (sp_pred st (k + 1) x) + bc (sp_pred st (k + 1) x) x /\
        sp_pc st (k + 1) x < BIG)) /\
    (forall k i x, (k < m)%nat -> (k <= i < x)%nat -> (x <= n)%nat ->
       (forall i', (k <= i' <= i)%nat -> sp_pc st k i' <= HUGE) -> adml i x ->
       sp_pc st (k + 1) x <= sp_pc st k i + bc i x).

  Lemma bellman_rows (st0 : @split_state NumQ) : forall m,
    brows (fold_left (@bellman_layer NumQ p pen geno factor) (seq 0 m)
             (mkSplit (@reset_all NumQ (sp_pc st0)) (sp_pred st0))) m.
  Proof.
    induction m as [|m IH].
    - cbn [seq fold_left]. split; [|split; [|split]]; cbn [sp_pc sp_pred].
      + intros [|x]; reflexivity.
      + intros k [|x] Hk Hx; [lia|]. reflexivity.
      + intros k x Hk. lia.
      + intros k i x Hk. lia.
    - replace (S m) with (m + 1)%nat by lia. rewrite seq_app, fold_left_app. cbn [Nat.add seq fold_left].
      set (st := fold_left _ (seq 0 m) _) in *. destruct IH as (R0 & R1 & R2 & R3).
      assert (Hs : forall x, 
        let s' := @bellman_layer_froms NumQ p pen geno factor (seq m (n - m)) (sp_pc st m) (sp_pc st (m + 1), sp_pred st (m + 1)) in
        ((fst s' x = sp_pc st (m + 1) x /\ snd s' x = sp_pred st (m + 1) x) \/
       ((m <= snd s' x < x)%nat /\ (x <= n)%nat /\ sp_pc st m (snd s' x) <= HUGE /\
        fst s' x == sp_pc st m (snd s' x) + bc (snd s' x) x /\ fst s' x < sp_pc st (m + 1) x)) /\
      (forall i, (m <= i < x)%nat -> (x <= n)%nat -> (forall i', (m <= i' <= i)%nat -> sp_pc st m i' <= HUGE) ->
         adml i x -> fst s' x <= sp_pc st m i + bc i x)).
      { intros x. destruct (le_lt_dec n m) as [Hnm|Hnm].
        - replace (n - m)%nat with 0%nat by lia. cbn [seq bellman_layer_froms]. cbv zeta. split; [left; auto|].
          intros i Hi Hx. lia.
        - pose proof (froms_spec (sp_pc st m) (n - m)%nat m (sp_pc st (m + 1), sp_pred st (m + 1)) ltac:(lia) x) as H.
          cbv zeta in *. cbn [fst snd] in H. destruct H as [Ha Hb]. split; auto.
          intros i Hi Hx. apply Hb; lia. }
      unfold bellman_layer. cbv zeta in Hs.
      destruct (@bellman_layer_froms NumQ p pen geno factor (seq m (n - m)) (sp_pc st m) (sp_pc st (m + 1), sp_pred st (m + 1))) as [pc' pr'].
      cbn [fst snd] in Hs. unfold brows. cbn [sp_pc sp_pred].
      assert (Eq : forall k, (k <> m + 1)%nat -> (k =? m + 1)%nat = false) by (intros; now apply Nat.eqb_neq).
      split; [|split; [|split]].
      + intros x. rewrite Eq by lia. apply R0.
      + intros k x Hk Hx. rewrite Eq by lia. apply R1; lia.
      + intros k x Hk Hx. rewrite (Eq k) by lia. destruct (Nat.eqb_spec (k + 1) (m + 1)) as [E|E].
        * assert (k = m) by lia. subst k. destruct (proj1 (Hs x)) as [[E1 E2]|(J1 & J2 & J3 & J4 & J5)].
          -- left. rewrite E1. apply R1; lia.
          -- right. pose proof (R1 (m + 1)%nat x ltac:(lia) Hx) as Ebig. rewrite Ebig in J5. auto.
        * apply R2; auto. lia.
      + intros k i x Hk. rewrite (Eq k) by lia. destruct (Nat.eqb_spec (k + 1) (m + 1)) as [E|E].
        * assert (k = m) by lia. subst k. intros Hi Hx. now apply (proj2 (Hs x)).
        * apply R3. lia.
  Qed.

  (** Weight of a list bounds every segmentation of it. *)
  Notation W := (tour_weight d dem pen).
  Definition nodes_ok (l : list nat) : Prop := forall a, In a l -> (a < p_dim p)%nat.

  Lemma walk_nonneg l : nodes_ok l -> 0 <= walk_length d l.
  Proof.
    induction l as [|a [|b l] IH]; intros H; simpl; try lra.
    assert (0 <= d a b) by (apply Hdist; apply H; simpl; auto).
    assert (0 <= walk_length d (b :: l)) by (apply IH; intros c Hc; apply H; now right).
    simpl in *. lra.
  Qed.
  Lemma walk_app_ge l1 l2 : nodes_ok (l1 ++ l2) -> walk_length d l1 + walk_length d l2 <= walk_length d (l1 ++ l2).
  Proof.
    induction l1 as [|a [|b l1] IH]; intros H.
    - simpl. lra.
    - destruct l2 as [|c l2]; [simpl; lra|]. cbn [app]. rewrite walk_cons_app.
      assert (0 <= d a c) by (apply Hdist; apply H; simpl; auto). cbn [walk_length]. lra.
    - cbn [app]. rewrite !walk_cons_app. cbn [app] in IH. specialize (IH ltac:(intros c Hc; apply H; now right)). lra.
  Qed.
  Lemma load_app l1 l2 : route_load dem (l1 ++ l2) == route_load dem l1 + route_load dem l2.
  Proof. unfold route_load. rewrite map_app. apply Qsum_app. Qed.
  Lemma load_nonneg l : nodes_ok l -> 0 <= route_load dem l.
  Proof.
    unfold route_load. induction l as [|a l IH]; intros H; simpl; [lra|].
    assert (0 <= dem a) by (apply Hdem, H; now left).
    specialize (IH ltac:(intros c Hc; apply H; now right)). lra.
  Qed.
  Lemma spokes_nonneg l : nodes_ok l -> 0 <= Qsum (map (fun a => d 0%nat a + d a 0%nat) l).
  Proof.
    induction l as [|a l IH]; intros H; simpl; [lra|].
    assert (0 <= d 0%nat a) by (apply Hdist; [lia|apply H; now left]).
    assert (0 <= d a 0%nat) by (apply Hdist; [apply H; now left|lia]).
    specialize (IH ltac:(intros c Hc; apply H; now right)). lra.
  Qed.
  Lemma W_nonneg l : nodes_ok l -> 0 <= W l.
  Proof.
    intros H. unfold tour_weight. pose proof (spokes_nonneg l H). pose proof (walk_nonneg l H).
    pose proof (load_nonneg l H) as Hl. apply (pen_mul_le pen Hpen) in Hl. lra.
  Qed.
  Lemma W_app l1 l2 : nodes_ok (l1 ++ l2) -> W l1 + W l2 <= W (l1 ++ l2).
  Proof.
    intros H. unfold tour_weight. rewrite map_app, Qsum_app, load_app.
    pose proof (walk_app_ge l1 l2 H). lra.
  Qed.
  Lemma walk_close l a : walk_length d ((a :: l) ++ [0%nat]) == walk_length d (a :: l) + d (last (a :: l) 0%nat) 0%nat.
  Proof.
    revert a. induction l as [|b l IH]; intros a.
    - simpl. lra.
    - cbn [app]. rewrite !walk_cons_app. specialize (IH b). cbn [app] in IH. rewrite IH.
      cbn [last]. destruct l; lra.
  Qed.
  Lemma Qsum_add (f g : nat -> Q) l : Qsum (map (fun a => f a + g a) l) == Qsum (map f l) + Qsum (map g l).
  Proof. induction l as [|x l IH]; simpl; [lra|]. rewrite IH. lra. Qed.
  Lemma Qsum_member (f : nat -> Q) l a : (forall b, In b l -> 0 <= f b) -> In a l -> f a <= Qsum (map f l).
  Proof.
    induction l as [|b l IH]; intros Hf Hi; [destruct Hi|]. simpl.
    assert (Hnn : 0 <= Qsum (map f l)).
    { clear -Hf. induction l as [|c l IH]; simpl; [lra|].
      assert (0 <= f c) by (apply Hf; right; now left).
      specialize (IH ltac:(intros x [<-|Hx]; apply Hf; [now left|right; now right])). lra. }
    destruct Hi as [->|Hi]; [lra|].
    specialize (IH ltac:(intros x Hx; apply Hf; now right) Hi).
    assert (0 <= f b) by (apply Hf; now left). lra.
  Qed.
  Hypothesis Hcap0 : 0 <= cap.
  Lemma RP_W r : r <> [] -> nodes_ok r -> RP r <= W r.
  Proof.
    intros Hr Hn. unfold route_penalized, tour_weight.
    assert (Hq : pen * Qpos (route_load dem r - cap) <= pen * route_load dem r).
    { apply pen_mul_le; auto. pose proof (load_nonneg r Hn). unfold Qpos.
      destruct (Qle_bool (route_load dem r - cap) 0); numq; lra. }
    assert (Hl : route_length d r <= Qsum (map (fun a => d 0%nat a + d a 0%nat) r) + walk_length d r).
    { unfold route_length. destruct r as [|a r]; [congruence|]. cbn [app].
      rewrite walk_cons_app. change (a :: r ++ [0%nat]) with ((a :: r) ++ [0%nat]).
      rewrite walk_close.
      assert (Hpos : forall b, In b (a :: r) -> 0 <= d 0%nat b /\ 0 <= d b 0%nat).
      { intros b Hb. split; apply Hdist; auto; lia. }
      assert (E : Qsum (map (fun a => d 0%nat a + d a 0%nat) (a :: r))
                  == Qsum (map (fun a => d 0%nat a) (a :: r)) + Qsum (map (fun a => d a 0%nat) (a :: r))).
      { exact (Qsum_add (fun a => d 0%nat a) (fun a => d a 0%nat) (a :: r)). }
      rewrite E.
      pose proof (Qsum_member (fun a => d 0%nat a) (a :: r) a ltac:(intros; now apply Hpos) ltac:(now left)).
      assert (Hlast : In (last (a :: r) 0%nat) (a :: r)).
      { clear. revert a. induction r as [|b r IH]; intros a; [now left|]. right. apply (IH b). }
      pose proof (Qsum_member (fun a => d a 0%nat) (a :: r) _ ltac:(intros; now apply Hpos) Hlast).
      cbv beta in *. numq. lra. }
    lra.
  Qed.
  Lemma TP_W segs : Forall (fun r => r <> []) segs -> nodes_ok (concat segs) -> TP segs <= W (concat segs).
  Proof.
    induction segs as [|r segs IH]; intros Hne Hn.
    - unfold total_penalized, tour_weight, route_load. simpl. lra.
    - cbn [concat] in *. pose proof (W_app r (concat segs) Hn). unfold total_penalized in *. cbn [map Qsum].
      pose proof (RP_W r (Forall_inv Hne) ltac:(intros a Ha; apply Hn; apply in_or_app; auto)).
      specialize (IH (Forall_inv_tail Hne) ltac:(intros a Ha; apply Hn; apply in_or_app; auto)). lra.
  Qed.

  (** Shrinking an admissible segmentation to a shorter prefix with the same number of pieces. *)
  Lemma shrink segs : forall x i, (x <= n)%nat -> Forall (fun r => r <> []) segs ->
    (forall r, In r segs -> route_load dem r <= cap * factor) ->
    concat segs = firstn x geno -> (length segs <= i <= x)%nat -> (1 <= length segs \/ i = 0)%nat ->
    exists segs', length segs' = length segs /\ Forall (fun r => r <> []) segs' /\
      (forall r, In r segs' -> route_load dem r <= cap * factor) /\ concat segs' = firstn i geno.
  Proof.
    induction segs as [|r init IH] using rev_ind; intros x i Hx Hne Hcap E Hi H1.
    - assert (i = 0)%nat by (simpl in H1; lia). subst i. exists []. simpl. repeat split; auto.
    - apply Forall_app in Hne as [Hne Hs]. apply Forall_inv in Hs.
      destruct (last_seg p geno Hdim Hlen init r x Hx Hs E) as (j & Hj & Ej & Es). subst r.
      rewrite app_length in *. cbn [length] in *.
      assert (Hlr : forall l1 l2, In (l1 ++ l2) (init ++ [seg geno j x]) -> nodes_ok (l1 ++ l2) ->
                 route_load dem l1 <= cap * factor /\ route_load dem l2 <= cap * factor).
      { intros l1 l2 Hin' Hno. apply Hcap in Hin'. rewrite load_app in Hin'.
        pose proof (load_nonneg l1 ltac:(intros a Ha; apply Hno; apply in_or_app; auto)).
        pose proof (load_nonneg l2 ltac:(intros a Ha; apply Hno; apply in_or_app; auto)). lra. }
      assert (Hall : nodes_ok (concat (init ++ [seg geno j x]))).
      { rewrite E. intros a Ha. apply Hin. rewrite <- (firstn_skipn x geno). apply in_or_app; auto. }
      destruct (le_lt_dec i j) as [Hij|Hij].
      + destruct (Nat.eq_dec (length init) 0) as [Hl0|Hl0].
        { (* a single piece: j = 0 *)
          destruct init; [|discriminate]. cbn [concat app] in Ej.
          assert (length (firstn j geno) = 0)%nat by now rewrite <- Ej.
          rewrite firstn_length in H. lia. }
        destruct (IH j (i - 1)%nat ltac:(lia) Hne ltac:(intros r Hr; apply Hcap; apply in_or_app; auto) Ej ltac:(lia) ltac:(lia))
          as (segs' & L & N' & C & Ec).
        exists (segs' ++ [[gnode geno i]]). rewrite app_length. cbn [length]. split; [lia|].
        split; [apply Forall_app; split; auto; constructor; auto; discriminate|]. split.
        * intros r Hr. apply in_app_or in Hr as [Hr|[<-|[]]]; auto.
          assert (Hg : In (gnode geno i) (concat (init ++ [seg geno j x]))).
          { rewrite E. unfold gnode. rewrite <- (firstn_skipn x geno) at 1. rewrite app_nth1 by (rewrite firstn_length; lia).
            apply nth_In. rewrite firstn_length. lia. }
          apply in_concat in Hg as (q & Hq & Hgq). apply in_split in Hgq as (q1 & q2 & ->).
          assert (Hno : nodes_ok (q1 ++ gnode geno i :: q2)).
          { intros a Ha. apply Hall. apply in_concat. eauto. }
          destruct (Hlr q1 (gnode geno i :: q2) Hq Hno) as [_ Hb].
          change (gnode geno i :: q2) with ([gnode geno i] ++ q2) in Hb. rewrite load_app in Hb.
          pose proof (load_nonneg q2 ltac:(intros a Ha; apply Hno; apply in_or_app; right; now right)). lra.
        * rewrite concat_app, Ec. cbn [concat]. rewrite app_nil_r. unfold gnode.
          rewrite <- (firstn_split_at geno (i - 1) i) by lia. f_equal.
          rewrite (skipn_gnode p geno Hdim Hlen) by lia. replace (i - (i - 1))%nat with 1%nat by lia.
          cbn [firstn]. unfold gnode. do 3 f_equal. lia.
      + exists (init ++ [seg geno j i]). rewrite app_length. cbn [length]. split; auto. split; [|split].
        * apply Forall_app. split; auto. constructor; auto. rewrite (seg_cons p geno Hdim Hlen) by lia. discriminate.
        * intros r Hr. apply in_app_or in Hr as [Hr|[<-|[]]]; [apply Hcap; apply in_or_app; auto|].
          assert (Esp : seg geno j x = seg geno j i ++ seg geno i x).
          { unfold seg. replace (x - j)%nat with ((i - j) + (x - i))%nat by lia.
            rewrite <- (firstn_skipn (i - j) (firstn _ _)). rewrite firstn_firstn, Nat.min_l by lia. f_equal.
            rewrite skipn_firstn_comm.
            assert (Hsk : forall (l : list nat) a b, skipn a (skipn b l) = skipn (b + a) l).
            { intros l a b. revert l. induction b as [|b IHb]; intros l; [reflexivity|].
              destruct l; [now rewrite !skipn_nil|]. cbn [skipn Nat.add]. apply IHb. }
            rewrite Hsk. f_equal; [lia|f_equal; lia]. }
          apply (Hlr _ (seg geno i x)); rewrite <- Esp; [apply in_or_app; right; now left|].
          intros a Ha. apply Hall. apply in_concat. exists (seg geno j x). split; auto. apply in_or_app; right; now left.
        * rewrite concat_app, Ej. cbn [concat]. rewrite app_nil_r. apply firstn_split_at. lia.
  Qed.

  Hypothesis Hhuge : W geno <= HUGE.

  Lemma prefix_TP segs x : (x <= n)%nat -> Forall (fun r => r <> []) segs -> concat segs = firstn x geno -> TP segs <= HUGE.
  Proof.
    intros Hx Hne E.
    assert (Hn : nodes_ok (firstn x geno)).
    { intros a Ha. apply Hin. rewrite <- (firstn_skipn x geno). apply in_or_app; auto. }
    pose proof (TP_W segs Hne ltac:(now rewrite E)) as H. rewrite E in H.
    pose proof (W_app (firstn x geno) (skipn x geno) ltac:(rewrite firstn_skipn; exact Hin)) as H2.
    rewrite firstn_skipn in H2.
    pose proof (W_nonneg (skipn x geno) ltac:(intros a Ha; apply Hin; rewrite <- (firstn_skipn x geno); apply in_or_app; auto)).
    lra.
  Qed.

  Lemma brows_lower st m : brows st m -> forall k segs x, (k <= m)%nat -> (x <= n)%nat -> length segs = k ->
    Forall (fun r => r <> []) segs -> (forall r, In r segs -> route_load dem r <= cap * factor) ->
    concat segs = firstn x geno -> sp_pc st k x <= TP segs.
  Proof.
    intros (R0 & R1 & R2 & R3). induction k as [|k IH]; intros segs x Hk Hx Hl Hne Hcap E.
    - destruct segs; [|discriminate]. assert (x = 0)%nat.
      { simpl in E. assert (length (firstn x geno) = 0)%nat by now rewrite <- E.
        rewrite firstn_length in H. lia. }
      subst x. rewrite R0. unfold total_penalized. simpl. lra.
    - destruct segs as [|r init _] using rev_ind; [discriminate|].
      rewrite app_length in Hl. cbn [length] in Hl.
      apply Forall_app in Hne as [Hne Hs]. apply Forall_inv in Hs.
      destruct (last_seg p geno Hdim Hlen init r x Hx Hs E) as (j & Hj & Ej & Es). subst r.
      assert (Hci : forall r, In r init -> route_load dem r <= cap * factor) by (intros r Hr; apply Hcap; apply in_or_app; auto).
      assert (Hkj : (k <= j)%nat).
      { assert (Hlj : length (concat init) = j) by (rewrite Ej, firstn_length; lia).
        assert (forall l : list (list nat), Forall (fun r => r <> []) l -> (length l <= length (concat l))%nat).
        { induction 1 as [|r l Hr _ IHl]; simpl; auto. rewrite app_length. destruct r; [congruence|]. simpl. lia. }
        specialize (H init Hne). lia. }
      pose proof (IH init j ltac:(lia) ltac:(lia) ltac:(lia) Hne Hci Ej) as IHj.
      assert (Hall : forall i', (k <= i' <= j)%nat -> sp_pc st k i' <= HUGE).
      { intros i' Hi'. destruct (Nat.eq_dec k 0) as [Hk0|Hk0].
        - subst k. assert (init = []) by (destruct init; [auto|simpl in Hl; lia]). subst init.
          assert (j = 0)%nat.
          { simpl in Ej. assert (length (firstn j geno) = 0)%nat by now rewrite <- Ej.
            rewrite firstn_length in H. lia. }
          assert (i' = 0)%nat by lia. subst i'. rewrite R0. cbn [reset_row0]. apply Qle_bool_iff. vm_compute. reflexivity.
        - destruct (shrink init j i' ltac:(lia) Hne Hci Ej ltac:(lia) ltac:(lia)) as (segs' & L & N' & C & Ec).
          pose proof (IH segs' i' ltac:(lia) ltac:(lia) ltac:(lia) N' C Ec).
          pose proof (prefix_TP segs' i' ltac:(lia) N' Ec). lra. }
      assert (Ha : adml j x).
      { intros y Hy. unfold lok. assert (Hld : route_load dem (seg geno j x) <= cap * factor)
          by (apply Hcap; apply in_or_app; right; now left).
        replace x with (j + (x - j))%nat in Hld by lia. rewrite (seg_load p geno Hdim Hlen) in Hld by lia.
        replace (j + (x - j))%nat with x in Hld by lia.
        pose proof (Ql_mono p geno Hdim Hlen Hin Hdem y x ltac:(lia)). lra. }
      specialize (R3 k j x ltac:(lia) ltac:(lia) Hx Hall Ha). replace (k + 1)%nat with (S k) in R3 by lia.
      destruct (bc_RP j x ltac:(lia)) as [B _].
      unfold total_penalized in *. rewrite map_app, Qsum_app. cbn [map Qsum]. lra.
  Qed.

  Lemma brows_trace st m : brows st m -> forall k x acc, (k <= m)%nat -> (x <= n)%nat -> (1 <= x \/ k = 0)%nat -> sp_pc st k x < BIG ->
    exists rs, traceback_limited geno st k x acc = (rs ++ acc, 0%nat) /\
      (k <= x)%nat /\ TP rs <= sp_pc st k x + inject_Z (Z.of_nat k) * (pen * qeps).
  Proof.
    intros (R0 & R1 & R2 & R3). induction k as [|k IH]; intros x acc Hk Hx H1 Hb.
    - assert (x = 0)%nat.
      { destruct x; auto. rewrite R0 in Hb. cbn [reset_row0] in Hb. numq. change fbig with BIG in Hb. lra. }
      subst x. exists []. split; auto. split; auto. rewrite R0. cbn [reset_row0]. unfold total_penalized. cbn [map Qsum Z.of_nat]. unfold inject_Z. numq. lra.
    - destruct x as [|x].
      + exfalso. lia.
      + cbn [traceback_limited]. specialize (R2 k (S x) ltac:(lia) ltac:(lia)).
        replace (k + 1)%nat with (S k) in R2 by lia. set (b := sp_pred st (S k) (S x)) in *.
        destruct R2 as [J|(J1 & J2 & J3 & J4 & J5)]; [lra|].
        destruct (IH b (firstn (S x - b) (skipn b geno) :: acc) ltac:(lia) ltac:(lia) ltac:(lia)) as (rs & Er & Hkb & Ht).
        { pose proof huge_big. lra. }
        exists (rs ++ [seg geno b (S x)]). rewrite Er, <- app_assoc. split; [reflexivity|]. split; [lia|].
        destruct (bc_RP b (S x) ltac:(lia)) as [_ B].
        unfold total_penalized in *. rewrite map_app, Qsum_app. cbn [map Qsum]. rewrite inject_S. lra.
  Qed.

  Lemma bellman_limited_optimal (st0 : @split_state NumQ) m rs : (1 <= m)%nat -> (1 <= n)%nat ->
    let st := fold_left (@bellman_layer NumQ p pen geno factor) (seq 0 m)
                    (mkSplit (@reset_all NumQ (sp_pc st0)) (sp_pred st0)) in
    traceback_limited geno st (@cheapest_row NumQ p st m) n [] = (rs, 0%nat) ->
      forall segs, concat segs = geno -> Forall (fun s => s <> []) segs -> (length segs <= m)%nat ->
        (forall r, In r segs -> route_load dem r <= cap * factor) ->
        TP rs <= TP segs + inject_Z (Z.of_nat n) * (pen * qeps).
  Proof.
    intros Hm Hn1 st Et segs Es Hne Hl Hcap. pose proof (bellman_rows st0 m) as HR. fold st in HR.
    destruct (cheapest_spec p geno Hdim Hlen Hn1 st m Hm) as [Hv Hmin]. set (v := cheapest_row p st m) in *.
    assert (Hls : (1 <= length segs)%nat).
    { destruct segs; [|simpl; lia]. simpl in Es. assert (length geno = 0)%nat by now rewrite <- Es. lia. }
    assert (Hlow : sp_pc st (length segs) n <= TP segs).
    { apply (brows_lower st m HR); auto. rewrite Es, <- Hlen. symmetry. apply firstn_all. }
    assert (Hb : TP segs <= HUGE).
    { apply (prefix_TP segs n); auto. rewrite Es, <- Hlen. symmetry. apply firstn_all. }
    specialize (Hmin (length segs) ltac:(lia)). pose proof huge_big as HB.
    destruct (brows_trace st m HR v n [] ltac:(lia) ltac:(lia) ltac:(lia) ltac:(lra)) as (rs' & Er & Hvn & Ht).
    rewrite Et, app_nil_r in Er. injection Er as <-.
    assert (Hi : inject_Z (Z.of_nat v) * (pen * qeps) <= inject_Z (Z.of_nat n) * (pen * qeps)).
    { apply Qmult_le_compat_r.
      - rewrite <- Zle_Qle. lia.
      - assert (H2 : 0 <= qeps) by (unfold qeps; lra). apply (pen_mul_le pen Hpen) in H2. lra. }
    lra.
  Qed.
End Bellman.
