(** The number of vehicles: lower bound, next-fit packing, pigeonhole. *)
From Coq Require Import List Arith ZArith Bool Lia Permutation QArith Qround Lqa.
From Verif.Model Require Import Num Prelude Evaluate Individual Config Split.
From Verif.Spec Require Import Solution.
From Verif.Proofs Require Import Lists QNum EvalFacts.
Import ListNotations.
Open Scope nat_scope.

Section Fleet.
  Local Open Scope Q_scope.
  Local Notation nat2Q n := (inject_Z (Z.of_nat n)).

  Lemma total_demand_Q (p : @problem NumQ) : @total_demand NumQ p == route_load (p_demand p) (seq 0 (p_dim p)).
  Proof.
    unfold total_demand, route_load. pose proof (fold_add_Q (p_demand p) (p_demand p) (seq 0 (p_dim p)) (fun _ _ => Qeq_refl _) 0) as H.
    numq. rewrite H. ring.
  Qed.

  Lemma Qsum_nonneg l : (forall x, In x l -> 0 <= x) -> 0 <= Qsum l.
  Proof. induction l as [|a l IH]; intros H; cbn; [lra|]. assert (0 <= a) by (apply H; now left).
    assert (0 <= Qsum l) by (apply IH; intros; apply H; now right). lra. Qed.

  Lemma ceil_nat (x : Q) : 0 <= x -> x <= nat2Q (Z.to_nat (Qceiling x)) /\ nat2Q (Z.to_nat (Qceiling x)) < x + 1.
  Proof.
    intros H. pose proof (Qle_ceiling x) as A. pose proof (Qceiling_lt x) as B.
    assert (0 <= Qceiling x)%Z.
    { apply Z.le_trans with (Qceiling 0); [discriminate|]. now apply Qceiling_resp_le. }
    rewrite Z2Nat.id by lia. split; auto. unfold Z.sub in B. rewrite inject_Z_plus in B. change (inject_Z (- (1))) with (-(1)) in B. lra.
  Qed.

  Lemma lower_bound_Q (p : @problem NumQ) : 0 < p_cap p -> (forall a, (a < p_dim p)%nat -> 0 <= p_demand p a) ->
    let total := route_load (p_demand p) (seq 0 (p_dim p)) in
    let lb := nat2Q (@vehicle_lower_bound NumQ p) in
    total <= lb * p_cap p /\ lb * p_cap p < total + p_cap p.
  Proof.
    intros HC HD. cbv zeta. unfold vehicle_lower_bound.
    set (t := @total_demand NumQ p). pose proof (total_demand_Q p) as ET. fold t in ET. rewrite <- ET.
    assert (T0 : 0 <= t).
    { rewrite ET. apply Qsum_nonneg. intros x Hx. apply in_map_iff in Hx as (a & <- & Ha). apply HD. apply in_seq in Ha. lia. }
    clearbody t. numq. set (q := p_cap p) in *. clearbody q. change (@F NumQ) with Q in *.
    destruct (ceil_nat (t / q)) as [A B].
    { apply Qle_shift_div_l; lra. }
    set (lb := nat2Q (Z.to_nat (Qceiling (t / q)))) in *. clearbody lb.
    assert (EQ : t == t / q * q) by (field; lra). set (z := t / q) in *. clearbody z. split.
    - rewrite EQ. apply Qmult_le_compat_r; lra.
    - rewrite EQ. assert (0 < (z + 1 - lb) * q) by (apply Qmult_lt_0_compat; lra). lra.
  Qed.

  Lemma num_vehicles_Q (p : @problem NumQ) :
    let lb := nat2Q (@vehicle_lower_bound NumQ p) in let nv := nat2Q (@initial_num_vehicles NumQ p) in
    (6 # 5) * lb + 2 <= nv /\ nv < (6 # 5) * lb + 3.
  Proof.
    cbv zeta. unfold initial_num_vehicles. set (n := @vehicle_lower_bound NumQ p). clearbody n.
    assert (L0 : 0 <= nat2Q n) by (change 0 with (nat2Q 0); rewrite <- Zle_Qle; lia).
    numq. destruct (ceil_nat ((6 # 5) * nat2Q n + (2 # 1))) as [A B]; [lra|]. split; lra.
  Qed.

  Lemma load_app (dem : nat -> Q) a b : route_load dem (a ++ b) == route_load dem a + route_load dem b.
  Proof. unfold route_load. induction a as [|x a IH]; cbn; [ring|]. rewrite IH. ring. Qed.

  Lemma load_perm (dem : nat -> Q) a b : Permutation a b -> route_load dem a == route_load dem b.
  Proof.
    unfold route_load. induction 1 as [|x a b _ IH|x y a|a b c _ IH1 _ IH2]; cbn; [ring|rewrite IH; ring|ring|now rewrite IH1].
  Qed.

  Lemma load_concat_le (dem : nat -> Q) (k : Q) rs : (forall r, In r rs -> route_load dem r <= k) ->
    route_load dem (concat rs) <= nat2Q (length (used_routes rs)) * k.
  Proof.
    induction rs as [|r rs IH]; intros H; [change (0 <= 0 * k); lra|]. cbn [concat].
    rewrite load_app. assert (I : route_load dem (concat rs) <= nat2Q (length (used_routes rs)) * k)
      by (apply IH; intros; apply H; now right).
    unfold used_routes in *. cbn [filter]. destruct r as [|a r].
    - change (route_load dem []) with 0. lra.
    - assert (route_load dem (a :: r) <= k) by (apply H; now left). cbn [length].
      rewrite Nat2Z.inj_succ, <- Z.add_1_r, inject_Z_plus. change (inject_Z 1) with 1. lra.
  Qed.

  (** Next fit. *)
  Fixpoint next_fit (dem : nat -> Q) (k : Q) (cur l : list nat) : list (list nat) :=
    match l with
    | [] => [cur]
    | a :: t => if Qle_bool (route_load dem (cur ++ [a])) k then next_fit dem k (cur ++ [a]) t
                else cur :: next_fit dem k [a] t
    end.

  Lemma next_fit_concat dem k l : forall cur, concat (next_fit dem k cur l) = cur ++ l.
  Proof.
    induction l as [|a l IH]; intros cur; cbn [next_fit]; [cbn; reflexivity|].
    destruct (Qle_bool _ _); [rewrite IH, <- app_assoc; reflexivity|]. cbn [concat]. now rewrite IH.
  Qed.

  Lemma next_fit_fits dem k l : (forall a, In a l -> dem a <= k) -> forall cur, route_load dem cur <= k ->
    forall r, In r (next_fit dem k cur l) -> route_load dem r <= k.
  Proof.
    induction l as [|a l IH]; intros H cur HC r; cbn [next_fit]; [intros [<-|[]]; auto|].
    destruct (Qle_bool _ _) eqn:Q1.
    - apply IH; [intros; apply H; now right|]. now apply Qle_bool_iff.
    - intros [<-|HR]; auto. revert HR. apply IH; [intros; apply H; now right|].
      unfold route_load. cbn. assert (dem a <= k) by (apply H; now left). lra.
  Qed.

  Lemma next_fit_full dem k s l : (forall a, In a l -> dem a <= s) -> forall cur, (forall a, In a (cur ++ l) -> 0 <= dem a) ->
    nat2Q (length (next_fit dem k cur l) - 1) * (k - s) <= route_load dem (cur ++ l) /\ (1 <= length (next_fit dem k cur l))%nat.
  Proof.
    intros HS. induction l as [|a l IH]; intros cur H0; cbn [next_fit].
    - split; [|cbn; lia]. change (nat2Q (length [cur] - 1)) with 0. rewrite app_nil_r.
      assert (0 <= route_load dem cur); [|lra].
      apply Qsum_nonneg. intros x Hx. apply in_map_iff in Hx as (b & <- & Hb). apply H0. now rewrite app_nil_r.
    - destruct (Qle_bool _ _) eqn:Q1.
      + change (cur ++ a :: l) with (cur ++ [a] ++ l). rewrite app_assoc. apply IH; [intros; apply HS; now right|]. intros b Hb. apply H0. now rewrite <- app_assoc in Hb.
      + destruct (IH (fun b Hb => HS b (or_intror Hb)) [a]) as [I1 I2]; [intros b Hb; apply H0, in_or_app; now right|]. split; [|cbn; lia].
        cbn [length]. replace (S (length (next_fit dem k [a] l)) - 1)%nat with (S (length (next_fit dem k [a] l) - 1)) by lia.
        rewrite Nat2Z.inj_succ, <- Z.add_1_r, inject_Z_plus. change (inject_Z 1) with 1.
        rewrite load_app. change (a :: l) with ([a] ++ l).
        assert (k < route_load dem cur + dem a).
        { apply Qnot_le_lt. intro X. assert (Y : Qle_bool (route_load dem (cur ++ [a])) k = true); [|congruence].
          apply Qle_bool_iff. rewrite load_app. unfold route_load at 2. cbn. lra. }
        assert (dem a <= s) by (apply HS; now left). lra.
  Qed.
End Fleet.

(** Pigeonhole: more elements than boxes. *)
Lemma pigeon {A} (rs : list (list A)) : length rs < length (concat rs) -> exists r, In r rs /\ 2 <= length r.
Proof.
  induction rs as [|r rs IH]; cbn [concat length]; [lia|]. rewrite app_length. intros H.
  destruct (le_lt_dec 2 (length r)) as [G|G]; [exists r; split; [now left|auto]|].
  destruct IH as (x & Hx & L); [lia|]. exists x. split; [now right|auto].
Qed.
