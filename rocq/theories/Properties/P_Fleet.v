(** The chosen fleet (C32): customers of at most a fifth of the capacity always fit, and a fifth is
    the limit. *)
From Coq Require Import List Arith ZArith Bool Lia Permutation QArith Qminmax Lqa.
From Verif.Model Require Import Num Prelude Evaluate Config Split.
From Verif.Spec Require Import Solution.
From Verif.Proofs Require Import Lists QNum Fleet FirstFit.
Import ListNotations.
Open Scope Q_scope.

(** When no customer needs more than a fifth of a vehicle, a feasible solution with the chosen
    fleet exists.  Missing: larger demands, for which it is false (the next theorem). *)
Theorem C32_feasible_exists_fifth_partial (p : @problem NumQ) : 0 < p_cap p -> (1 <= p_dim p)%nat ->
  (forall a, (a < p_dim p)%nat -> 0 <= p_demand p a) ->
  (forall a, (1 <= a < p_dim p)%nat -> p_demand p a <= (1 # 5) * p_cap p) ->
  exists routes, serves_all_once (p_dim p) routes /\ length routes = @initial_num_vehicles NumQ p /\
    within_capacity (p_demand p) (p_cap p) 0 routes.
Proof.
  intros HC HD D0 D5. set (nv := @initial_num_vehicles NumQ p). set (l := seq 1 (p_dim p - 1)). set (rs := first_fit (p_demand p) (p_cap p) l).
  assert (IT : forall a, In a l -> item (p_demand p) (p_cap p) a).
  { intros a Ha. apply in_seq in Ha. split; [apply D0; lia|apply D5; lia]. }
  pose proof (first_fit_good (p_demand p) (p_cap p) HC l IT) as G. pose proof (first_fit_perm (p_demand p) (p_cap p) l) as P. fold rs in G, P.
  assert (LEN : (length rs <= nv)%nat).
  { pose proof (good_filled (p_demand p) (p_cap p) HC rs G) as FI. unfold filled in FI. rewrite (load_perm _ _ _ P) in FI.
    destruct (lower_bound_Q p HC D0) as [A _]. destruct (num_vehicles_Q p) as [V _]. fold nv in V.
    assert (T : route_load (p_demand p) l <= route_load (p_demand p) (seq 0 (p_dim p))).
    { destruct (p_dim p) as [|n] eqn:EN; [lia|]. cbn [seq]. change (0%nat :: seq 1 n) with ([0%nat] ++ seq 1 n).
      rewrite load_app. unfold l. replace (Datatypes.S n - 1)%nat with n by lia.
      assert (0 <= route_load (p_demand p) [0%nat]).
      { unfold route_load. cbn [map Qsum]. assert (0 <= p_demand p 0%nat) by (apply D0; lia). change (@F NumQ) with Q in *. lra. }
      change (@F NumQ) with Q in *. lra. }
    set (m := inject_Z (Z.of_nat (length rs) - Z.of_nat 2)) in *.
    set (t := route_load (p_demand p) (seq 0 (p_dim p))) in *. set (tl := route_load (p_demand p) l) in *. clearbody t tl.
    set (q := p_cap p) in *. set (vl := inject_Z (Z.of_nat (@vehicle_lower_bound NumQ p))) in *. change (@F NumQ) with Q in *.
    assert (X : 0 <= ((6 # 5) * vl - m) * q) by lra.
    assert (Y : m <= (6 # 5) * vl).
    { apply Qnot_lt_le. intro Z. assert (0 < (m - (6 # 5) * vl) * q) by (apply Qmult_lt_0_compat; lra). lra. }
    assert (Z2 : m + inject_Z 2 <= inject_Z (Z.of_nat nv)) by (change (inject_Z 2) with 2; lra).
    unfold m in Z2. rewrite <- inject_Z_plus, <- Zle_Qle in Z2. lia. }
  exists (rs ++ repeat [] (nv - length rs)). split; [|split].
  - unfold serves_all_once. rewrite concat_app.
    assert (concat (repeat (@nil nat) (nv - length rs)) = []) as ->.
    { generalize (nv - length rs)%nat. intros n. induction n; cbn; auto. }
    rewrite app_nil_r. exact P.
  - rewrite app_length, repeat_length. lia.
  - intros r Hr. change (@F NumQ) with Q in *. apply in_app_or in Hr as [Hr|Hr].
    + destruct G as [G _]. destruct (G r Hr) as (_ & LE & _). lra.
    + apply repeat_spec in Hr as ->. change (route_load (p_demand p) []) with 0. lra.
Qed.
Print Assumptions C32_feasible_exists_fifth_partial.

Local Lemma crowded k (rs : list (list nat)) : (k * length rs < length (concat rs))%nat -> exists r, In r rs /\ (k < length r)%nat.
Proof.
  induction rs as [|r rs IH]; cbn [concat length]; [lia|]. rewrite app_length. intros H.
  destruct (le_lt_dec (length r) k) as [L|L]; [|exists r; split; [now left|exact L]].
  destruct IH as (r' & H1 & H2); [lia|]. exists r'. split; [now right|exact H2].
Qed.

(** The fifth cannot be replaced by any larger part: 1200 customers of a little more than a fifth of
    the capacity need 300 vehicles, and the fleet has at most 299. *)
Definition fifths (cap : Q) : @problem NumQ := @mkProblem NumQ 1201 (fun _ _ => 1) (fun i => if (i =? 0)%nat then 0 else (1 # 5) * cap + 1)
  (fun _ => (0, 0)) cap (fun _ => []) (fun _ _ => 0) (fun _ => 0) (fun _ => 0) (fun _ => 0%Z).
Theorem C32_fifth_refuted (part : Q) : 1 # 5 < part ->
  exists p : @problem NumQ, 0 < p_cap p /\ p_demand p 0%nat == 0 /\
    (forall a, (1 <= a < p_dim p)%nat -> 0 <= p_demand p a <= part * p_cap p) /\
    ~ exists routes, serves_all_once (p_dim p) routes /\ (length routes <= @initial_num_vehicles NumQ p)%nat /\
        within_capacity (p_demand p) (p_cap p) (1 # 1000000) routes.
Proof.
  intros HP. set (d := Qmin (part - (1 # 5)) (1 # 200)).
  assert (D1 : d <= part - (1 # 5)) by apply Q.le_min_l. assert (D2 : d <= 1 # 200) by apply Q.le_min_r.
  assert (D0 : 0 < d). { unfold d. destruct (Q.min_spec (part - (1 # 5)) (1 # 200)) as [[_ E]|[_ E]]; rewrite E; lra. }
  clearbody d. set (cap := / d). assert (DC : d * cap == 1) by (apply Qmult_inv_r; lra).
  assert (C0 : 0 < cap) by (apply Qinv_lt_0_compat; exact D0). clearbody cap.
  assert (C200 : 200 <= cap).
  { assert (0 <= ((1 # 200) - d) * cap) by (apply Qmult_le_0_compat; lra). lra. }
  exists (fifths cap). cbn [fifths p_cap p_demand p_dim]. split; [exact C0|]. split; [reflexivity|]. split.
  { intros a Ha. destruct (Nat.eqb_spec a 0); [lia|]. assert (0 <= (part - (1 # 5) - d) * cap) by (apply Qmult_le_0_compat; lra). split; lra. }
  intros (rs & S & LE & W).
  assert (NV : (@initial_num_vehicles NumQ (fifths cap) <= 299)%nat).
  { assert (P0 : forall a, (a < p_dim (fifths cap))%nat -> 0 <= p_demand (fifths cap) a).
    { intros a _. cbn [fifths p_demand]. destruct (a =? 0)%nat; lra. }
    destruct (lower_bound_Q (fifths cap) C0 P0) as [_ A]. destruct (num_vehicles_Q (fifths cap)) as [_ V].
    pose proof (load_high (p_demand (fifths cap)) (seq 0 (p_dim (fifths cap))) ((1 # 5) * cap + 1)) as T.
    assert (T1 : forall a, In a (seq 0 (p_dim (fifths cap))) -> p_demand (fifths cap) a <= (1 # 5) * cap + 1).
    { intros a _. cbn [fifths p_demand]. destruct (a =? 0)%nat; lra. }
    specialize (T T1). rewrite seq_length in T. cbn [fifths p_dim p_cap] in A, T. change (inject_Z (Z.of_nat 1201)) with 1201 in T.
    set (t := route_load _ _) in *. clearbody t. set (lb := inject_Z _) in A at 1. set (lb' := inject_Z _) in V at 2. change lb' with lb in V. clear lb'.
    assert (L1 : (lb - 248) * cap < 0) by lra.
    assert (L2 : lb < 248). { apply Qnot_le_lt. intro X. assert (0 <= (lb - 248) * cap) by (apply Qmult_le_0_compat; lra). lra. }
    assert (L3 : lb <= 247).
    { unfold lb in *. change 248 with (inject_Z 248) in L2. rewrite <- Zlt_Qlt in L2. change 247 with (inject_Z 247). rewrite <- Zle_Qle. lia. }
    assert (V2 : inject_Z (Z.of_nat (@initial_num_vehicles NumQ (fifths cap))) < inject_Z 300) by (change (inject_Z 300) with 300; lra).
    rewrite <- Zlt_Qlt in V2. lia. }
  unfold serves_all_once in S. pose proof (Permutation_length S) as PL. rewrite seq_length in PL.
  destruct (crowded 4 rs) as (r & Hr & L5); [lia|]. specialize (W r Hr).
  assert (IN : forall a, In a r -> a <> 0%nat).
  { intros a Ha. assert (In a (concat rs)) by (apply in_concat; eauto). apply (Permutation_in _ S) in H. apply in_seq in H. lia. }
  pose proof (load_low (fun i => if (i =? 0)%nat then 0 else (1 # 5) * cap + 1) r ((1 # 5) * cap + 1)) as X.
  assert (X1 : forall a, In a r -> (1 # 5) * cap + 1 <= (if (a =? 0)%nat then 0 else (1 # 5) * cap + 1)).
  { intros a Ha. destruct (Nat.eqb_spec a 0) as [E|_]; [now destruct (IN a Ha)|lra]. }
  specialize (X X1).
  assert (Y : inject_Z 5 * ((1 # 5) * cap + 1) <= inject_Z (Z.of_nat (length r)) * ((1 # 5) * cap + 1)).
  { apply Qmult_le_compat_r; [rewrite <- Zle_Qle; lia|lra]. }
  change (inject_Z 5) with 5 in Y. change (@F NumQ) with Q in *. lra.
Qed.
Print Assumptions C32_fifth_refuted.

(** Demands of exactly a fifth meet the hypothesis; the fleet of 2 + 6/5 * 3 vehicles suffices. *)
Definition fl_p : @problem NumQ := @mkProblem NumQ 14 (fun _ _ => 1) (fun i => if (i =? 0)%nat then 0 else if (i <? 7)%nat then 20 else 17)
  (fun _ => (0, 0)) 100 (fun _ => []) (fun _ _ => 0) (fun _ => 0) (fun _ => 0) (fun _ => 0%Z).
Example C32_fifth_applies : @initial_num_vehicles NumQ fl_p = 6%nat /\
  exists routes, serves_all_once 14 routes /\ length routes = 6%nat /\ within_capacity (p_demand fl_p) 100 0 routes.
Proof.
  assert (E : @initial_num_vehicles NumQ fl_p = 6%nat) by (vm_compute; reflexivity). split; [exact E|].
  rewrite <- E. apply (C32_feasible_exists_fifth_partial fl_p); cbn [fl_p p_cap p_dim p_demand]; try lia; try lra.
  - intros a _. destruct (a =? 0)%nat; [lra|]. destruct (a <? 7)%nat; lra.
  - intros a Ha. destruct (Nat.eqb_spec a 0); [lia|]. destruct (a <? 7)%nat; lra.
Qed.
