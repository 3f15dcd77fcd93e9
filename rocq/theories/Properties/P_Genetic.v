(** The genetic algorithm: what it records, when it stops, penalties, fleet, restarts
    (C01 - C04, C31 - C34, C40, C49, C51). *)
From Coq Require Import List Arith NArith ZArith Bool Lia Permutation QArith Qabs Qround Lqa.
From Verif.Model Require Import Num Prelude Evaluate Individual Config Crossover Split Matrix Population LocalSearch
  World Schedule RuinRecreate Genetic.
From Verif.Spec Require Import Solution Library Population LocalSearch RuinRecreate Genetic.
From Verif.Proofs Require Import Lists QNum EvalFacts EvalThms CrossoverFacts PopFacts RustLib MatrixFacts RrQ GaInv GaQ GaClock LsRunQ Fleet.
From Verif.Properties Require Import ExampleData P_Population P_LocalSearch P_RuinRecreate.
Import ListNotations.
Open Scope nat_scope.

Local Notation reached L p c E li md fuel := (ga_reached L p c E li md fuel).

(** ** C01 *)

(** Any arithmetic: every individual that was ever recorded serves all customers once, and so do
    the routes of the entry that is printed. *)
Theorem C01_recorded_complete (N : Num) L p c E li md fuel w0 g w :
  lib_ok L -> run_ok p c md -> set_up p md w0 -> reached L p c E li md fuel w0 g w ->
  (exists is, recorded hist_new is (w_hist w) /\ Forall (fun i => serves_all_once (p_dim p) (i_pheno i)) is) /\
  (forall e, reported (w_hist w) e -> serves_all_once (p_dim p) (he_routes e)).
Proof.
  intros LO RO SU R. pose proof (records_complete L LO p c E li md fuel RO w0 g w SU R) as (is & RE & FA).
  split; [eauto|]. intros e RP. unfold recorded in RE. rewrite RE in RP.
  apply reported_last in RP as (l & i & -> & ->). apply Forall_app in FA as [_ FA]. now inversion FA.
Qed.
Print Assumptions C01_recorded_complete.

(** Exact arithmetic: for every usual instance. *)
Theorem C01_recorded_complete_exact L (p : @problem NumQ) (c : @config NumQ) E li md fuel w0 g w :
  lib_ok L -> instance_ok p c -> set_up p md w0 -> reached L p c E li md fuel w0 g w ->
  forall e, reported (w_hist w) e -> serves_all_once (p_dim p) (he_routes e).
Proof.
  intros LO IO SU R e RP. pose proof (reached_records L LO p c E li md fuel IO w0 g w SU R) as I.
  destruct (gb_hist _ _ _ _ _ _ _ _ (in_base _ _ _ _ _ _ _ _ _ _ _ _ I)) as (is & RE & FA & _).
  unfold recorded in RE. rewrite RE in RP. apply reported_last in RP as (l & i & -> & ->).
  apply Forall_app in FA as [_ FA]. inversion FA as [|? ? (S & _) _]; subst. exact S.
Qed.
Print Assumptions C01_recorded_complete_exact.

Section Exact.
Variable L : lib.
Variable p : @problem NumQ.
Variable c : @config NumQ.
Variable E : @env NumQ.
Variable li : nat.
Variable md : option (@F NumQ).
Variable fuel : nat.
Local Notation d := (p_dist p).
Local Notation dem := (p_demand p).
Local Notation cap := (p_cap p).

Local Lemma exact_records w0 g w :
  lib_ok L -> instance_ok p c -> set_up p md w0 -> reached L p c E li md fuel w0 g w ->
  records p c (ga_best_sol g) (w_hist w).
Proof.
  intros LO IO SU R. pose proof (reached_records L LO p c E li md fuel IO w0 g w SU R) as I.
  exact (gb_hist _ _ _ _ _ _ _ _ (in_base _ _ _ _ _ _ _ _ _ _ _ _ I)).
Qed.

(** ** C02 *)
Theorem C02_recorded_within_capacity w0 g w :
  lib_ok L -> instance_ok p c -> set_up p md w0 -> reached L p c E li md fuel w0 g w ->
  (exists is, recorded hist_new is (w_hist w) /\ Forall (fun i => within_capacity dem cap (1 # 1000000) (i_pheno i)) is) /\
  (forall e, reported (w_hist w) e -> within_capacity dem cap (1 # 1000000) (he_routes e)).
Proof.
  intros LO IO SU R. destruct (exact_records w0 g w LO IO SU R) as (is & RE & FA & _).
  split.
  - exists is. split; auto. eapply Forall_impl; [|exact FA]. intros i (_ & X & _). exact X.
  - intros e RP. unfold recorded in RE. rewrite RE in RP. apply reported_last in RP as (l & i & -> & ->).
    apply Forall_app in FA as [_ FA]. inversion FA as [|? ? (_ & X & _) _]; subst. exact X.
Qed.

(** ** C03 *)
Local Open Scope Q_scope.

Local Lemma penalized_bounds pen (rs : list (list nat)) : 0 <= pen -> within_capacity dem cap (1 # 1000000) rs ->
  total_length d rs <= total_penalized d dem cap pen rs /\
  total_penalized d dem cap pen rs <= total_length d rs + pen * (1 # 1000000) * inject_Z (Z.of_nat (length rs)).
Proof.
  intros P. unfold total_length, total_penalized. induction rs as [|r rs IH]; intros W.
  - cbn [map Qsum length]. change (inject_Z (Z.of_nat 0)) with 0. split; lra.
  - cbn [map Qsum length]. destruct IH as [I1 I2]; [intros x Hx; apply W; now right|].
    assert (X : 0 <= Qpos (route_load dem r - cap) /\ Qpos (route_load dem r - cap) <= 1 # 1000000).
    { assert (route_load dem r <= cap + (1 # 1000000)) by (apply W; now left).
      unfold Qpos. destruct (Qle_bool (route_load dem r - cap) 0) eqn:EL; [split; lra|].
      assert (~ route_load dem r - cap <= 0) by (intros Z; apply Qle_bool_iff in Z; congruence). split; lra. }
    destruct X as [X1 X2].
    change (route_penalized d dem cap pen r) with (route_length d r + pen * Qpos (route_load dem r - cap)).
    set (q := Qpos (route_load dem r - cap)) in *. clearbody q.
    pose proof (Qmult_le_0_compat _ _ P X1) as Y1.
    assert (Y2 : pen * q <= pen * (1 # 1000000)).
    { assert (0 <= pen * ((1 # 1000000) - q)) by (apply Qmult_le_0_compat; lra). lra. }
    rewrite Nat2Z.inj_succ, <- Z.add_1_r, inject_Z_plus. change (inject_Z 1) with 1.
    split; lra.
Qed.

(** The recorded cost is the penalised cost under a penalty in use when it was found; it lies
    between the length of the routes and that length plus the penalty for overloads below 1e-6. *)
Theorem C03_recorded_cost w0 g w :
  lib_ok L -> instance_ok p c -> set_up p md w0 -> reached L p c E li md fuel w0 g w ->
  exists is, recorded hist_new is (w_hist w) /\
    Forall (fun i => exists pen v : Q,
      0 <= pen /\ (c_elite_education c = false -> pen <= inject_Z (10 ^ 7)) /\
      penalized_cost i = Some (v : @F NumQ) /\ v == total_penalized d dem cap pen (i_pheno i) /\
      total_length d (i_pheno i) <= v /\
      v <= total_length d (i_pheno i) + pen * (1 # 1000000) * inject_Z (Z.of_nat (length (i_pheno i)))) is.
Proof.
  intros LO IO SU R. destruct (exact_records w0 g w LO IO SU R) as (is & RE & FA & _).
  exists is. split; auto. eapply Forall_impl; [|exact FA]. intros i (_ & W & pen & v & [P1 P2] & EV & TV).
  exists pen, v. destruct (penalized_bounds pen (i_pheno i) P1 W) as [B1 B2].
  split; [exact P1|]. split; [exact P2|]. split; auto. split; auto. change (@F NumQ) with Q in *. split; lra.
Qed.

Definition integral (x : Q) : Prop := exists z : Z, x == inject_Z z.

Local Lemma integral_load r : (forall a, (a < p_dim p)%nat -> integral (dem a)) -> (forall a, In a r -> (a < p_dim p)%nat) ->
  integral (route_load dem r).
Proof.
  intros HI. unfold route_load. induction r as [|a r IH]; intros HA; [exists 0%Z; reflexivity|].
  destruct IH as [z Z1]; [intros; apply HA; now right|]. destruct (HI a) as [y Y]; [apply HA; now left|].
  exists (y + z)%Z. cbn [map Qsum]. rewrite inject_Z_plus, Z1, Y. reflexivity.
Qed.

Lemma integral_capacity (rs : list (list nat)) : (forall a, (a < p_dim p)%nat -> integral (dem a)) -> integral cap ->
  serves_all_once (p_dim p) rs -> within_capacity dem cap (1 # 1000000) rs -> forall r, In r rs -> route_load dem r <= cap.
Proof.
  intros HI [zc HC] S W r Hr. destruct (integral_load r HI) as [z Z].
  { intros a Ha. assert (In a (concat rs)) by (apply in_concat; eauto).
    eapply Permutation_in in H; [|exact S]. apply in_seq in H. lia. }
  pose proof (W r Hr) as HW. rewrite Z, HC in HW. rewrite Z, HC. rewrite <- Zle_Qle.
  apply Z.lt_succ_r. rewrite Zlt_Qlt, <- Z.add_1_r, inject_Z_plus. change (inject_Z 1) with 1. lra.
Qed.
Lemma integral_within (pen : Q) (rs : list (list nat)) : (forall a, (a < p_dim p)%nat -> integral (dem a)) -> integral cap ->
  serves_all_once (p_dim p) rs -> within_capacity dem cap (1 # 1000000) rs ->
  total_penalized d dem cap pen rs == total_length d rs.
Proof.
  intros HI HC S W. pose proof (integral_capacity rs HI HC S W) as HL.
  clear -HL. unfold total_penalized, total_length. induction rs as [|r rs IH]; cbn [map Qsum]; [reflexivity|].
  rewrite IH by (intros; apply HL; now right). unfold route_penalized, Qpos.
  assert (EB : Qle_bool (route_load dem r - cap) 0 = true).
  { apply Qle_bool_iff. assert (route_load dem r <= cap) by (apply HL; now left). lra. }
  rewrite EB. ring.
Qed.
Lemma integral_exact A is (h : @history NumQ) : recorded hist_new is h -> Forall (record_under p A) is ->
  (forall a, (a < p_dim p)%nat -> integral (dem a)) -> integral cap ->
  forall e, reported h e ->
    (forall r, In r (he_routes e) -> route_load dem r <= cap) /\
    exists v : Q, he_cost e = Some (v : @F NumQ) /\ v == total_length d (he_routes e).
Proof.
  intros RE FA HI HC e RP.
  unfold recorded in RE. rewrite RE in RP. apply reported_last in RP as (l & i & -> & ->).
  apply Forall_app in FA as [_ FA]. inversion FA as [|? ? (S & W & pen & v & _ & EV & TV) _]; subst.
  cbn [he_routes he_cost]. split; [exact (integral_capacity (i_pheno i) HI HC S W)|].
  exists v. split; [exact EV|]. rewrite TV. exact (integral_within pen (i_pheno i) HI HC S W).
Qed.

(** With integral demands and capacity every recorded solution respects the capacity exactly and
    the recorded cost is exactly the length of the routes. *)
Theorem C03_recorded_cost_integral w0 g w :
  lib_ok L -> instance_ok p c -> set_up p md w0 -> reached L p c E li md fuel w0 g w ->
  (forall a, (a < p_dim p)%nat -> integral (dem a)) -> integral cap ->
  forall e, reported (w_hist w) e ->
    (forall r, In r (he_routes e) -> route_load dem r <= cap) /\
    exists v : Q, he_cost e = Some (v : @F NumQ) /\ v == total_length d (he_routes e).
Proof.
  intros LO IO SU R HI HC. destruct (exact_records w0 g w LO IO SU R) as (is & RE & FA & _).
  exact (integral_exact _ is (w_hist w) RE FA HI HC).
Qed.

(** ** C04 *)

Lemma entries_improve is (h : @history NumQ) : recorded hist_new is h -> improving is ->
  (forall l1 a b l2, h_entries h = l1 ++ a :: b :: l2 -> exists x y : Q,
     he_cost a = Some (x : @F NumQ) /\ he_cost b = Some (y : @F NumQ) /\ y < x - (1 # 1000000) /\ he_routes a = []) /\
  (h_entries h = [] -> h_best h = None) /\
  (forall e, reported h e -> h_best h = he_cost e).
Proof.
  intros RE IM.
  unfold recorded in RE. rewrite RE. destruct is as [|i is] using rev_ind.
  - cbn. split; [intros [|? ?]; discriminate|]. split; auto. intros e (l & X). cbn in X. destruct l; discriminate.
  - clear IHis. split; [|split].
    + intros l1 a b l2 EQ. rewrite recorded_entries in EQ.
      assert (MC : map he_cost (l1 ++ a :: b :: l2) = map penalized_cost (is ++ [i])).
      { rewrite <- EQ, !map_app, map_map. reflexivity. }
      assert (SP : exists m1 ia ib m2, is ++ [i] = m1 ++ ia :: ib :: m2 /\ he_cost a = penalized_cost ia /\ he_cost b = penalized_cost ib).
      { clear -MC. revert MC. generalize (is ++ [i]) as m. intros m. revert l1.
        induction m as [|x m IH]; intros l1 MC; [destruct l1; discriminate|]. destruct l1 as [|y l1].
        - cbn in MC. injection MC as M1 M2. destruct m as [|z m]; [discriminate|]. injection M2 as M2 _.
          exists [], x, z, m. auto.
        - cbn in MC. injection MC as _ MC. destruct (IH l1 MC) as (m1 & ia & ib & m2 & -> & Q1 & Q2).
          exists (x :: m1), ia, ib, m2. auto. }
      destruct SP as (m1 & ia & ib & m2 & EI & CA & CB). destruct (IM _ _ _ _ EI) as (x & y & X & Y & LT).
      exists x, y. rewrite CA, CB. split; auto. split; auto. split; auto.
      assert (IN : In a (map (fun j => mkEntry [] (penalized_cost j)) is)).
      { destruct l2 as [|z l2] using rev_ind.
        - change (l1 ++ [a; b]) with (l1 ++ [a] ++ [b]) in EQ. rewrite app_assoc in EQ. apply app_inj_tail in EQ as [-> _].
          apply in_or_app. right. now left.
        - rewrite app_comm_cons, app_comm_cons, app_assoc in EQ. apply app_inj_tail in EQ as [-> _].
          apply in_or_app. right. now left. }
      apply in_map_iff in IN as (j & <- & _). reflexivity.
    + rewrite recorded_entries. intro X. apply app_eq_nil in X as [_ X]. discriminate.
    + intros e RP. apply reported_last in RP as (l & j & EQ & ->). apply app_inj_tail in EQ as [<- <-].
      rewrite recorded_best. reflexivity.
Qed.

(** The costs decrease by more than 1e-6 each time, the best cost is the last one, and every
    entry but the last has lost its routes. *)
Theorem C04_recorded_improve w0 g w :
  lib_ok L -> instance_ok p c -> set_up p md w0 -> reached L p c E li md fuel w0 g w ->
  (forall l1 a b l2, h_entries (w_hist w) = l1 ++ a :: b :: l2 -> exists x y : Q,
     he_cost a = Some (x : @F NumQ) /\ he_cost b = Some (y : @F NumQ) /\ y < x - (1 # 1000000) /\ he_routes a = []) /\
  (h_entries (w_hist w) = [] -> h_best (w_hist w) = None) /\
  (forall e, reported (w_hist w) e -> h_best (w_hist w) = he_cost e).
Proof.
  intros LO IO SU R. destruct (exact_records w0 g w LO IO SU R) as (is & RE & FA & IM & _).
  exact (entries_improve is (w_hist w) RE IM).
Qed.
Close Scope Q_scope.

(** ** C51: no panics *)

(** In exact arithmetic, with sensible sizes in the configuration, no call of [iterate] panics or
    reads out of bounds; a result other than a new state is an exhausted loop bound. *)
Theorem C51_no_panic w0 g w :
  lib_ok L -> instance_ok p c ->
  1 <= c_num_diversity_closest c -> 1 <= c_min_population_size c ->
  1 <= c_initial_individuals c -> 1 <= c_tournament_size c ->
  set_up p md w0 -> reached L p c E li md fuel w0 g w ->
  (exists g' w', ga_iterate L p c E li md fuel g w = Ok (g', w')) \/ ga_iterate L p c E li md fuel g w = Err EFuel.
Proof.
  intros LO IO F1 F2 F3 F4 SU R. pose proof (reached_records L LO p c E li md fuel IO w0 g w SU R) as I.
  assert (S : safe p c (exact_route p) (allowedQ c) True (ga_iterate L p c E li md fuel g w) (fun _ => True)).
  { eapply safe_weaken.
    - apply (exact_step L LO p c E li md fuel IO (records p c)); [|exact (records_rr p c (allowedQ c) (rr_used c))|exact I].
      intros pen b h i. apply (records_ga p (allowedQ c) (rr_used c) pen b h i).
    - auto. }
  destruct (ga_iterate L p c E li md fuel g w) as [[g' w']|e]; [left; eauto|right]. f_equal. apply S.
  apply (fineQ p c IO). now constructor.
Qed.
End Exact.
Print Assumptions C02_recorded_within_capacity.
Print Assumptions C03_recorded_cost.
Print Assumptions C03_recorded_cost_integral.
Print Assumptions C04_recorded_improve.
Print Assumptions C51_no_panic.

(** ** C31 *)
Section Penalty.
Local Open Scope Q_scope.

(** The share of feasible individuals in a list of verdicts. *)
Definition share (l : list bool) : Q :=
  inject_Z (Z.of_nat (length (filter (fun b => b) l))) / inject_Z (Z.of_nat (length l)).

(** Exact arithmetic: an update leaves the penalty in [0.0001, 10^7]; it is the old one times the
    increasing (decreasing) multiplier, clamped, when the share of feasible individuals is too low
    (too high), and the old one, clamped, otherwise. *)
Theorem C31_update L (p : @problem NumQ) (c : @config NumQ) (g g' : @ga NumQ) (w w' : @world NumQ) :
  update_penalty L p c g w = Ok (g', w') ->
  let low := 1 # 10000 in let high := inject_Z (10 ^ 7) in
  let target := c_feasibility_proportion_target c in
  let f := share (po_hist (ga_pop g)) in
  let pen : Q := w_pen w in let pen' : Q := w_pen w' in
  (low <= pen' /\ pen' <= high) /\
  (f < target - (5 # 100) -> let q := pen * c_penalty_inc_multiplier c in
     (q <= low -> pen' == low) /\ (high <= q -> pen' == high) /\ (low <= q -> q <= high -> pen' == q)) /\
  (target + (5 # 100) < f -> let q := pen * c_penalty_dec_multiplier c in
     (q <= low -> pen' == low) /\ (high <= q -> pen' == high) /\ (low <= q -> q <= high -> pen' == q)) /\
  (target - (5 # 100) <= f -> f <= target + (5 # 100) -> low <= pen -> pen <= high -> pen' == pen).
Proof.
  intros G. cbv zeta.
  assert (EW : w_pen w' = @clamp_penalty NumQ
    (if Qltb (share (po_hist (ga_pop g))) (c_feasibility_proportion_target c - (5 # 100)) then (w_pen w * c_penalty_inc_multiplier c)%Q
     else if Qltb (c_feasibility_proportion_target c + (5 # 100)) (share (po_hist (ga_pop g)))
          then (w_pen w * c_penalty_dec_multiplier c)%Q else w_pen w)).
  { unfold update_penalty in G. destruct (pop_reevaluate _ _ _ _) as [po|]; [|discriminate]. cbn [rbind] in G. injection G as <- <-.
    reflexivity. }
  rewrite EW. clear EW G. set (f := share (po_hist (ga_pop g))). clearbody f.
  set (t := c_feasibility_proportion_target c). set (mi := c_penalty_inc_multiplier c).
  set (mdec := c_penalty_dec_multiplier c). set (pen := w_pen w). clearbody t mi mdec pen. change (@F NumQ) with Q in *.
  assert (CL : forall x : Q, let y : Q := @clamp_penalty NumQ x in
    ((1 # 10000) <= y /\ y <= inject_Z (10 ^ 7)) /\ (x <= 1 # 10000 -> y == 1 # 10000) /\
    (inject_Z (10 ^ 7) <= x -> y == inject_Z (10 ^ 7)) /\ ((1 # 10000) <= x -> x <= inject_Z (10 ^ 7) -> y == x)).
  { intros x. cbv zeta. unfold clamp_penalty. change (inject_Z (10 ^ 7)) with (10000000 # 1). numq.
    destruct (Qminb_spec (10000000 # 1) x) as [[? ->]|[? ->]];
    match goal with |- context [Qmaxb ?a ?b] => destruct (Qmaxb_spec a b) as [[? ->]|[? ->]] end;
    repeat split; intros; lra. }
  destruct (Qltb f (t - (5 # 100))) eqn:E1; [|destruct (Qltb (t + (5 # 100)) f) eqn:E2]; qdec.
  - destruct (CL (pen * mi)) as (C1 & C2). split; [exact C1|]. split; [intros _; exact C2|].
    split; intros; exfalso; lra.
  - destruct (CL (pen * mdec)) as (C1 & C2). split; [exact C1|]. split; [intros; exfalso; lra|]. split; [intros _; exact C2|].
    intros; exfalso; lra.
  - destruct (CL pen) as (C1 & _ & _ & C2). split; [exact C1|]. split; [intros; exfalso; lra|]. split; [intros; exfalso; lra|].
    intros; now apply C2.
Qed.

(** ... hence it moves in the right direction when the multipliers are on the right side of 1. *)
Theorem C31_direction L (p : @problem NumQ) (c : @config NumQ) (g g' : @ga NumQ) (w w' : @world NumQ) :
  update_penalty L p c g w = Ok (g', w') ->
  (1 # 10000 <= w_pen w)%Q -> (w_pen w <= inject_Z (10 ^ 7))%Q ->
  (1 <= c_penalty_inc_multiplier c)%Q -> (0 <= c_penalty_dec_multiplier c <= 1)%Q ->
  let f := share (po_hist (ga_pop g)) in
  (f < c_feasibility_proportion_target c - (5 # 100) -> w_pen w <= w_pen w')%Q /\
  (c_feasibility_proportion_target c + (5 # 100) < f -> w_pen w' <= w_pen w)%Q.
Proof.
  intros G R1 R2 M1 [M2 M3]. cbv zeta. destruct (C31_update L p c g g' w w' G) as (A & B & C & _). cbv zeta in *.
  set (pen := w_pen w) in *. set (pen' := w_pen w') in *. set (mi := c_penalty_inc_multiplier c) in *.
  set (mdec := c_penalty_dec_multiplier c) in *. clearbody pen pen' mi mdec. change (@F NumQ) with Q in *.
  set (h := inject_Z (10 ^ 7)) in *. clearbody h.
  split; intros HF.
  - destruct (B HF) as (_ & B2 & B3).
    assert (pen <= pen * mi).
    { assert (0 <= pen * (mi - 1)) by (apply Qmult_le_0_compat; lra). lra. }
    destruct (Qlt_le_dec h (pen * mi)) as [Hh|Hh]; [rewrite B2 by lra; lra|rewrite B3 by lra; lra].
  - destruct (C HF) as (C1 & _ & C3).
    assert (pen * mdec <= pen).
    { assert (0 <= pen * (1 - mdec)) by (apply Qmult_le_0_compat; lra). lra. }
    destruct (Qlt_le_dec (pen * mdec) (1 # 10000)) as [Hh|Hh]; [rewrite C1 by lra; lra|rewrite C3 by lra; lra].
Qed.

Theorem C31_initial (distance demand : option Q) :
  let pen : Q := @initial_penalty NumQ distance demand in
  (1 # 10000 <= pen /\ pen <= 10000 # 1) /\
  forall a b, distance = Some a -> demand = Some b -> (1 # 10000 <= a / b -> a / b <= 10000 # 1 -> pen == a / b).
Proof.
  cbv zeta. unfold initial_penalty. destruct distance as [a|], demand as [b|]; numq; try (split; [lra|discriminate]).
  - split.
    + set (z := a / b). clearbody z. destruct (Qminb_spec (10000 # 1) z) as [[? ->]|[? ->]];
      match goal with |- context [Qmaxb ?a ?b] => destruct (Qmaxb_spec a b) as [[? ->]|[? ->]] end; lra.
    + intros a' b' E1 E2. injection E1 as <-. injection E2 as <-. set (z := a / b). clearbody z. intros.
      destruct (Qminb_spec (10000 # 1) z) as [[? ->]|[? ->]];
      match goal with |- context [Qmaxb ?a ?b] => destruct (Qmaxb_spec a b) as [[? ->]|[? ->]] end; lra.
Qed.

(** In every reached state outside elite education, and always when it is switched off, the
    penalty is in range. *)
Theorem C31_always L (p : @problem NumQ) (c : @config NumQ) E li md fuel w0 g w :
  lib_ok L -> instance_ok p c -> set_up p md w0 -> ga_reached L p c E li md fuel w0 g w ->
  c_elite_education c = false \/ ga_st g = Created \/ ga_st g = Initialization \/ ga_st g = Cycle ->
  (0 <= w_pen w)%Q /\ (w_pen w <= inject_Z (10 ^ 7))%Q.
Proof.
  intros LO IO SU R ST. pose proof (reached_records L LO p c E li md fuel IO w0 g w SU R) as I.
  pose proof (gb_pen _ _ _ _ _ _ _ _ (in_base _ _ _ _ _ _ _ _ _ _ _ _ I)) as [A1 A2].
  destruct ST as [ST|ST]; [split; [exact A1|now apply A2]|].
  destruct (in_usual _ _ _ _ _ _ _ _ _ _ _ _ I) as [[U1 U2] _].
  - destruct ST as [ST|[ST|ST]]; rewrite ST; discriminate.
  - destruct ST as [ST|[ST|ST]]; rewrite ST; discriminate.
  - split; [lra|exact U2].
Qed.
End Penalty.
Print Assumptions C31_update.
Print Assumptions C31_direction.
Print Assumptions C31_initial.
Print Assumptions C31_always.

(** ** C32 *)
Section Fleet.
Local Open Scope Q_scope.
Local Notation nat2Q n := (inject_Z (Z.of_nat n)).
Variable p : @problem NumQ.
Hypothesis capacity : 0 < p_cap p.
Hypothesis demands : forall a, (a < p_dim p)%nat -> 0 <= p_demand p a.
Local Notation lb := (@vehicle_lower_bound NumQ p).
Local Notation nv := (@initial_num_vehicles NumQ p).

(** The lower bound is the least number of vehicles whose total capacity covers the total demand,
    the chosen fleet is at least that large, and has at least two vehicles. *)
Theorem C32_lower_bound : let total := route_load (p_demand p) (seq 0 (p_dim p)) in
  (forall k : nat, total <= nat2Q k * p_cap p <-> (lb <= k)%nat) /\ (lb <= nv)%nat /\ (2 <= nv)%nat.
Proof.
  cbv zeta. destruct (lower_bound_Q p capacity demands) as [A B]. destruct (num_vehicles_Q p) as [V _].
  set (t := route_load (p_demand p) (seq 0 (p_dim p))) in *. clearbody t. set (q := p_cap p) in *. clearbody q.
  assert (L0 : 0 <= nat2Q lb) by (change 0 with (nat2Q 0); rewrite <- Zle_Qle; lia).
  change (@F NumQ) with Q in *. split; [|split].
  - intros k. split; intros H.
    + assert (X : 0 < (nat2Q k + 1 - nat2Q lb) * q) by lra.
      assert (Y : 0 < nat2Q k + 1 - nat2Q lb).
      { apply Qnot_le_lt. intro Z. assert (0 <= (- (nat2Q k + 1 - nat2Q lb)) * q) by (apply Qmult_le_0_compat; lra). lra. }
      change 1 with (inject_Z 1) in Y. assert (Y2 : nat2Q lb < nat2Q k + inject_Z 1) by lra.
      rewrite <- inject_Z_plus, <- Zlt_Qlt in Y2. lia.
    + assert (X : nat2Q lb <= nat2Q k) by (rewrite <- Zle_Qle; lia).
      assert (0 <= (nat2Q k - nat2Q lb) * q) by (apply Qmult_le_0_compat; lra). lra.
  - apply Nat2Z.inj_le. rewrite Zle_Qle. lra.
  - apply Nat2Z.inj_le. rewrite Zle_Qle. change (nat2Q 2) with 2. lra.
Qed.

(** Every solution within capacity uses at least that many routes. *)
Theorem C32_needed routes : p_demand p 0%nat == 0 -> (1 <= p_dim p)%nat ->
  serves_all_once (p_dim p) routes -> within_capacity (p_demand p) (p_cap p) 0 routes ->
  (lb <= length (used_routes routes))%nat.
Proof.
  intros D0 HD S W. apply (proj1 C32_lower_bound).
  assert (EQ : route_load (p_demand p) (seq 0 (p_dim p)) == route_load (p_demand p) (concat routes)).
  { rewrite (load_perm (p_demand p) _ _ S). destruct (p_dim p) as [|n]; [lia|]. cbn [seq].
    change (0%nat :: seq 1 n) with ([0%nat] ++ seq 1 n). rewrite load_app.
    replace (Datatypes.S n - 1)%nat with n by lia. unfold route_load at 1. cbn [map Qsum]. rewrite D0. ring. }
  rewrite EQ. apply load_concat_le. intros r Hr. specialize (W r Hr). change (@F NumQ) with Q in *. lra.
Qed.

(** When no customer needs more than a sixth of a vehicle, a feasible solution with the chosen
    fleet exists.  Missing: larger demands; see the next theorem. *)
Theorem C32_feasible_exists_partial :
  (forall a, (1 <= a < p_dim p)%nat -> p_demand p a <= (1 # 6) * p_cap p) -> (1 <= p_dim p)%nat ->
  exists routes, serves_all_once (p_dim p) routes /\ length routes = nv /\ within_capacity (p_demand p) (p_cap p) 0 routes.
Proof.
  intros DS HD. set (l := seq 1 (p_dim p - 1)). set (rs := next_fit (p_demand p) (p_cap p) [] l).
  assert (INL : forall a, In a l -> (1 <= a < p_dim p)%nat) by (intros a Ha; apply in_seq in Ha; lia).
  assert (LEN : (length rs <= nv)%nat).
  { destruct (next_fit_full (p_demand p) (p_cap p) ((1 # 6) * p_cap p) l (fun a Ha => DS a (INL a Ha)) []) as [F1 F2].
    { intros a Ha. apply demands. apply INL in Ha. lia. }
    fold rs in F1, F2. cbn [app] in F1. destruct (lower_bound_Q p capacity demands) as [A _]. destruct (num_vehicles_Q p) as [V _].
    assert (T : route_load (p_demand p) l <= route_load (p_demand p) (seq 0 (p_dim p))).
    { destruct (p_dim p) as [|n] eqn:EN; [lia|]. cbn [seq]. change (0%nat :: seq 1 n) with ([0%nat] ++ seq 1 n).
      rewrite load_app. unfold l. replace (Datatypes.S n - 1)%nat with n by lia.
      assert (0 <= route_load (p_demand p) [0%nat]).
      { unfold route_load. cbn [map Qsum]. pose proof (demands 0%nat). assert (0 <= p_demand p 0%nat) by (apply demands; lia). change (@F NumQ) with Q in *. lra. }
      lra. }
    set (m := nat2Q (length rs - 1)) in *.
    set (t := route_load (p_demand p) (seq 0 (p_dim p))) in *. set (tl := route_load (p_demand p) l) in *. clearbody t tl.
    set (q := p_cap p) in *. set (vl := nat2Q lb) in *. change (@F NumQ) with Q in *.
    assert (X : 0 <= ((6 # 5) * vl - m) * q) by lra.
    assert (Y : m <= (6 # 5) * vl).
    { apply Qnot_lt_le. intro Z. assert (0 < (m - (6 # 5) * vl) * q) by (apply Qmult_lt_0_compat; lra). lra. }
    assert (Z : nat2Q (length rs - 1) <= nat2Q nv) by (fold m; lra).
    assert (Z2 : m + inject_Z 1 <= nat2Q nv) by (change (inject_Z 1) with 1; lra).
    unfold m in Z2. rewrite <- inject_Z_plus, <- Zle_Qle in Z2. lia. }
  exists (rs ++ repeat [] (nv - length rs)). split; [|split].
  - unfold serves_all_once. rewrite concat_app. unfold rs. rewrite next_fit_concat. cbn [app].
    assert (concat (repeat (@nil nat) (nv - length (next_fit (p_demand p) (p_cap p) [] l))) = []) as ->.
    { generalize (nv - length (next_fit (p_demand p) (p_cap p) [] l))%nat. intros n. induction n; cbn; auto. }
    now rewrite app_nil_r.
  - rewrite app_length, repeat_length. lia.
  - intros r Hr. apply in_app_or in Hr as [Hr|Hr].
    + assert (route_load (p_demand p) r <= p_cap p); [|change (@F NumQ) with Q in *; lra].
      eapply next_fit_fits; [| |exact Hr].
      * intros a Ha. specialize (DS a (INL a Ha)). change (@F NumQ) with Q in *. lra.
      * change (route_load (p_demand p) []) with 0. change (@F NumQ) with Q in *. lra.
    + apply repeat_spec in Hr as ->. change (route_load (p_demand p) []) with 0. change (@F NumQ) with Q in *. lra.
Qed.
End Fleet.
Print Assumptions C32_lower_bound.
Print Assumptions C32_needed.
Print Assumptions C32_feasible_exists_partial.

(** Twenty customers of demand 51, vehicles of capacity 100: every customer fits a vehicle, no two
    fit together, and the fleet has 16 vehicles. *)
Definition pairs_p : @problem NumQ := @mkProblem NumQ 21 (fun _ _ => 1%Q) (fun i => if i =? 0 then 0%Q else 51%Q) (fun _ => (0, 0)%Q) 100%Q
  (fun _ => []) (fun _ _ => 0%Q) (fun _ => 0%Q) (fun _ => 0%Q) (fun _ => 0%Z).

Theorem C32_feasible_exists_refuted :
  exists p : @problem NumQ, (0 < p_cap p)%Q /\
    (forall a, 1 <= a < p_dim p -> (0 <= p_demand p a <= p_cap p)%Q) /\
    ~ exists routes, serves_all_once (p_dim p) routes /\ length routes <= @initial_num_vehicles NumQ p /\
        within_capacity (p_demand p) (p_cap p) (1 # 1000000) routes.
Proof.
  exists pairs_p. split; [reflexivity|]. split.
  { intros a Ha. cbn. destruct (Nat.eqb_spec a 0); [lia|]. split; discriminate. }
  intros (rs & S & LE & W). assert (NV : @initial_num_vehicles NumQ pairs_p = 16) by (vm_compute; reflexivity).
  rewrite NV in LE. unfold serves_all_once in S. pose proof (Permutation_length S) as PL. rewrite seq_length in PL. cbn [pairs_p p_dim] in PL.
  destruct (pigeon rs) as (r & Hr & L2); [lia|]. specialize (W r Hr).
  assert (IN : forall a, In a r -> a <> 0).
  { intros a Ha. assert (In a (concat rs)) by (apply in_concat; eauto). apply (Permutation_in _ S) in H. apply in_seq in H. lia. }
  destruct r as [|a [|b r]]; cbn in L2; try lia. unfold route_load in W. cbn [map Qsum] in W.
  assert (DA : p_demand pairs_p a = 51%Q) by (cbn; destruct (Nat.eqb_spec a 0); [exfalso; apply (IN a); [now left|auto]|reflexivity]).
  assert (DB : p_demand pairs_p b = 51%Q) by (cbn; destruct (Nat.eqb_spec b 0); [exfalso; apply (IN b); [right; now left|auto]|reflexivity]).
  rewrite DA, DB in W. change (p_cap pairs_p) with 100%Q in W.
  change (@F NumQ) with Q in W. match type of W with (51 + (51 + ?z) <= _)%Q => assert (0 <= z)%Q; [|clear -W H; lra] end.
  apply Qsum_nonneg. intros x Hx. apply in_map_iff in Hx as (y & <- & _). cbn. destruct (y =? 0); discriminate.
Qed.
Print Assumptions C32_feasible_exists_refuted.

(** ** C33 *)
Section Stop.
Context {N : Num}.
Variable L : lib.
Variable p : problem.
Variable c : config.
Variable E : env.
Variable li : nat.
Variable md : option F.
Variable fuel : nat.
Local Notation iterate := (ga_iterate L p c E li md fuel).

(** A limit is reached at the next reading of the clock. *)
Definition limit_reached (w : world) : Prop :=
  c_time_limit c <= ffloor (e_clock E (w_clock w)) \/ exists m, c_max_iterations c = Some m /\ m <= w_iter w.

(** Same results: best solution, population, history, penalty, iterations, random numbers. *)
Definition same_results (g : ga) (w : world) (g' : ga) (w' : world) : Prop :=
  ga_best_sol g' = ga_best_sol g /\ ga_pop g' = ga_pop g /\ ga_iterations g' = ga_iterations g /\
  w_hist w' = w_hist w /\ w_pen w' = w_pen w /\ w_iter w' = w_iter w /\ w_rng w' = w_rng w.

Local Lemma terminate_true w : limit_reached w -> fst (terminate c E w) = true.
Proof.
  intros [H|(m & H1 & H2)]; unfold terminate, now; cbn [fst w_iter].
  - apply Nat.leb_le in H. now rewrite H.
  - rewrite H1. apply Nat.leb_le in H2. rewrite H2. apply orb_true_r.
Qed.
Local Lemma terminate_false w : ~ limit_reached w -> fst (terminate c E w) = false.
Proof.
  intros H. unfold terminate, now; cbn [fst w_iter]. apply orb_false_iff. split.
  - apply Nat.leb_gt. apply Nat.nle_gt. intro X. apply H. now left.
  - destruct (c_max_iterations c) as [m|] eqn:EM; auto. apply Nat.leb_gt. apply Nat.nle_gt. intro X. apply H. right. eauto.
Qed.
Local Lemma terminate_world w : snd (terminate c E w) = mkWorld (w_pen w) (w_hist w) (w_iter w) (w_rng w) (S (w_clock w)).
Proof. reflexivity. Qed.

(** Once a limit is reached the next call terminates the algorithm and changes no result. *)
Theorem C33_stops g w : limit_reached w ->
  exists g' w', iterate g w = Ok (g', w') /\ ga_st g' = Terminated /\ same_results g w g' w'.
Proof.
  intros H. unfold ga_iterate. pose proof (terminate_true w H) as T. pose proof (terminate_world w) as TW.
  destruct (terminate c E w) as [b w1]. cbn in T, TW. subst b w1. cbn [set_st ga_st].
  eexists. eexists. split; [reflexivity|]. split; [reflexivity|]. repeat split; reflexivity.
Qed.

(** It stays terminated, with the same results, for any number of further calls. *)
Theorem C33_stays_stopped n g w g' w' : ga_st g = Terminated ->
  ga_iterates L p c E li md fuel n g w g' w' -> ga_st g' = Terminated /\ same_results g w g' w'.
Proof.
  intros ST H. induction H as [g w|n g w g1 w1 g2 w2 G _ IH]; [split; auto; repeat split; reflexivity|].
  unfold ga_iterate in G. pose proof (terminate_world w) as TW. destruct (terminate c E w) as [b w0]. cbn in TW. subst w0.
  assert (X : ga_st g1 = Terminated /\ same_results g w g1 w1).
  { destruct b; cbn [set_st ga_st] in G; [|rewrite ST in G]; injection G as <- <-; split; auto; repeat split; reflexivity. }
  destruct X as [X1 (X2 & X3 & X4 & X5 & X6 & X7 & X8)]. destruct (IH X1) as [I1 (I2 & I3 & I4 & I5 & I6 & I7 & I8)].
  split; auto. repeat split; congruence.
Qed.

(** It is not terminated before a limit is reached. *)
Theorem C33_not_early g w g' w' : ga_st g <> Terminated -> ~ limit_reached w -> iterate g w = Ok (g', w') -> ga_st g' <> Terminated.
Proof.
  intros ST NL G. unfold ga_iterate in G. pose proof (terminate_false w NL) as T. destruct (terminate c E w) as [b w1]. cbn in T. subst b.
  destruct (ga_st g) eqn:EST; try congruence.
  - eapply it_created_st; eauto.
  - eapply it_elite_st; eauto. congruence.
  - eapply it_init_st; eauto. congruence.
  - apply it_cycle_later in G as (_ & _ & [X|X]); congruence.
Qed.

(** With an iteration limit at most that many genetic iterations are performed, and each of them
    is counted. *)
Theorem C33_iteration_limit n m g w g' w' : c_max_iterations c = Some m ->
  ga_calls L p c E li md fuel n g w g' w' -> w_iter w' = w_iter w + n /\ (0 < n -> n + w_iter w <= m).
Proof.
  intros CM H. induction H as [g w|n g w g1 w1 g2 w2 G NC _ IH|n g w g1 w1 g2 w2 G ST NT _ IH]; [split; lia| |].
  - assert (X : w_iter w1 = w_iter w) by (eapply iterate_other_iter; eauto). rewrite X in IH. exact IH.
  - assert (X : w_iter w1 = w_iter w + 1 /\ w_iter w < m).
    { unfold ga_iterate in G. pose proof (terminate_world w) as TW. destruct (terminate c E w) as [b w0] eqn:ET. cbn in TW.
      destruct b; [cbn [set_st ga_st] in G; injection G as <- <-; exfalso; apply NT; reflexivity|].
      rewrite ST in G. apply it_cycle_later in G as (_ & X & _). subst w0. cbn in X. split; auto.
      apply Nat.nle_gt. intro Y. pose proof (terminate_true w (or_intror (ex_intro _ m (conj CM Y)))) as Z. rewrite ET in Z. discriminate. }
    destruct IH as [I1 I2]. split; [lia|]. intros _. destruct n; [lia|]. lia.
Qed.

(** When the clock stays beyond the time limit from some reading on, enough calls terminate the
    algorithm. *)
Theorem C33_time_limit k n g w g' w' :
  (forall j, k <= j -> c_time_limit c <= ffloor (e_clock E j)) ->
  ga_iterates L p c E li md fuel n g w g' w' -> k < n + w_clock w -> 0 < n -> ga_st g' = Terminated.
Proof.
  intros HK H. induction H as [g w|n g w g1 w1 g2 w2 G H IH]; [lia|]. intros HN _.
  destruct (le_lt_dec k (w_clock w)) as [C|C].
  - destruct (C33_stops g w (or_introl (HK _ C))) as (g0 & w0 & G' & ST & _). rewrite G in G'. injection G' as <- <-.
    apply (C33_stays_stopped _ _ _ _ _ ST H).
  - apply iterate_later in G. destruct n; [lia|]. apply IH; lia.
Qed.

(** [Solver::run] ends in a terminated state. *)
Theorem C33_run k g w g' w' : solver_run L p c E li md fuel k g w = Ok (g', w') -> ga_st g' = Terminated.
Proof.
  revert g w. induction k as [|k IH]; intros g w; cbn [solver_run]; unfold ga_terminated; destruct (ga_st g) eqn:ST;
    try discriminate; try (intro H; injection H as <- <-; exact ST);
    destruct (ga_iterate _ _ _ _ _ _ _ _ _) as [[g1 w1]|]; cbn [rbind]; try discriminate; apply IH.
Qed.

(** The loop of [Solver::run] ends: with the clock beyond the limit from reading [k] on, [k + 1]
    calls are enough, unless a call of [iterate] itself fails. *)
Theorem C33_run_ends k g w :
  (forall j, k <= j -> c_time_limit c <= ffloor (e_clock E j)) ->
  (exists g' w', solver_run L p c E li md fuel (S k) g w = Ok (g', w') /\ ga_st g' = Terminated) \/
  (exists n g1 w1 e, ga_iterates L p c E li md fuel n g w g1 w1 /\ iterate g1 w1 = Err e /\
     solver_run L p c E li md fuel (S k) g w = Err e).
Proof.
  intros HK. assert (X : forall m g w, k < m + w_clock w -> 0 < m ->
    (exists g' w', solver_run L p c E li md fuel m g w = Ok (g', w')) \/
    (exists n g1 w1 e, ga_iterates L p c E li md fuel n g w g1 w1 /\ iterate g1 w1 = Err e /\
       solver_run L p c E li md fuel m g w = Err e)).
  { clear g w. induction m as [|m IH]; intros g w HM HP; [lia|]. cbn [solver_run].
    destruct (ga_terminated g) eqn:GT; [left; eauto|]. destruct (iterate g w) as [[g1 w1]|e] eqn:G.
    - cbn [rbind]. destruct m as [|m].
      + destruct (C33_stops g w) as (g' & w' & G' & ST & _); [left; apply HK; lia|]. rewrite G in G'. injection G' as <- <-.
        left. exists g1, w1. cbn [solver_run]. unfold ga_terminated. now rewrite ST.
      + pose proof (iterate_later L p c E li md fuel _ _ _ _ G) as LT.
        destruct (IH g1 w1) as [I|(n & g2 & w2 & e & I1 & I2 & I3)]; [lia|lia|left; exact I|].
        right. exists (1 + n), g2, w2, e. split; [econstructor; eauto|]. auto.
    - right. exists 0, g, w, e. split; [constructor|]. split; auto. }
  destruct (X (S k) g w) as [(g' & w' & R)|R]; [lia|lia|left|now right].
  exists g', w'. split; auto. eapply C33_run; eauto.
Qed.
End Stop.
Print Assumptions C33_run.
Print Assumptions C33_run_ends.
Print Assumptions C33_stops.
Print Assumptions C33_stays_stopped.
Print Assumptions C33_not_early.
Print Assumptions C33_iteration_limit.
Print Assumptions C33_time_limit.

(** ** C34 *)

(** With one customer the loop that draws the end of the zone never ends: whatever the bound on
    the number of draws, the crossover does not produce a child ... *)
Theorem C34_one_customer_refuted fuel r a b : crossover fuel [a] [b] r = Err EFuel.
Proof.
  unfold crossover. cbn [length]. unfold range_usize at 1. cbn [Nat.ltb Nat.leb Nat.sub]. destruct (draw r) as [d1 r1]. cbn [rbind].
  assert (X : forall d, N.to_nat (N.modulo d (N.of_nat 1)) = 0) by (intros d; rewrite N.mod_1_r; reflexivity).
  change (0 + N.to_nat (d1 mod N.of_nat 1)) with (N.to_nat (d1 mod N.of_nat 1)). rewrite X.
  assert (Y : forall k r, draw_end k 1 0 r = Err EFuel).
  { induction k as [|k IH]; intros s; cbn [draw_end]; auto. unfold range_usize. cbn [Nat.ltb Nat.leb Nat.sub]. destruct (draw s) as [d2 s2]. cbn [rbind].
    change (0 + N.to_nat (d2 mod N.of_nat 1)) with (N.to_nat (d2 mod N.of_nat 1)). rewrite X. apply IH. }
  rewrite Y. reflexivity.
Qed.
Print Assumptions C34_one_customer_refuted.

(** Everybody in a population. *)
Definition members {N : Num} (P : population) : list individual := sp_pop (po_feas P) ++ sp_pop (po_infeas P).

(** ... and so no genetic iteration on an instance with a single customer finishes. *)
Theorem C34_one_customer_iteration_refuted (N : Num) L p c E li fuel g w :
  p_dim p = 2 -> 0 < pop_size (ga_pop g) -> 1 <= c_tournament_size c ->
  Forall (fun i => i_geno i = concat (i_pheno i) /\ serves_all_once (p_dim p) (i_pheno i)) (members (ga_pop g)) ->
  it_cycle L p c E li fuel g w = Err EFuel.
Proof.
  intros HD HP HT FA.
  assert (X : forall i, In i (members (ga_pop g)) -> exists a, i_geno i = [a]).
  { intros i Hi. rewrite Forall_forall in FA. destruct (FA i Hi) as [-> S]. rewrite HD in S. unfold serves_all_once in S. cbn in S.
    apply Permutation_sym, Permutation_length_1_inv in S. eauto. }
  unfold it_cycle. destruct (tournament_member (ga_pop g) (c_tournament_size c) (w_rng (next_iteration w)) HP HT) as (one & r1 & T1).
  rewrite T1. cbn [rbind]. destruct (tournament_member (ga_pop g) (c_tournament_size c) r1 HP HT) as (two & r2 & T2). rewrite T2. cbn [rbind].
  unfold make_child. destruct (X one (tournament_in _ _ _ _ _ T1)) as [a ->]. destruct (X two (tournament_in _ _ _ _ _ T2)) as [b ->].
  rewrite C34_one_customer_refuted. reflexivity.
Qed.
Print Assumptions C34_one_customer_iteration_refuted.

(** With two customers or more the loop ends as soon as a draw differs from the first one modulo
    the number of customers; only a stream that repeats the first value for ever makes it run on. *)
Theorem C34_crossover_ends g1 g2 (r : rng) k fuel :
  let n := length g1 in let at_ j := N.modulo (rdraw r (rpos r + j)) (N.of_nat n) in
  2 <= n -> NoDup g1 -> Permutation g2 g1 -> at_ (1 + k) <> at_ 0 -> k < fuel ->
  exists child r', crossover fuel g1 g2 r = Ok (child, r') /\ Permutation child g1.
Proof. exact (crossover_ends g1 g2 r k fuel). Qed.
Print Assumptions C34_crossover_ends.

(** ** C40 *)

(** Without ruin and recreate (neither as mutation nor as elite education) the genetic algorithm's own best
    solution is the last one recorded: it exists whenever something is recorded, is what is
    reported, and has the recorded best cost.  Missing: ruin and recreate; see the refutation. *)
Theorem C40_best_is_recorded_partial L (p : @problem NumQ) (c : @config NumQ) E li md fuel w0 g w :
  lib_ok L -> instance_ok p c -> c_rr_mutation c = false -> c_elite_education c = false ->
  set_up p md w0 -> reached L p c E li md fuel w0 g w ->
  (h_entries (w_hist w) = [] -> ga_best_sol g = None) /\
  (forall e, reported (w_hist w) e -> exists i, ga_best_sol g = Some i /\ he_routes e = i_pheno i /\
     he_cost e = penalized_cost i /\ h_best (w_hist w) = penalized_cost i).
Proof.
  intros LO IO R1 R2 SU R. destruct (exact_records L p c E li md fuel w0 g w LO IO SU R) as (is & RE & _ & _ & LA).
  unfold recorded in RE. assert (NU : ~ rr_used c) by (intros [X|X]; congruence). rewrite (LA NU), RE.
  destruct is as [|i is] using rev_ind.
  - split; [reflexivity|]. intros e (l & X). cbn in X. destruct l; discriminate.
  - clear IHis. rewrite last_opt_snoc. split.
    + rewrite recorded_entries. intro X. apply app_eq_nil in X as [_ X]. discriminate.
    + intros e RP. apply reported_last in RP as (l & j & EQ & ->). apply app_inj_tail in EQ as [<- <-].
      rewrite recorded_best. exists i. auto.
Qed.
Print Assumptions C40_best_is_recorded_partial.

(** ** C49 *)

(** A genetic iteration either restarts the search - after more than the allowed number of
    iterations without improvement, with an empty population, no initial individuals, no current
    best, the state [Created] - or goes on, with the stagnation within the limit; the best
    solution is kept, the history only grows - it is unchanged by a restarting iteration without ruin and
    recreate - and the stagnation counter does not underflow. *)
Theorem C49_restart (N : Num) L p c E li md fuel w0 g w g' w' :
  lib_ok L -> run_ok p c md -> set_up p md w0 -> reached L p c E li md fuel w0 g w -> ga_st g = Cycle ->
  ga_iterate L p c E li md fuel g w = Ok (g', w') -> ga_st g' <> Terminated ->
  ga_best_iter g <= ga_iterations g /\ ga_best_iter g' <= ga_iterations g' /\ ga_iterations g' = ga_iterations g + 1 /\
  (ga_st g' = Created /\ c_max_iterations_without_improvement c < ga_iterations g - ga_best_iter g /\
     members (ga_pop g') = [] /\ ga_num_init g' = 0 /\ ga_cur_best g' = None /\ ga_best_iter g' = ga_iterations g /\
     (c_rr_mutation c = false -> w_hist w' = w_hist w) \/
   ga_st g' = Cycle /\ ga_iterations g - ga_best_iter g' <= c_max_iterations_without_improvement c) /\
  (ga_best_sol g <> None -> ga_best_sol g' <> None) /\
  exists is, recorded (w_hist w) is (w_hist w').
Proof.
  intros LO RO SU R ST G NT.
  pose proof (best_iter_le L LO p c E li md fuel RO w0 g w SU R) as B1.
  pose proof (best_iter_le L LO p c E li md fuel RO w0 g' w' SU (gr_iterate _ _ _ _ _ _ _ _ _ _ _ _ R G)) as B2.
  destruct (records_grow L LO p c E li md fuel RO w0 g w g' w' SU R G) as (is & RE).
  unfold ga_iterate in G. pose proof (terminate_world c E w) as TW. destruct (terminate c E w) as [b w1]. cbn in TW. subst w1.
  destruct b; [cbn [set_st ga_st] in G; injection G as <- <-; exfalso; apply NT; reflexivity|]. rewrite ST in G.
  destruct (it_cycle_restart L p c E li fuel g _ g' w' G ST) as (C & IT & BS).
  split; [exact B1|]. split; [exact B2|]. split; [exact IT|]. split; [|split; [exact BS|eauto]].
  destruct C as [(C1 & C2 & C3 & C4 & C5 & _ & C6 & C7)|C]; [left|right; exact C].
  rewrite C3. repeat split; auto.
Qed.
Print Assumptions C49_restart.

(** ** The correlation matrix of the code meets the hypotheses above, for every instance with a
    granularity that its rows can serve. *)
Theorem C01_matrix_applicable (N : Num) (p : problem) (c : config) (sqrt_ round_ : F -> F) lsort (d : dmatrix) g :
  sort_contract lsort -> 2 <= p_dim p -> dfun sqrt_ round_ d (p_dim p) g -> no_nan g (p_dim p) ->
  c_granularity c <= Nat.min 200 (p_dim p - 2) ->
  exists cm, correlation_new sqrt_ round_ lsort d = Ok cm /\ neighbours_ok p c (cm_store cm) /\ rows_ok p (cm_store cm).
Proof.
  intros Hs H2 Hd Hn Hg. destruct (C12_neighbours_applicable N p c sqrt_ round_ lsort d g Hs H2 Hd Hn Hg) as (cm & E & NB).
  exists cm. split; auto. split; auto.
  destruct (correlation_spec lsort sqrt_ round_ d _ g Hd Hs Hn H2) as (cm' & E' & Ew & Hm). rewrite E in E'. injection E' as <-.
  pose proof Hm as (_ & Hc & Hl & _). split; [congruence|].
  intros u v Hu I. pose proof (mfun_row _ _ _ _ u (cm_width cm) Hm ltac:(lia) ltac:(lia)) as ER.
  unfold m_slice in ER. rewrite Nat.add_0_r in ER. destruct (_ <=? _); [|discriminate]. injection ER as ER.
  unfold row in I. rewrite Hc in I, ER. rewrite ER in I. apply in_map_iff in I. destruct I as (k & <- & Hk). apply in_seq in Hk.
  destruct (nbrs_props lsort g (p_dim p) (cm_width cm) u Hs Hn ltac:(lia) ltac:(lia)) as (_ & HB & _).
  destruct (HB (nth k (nbrs lsort g (p_dim p) (cm_width cm) u) 0)) as [B1 B2]; [|lia].
  apply nth_In. rewrite nbrs_length; auto; lia.
Qed.
Print Assumptions C01_matrix_applicable.

(** ** Examples *)
Open Scope Q_scope.
(** small populations, granularity 3, at most 6 iterations, restart after 3 without improvement *)
Definition ga_cfg (ls rr elite : bool) : @config NumQ := @mkConfig NumQ
  (Some 6%nat) 3 4 60
  2 3 2 1 2 (2 # 10) 2 (5 # 10)
  (3 # 2) true
  ls 3 true true true true true true true true true true
  2 (12 # 10) (85 # 100)
  3 3 rr 1 1 10
  elite 1 3 50 false (2 # 100).
Definition ga_world (a b : N) : @world NumQ := @mkWorld NumQ (18 # 5) hist_new 0 (rr_stream a b) 0.
Close Scope Q_scope.

Fact ga_instance ls rr el : instance_ok rr_p (ga_cfg ls rr el).
Proof.
  constructor.
  - cbn. lia.
  - split; [cbn; lia|]. change (@vehicle_lower_bound NumQ rr_p <= 4). vm_compute. lia.
  - reflexivity.
  - intros a Ha. cbn in Ha. do 6 (destruct a as [|a]; [vm_compute; discriminate|]). lia.
  - intros a b _ _. cbn [p_dist rr_p ex_p]. apply Qabs_nonneg.
  - intros a _. cbn [p_dist rr_p ex_p]. rewrite Qabs_Qminus. reflexivity.
  - reflexivity.
  - exists 18%Q. split; [|vm_compute; reflexivity]. intros a b Ha Hb. cbn in Ha, Hb.
    do 6 (destruct a as [|a]; [do 6 (destruct b as [|b]; [vm_compute; discriminate|]); lia|]). lia.
  - intros d. apply rr_unit.
  - cbn. lia.
  - split; discriminate.
Qed.
Fact ga_neighbours ls rr el : neighbours_ok rr_p (ga_cfg ls rr el) rr_corr.
Proof.
  split; [cbn; lia|]. split; [reflexivity|]. intros u v Hu I. cbn in Hu.
  do 6 (destruct u as [|u]; [vm_compute in I; cbn [p_dim rr_p ex_p]; lia|]). lia.
Qed.
Fact ga_set_up a b : set_up rr_p (Some 18%Q) (ga_world a b).
Proof. split; [|split; reflexivity]. exists (Some (5%Q : @F NumQ)). split; vm_compute; reflexivity. Qed.

(** a number of calls *)
Fixpoint ga_steps (ls rr el : bool) (k : nat) (g : @ga NumQ) (w : @world NumQ) : res (@ga NumQ * @world NumQ) :=
  match k with
  | O => Ok (g, w)
  | S k => match @ga_iterate NumQ rust_lib rr_p (ga_cfg ls rr el) rr_env 5 (Some 18%Q) 50 g w with
           | Ok (g, w) => ga_steps ls rr el k g w
           | Err e => Err e
           end
  end.
Definition ga_start ls rr el a b := @ga_new NumQ rr_p (ga_cfg ls rr el) rr_corr (rr_stream 3 5) (rr_stream 7 1) (ga_world a b).
Definition ga_run ls rr el a b k := ga_steps ls rr el k (fst (ga_start ls rr el a b)) (snd (ga_start ls rr el a b)).
Local Notation ex_reached ls rr el a b := (ga_reached rust_lib rr_p (ga_cfg ls rr el) rr_env 5 (Some (18%Q : @F NumQ)) 50 (ga_world a b)).

Fact ga_run_reached ls rr el a b k g w : ga_run ls rr el a b k = Ok (g, w) -> ex_reached ls rr el a b g w.
Proof.
  unfold ga_run. destruct (ga_start ls rr el a b) as [g0 w0] eqn:ES. cbn [fst snd].
  assert (R : ex_reached ls rr el a b g0 w0).
  { eapply gr_new; [apply ga_neighbours|apply rr_corr_ok|exact ES]. }
  clear ES. revert g0 w0 R. induction k as [|k IH]; intros g0 w0 R; cbn [ga_steps].
  - intro H. injection H as <- <-. exact R.
  - destruct (ga_iterate _ _ _ _ _ _ _ _ _) as [[g1 w1]|] eqn:G; [|discriminate]. apply IH. eapply gr_iterate; eauto.
Qed.

Definition ga_view (r : res (@ga NumQ * @world NumQ)) :=
  match r with
  | Ok (g, w) => Some (ga_st g, ga_iterations g, option_map i_pheno (ga_best_sol g),
      map (fun e => (he_routes e, @option_map (@F NumQ) Q Qred (he_cost e))) (h_entries (w_hist w)), Qred (w_pen w))
  | Err _ => None
  end.

Fact ga_view_ok r v : ga_view r = Some v -> exists g w, r = Ok (g, w).
Proof. destruct r as [[g w]|]; [eauto|discriminate]. Qed.

(** A run without ruin and recreate: a restart after four iterations without improvement, then
    the iteration limit; the penalty falls from 18/5 since everybody is feasible. *)
Example ga_run_example :
  ga_view (ga_run true false false 977 331 9) =
    Some (Cycle, 4, Some [[2; 5; 1]; [3; 4]; []; []], [([[2; 5; 1]; [3; 4]; []; []], Some 36%Q)], (2601 # 1000)%Q) /\
  ga_view (ga_run true false false 977 331 10) =
    Some (Created, 5, Some [[2; 5; 1]; [3; 4]; []; []], [([[2; 5; 1]; [3; 4]; []; []], Some 36%Q)], (44217 # 20000)%Q) /\
  ga_view (ga_run true false false 977 331 20) =
    Some (Terminated, 6, Some [[2; 5; 1]; [3; 4]; []; []], [([[2; 5; 1]; [3; 4]; []; []], Some 36%Q)], (751689 # 400000)%Q).
Proof. repeat split; vm_compute; reflexivity. Qed.
(** A run with everything: elite education, local search, ruin and recreate. *)
Example ga_run_all_example :
  ga_view (ga_run true true true 977 331 21) =
    Some (Terminated, 6, Some [[2; 5; 1]; [4; 3]; []; []], [([[2; 5; 1]; [4; 3]; []; []], Some 36%Q)], (153 # 50)%Q).
Proof. vm_compute. reflexivity. Qed.
(** Such runs meet the hypotheses of C01 - C04, C31 - C33, C40, C49, C51. *)
Example ga_reached_example : exists g w, ex_reached true true true 977 331 g w /\ ga_st g = Terminated /\
  lib_ok rust_lib /\ instance_ok rr_p (ga_cfg true true true) /\ set_up rr_p (Some 18%Q) (ga_world 977 331).
Proof.
  pose proof ga_run_all_example as V. destruct (ga_view_ok _ _ V) as (g & w & G). exists g, w.
  split; [exact (ga_run_reached _ _ _ _ _ _ _ _ G)|]. rewrite G in V. split; [|split; [exact rust_lib_ok|split; [apply ga_instance|apply ga_set_up]]].
  cbn [ga_view] in V. injection V as -> _. reflexivity.
Qed.
(** The generic hypotheses of C01 and C49 follow from the exact ones. *)
Example ga_run_ok ls rr el : run_ok rr_p (ga_cfg ls rr el) (Some (18%Q : @F NumQ)).
Proof. exact (instance_run_ok _ _ _ (ga_instance ls rr el)). Qed.

(** C40 is false with ruin and recreate: it records what it finds before the genetic algorithm
    sees it, and the latter then finds nothing better than the history; the run terminates with a
    recorded solution of cost 36 and no best solution of its own. *)
Theorem C40_best_is_recorded_refuted :
  exists (p : @problem NumQ) (c : @config NumQ) E li md fuel w0 g w e,
    instance_ok p c /\ set_up p md w0 /\ reached rust_lib p c E li md fuel w0 g w /\
    ga_st g = Terminated /\ reported (w_hist w) e /\ ga_best_sol g = None.
Proof.
  assert (V : ga_view (ga_run false true false 977 331 20) =
    Some (Terminated, 6, None, [([], Some 46%Q); ([[5; 2; 1]; [4; 3]; []; []], Some 36%Q)], (751689 # 400000)%Q)) by (vm_compute; reflexivity).
  destruct (ga_view_ok _ _ V) as (g & w & G). pose proof (ga_run_reached _ _ _ _ _ _ _ _ G) as R.
  rewrite G in V. cbn [ga_view] in V. injection V as V1 _ V2 V3 _.
  clear G. destruct (h_entries (w_hist w)) as [|e1 [|e2 [|? ?]]] eqn:EH; try (discriminate V3).
  do 8 eexists. exists w, e2. split; [apply ga_instance|]. split; [apply ga_set_up|]. split; [exact R|]. split; [exact V1|].
  split; [exists [e1]; rewrite EH; reflexivity|]. destruct (ga_best_sol g); [discriminate V2|reflexivity].
Qed.
Print Assumptions C40_best_is_recorded_refuted.

(** C32: the example instance: 15 of demand, capacity 8. *)
Example fleet_example : @vehicle_lower_bound NumQ rr_p = 2 /\ @initial_num_vehicles NumQ rr_p = 5 /\
  @vehicle_lower_bound NumQ pairs_p = 11.
Proof. repeat split; vm_compute; reflexivity. Qed.
(** C34: two customers, draws 4, 4, 7. *)
Example crossover_example : match crossover 3 [1; 2] [2; 1] (mkRng (fun k => nth k [4; 4; 7]%N 0%N) 0) with
  | Ok (ch, r) => Some (ch, rpos r) | Err _ => None end = Some ([1; 2], 3).
Proof. vm_compute. reflexivity. Qed.
(** C31: too few feasible individuals raise the penalty, down to the floor and up to the cap. *)
Example penalty_example : let c := ga_cfg true true true in
  Qeq_bool (@next_penalty_value NumQ c (1 # 10) 10)%Q 12 && Qeq_bool (@next_penalty_value NumQ c (9 # 10) 10)%Q (85 # 10) &&
  Qeq_bool (@next_penalty_value NumQ c (2 # 10) 10)%Q 10 && Qeq_bool (@next_penalty_value NumQ c 0 (10 ^ 7))%Q (10 ^ 7) &&
  Qeq_bool (@next_penalty_value NumQ c 1 (1 # 10000))%Q (1 # 10000) = true.
Proof. vm_compute. reflexivity. Qed.
