(** The run in double precision ends (C70). *)
From Coq Require Import List Arith NArith ZArith Bool Lia Reals Lra Permutation.
From Flocq Require Import Core BinarySingleNaN.
From Verif.Model Require Import Num NumFloat Prelude Evaluate Individual Config Crossover Split Matrix Population
  LocalSearch World Schedule RuinRecreate Genetic.
From Verif.Spec Require Import Solution Library Population LocalSearch RuinRecreate Genetic Floats FloatProgram.
From Verif.Proofs Require Import Lists FloatFacts FloatPenalty FloatRun FloatStart FloatFine FloatEnds GaInv RustLib.
From Verif.Properties Require Import P_RuinRecreate P_FloatRun P_FloatFine.
From Verif.Spec Require Import FloatSearch.
Import ListNotations.
Open Scope nat_scope.

(** [peak] is a penalty with which the instance is of moderate size (see C66).  There is a bound on
    the lengths of all loops with which every run ends, for all libraries, clocks and random
    numbers, unless the capacity penalty exceeds a tenth of [peak]: repair multiplies it by ten.
    Penalties during elite education, where there is no local search, do not count. *)
Theorem C70_run_ends (p : @problem NumF) (c : @config NumF) d q cap (peak : dbl) B last :
  integral_instance p c d q cap -> drawable p -> elite_fits p c -> moderate p d q cap peak -> 3 <= p_dim p -> workable c ->
  (Z.of_nat (c_num_diversity_closest c) < 2 ^ 64)%Z ->
  exists bound, forall L E li md fuel w0 g w, lib_ok L -> time_up c E last -> bound <= fuel ->
    set_up p md w0 -> varied (p_dim p) B (rdraw (w_rng w0)) -> ga_reached L p c E li md fuel w0 g w ->
    ((exists g' w', ga_iterate L p c E li md fuel g w = Ok (g', w')) /\
     exists g' w', solver_run L p c E li md fuel fuel g w = Ok (g', w') /\ ga_st g' = Terminated) \/
    exists g' w', ga_reached L p c E li md fuel w0 g' w' /\ ga_st g' <> EliteEducation /\ ga_st g' <> Terminated /\
      (B2R peak < 10 * B2R (w_pen w' : dbl))%R.
Proof.
  intros II DR EF MO D3 WO HC.
  assert (HC' : (Z.of_nat (c_num_diversity_closest c) < 2 ^ 1000)%Z) by (eapply Z.lt_le_trans; [exact HC|apply Z.pow_le_mono_r; lia]).
  destruct (reals_archimedes (2000000 * cost_top c peak)) as (m & HM).
  exists (Nat.max (rr_topF p c) (Nat.max B (Nat.max (last + 1) m))). intros L E li md fuel w0 g w LO TU HF SU LV R.
  assert (F4 : (cost_top c peak < INR fuel * sure_gain)%R) by (specialize (HM fuel ltac:(lia)); unfold sure_gain; lra).
  destruct (iterate_calm p c d q cap II DR EF peak MO B last D3 L LO E li md fuel ltac:(lia) ltac:(lia) ltac:(lia) F4 HC' WO w0 g w SU LV R) as [X|X]; [|right; exact X].
  destruct (run_calm p c d q cap II DR EF peak MO B last D3 L LO E TU li md fuel ltac:(lia) ltac:(lia) ltac:(lia) F4 HC' WO w0 SU LV fuel g w R) as [(g' & w' & E1 & T)|Y];
    [right; lia| |right; exact Y].
  left. split; [exact X|]. exists g', w'. split; [exact E1|]. unfold ga_terminated in T. destruct (ga_st g'); try discriminate T. reflexivity.
Qed.
Print Assumptions C70_run_ends.

Lemma penalty_below (p : @problem NumF) (c : @config NumF) d q cap L E li md fuel w0 g w :
  integral_instance p c d q cap -> lib_ok L -> set_up p md w0 -> ga_reached L p c E li md fuel w0 g w ->
  ga_st g <> EliteEducation -> ga_st g <> Terminated -> (B2R (w_pen w : dbl) <= 10 ^ 7)%R.
Proof.
  intros II LO SU R S1 S2. pose proof (in_usual _ _ _ _ _ _ _ _ _ _ _ _ (reached_recordsF p c d q cap II L LO E li md fuel w0 g w SU R) S1 S2) as [[U0 U] _].
  assert (FH : is_finite highF = true) by exact high_finF. apply (dle_R _ _ (range_fin _ _ _ low_finF high_finF (conj U0 U)) FH) in U.
  assert (H7 : is_int highF (10 ^ 7)).
  { assert (X7 : exists m e, B2SF highF = SpecFloat.S754_finite false m e /\ (Z.pos m = 10 ^ 7 * 2 ^ (- e))%Z /\ (e <= 0)%Z).
    { eexists _, _. split; [vm_compute; reflexivity|]. split; vm_compute; [reflexivity|discriminate]. }
    destruct X7 as (m & e & ES & EM & LE). split; [exact FH|].
    rewrite <- SF2R_B2SF, ES. unfold SF2R, F2R. cbn [SpecFloat.cond_Zopp Fnum Fexp]. rewrite EM, mult_IZR.
    change 2%Z with (radix_val radix2). rewrite (IZR_Zpower radix2) by lia. rewrite Rmult_assoc, <- bpow_plus. replace (- e + e)%Z with 0%Z by lia. cbn [bpow]. lra. }
  destruct H7 as [_ H7]. rewrite H7 in U. change (IZR (10 ^ 7)) with (IZR 10000000) in U. lra.
Qed.

(** The penalty is clamped to at most 10^7 after each update.  So an instance that is of moderate
    size with a penalty of 10^8 always ends: above all, one whose customers fit into one vehicle. *)
Theorem C70_always_ends (p : @problem NumF) (c : @config NumF) d q cap B last :
  integral_instance p c d q cap -> drawable p -> elite_fits p c -> moderate p d q cap (d_of_Z (10 ^ 8)) -> 3 <= p_dim p -> workable c ->
  (Z.of_nat (c_num_diversity_closest c) < 2 ^ 64)%Z ->
  exists bound, forall L E li md fuel w0 g w, lib_ok L -> time_up c E last -> bound <= fuel ->
    set_up p md w0 -> varied (p_dim p) B (rdraw (w_rng w0)) -> ga_reached L p c E li md fuel w0 g w ->
    exists g' w', solver_run L p c E li md fuel fuel g w = Ok (g', w') /\ ga_st g' = Terminated.
Proof.
  intros II DR EF MO D3 WO HC. destruct (C70_run_ends p c d q cap (d_of_Z (10 ^ 8)) B last II DR EF MO D3 WO HC) as (bound & X).
  exists bound. intros L E li md fuel w0 g w LO TU HF SU LV R. destruct (X L E li md fuel w0 g w LO TU HF SU LV R) as [[_ Y]|(g1 & w1 & R1 & S1 & S2 & P)]; [exact Y|].
  exfalso. destruct (int_of_Z (10 ^ 8)) as [_ E8]; [reflexivity|]. rewrite E8 in P.
  pose proof (penalty_below p c d q cap L E li md fuel w0 g1 w1 II LO SU R1 S1 S2). change (IZR (10 ^ 8)) with (IZR 100000000) in P. lra.
Qed.
Print Assumptions C70_always_ends.

(** ** Cases *)
(** The instance of C58, with penalties up to 7 * 10^6, and random numbers that count up. *)
Definition fn_env : @env NumF := @mkEnv NumF (fun x => dadd (d_of_Z 1) (ddiv x (d_of_Z 2))) (fun k => d_of_Z (Z.of_nat (Nat.min k 60))).
Local Lemma fn_size : forall a b, a < 6 -> b < 6 -> (fr_d a b <= 9)%Z.
Proof.
  intros a b HA HB. unfold fr_d.
  assert (X : forall k, (k < 6)%nat -> (0 <= fr_x k <= 9)%Z) by (intros k Hk; do 6 (destruct k as [|k]; [cbn; lia|]); lia).
  pose proof (X a HA). pose proof (X b HB). lia.
Qed.
Local Lemma fn_moderate : moderate fr_p fr_d fr_q 8 (d_of_Z 70000000).
Proof.
  destruct (int_of_Z 70000000) as [PF PE]; [unfold exact_bound; lia|].
  constructor.
  - reflexivity.
  - intros a b _ _. unfold fr_d. lia.
  - split; [exact PF|]. rewrite PE. lra.
  - vm_compute. discriminate.
  - exists 9%Z. split; [exact fn_size|].
    rewrite PE. change (zload fr_q (seq 1 (p_dim fr_p - 1))) with 15%Z. change (Z.of_nat (p_dim fr_p)) with 6%Z.
    change (Z.max 0 (15 - 8)) with 7%Z. change ((6 + 8) * 9)%Z with 126%Z. lra.
Qed.
Local Lemma counting_varied n : varied n 1 (rdraw (rr_stream 0 1)).
Proof.
  intros m Hm k. exists (k + 1). split; [lia|]. cbn [rr_stream rdraw].
  replace (0 * N.of_nat (k + 1) * N.of_nat (k + 1) + 1 * N.of_nat (k + 1 + 1))%N with (N.of_nat (k + 1) + 1)%N by lia.
  replace (0 * N.of_nat k * N.of_nat k + 1 * N.of_nat (k + 1))%N with (N.of_nat (k + 1)) by lia.
  generalize (N.of_nat (k + 1)). intros x. assert (2 <= N.of_nat m)%N by lia. generalize dependent (N.of_nat m). intros y Hy.
  pose proof (N.mod_lt x y ltac:(lia)) as B. intro E. rewrite N.add_mod, (N.mod_small 1 y) in E by lia.
  set (z := (x mod y)%N) in *. clearbody z. destruct (N.eq_dec (z + 1) y) as [Q|Q].
  - rewrite Q, N.mod_same in E by lia. lia.
  - rewrite N.mod_small in E by lia. lia.
Qed.
Local Lemma fn_time : time_up fr_c fn_env 60.
Proof.
  intros t Ht. cbn [fn_env e_clock]. rewrite Nat.min_r by lia. apply Nat.leb_le. vm_compute. reflexivity.
Qed.
Example C70_applicable : integral_instance fr_p fr_c fr_d fr_q 8 /\ drawable fr_p /\ elite_fits fr_p fr_c /\
  moderate fr_p fr_d fr_q 8 (d_of_Z 70000000) /\ 3 <= p_dim fr_p /\ workable fr_c /\ (Z.of_nat (c_num_diversity_closest fr_c) < 2 ^ 64)%Z /\
  time_up fr_c fn_env 60 /\ set_up fr_p fr_md (fr_world 0 1) /\ varied (p_dim fr_p) 1 (rdraw (w_rng (fr_world 0 1))) /\
  (let (g, w) := fr_start 0 1 in forall fuel, ga_reached rust_lib fr_p fr_c fn_env 5 fr_md fuel (fr_world 0 1) g w).
Proof.
  split; [exact fr_instance|]. split; [exact fr_drawable|]. split; [left; reflexivity|]. split; [exact fn_moderate|]. split; [cbn; lia|].
  split; [repeat split; cbn; lia|]. split; [reflexivity|]. split; [exact fn_time|]. split; [apply fr_set_up|]. split; [apply counting_varied|].
  destruct (fr_start 0 1) as [g w] eqn:ES. intros fuel. eapply gr_new; [| |exact ES].
  - split; [cbn; lia|]. split; [reflexivity|]. intros u v Hu I. cbn in Hu.
    do 6 (destruct u as [|u]; [vm_compute in I; cbn [p_dim fr_p]; lia|]). lia.
  - split; [reflexivity|]. intros u v Hu I. cbn in Hu.
    do 6 (destruct u as [|u]; [vm_compute in I; cbn [p_dim fr_p]; lia|]). lia.
Qed.
(** With vehicles of capacity 11 for a total demand of 15 every run ends. *)
Definition fn_p : @problem NumF := @mkProblem NumF 6 (fun a b => d_of_Z (fr_d a b)) (fun a => d_of_Z (fr_q a))
  (fun i => (d_of_Z (fr_x i), d_of_Z 0)) (d_of_Z 11) (fun i => filter (fun j => negb (Nat.eqb i j)) [1; 2; 3; 4; 5]%nat)
  (fun _ _ => d_of_Z 0) unit_double (fun x => dsub x (d_of_Z 1)) Z.of_nat.
Example C70_always_applicable : integral_instance fn_p fr_c fr_d fr_q 11 /\ drawable fn_p /\ moderate fn_p fr_d fr_q 11 (d_of_Z (10 ^ 8)).
Proof.
  split; [|split; [exact fr_drawable|]].
  - destruct fr_instance as [[A1 A2 A3] B1 [B2 B3] B4 B5 B6 B7 B8]. constructor; try assumption.
    + constructor; [exact A1|exact A2|]. cbn [p_cap fn_p]. split; [apply int_of_Z; reflexivity|unfold exact_bound; lia].
    + split; [exact B2|]. apply Nat.leb_le. vm_compute. reflexivity.
  - destruct (int_of_Z (10 ^ 8)) as [PF PE]; [reflexivity|].
    constructor.
    + reflexivity.
    + intros a b _ _. unfold fr_d. lia.
    + split; [exact PF|]. rewrite PE. apply IZR_le. lia.
    + vm_compute. discriminate.
    + exists 9%Z. split; [exact fn_size|].
      rewrite PE. change (zload fr_q (seq 1 (p_dim fn_p - 1))) with 15%Z. change (Z.of_nat (p_dim fn_p)) with 6%Z.
      change (Z.max 0 (15 - 11)) with 4%Z. change ((6 + 8) * 9)%Z with 126%Z. change (IZR (10 ^ 8)) with (IZR 100000000). lra.
Qed.
