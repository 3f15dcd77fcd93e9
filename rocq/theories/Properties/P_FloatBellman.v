(** The Bellman split in double precision (C71): no way of cutting the tour into pieces within the
    enlarged capacity is cheaper by more than four ten-millionths per customer. *)
From Coq Require Import Ascii String List Arith NArith ZArith Bool Lia Reals Lra Permutation.
From Flocq Require Import Core BinarySingleNaN.
From Verif.Model Require Import Num NumFloat Prelude Evaluate Individual Config Split.
From Verif.Spec Require Import Solution Floats FloatProgram FloatSearch FloatSplit.
From Verif.Spec Require Split.
From Verif.Proofs Require Import Lists EvalFacts SplitStruct SplitPart FloatFacts FloatRun FloatFine FloatMove FloatSplitRun FloatBellmanRun.
From Verif.Properties Require Import P_FloatRun P_FloatFine P_FloatSearch P_FloatSplit.
Import ListNotations.
Import Spec.Split.
Open Scope nat_scope.

(** A run of the split with [linear_split = false] returns, the result is a cut of the tour into at
    most the allowed number of routes, and its true cost, without any rounding, is at most that of
    every such cut whose pieces stay within [split_capacity_factor] times the capacity, plus four
    ten-millionths for each customer. *)
Theorem C71_bellman_near_optimal (p : @problem NumF) (c : @config NumF) d q cap (pen : dbl) (st : @split_state NumF)
    (ind : @individual NumF) mv :
  integral_instance p c d q cap -> split_sizes p d q pen -> drawable p ->
  is_finite (c_split_capacity_factor c : dbl) = true ->
  (0 <= B2R (c_split_capacity_factor c : dbl) <= bpow radix2 100)%R ->
  c_linear_split c = false -> sp_bwf st -> Permutation (i_geno ind) (seq 1 (p_dim p - 1)) -> 1 <= mv ->
  Nat.max mv (@vehicle_lower_bound NumF p) <= c_num_vehicles c ->
  exists st' ind', @split_run NumF p c pen st ind mv = Ok (st', ind') /\ sp_bwf st' /\
    partitioned_into (i_geno ind) (i_pheno ind') (Nat.max mv (@vehicle_lower_bound NumF p)) /\
    length (i_pheno ind') = c_num_vehicles c /\ serves_all_once (p_dim p) (i_pheno ind') /\
    forall segs, segmentation (i_geno ind) segs -> length segs <= Nat.max mv (@vehicle_lower_bound NumF p) ->
      (forall r, In r segs -> (IZR (zload q r) <= IZR cap * B2R (c_split_capacity_factor c : dbl))%R) ->
      (true_cost d q cap (B2R pen) (i_pheno ind') <=
       true_cost d q cap (B2R pen) segs + INR (p_dim p - 1) * (4 / 10000000))%R.
Proof.
  intros II SS DR FF FV Hlin Hwf Hperm Hmv Hmax. pose proof (ii_dim _ _ _ _ _ II) as D2.
  destruct (split_run_total p pen sp_bwf c st ind mv ltac:(lia) Hperm (anglesF p c d q cap II DR)
              (split_run_core_bellman p pen c st ind mv bellman_break Hlin Hwf ltac:(lia) Hperm Hmv Hmax)) as (st' & ind' & E).
  destruct (split_run_bellman_ok p pen c st ind mv bellman_break Hlin Hwf ltac:(lia) Hperm Hmv Hmax st' ind' E) as (A1 & A2 & A3 & A4 & _).
  exists st', ind'. split; [exact E|]. split; [exact A1|]. split; [exact A2|]. split; [exact A3|]. split; [exact A4|].
  exact (bellman_run_near p c d q cap pen II SS (conj FF FV) Hlin st ind mv st' ind' Hwf Hperm Hmv Hmax E).
Qed.
Print Assumptions C71_bellman_near_optimal.

(** Without the limit on the number of routes: the first half of the split. *)
Theorem C71_unlimited (p : @problem NumF) (c : @config NumF) d q cap (pen : dbl) (st : @split_state NumF) geno mv :
  integral_instance p c d q cap -> split_sizes p d q pen ->
  is_finite (c_split_capacity_factor c : dbl) = true ->
  (0 <= B2R (c_split_capacity_factor c : dbl) <= bpow radix2 100)%R ->
  c_linear_split c = false -> (forall e, 1 <= e -> sp_pred st 0 e < e) -> Permutation geno (seq 1 (p_dim p - 1)) ->
  exists st' rs, @split_unlimited NumF p c pen st geno mv = Ok (st', rs ++ repeat [] (c_num_vehicles c - length rs), length rs <=? mv) /\
    segmentation geno (rev rs) /\
    forall segs, segmentation geno segs ->
      (forall r, In r segs -> (IZR (zload q r) <= IZR cap * B2R (c_split_capacity_factor c : dbl))%R) ->
      (true_cost d q cap (B2R pen) rs <=
       true_cost d q cap (B2R pen) segs + INR (p_dim p - 1) * (4 / 10000000))%R.
Proof.
  intros II SS FF FV Hlin Hwf Hperm. exact (bellman_unlimited_run p c d q cap pen II SS (conj FF FV) Hlin geno Hperm st mv Hwf).
Qed.
Print Assumptions C71_unlimited.

(** Splitting the concatenation of the routes of a solution within capacity yields a solution that is
    no worse, up to the same error. *)
Theorem C71_resplit (p : @problem NumF) (c : @config NumF) d q cap (pen : dbl) (st : @split_state NumF)
    (ind : @individual NumF) routes mv st' ind' :
  integral_instance p c d q cap -> split_sizes p d q pen ->
  is_finite (c_split_capacity_factor c : dbl) = true ->
  (1 <= B2R (c_split_capacity_factor c : dbl) <= bpow radix2 100)%R ->
  c_linear_split c = false -> sp_bwf st -> 1 <= mv ->
  Nat.max mv (@vehicle_lower_bound NumF p) <= c_num_vehicles c ->
  serves_all_once (p_dim p) routes -> length routes <= mv -> i_geno ind = concat routes ->
  (forall r, In r routes -> (zload q r <= cap)%Z) ->
  @split_run NumF p c pen st ind mv = Ok (st', ind') ->
  (true_cost d q cap (B2R pen) (i_pheno ind') <=
   IZR (zsum (map (ztour d) routes)) + INR (p_dim p - 1) * (4 / 10000000))%R.
Proof.
  intros II SS FF FV Hlin Hwf Hmv Hmax SV Hlen Eg Hcap E.
  assert (Hperm : Permutation (i_geno ind) (seq 1 (p_dim p - 1))) by (rewrite Eg; exact SV).
  destruct (ig_cap _ _ _ _ (ii_data _ _ _ _ _ II)) as [_ C].
  assert (FV0 : (0 <= B2R (c_split_capacity_factor c : dbl) <= bpow radix2 100)%R) by lra.
  pose proof (bellman_run_near p c d q cap pen II SS (conj FF FV0) Hlin st ind mv st' ind' Hwf Hperm Hmv Hmax E routes (eq_sym Eg) ltac:(lia)) as H.
  assert (TE : true_cost d q cap (B2R pen) routes = IZR (zsum (map (ztour d) routes))).
  { clear - Hcap C. unfold true_cost. induction routes as [|r l IH]; [reflexivity|]. cbn [map zsum rsum]. rewrite plus_IZR.
    rewrite IH by (intros; apply Hcap; now right). unfold true_route_cost.
    pose proof (Hcap r (or_introl eq_refl)). rewrite Z.max_l by lia. change (IZR 0) with 0%R. lra. }
  rewrite TE in H. apply H. intros r Hr. apply Hcap in Hr. apply IZR_le in Hr. assert (0 <= IZR cap)%R by (apply IZR_le; lia). nra.
Qed.
Print Assumptions C71_resplit.

(** ** Cases *)
(** The instance of C69, with the Bellman split and a capacity factor of 3/2. *)
Definition fb_c : @config NumF := @mkConfig NumF
  (Some 6%nat) 3 4 60
  2 3 2 1 2 (d_lit 2 10) 2 (d_lit 5 10)
  (d_lit 15 10) false
  false 3 true true true true true true true true true true
  2 (d_lit 12 10) (d_lit 85 100)
  3 3 true (d_lit 1 1) (d_lit 1 1) (d_lit 10 1)
  false 1 (d_lit 3 1) (d_lit 50 1) false (d_lit 2 100).
Definition fb_run mv : option (list (list nat)) :=
  match @split_run NumF fr_p fb_c (d_of_Z 20) (@split_new NumF) fp_ind mv with
  | Ok (_, i) => Some (i_pheno i)
  | Err _ => None
  end.
Local Lemma fb_factor : is_finite (c_split_capacity_factor fb_c : dbl) = true /\ B2R (c_split_capacity_factor fb_c : dbl) = (3 / 2)%R.
Proof.
  assert (E : B2SF (c_split_capacity_factor fb_c : dbl) = SpecFloat.S754_finite false 6755399441055744 (-52)) by (vm_compute; reflexivity).
  split; [vm_compute; reflexivity|]. rewrite <- SF2R_B2SF, E. unfold SF2R, F2R. cbn [cond_Zopp Fnum Fexp].
  change (bpow radix2 (-52)) with (/ IZR (2 ^ 52))%R. change (2 ^ 52)%Z with 4503599627370496%Z. lra.
Qed.

Example C71_applicable : integral_instance fr_p fb_c fr_d fr_q 8 /\ split_sizes fr_p fr_d fr_q (d_of_Z 20) /\ drawable fr_p /\
  is_finite (c_split_capacity_factor fb_c : dbl) = true /\ (1 <= B2R (c_split_capacity_factor fb_c : dbl) <= bpow radix2 100)%R /\
  c_linear_split fb_c = false /\ sp_bwf (@split_new NumF) /\ Permutation (i_geno fp_ind) (seq 1 (p_dim fr_p - 1)) /\
  Nat.max 2 (@vehicle_lower_bound NumF fr_p) <= c_num_vehicles fb_c.
Proof.
  destruct C69_applicable as ([A1 A2 A3 A4 A5 A6 A7 A8] & A & B & _ & _ & D & E). destruct fb_factor as [F1 F2].
  split; [constructor; assumption|]. split; [exact A|]. split; [exact B|]. split; [exact F1|]. split.
  { rewrite F2. assert (bpow radix2 1 <= bpow radix2 100)%R by (apply bpow_le; lia). change (bpow radix2 1) with 2%R in *. lra. }
  split; [reflexivity|]. split; [apply split_new_bwf|]. split; [exact D|exact E].
Qed.

Example C71_case : fb_run 3 = Some [[1; 3; 5]; [4]; [2]; []] /\ fb_run 2 = Some [[2; 4]; [1; 3; 5]; []; []].
Proof. vm_compute. auto. Qed.

(** What the theorem says of the second result: no two routes of load at most 12 that follow the tour
    are cheaper. *)
Example C71_case_best segs : concat segs = [2; 4; 1; 3; 5] -> length segs <= 2 -> (forall r, In r segs -> (zload fr_q r <= 12)%Z) ->
  (true_cost fr_d fr_q 8 20 [[2; 4]; [1; 3; 5]; []; []]%nat <= true_cost fr_d fr_q 8 20 segs + 2 / 1000000)%R.
Proof.
  intros Es Hl Hin. destruct C71_applicable as (A1 & A2 & A3 & A4 & A5 & A6 & A7 & A8 & A9).
  assert (FV0 : (0 <= B2R (c_split_capacity_factor fb_c : dbl) <= bpow radix2 100)%R) by lra.
  destruct (C71_bellman_near_optimal fr_p fb_c fr_d fr_q 8 (d_of_Z 20) split_new fp_ind 2 A1 A2 A3 A4 FV0 A6 A7 A8 ltac:(lia) A9) as (st' & ind' & E & _ & _ & _ & _ & H).
  pose proof (proj2 C71_case) as C. unfold fb_run in C. rewrite E in C. injection C as C. rewrite C in H.
  destruct (int_of_Z 20) as [_ PE]; [unfold exact_bound; lia|]. rewrite PE in H.
  specialize (H segs Es ltac:(lia)). assert (E5 : INR (p_dim fr_p - 1) = 5%R) by (rewrite INR_IZR_INZ; reflexivity). rewrite E5 in H.
  assert (forall r, In r segs -> (IZR (zload fr_q r) <= IZR 8 * B2R (c_split_capacity_factor fb_c : dbl))%R).
  { intros r Hr. rewrite (proj2 fb_factor). apply Hin, IZR_le in Hr. lra. }
  specialize (H H0). lra.
Qed.
Example C71_case_within : forall r, In r [[2; 4]; [1; 3; 5]]%nat -> (zload fr_q r <= 12)%Z.
Proof. intros r [<-|[<-|[]]]; vm_compute; discriminate. Qed.
