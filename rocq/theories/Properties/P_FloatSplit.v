(** The linear split in double precision (C69): no way of cutting the tour is cheaper by more than
    two millionths per piece and customer. *)
From Coq Require Import Ascii String List Arith NArith ZArith Bool Lia Reals Lra Permutation.
From Flocq Require Import Core BinarySingleNaN.
From Verif.Model Require Import Num NumFloat Prelude Evaluate Individual Config Split.
From Verif.Spec Require Import Solution Floats FloatProgram FloatSearch FloatSplit.
From Verif.Spec Require Split.
From Verif.Proofs Require Import Lists EvalFacts SplitStruct SplitPart FloatFacts FloatRun FloatFine FloatSplitRun.
From Verif.Properties Require Import P_FloatRun P_FloatFine P_FloatSearch.
Import ListNotations.
Import Spec.Split.
Open Scope nat_scope.

(** A run of the split returns, the result is a cut of the tour into at most the allowed number of
    routes, and its true cost, without any rounding, is that of the best such cut up to two
    millionths for each route of that cut and each customer. *)
Theorem C69_near_optimal (p : @problem NumF) (c : @config NumF) d q cap (pen : dbl) (st : @split_state NumF)
    (ind : @individual NumF) mv :
  integral_instance p c d q cap -> split_sizes p d q pen -> drawable p ->
  c_linear_split c = true -> sp_wf st -> Permutation (i_geno ind) (seq 1 (p_dim p - 1)) -> 1 <= mv ->
  Nat.max mv (@vehicle_lower_bound NumF p) <= c_num_vehicles c ->
  exists st' ind', @split_run NumF p c pen st ind mv = Ok (st', ind') /\ sp_wf st' /\
    partitioned_into (i_geno ind) (i_pheno ind') (Nat.max mv (@vehicle_lower_bound NumF p)) /\
    length (i_pheno ind') = c_num_vehicles c /\ serves_all_once (p_dim p) (i_pheno ind') /\
    forall segs, segmentation (i_geno ind) segs -> length segs <= Nat.max mv (@vehicle_lower_bound NumF p) ->
      (true_cost d q cap (B2R pen) (i_pheno ind') <=
       true_cost d q cap (B2R pen) segs + INR (length segs * (p_dim p - 1)) * (2 / 1000000))%R.
Proof.
  intros II SS DR Hlin Hwf Hperm Hmv Hmax. pose proof (ii_dim _ _ _ _ _ II) as D2.
  pose proof (tour_big p c d q cap pen II SS (i_geno ind) Hperm) as Hbig.
  destruct (split_run_total p pen sp_wf c st ind mv ltac:(lia) Hperm (anglesF p c d q cap II DR)
              (split_run_core_linear p pen c st ind mv Hlin Hwf ltac:(lia) Hperm Hbig Hmv Hmax)) as (st' & ind' & E).
  destruct (split_run_ok p pen c st ind mv Hlin Hwf ltac:(lia) Hperm Hbig Hmv Hmax st' ind' E) as (A1 & A2 & A3 & A4 & _).
  exists st', ind'. split; [exact E|]. split; [exact A1|]. split; [exact A2|]. split; [exact A3|]. split; [exact A4|].
  exact (split_run_near p c d q cap pen II SS st ind mv st' ind' Hlin Hperm Hmv Hmax E).
Qed.
Print Assumptions C69_near_optimal.

(** Without the limit on the number of routes: the first half of the split. *)
Theorem C69_unlimited (p : @problem NumF) (c : @config NumF) d q cap (pen : dbl) (st : @split_state NumF) geno mv :
  integral_instance p c d q cap -> split_sizes p d q pen -> c_linear_split c = true ->
  Permutation geno (seq 1 (p_dim p - 1)) ->
  exists st' routes ok, @split_unlimited NumF p c pen st geno mv = Ok (st', routes, ok) /\
    segmentation geno (rev routes) /\
    forall segs, segmentation geno segs ->
      (true_cost d q cap (B2R pen) routes <=
       true_cost d q cap (B2R pen) segs + INR (length segs * (p_dim p - 1)) * (2 / 1000000))%R.
Proof. intros II SS Hlin Hperm. exact (unlimited_run p c d q cap pen II SS geno Hperm Hlin st mv). Qed.
Print Assumptions C69_unlimited.

(** Splitting the concatenation of the routes of a solution yields a solution that is no worse, up
    to the same error. *)
Theorem C69_resplit (p : @problem NumF) (c : @config NumF) d q cap (pen : dbl) (st : @split_state NumF)
    (ind : @individual NumF) routes mv st' ind' :
  integral_instance p c d q cap -> split_sizes p d q pen -> c_linear_split c = true -> 1 <= mv ->
  Nat.max mv (@vehicle_lower_bound NumF p) <= c_num_vehicles c ->
  serves_all_once (p_dim p) routes -> length routes <= mv -> i_geno ind = concat routes ->
  @split_run NumF p c pen st ind mv = Ok (st', ind') ->
  (true_cost d q cap (B2R pen) (i_pheno ind') <=
   true_cost d q cap (B2R pen) routes + INR (mv * (p_dim p - 1)) * (2 / 1000000))%R.
Proof.
  intros II SS Hlin Hmv Hmax SV Hlen Eg E.
  assert (Hperm : Permutation (i_geno ind) (seq 1 (p_dim p - 1))) by (rewrite Eg; exact SV).
  pose proof (split_run_near p c d q cap pen II SS st ind mv st' ind' Hlin Hperm Hmv Hmax E routes (eq_sym Eg) ltac:(lia)) as H.
  assert (INR (length routes * (p_dim p - 1)) <= INR (mv * (p_dim p - 1)))%R by (apply le_INR; nia). lra.
Qed.
Print Assumptions C69_resplit.

(** ** Cases *)
(** Five customers on a line and a penalty of 20.  The unlimited split takes three routes; with two
    vehicles the limited split accepts an overload of one. *)
Definition fp_ind : @individual NumF := mkInd 0 [2; 4; 1; 3; 5] [] None se_new.
Definition fp_run mv : option (list (list nat)) :=
  match @split_run NumF fr_p fr_c (d_of_Z 20) (@split_new NumF) fp_ind mv with
  | Ok (_, i) => Some (i_pheno i)
  | Err _ => None
  end.
Local Lemma fp_sizes : split_sizes fr_p fr_d fr_q (d_of_Z 20).
Proof.
  destruct (int_of_Z 20) as [PF PE]; [unfold exact_bound; lia|].
  constructor.
  - intros a _. unfold fr_d. lia.
  - intros a Ha. cbn [p_dim fr_p] in Ha. do 6 (destruct a as [|a]; [cbn; lia|]). lia.
  - split; [exact PF|]. rewrite PE. lra.
  - exists 9%Z. split; [lia|]. split.
    + intros a b HA HB. cbn [p_dim fr_p] in *. unfold fr_d.
      assert (X : forall k, (k < 6)%nat -> (0 <= fr_x k <= 9)%Z) by (intros k Hk; do 6 (destruct k as [|k]; [cbn; lia|]); lia).
      pose proof (X a HA). pose proof (X b HB). lia.
    + rewrite PE. change (zload fr_q (seq 1 (p_dim fr_p - 1))) with 15%Z. change (Z.of_nat (p_dim fr_p)) with 6%Z.
      change (2 * 6 * 9)%Z with 108%Z. lra.
Qed.

Example C69_applicable : integral_instance fr_p fr_c fr_d fr_q 8 /\ split_sizes fr_p fr_d fr_q (d_of_Z 20) /\ drawable fr_p /\
  c_linear_split fr_c = true /\ sp_wf (@split_new NumF) /\ Permutation (i_geno fp_ind) (seq 1 (p_dim fr_p - 1)) /\
  Nat.max 2 (@vehicle_lower_bound NumF fr_p) <= c_num_vehicles fr_c.
Proof.
  split; [exact fr_instance|]. split; [exact fp_sizes|]. split; [exact fr_drawable|]. split; [reflexivity|]. split; [apply split_new_wf|].
  split.
  - apply NoDup_Permutation_bis; [|cbn; lia|intros x Hx; cbn in *; lia]. repeat constructor; cbn; lia.
  - apply Nat.leb_le. vm_compute. reflexivity.
Qed.

Example C69_case : fp_run 3 = Some [[3; 5]; [4; 1]; [2]; []] /\ fp_run 2 = Some [[2; 4]; [1; 3; 5]; []; []].
Proof. vm_compute. auto. Qed.

(** What the theorem says of the second result: no two routes that follow the tour are cheaper. *)
Example C69_case_best segs : concat segs = [2; 4; 1; 3; 5] -> length segs <= 2 ->
  (true_cost fr_d fr_q 8 20 [[2; 4]; [1; 3; 5]; []; []]%nat <= true_cost fr_d fr_q 8 20 segs + 20 / 1000000)%R.
Proof.
  intros Es Hl. destruct C69_applicable as (A1 & A2 & A3 & A4 & A5 & A6 & A7).
  destruct (C69_near_optimal fr_p fr_c fr_d fr_q 8 (d_of_Z 20) split_new fp_ind 2 A1 A2 A3 A4 A5 A6 ltac:(lia) A7) as (st' & ind' & E & _ & _ & _ & _ & H).
  pose proof (proj2 C69_case) as C. unfold fp_run in C. rewrite E in C. injection C as C. rewrite C in H.
  destruct (int_of_Z 20) as [_ PE]; [unfold exact_bound; lia|]. rewrite PE in H.
  specialize (H segs Es ltac:(lia)). assert (INR (length segs * (p_dim fr_p - 1)) <= INR 10)%R.
  { apply le_INR. change (p_dim fr_p - 1) with 5. lia. }
  assert (E10 : INR 10 = 10%R) by (rewrite INR_IZR_INZ; reflexivity). rewrite E10 in *. lra.
Qed.
