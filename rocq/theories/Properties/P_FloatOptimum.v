(** The local optimum in double precision (C67): what C60 says in exact arithmetic, up to rounding,
    and exactly for solutions within capacity. *)
From Coq Require Import List Arith NArith ZArith Bool Lia Reals Lra Permutation.
From Flocq Require Import Core BinarySingleNaN.
From Verif.Model Require Import Num NumFloat Prelude Evaluate Individual Config Sector Random Matrix LinkedList LocalSearch.
From Verif.Spec Require Import Solution LocalSearch LocalOptimum Floats FloatProgram FloatSearch.
From Verif.Proofs Require Import Lists EvalFacts FloatFacts FloatRun FloatDelta FloatLs FloatOptimum FloatStar LsLocal LsSearch LsRun LsHistory LsOptimum.
From Verif.Properties Require Import P_RuinRecreate P_FloatRun P_FloatFine P_FloatSearch.
Import ListNotations.
Open Scope nat_scope.

(** Whatever the random stream: no enabled move of a customer [u] and one of its neighbours [v]
    saves more than 1.5 * 10^-6 of the true cost of the returned solution. *)
Theorem C67_local_optimum (p : @problem NumF) (c : @config NumF) d q cap (pen epen : dbl) fuel (s : @lsearch NumF)
    (i : @individual NumF) r s' i' r' :
  integral_instance p c d q cap -> moderate p d q cap pen ->
  usable p c s -> length (i_pheno i) = c_num_vehicles c -> serves_all_once (p_dim p) (i_pheno i) ->
  @ls_run NumF p c pen fuel epen s i r = Ok (s', i', r') ->
  forall m u v sol', enabled c m = true -> 0 < u < p_dim p -> In v (near c (s_corr s) u) ->
    neighbour (i_pheno i') sol' m u v ->
    (true_cost d q cap (B2R pen) (i_pheno i') <= true_cost d q cap (B2R pen) sol' + 3 / 2000000)%R.
Proof.
  intros II MO U HL SV E m u v sol' EM Hu I NB. pose proof (ii_dim _ _ _ _ _ II) as D2. pose proof (ii_gran _ _ _ _ _ II) as G1.
  pose proof (usable_ready p c zero_not_lt_F s ltac:(lia) ltac:(lia) U) as R.
  destruct (ls_run_settled NumF p c pen fuel epen s i r s' i' r' zero_not_lt_F ltac:(lia) ltac:(lia) R HL SV E)
    as (rs & n & lc & H & _ & P & _ & [O1 _ _] & _).
  rewrite (true_cost_perm d q cap pen _ _ P).
  exact (float_pair p c d q cap pen II MO s' rs H m u v sol' (O1 u v Hu I) EM (neighbour_perm _ _ _ P _ _ _ NB)).
Qed.
Print Assumptions C67_local_optimum.

(** With SWAP* switched on, if the run has performed a move at all: opening an empty route with
    an enabled move saves no more either. *)
Theorem C67_empty_routes (p : @problem NumF) (c : @config NumF) d q cap (pen epen : dbl) fuel (s : @lsearch NumF)
    (i : @individual NumF) r s' i' r' :
  integral_instance p c d q cap -> moderate p d q cap pen ->
  usable p c s -> length (i_pheno i) = c_num_vehicles c -> serves_all_once (p_dim p) (i_pheno i) ->
  @ls_run NumF p c pen fuel epen s i r = Ok (s', i', r') -> c_swap_star c = true -> (0 < s_count s')%Z ->
  forall m u sol', enabled c m = true -> 0 < u < p_dim p -> opens (i_pheno i') sol' m u ->
    (true_cost d q cap (B2R pen) (i_pheno i') <= true_cost d q cap (B2R pen) sol' + 3 / 2000000)%R.
Proof.
  intros II MO U HL SV E SS CN m u sol' EM Hu NB. pose proof (ii_dim _ _ _ _ _ II) as D2. pose proof (ii_gran _ _ _ _ _ II) as G1.
  pose proof (usable_ready p c zero_not_lt_F s ltac:(lia) ltac:(lia) U) as R.
  destruct (ls_run_settled NumF p c pen fuel epen s i r s' i' r' zero_not_lt_F ltac:(lia) ltac:(lia) R HL SV E)
    as (rs & n & lc & H & _ & P & K & [_ O2 _] & L0).
  rewrite (true_cost_perm d q cap pen _ _ P).
  exact (float_empty p c d q cap pen II MO s' rs H m u sol' (O2 (L0 SS ltac:(lia)) u Hu) EM (opens_perm _ _ _ P _ _ NB)).
Qed.
Print Assumptions C67_empty_routes.

(** With SWAP* switched on and distances that satisfy the triangle inequality: no exchange of two
    customers between two routes whose sectors overlap, and no change of route of one customer,
    saves more than 3.1 * 10^-6, whatever places the customers take. *)
Theorem C67_swap_star (p : @problem NumF) (c : @config NumF) d q cap (pen epen : dbl) fuel (s : @lsearch NumF)
    (i : @individual NumF) r s' i' r' :
  integral_instance p c d q cap -> moderate p d q cap pen ->
  (forall i j k, i < p_dim p -> j < p_dim p -> k < p_dim p -> (d i k <= d i j + d j k)%Z) ->
  usable p c s -> length (i_pheno i) = c_num_vehicles c -> serves_all_once (p_dim p) (i_pheno i) ->
  @ls_run NumF p c pen fuel epen s i r = Ok (s', i', r') -> c_swap_star c = true ->
  forall l1 l2 sol', l1 <> [] -> l2 <> [] -> overlaps (sector_of p l1) (sector_of p l2) = true ->
    exchange (i_pheno i') sol' l1 l2 ->
    (true_cost d q cap (B2R pen) (i_pheno i') <= true_cost d q cap (B2R pen) sol' + 31 / 10000000)%R.
Proof.
  intros II MO TR U HL SV E SW l1 l2 sol' N1 N2 OV NB. pose proof (ii_dim _ _ _ _ _ II) as D2. pose proof (ii_gran _ _ _ _ _ II) as G1.
  pose proof (usable_ready p c zero_not_lt_F s ltac:(lia) ltac:(lia) U) as R.
  destruct (ls_run_settled NumF p c pen fuel epen s i r s' i' r' zero_not_lt_F ltac:(lia) ltac:(lia) R HL SV E)
    as (rs & n & lc & H & CA & P & _ & [_ _ O3] & _).
  destruct (mo_pen _ _ _ _ _ MO) as [PF PN0]. destruct (mo_size _ _ _ _ _ MO) as (top & TOP & SZ).
  assert (SS : ((Z.of_nat (p_dim p) + 8) * top <= 2 ^ 29)%Z).
  { apply le_IZR. assert (0 <= B2R pen * IZR (Z.max 0 (zload q (seq 1 (p_dim p - 1)) - cap)))%R by (apply Rmult_le_pos; [exact PN0|apply IZR_le; lia]).
    change (2 ^ 29)%Z with 536870912%Z. lra. }
  rewrite (true_cost_perm d q cap pen _ _ P).
  exact (float_exchange p c d q cap pen II MO TR top TOP SS SZ s' rs H CA (O3 SW) l1 l2 sol' N1 N2 OV (exchange_perm _ _ _ P _ _ NB)).
Qed.
Print Assumptions C67_swap_star.

Lemma true_cost_feasible d q cap pen sol : (forall r, In r sol -> (zload q r <= cap)%Z) ->
  true_cost d q cap pen sol = IZR (zsum (map (ztour d) sol)).
Proof.
  unfold true_cost. induction sol as [|r sol IH]; intros H; [reflexivity|]. cbn [map rsum zsum fold_right].
  rewrite IH by (intros x Hx; apply H; now right). unfold true_route_cost.
  rewrite Z.max_l by (specialize (H r (or_introl eq_refl)); lia).
  change (zsum (ztour d r :: map (ztour d) sol)) with (ztour d r + zsum (map (ztour d) sol))%Z. rewrite plus_IZR. lra.
Qed.

(** If the returned solution is within capacity: no neighbour within capacity is shorter at all. *)
Theorem C67_feasible_neighbours (p : @problem NumF) (c : @config NumF) d q cap (pen epen : dbl) fuel (s : @lsearch NumF)
    (i : @individual NumF) r s' i' r' :
  integral_instance p c d q cap -> moderate p d q cap pen ->
  usable p c s -> length (i_pheno i) = c_num_vehicles c -> serves_all_once (p_dim p) (i_pheno i) ->
  @ls_run NumF p c pen fuel epen s i r = Ok (s', i', r') -> (forall r, In r (i_pheno i') -> (zload q r <= cap)%Z) ->
  forall m u sol', enabled c m = true -> 0 < u < p_dim p ->
    (exists v, In v (near c (s_corr s) u) /\ neighbour (i_pheno i') sol' m u v) \/
    (c_swap_star c = true /\ (0 < s_count s')%Z /\ opens (i_pheno i') sol' m u) ->
    (forall r, In r sol' -> (zload q r <= cap)%Z) ->
    (zsum (map (ztour d) (i_pheno i')) <= zsum (map (ztour d) sol'))%Z.
Proof.
  intros II MO U HL SV E FE m u sol' EM Hu NB FE'.
  assert (L : (true_cost d q cap (B2R pen) (i_pheno i') <= true_cost d q cap (B2R pen) sol' + 3 / 2000000)%R).
  { destruct NB as [(v & I & NB)|(SS & CN & NB)].
    - eapply C67_local_optimum; eauto.
    - eapply C67_empty_routes; eauto. }
  rewrite !true_cost_feasible in L by auto. apply Z.lt_succ_r. apply lt_IZR. unfold Z.succ. rewrite plus_IZR. lra.
Qed.
Print Assumptions C67_feasible_neighbours.

(** And no exchange within capacity between two routes with overlapping sectors. *)
Theorem C67_feasible_exchanges (p : @problem NumF) (c : @config NumF) d q cap (pen epen : dbl) fuel (s : @lsearch NumF)
    (i : @individual NumF) r s' i' r' :
  integral_instance p c d q cap -> moderate p d q cap pen ->
  (forall i j k, i < p_dim p -> j < p_dim p -> k < p_dim p -> (d i k <= d i j + d j k)%Z) ->
  usable p c s -> length (i_pheno i) = c_num_vehicles c -> serves_all_once (p_dim p) (i_pheno i) ->
  @ls_run NumF p c pen fuel epen s i r = Ok (s', i', r') -> (forall r, In r (i_pheno i') -> (zload q r <= cap)%Z) ->
  c_swap_star c = true ->
  forall l1 l2 sol', l1 <> [] -> l2 <> [] -> overlaps (sector_of p l1) (sector_of p l2) = true ->
    exchange (i_pheno i') sol' l1 l2 -> (forall r, In r sol' -> (zload q r <= cap)%Z) ->
    (zsum (map (ztour d) (i_pheno i')) <= zsum (map (ztour d) sol'))%Z.
Proof.
  intros II MO TR U HL SV E FE SW l1 l2 sol' N1 N2 OV NB FE'.
  pose proof (C67_swap_star p c d q cap pen epen fuel s i r s' i' r' II MO TR U HL SV E SW l1 l2 sol' N1 N2 OV NB) as L.
  rewrite !true_cost_feasible in L by auto. apply Z.lt_succ_r. apply lt_IZR. unfold Z.succ. rewrite plus_IZR. lra.
Qed.
Print Assumptions C67_feasible_exchanges.

(** ** Example *)

(** The run of [C66_run] ends in [2; 1], [5; 4; 3] and two empty routes; the loads are 7 and 8,
    the capacity is 8.  A neighbour: customers 3 and 1, of different routes,
    change places (loads 6 and 9).  A neighbour within capacity: customer 5 opens an empty route. *)
Example C67_applicable :
  integral_instance fr_p fr_c fr_d fr_q 8 /\ moderate fr_p fr_d fr_q 8 (d_of_Z 2) /\
  usable fr_p fr_c (ls_new fr_p rr_corr (rr_stream 3 5)) /\ length (i_pheno fs_start) = c_num_vehicles fr_c /\
  serves_all_once (p_dim fr_p) (i_pheno fs_start) /\
  fs_view (@ls_run NumF fr_p fr_c (d_of_Z 2) 100 (d_of_Z 2) (ls_new fr_p rr_corr (rr_stream 3 5)) fs_start (rr_stream 3 5)) =
    Some (4%Z, [[2; 1]; [5; 4; 3]; []; []]) /\
  c_swap_star fr_c = true /\ (forall r, In r [[2; 1]; [5; 4; 3]; []; []] -> (zload fr_q r <= 8)%Z) /\
  enabled fr_c SwapOneWithOne = true /\ In 1 (near fr_c rr_corr 3) /\
  neighbour [[2; 1]; [5; 4; 3]; []; []] [[2; 3]; [5; 4; 1]; []; []] SwapOneWithOne 3 1 /\
  enabled fr_c RelocateSingle = true /\
  opens [[2; 1]; [5; 4; 3]; []; []] [[2; 1]; [4; 3]; [5]; []] RelocateSingle 5 /\
  (forall r, In r [[2; 1]; [4; 3]; [5]; []] -> (zload fr_q r <= 8)%Z).
Proof.
  destruct C66_applicable as (A1 & A2 & _ & A3 & A4 & A5 & _).
  do 5 (split; [assumption|]). split; [exact C66_run|]. split; [reflexivity|].
  split; [intros r [<-|[<-|[<-|[<-|[]]]]]; vm_compute; discriminate|].
  split; [reflexivity|]. split; [vm_compute; auto 8|]. split.
  { apply (sw_other _ _ _ _ [5; 4] [] [2] [] [[]; []]); apply perm_swap. }
  split; [reflexivity|]. split.
  { exists [], [4; 3], [[2; 1]; []]. split.
    - apply (Permutation_app_comm [[2; 1]] [[5; 4; 3]; []; []]) || (cbn [app]; eapply perm_trans; [apply perm_swap|]; apply perm_skip; apply perm_swap).
    - eapply perm_trans; [apply perm_swap|]. apply perm_skip. apply perm_swap. }
  intros r [<-|[<-|[<-|[<-|[]]]]]; vm_compute; discriminate.
Qed.

(** The same with the angles of customers on a line: all sectors overlap. *)
Definition fo_p : @problem NumF := @mkProblem NumF 6 (p_dist fr_p) (p_demand fr_p) (p_coord fr_p) (p_cap fr_p) (p_near fr_p)
  (fun _ _ => d_of_Z 0) unit_double (fun x => dsub x (d_of_Z 1)) (fun _ => 0%Z).
Local Lemma fo_instance : integral_instance fo_p fr_c fr_d fr_q 8.
Proof. destruct fr_instance as [[A1 A2 A3] B C D E G H I]. split; [split|..]; assumption. Qed.
Local Lemma fo_moderate : moderate fo_p fr_d fr_q 8 (d_of_Z 2).
Proof. destruct C66_applicable as (_ & [A B C D E] & _). split; assumption. Qed.
Local Lemma fo_usable hash : usable fo_p fr_c (ls_new fo_p rr_corr hash).
Proof.
  apply us_new. split; [cbn; lia|]. split; [reflexivity|]. intros u v Hu I. cbn in Hu.
  do 6 (destruct u as [|u]; [vm_compute in I; cbn [p_dim fo_p]; lia|]). lia.
Qed.

(** Customers 2 and 4 may be exchanged within capacity, customer 4 in front of 1, customer 2
    behind 3. *)
Example C67_exchange_applicable :
  integral_instance fo_p fr_c fr_d fr_q 8 /\ moderate fo_p fr_d fr_q 8 (d_of_Z 2) /\
  (forall i j k, i < p_dim fo_p -> j < p_dim fo_p -> k < p_dim fo_p -> (fr_d i k <= fr_d i j + fr_d j k)%Z) /\
  usable fo_p fr_c (ls_new fo_p rr_corr (rr_stream 3 5)) /\ length (i_pheno fs_start) = c_num_vehicles fr_c /\
  serves_all_once (p_dim fo_p) (i_pheno fs_start) /\
  fs_view (@ls_run NumF fo_p fr_c (d_of_Z 2) 100 (d_of_Z 2) (ls_new fo_p rr_corr (rr_stream 3 5)) fs_start (rr_stream 3 5)) =
    Some (4%Z, [[2; 1]; [5; 4; 3]; []; []]) /\
  (forall r, In r [[2; 1]; [5; 4; 3]; []; []] -> (zload fr_q r <= 8)%Z) /\
  c_swap_star fr_c = true /\ overlaps (sector_of fo_p [2; 1]) (sector_of fo_p [5; 4; 3]) = true /\
  exchange [[2; 1]; [5; 4; 3]; []; []] [[4; 1]; [5; 3; 2]; []; []] [2; 1] [5; 4; 3] /\
  (forall r, In r [[4; 1]; [5; 3; 2]; []; []] -> (zload fr_q r <= 8)%Z).
Proof.
  destruct C66_applicable as (_ & _ & _ & _ & A4 & A5 & _).
  split; [exact fo_instance|]. split; [exact fo_moderate|]. split; [intros i j k _ _ _; unfold fr_d; lia|].
  split; [apply fo_usable|]. split; [exact A4|]. split; [exact A5|]. split; [vm_compute; reflexivity|].
  split; [intros r [<-|[<-|[<-|[<-|[]]]]]; vm_compute; discriminate|].
  split; [reflexivity|]. split; [vm_compute; reflexivity|]. split.
  { apply (ex_two _ _ _ _ 2 4 [] [1] [5] [3] [] [1] [5; 3] [] [[]; []]); reflexivity || apply Permutation_refl. }
  intros r [<-|[<-|[<-|[<-|[]]]]]; vm_compute; discriminate.
Qed.
