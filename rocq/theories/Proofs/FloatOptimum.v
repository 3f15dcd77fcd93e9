(** The local optimum in double precision: the change of every move of the neighbourhood was
    computed, up to rounding, by the search. *)
From Coq Require Import List Arith ZArith Bool Lia Reals Lra Permutation.
From Flocq Require Import Core BinarySingleNaN.
From Verif.Model Require Import Num NumFloat Prelude Evaluate Individual Config Sector Random Matrix LinkedList LocalSearch.
From Verif.Spec Require Import Solution LocalSearch LocalOptimum Floats FloatProgram FloatSearch.
From Verif.Proofs Require Import Lists LinkFacts EvalFacts EvalThms SplitStruct FloatFacts FloatRun FloatMove FloatDelta FloatLs
  LsState LsMoves LsEffect LsStar LsLocal LsSearch LsRun LsOptimum.
Import ListNotations.
Open Scope nat_scope.

Local Notation fx := (SpecFloat.fexp 53 1024).

Lemma eps_above : (B2R (d_lit 1 1000000) <= 100000001 / 100000000 / 1000000)%R.
Proof.
  rewrite <- SF2R_B2SF. replace (B2SF (d_lit 1 1000000)) with (SpecFloat.S754_finite false 4722366482869645 (-72)) by (vm_compute; reflexivity).
  unfold SF2R, F2R. cbn [SpecFloat.cond_Zopp Fnum Fexp].
  change (bpow radix2 (-72)) with (/ IZR 4722366482869645213696)%R. lra.
Qed.

Lemma not_improving_real (x : dbl) a err : near_to x a err -> @approx_lt NumF x (@f0 NumF) = false ->
  (- err - 100000001 / 100000000 / 1000000 <= a)%R.
Proof.
  intros [F E] L. change (dlt x (dsub (d_of_Z 0) (d_lit 1 1000000)) = false) in L.
  destruct eps_value as [FE _]. pose proof eps_above as VE. destruct int_zero as [F0 V0].
  pose proof (Bminus_correct 53 1024 prec_pos prec_emax mode_NE (d_of_Z 0) (d_lit 1 1000000) F0 FE) as B.
  change (round_mode mode_NE) with ZnearestE in B. change (@f0 NumF) with (d_of_Z 0) in V0. rewrite V0 in B.
  replace (0 - B2R (d_lit 1 1000000))%R with (- B2R (d_lit 1 1000000))%R in B by ring.
  rewrite (round_generic radix2 fx ZnearestE (- _)) in B.
  2:{ apply generic_format_opp. apply generic_format_B2R. }
  rewrite Rabs_Ropp in B. rewrite Rlt_bool_true in B by apply abs_B2R_lt_emax.
  destruct B as (B1 & B2 & _). apply not_lt_real in L; auto. unfold dsub in L. rewrite B1 in L.
  apply Rabs_le_inv in E. lra.
Qed.

Section Optimum.
  Variable p : @problem NumF.
  Variable c : @config NumF.
  Variable d : nat -> nat -> Z.
  Variable q : nat -> Z.
  Variable cap : Z.
  Variable pen : dbl.
  Notation nv := (c_num_vehicles c).
  Notation dim := (p_dim p).
  Hypothesis II : integral_instance p c d q cap.
  Hypothesis MO : moderate p d q cap pen.
  Local Open Scope R_scope.
  Notation cost rs := (true_cost d q cap (B2R pen) rs).
  Notation total rs := (totalR c d q cap pen rs).
  Notation eps := (3 / 2000000).

  Variable s : @lsearch NumF.
  Variable rs : nat -> list nat.
  Hypothesis H : holds p c pen s rs.

  Lemma effect_not_lower m u v r1 r2 l1 l2 dl : effect p c pen s rs m u v r1 r2 l1 l2 dl -> approx_lt dl f0 = false ->
    total rs <= total (nupd (nupd rs r1 l1) r2 l2) + eps.
  Proof.
    intros EF L.
    pose proof (mo_depot _ _ _ _ _ MO) as D0. pose proof (mo_sym _ _ _ _ _ MO) as SY.
    destruct (mo_pen _ _ _ _ _ MO) as [PF PN0]. pose proof (mo_load _ _ _ _ _ MO) as AL.
    destruct (mo_size _ _ _ _ _ MO) as (top & TOP & SZ).
    assert (SS : ((Z.of_nat dim + 8) * top <= 2 ^ 29)%Z).
    { apply le_IZR. assert (0 <= B2R pen * IZR (Z.max 0 (zload q (seq 1 (dim - 1)) - cap))) by (apply Rmult_le_pos; [exact PN0|apply IZR_le; lia]).
      change (2 ^ 29)%Z with 536870912%Z. lra. }
    destruct bounds29 as (_ & _ & _ & [_ E25] & _).
    pose proof (effect_near p c d q cap pen II D0 SY top TOP SS AL PF PN0 SZ s rs H m u v r1 r2 l1 l2 dl EF) as E.
    pose proof (not_improving_real dl _ _ E L). lra.
  Qed.

  Lemma float_two m ms u v r1 r2 l1 l2 rest sol' :
    calm p c pen rs ms (PN u) v -> In m ms -> computes p c pen s rs m u v r1 r2 l1 l2 ->
    (r1 < nv)%nat -> (r2 < nv)%nat -> r1 <> r2 ->
    Permutation (all_routes c rs) (rs r1 :: rs r2 :: rest) -> Permutation sol' (l1 :: l2 :: rest) ->
    cost (all_routes c rs) <= cost sol' + eps.
  Proof.
    intros Q Im (x & D & EF) H1 H2 NE P1 P2. destruct (Q s H m Im) as (x' & D' & L). rewrite D in D'. injection D' as <-.
    pose proof (effect_not_lower _ _ _ _ _ _ _ _ EF L) as E.
    rewrite (totalR_two p c d q cap pen rs r1 r2 l1 l2 H1 H2 NE), !total_true in E.
    rewrite (true_cost_perm d q cap pen _ _ P1) in E |- *. rewrite (true_cost_perm d q cap pen _ _ P2).
    unfold true_cost in *. cbn [map rsum] in *.
    change (costR d q cap pen) with (true_route_cost d q cap (B2R pen)) in E. lra.
  Qed.
  Lemma float_one m ms u v r l rest sol' :
    calm p c pen rs ms (PN u) v -> In m ms -> computes p c pen s rs m u v r r l l ->
    (r < nv)%nat -> Permutation (all_routes c rs) (rs r :: rest) -> Permutation sol' (l :: rest) ->
    cost (all_routes c rs) <= cost sol' + eps.
  Proof.
    intros Q Im (x & D & EF) H1 P1 P2. destruct (Q s H m Im) as (x' & D' & L). rewrite D in D'. injection D' as <-.
    pose proof (effect_not_lower _ _ _ _ _ _ _ _ EF L) as E.
    rewrite (totalR_same p c d q cap pen rs r l H1), !total_true in E.
    rewrite (true_cost_perm d q cap pen _ _ P1) in E |- *. rewrite (true_cost_perm d q cap pen _ _ P2).
    unfold true_cost in *. cbn [map rsum] in *.
    change (costR d q cap pen) with (true_route_cost d q cap (B2R pen)) in E. lra.
  Qed.

  Lemma float_reloc m ms u blk ins v sol' :
    calm p c pen rs ms (PN u) (PN v) -> In m ms ->
    (forall r1 r2 l1 l2 up x y, reloc c rs blk ins (PN v) r1 r2 l1 l2 up x y ->
       computes p c pen s rs m u (PN v) r1 r2 l1 l2) ->
    relocated (all_routes c rs) sol' blk ins v -> cost (all_routes c rs) <= cost sol' + eps.
  Proof.
    intros Q Im K [A B C D rest P1 P2|A M D rest P1 P2|C M B rest NM P1 P2].
    - destruct (pick2 _ _ _ _ _ P1) as (r1 & r2 & H1 & H2 & NE & E1 & E2). rewrite <- E1, <- E2 in P1.
      eapply (float_two m ms u (PN v) r1 r2); eauto. eapply K.
      replace (C ++ v :: ins ++ D) with ((C ++ [v]) ++ ins ++ D) by (rewrite <- app_assoc; auto).
      eapply rl_diff; eauto; [rewrite E2, <- app_assoc; auto|apply last0_pre_snoc].
    - destruct (pick1 _ _ _ _ P1) as (r & H1 & E1). rewrite <- E1 in P1.
      eapply (float_one m ms u (PN v) r); eauto. eapply K.
      replace (A ++ M ++ v :: ins ++ D) with (A ++ (M ++ [v]) ++ ins ++ D) by (rewrite <- app_assoc; auto).
      eapply rl_before; eauto; [destruct M; discriminate|rewrite E1, <- app_assoc; auto|apply last0_map_snoc].
    - destruct (pick1 _ _ _ _ P1) as (r & H1 & E1). rewrite <- E1 in P1.
      eapply (float_one m ms u (PN v) r); eauto. eapply K.
      replace (C ++ v :: ins ++ M ++ B) with ((C ++ [v]) ++ ins ++ M ++ B) by (rewrite <- app_assoc; auto).
      eapply rl_after; eauto; [rewrite E1, <- app_assoc; auto|apply last0_pre_snoc].
  Qed.
  Lemma float_swap m ms u ub vb v sol' :
    calm p c pen rs ms (PN u) (PN v) -> In m ms ->
    (forall r1 r2 l1 l2 up x vp y, swp c rs ub vb r1 r2 l1 l2 up x vp y ->
       computes p c pen s rs m u (PN v) r1 r2 l1 l2) ->
    swapped (all_routes c rs) sol' ub vb -> cost (all_routes c rs) <= cost sol' + eps.
  Proof.
    intros Q Im K [A B C D rest P1 P2|A M D rest NM P1 P2|A M D rest NM P1 P2].
    - destruct (pick2 _ _ _ _ _ P1) as (r1 & r2 & H1 & H2 & NE & E1 & E2). rewrite <- E1, <- E2 in P1.
      eapply (float_two m ms u (PN v) r1 r2); eauto. eapply K. eapply sw_diff; eauto.
    - destruct (pick1 _ _ _ _ P1) as (r & H1 & E1). rewrite <- E1 in P1.
      eapply (float_one m ms u (PN v) r); eauto. eapply K. eapply sw_before; eauto.
    - destruct (pick1 _ _ _ _ P1) as (r & H1 & E1). rewrite <- E1 in P1.
      eapply (float_one m ms u (PN v) r); eauto. eapply K. eapply sw_after; eauto.
  Qed.

  Lemma float_pair m u v sol' : quiet p c pen rs u v -> enabled c m = true ->
    neighbour (all_routes c rs) sol' m u v -> cost (all_routes c rs) <= cost sol' + eps.
  Proof.
    intros Q En NB. pose proof (enabled_in _ _ En) as Im. unfold quiet in Q.
    destruct m; cbn [neighbour] in NB.
    - eapply float_reloc; eauto. intros. eapply computes_relocate_single; eauto.
    - destruct NB as (x & NB). eapply float_reloc; eauto. intros. eapply computes_relocate_double; eauto.
    - destruct NB as (x & NB). eapply float_reloc; eauto. intros. eapply computes_relocate_double_reverse; eauto.
    - eapply float_swap; eauto. intros. eapply computes_swap_one_one; eauto.
    - destruct NB as (x & NB). eapply float_swap; eauto. intros. eapply computes_swap_two_one; eauto.
    - destruct NB as (x & y & NB). eapply float_swap; eauto. intros. eapply computes_swap_two_two; eauto.
    - destruct NB as (A & M & D & rest & NM & P1 & P2).
      destruct (pick1 _ _ _ _ P1) as (r & H1 & E1). rewrite <- E1 in P1.
      eapply float_one; eauto. eapply computes_two_opt_intra; eauto.
    - destruct NB as (A & B & C & D & rest & P1 & P2).
      destruct (pick2 _ _ _ _ _ P1) as (r1 & r2 & H1 & H2 & NE & E1 & E2). rewrite <- E1, <- E2 in P1.
      eapply (float_two _ _ _ _ r1 r2); eauto. eapply computes_two_opt_inter_reverse; eauto.
    - destruct NB as (A & B & C & D & rest & P1 & P2).
      destruct (pick2 _ _ _ _ _ P1) as (r1 & r2 & H1 & H2 & NE & E1 & E2). rewrite <- E1, <- E2 in P1.
      eapply (float_two _ _ _ _ r1 r2); eauto.
      replace (C ++ v :: B) with ((C ++ [v]) ++ B) by (rewrite <- app_assoc; auto).
      eapply computes_two_opt_inter; eauto; [rewrite E2, <- app_assoc; auto|apply last0_pre_snoc].
  Qed.

  Lemma float_empty m u sol' : calm_empty p c pen rs u -> enabled c m = true ->
    opens (all_routes c rs) sol' m u -> cost (all_routes c rs) <= cost sol' + eps.
  Proof.
    intros Q En NB. pose proof (enabled_empty _ _ _ _ _ En NB) as Im.
    destruct m; cbn [opens] in NB; try contradiction.
    - destruct NB as (A & B & rest & P1 & P2).
      destruct (pick2 _ _ _ _ _ P1) as (r1 & r2 & H1 & H2 & NE & E1 & E2). rewrite <- E1, <- E2 in P1.
      eapply (float_two _ _ _ (PS r2) r1 r2); [apply (Q r2); auto|exact Im| |auto..|exact P1|exact P2].
      eapply computes_relocate_single; eauto. eapply (rl_diff c rs [u] [u] (PS r2) r1 r2 A B [] []); auto.
    - destruct NB as (A & x & B & rest & P1 & P2).
      destruct (pick2 _ _ _ _ _ P1) as (r1 & r2 & H1 & H2 & NE & E1 & E2). rewrite <- E1, <- E2 in P1.
      eapply (float_two _ _ _ (PS r2) r1 r2); [apply (Q r2); auto|exact Im| |auto..|exact P1|exact P2].
      eapply computes_relocate_double; eauto. eapply (rl_diff c rs [u; x] [u; x] (PS r2) r1 r2 A B [] []); auto.
    - destruct NB as (A & x & B & rest & P1 & P2).
      destruct (pick2 _ _ _ _ _ P1) as (r1 & r2 & H1 & H2 & NE & E1 & E2). rewrite <- E1, <- E2 in P1.
      eapply (float_two _ _ _ (PS r2) r1 r2); [apply (Q r2); auto|exact Im| |auto..|exact P1|exact P2].
      eapply computes_relocate_double_reverse; eauto.
      eapply (rl_diff c rs [u; x] [x; u] (PS r2) r1 r2 A B [] []); auto.
    - destruct NB as (A & B & rest & P1 & P2).
      destruct (pick2 _ _ _ _ _ P1) as (r1 & r2 & H1 & H2 & NE & E1 & E2). rewrite <- E1, <- E2 in P1.
      eapply (float_two _ _ _ (PS r2) r1 r2); [apply (Q r2); auto|exact Im| |auto..|exact P1|exact P2].
      eapply (computes_two_opt_inter p c pen s rs H u (PS r2) r1 r2 A B [] []); auto.
  Qed.
End Optimum.
