(** The local search run in exact arithmetic: never worse, and it terminates. *)
From Coq Require Import List Arith ZArith QArith Qround Bool Lia Lqa Permutation.
From Verif.Model Require Import Num Prelude Evaluate Individual Config Sector Random Matrix LinkedList LocalSearch.
From Verif.Spec Require Import Solution LocalSearch.
From Verif.Proofs Require Import Lists LinkFacts QNum EvalFacts EvalThms SplitStruct LsState LsMoves LsDelta LsStar LsStarQ LsSearch LsRun.
Import ListNotations.
Open Scope nat_scope.

Section RunQ.
  Variable p : @problem NumQ.
  Variable c : @config NumQ.
  Variable pen : @F NumQ.
  Notation nv := (c_num_vehicles c).
  Notation dim := (p_dim p).
  Local Open Scope Q_scope.
  Notation cost rs := (total_penalized (p_dist p) (p_demand p) (p_cap p) pen rs).
  Notation eps := (1 # 1000000).

  Hypothesis dem0 : p_demand p 0%nat == 0.
  Hypothesis sym : forall i j, (i < dim)%nat -> (j < dim)%nat -> p_dist p i j == p_dist p j i.
  Hypothesis dim_pos : (0 < dim)%nat.
  Notation total := (total p c pen).

  Lemma gstep_lowers rs rs' : gstep p c pen rs rs' -> total rs' + eps <= total rs.
  Proof.
    intros [s m u v r1 r2 l1 l2 d H AP H1 H2 EF L ->|s r1 r2 b l1 l2 d H H1 H2 NE ST L ->].
    - pose proof (effect_exact p c pen dem0 sym dim_pos _ _ _ _ _ _ _ _ _ _ H EF) as E.
      apply approx_lt_Q in L. numq. lra.
    - pose proof (star_exact p c pen dem0 _ _ _ _ _ _ _ _ H H1 H2 NE ST) as E.
      apply approx_gte_Q_false in L. numq. lra.
  Qed.

  Lemma trace_lowers n rs rs' : trace p c pen n rs rs' ->
    total rs' + inject_Z (Z.of_nat n) * eps <= total rs.
  Proof.
    induction 1 as [rs|n rs rs1 rs2 T IH G].
    - change (inject_Z (Z.of_nat 0)) with 0. lra.
    - apply gstep_lowers in G. rewrite Nat2Z.inj_succ, <- Z.add_1_r, inject_Z_plus.
      change (inject_Z 1) with 1. lra.
  Qed.

  Lemma walk_nonneg (d : nat -> nat -> Q) l : (forall a b, (a < dim)%nat -> (b < dim)%nat -> 0 <= d a b) ->
    (forall a, In a l -> (a < dim)%nat) -> 0 <= walk_length d l.
  Proof.
    intros H. induction l as [|a l IH]; intros HL; [cbn; lra|]. destruct l as [|b l]; [cbn; lra|].
    change (0 <= d a b + walk_length d (b :: l)).
    assert (0 <= d a b) by (apply H; apply HL; [now left|right; now left]).
    assert (0 <= walk_length d (b :: l)) by (apply IH; intros x Hx; apply HL; now right). lra.
  Qed.
  Lemma Qpos_nonneg x : 0 <= Qpos x.
  Proof. unfold Qpos. destruct (Qle_bool x 0) eqn:E; [lra|]. apply Qnot_lt_le. intros L.
    assert (Qle_bool x 0 = true) by (apply Qle_bool_iff; lra). congruence. Qed.
  Lemma cost_nonneg (L : list (list nat)) : (forall a b, (a < dim)%nat -> (b < dim)%nat -> 0 <= p_dist p a b) -> 0 <= pen ->
    serves_all_once dim L -> 0 <= cost L.
  Proof.
    intros HD HP SV.
    assert (HB : forall r, In r L -> forall a, In a (0%nat :: r ++ [0%nat]) -> (a < dim)%nat).
    { intros r Hr a [<-|Ha]; [lia|]. apply in_app_or in Ha as [Ha|[<-|[]]]; [|lia].
      assert (IC : In a (concat L)) by (apply in_concat; eauto). eapply Permutation_in in IC; [|exact SV]. apply in_seq in IC. lia. }
    clear SV. unfold total_penalized. induction L as [|r L IH]; [cbn; lra|]. cbn [map Qsum].
    assert (0 <= Qsum (map (route_penalized (p_dist p) (p_demand p) (p_cap p) pen) L)).
    { apply IH. intros r' Hr'. apply HB. now right. }
    assert (0 <= route_penalized (p_dist p) (p_demand p) (p_cap p) pen r).
    { unfold route_penalized. pose proof (walk_nonneg (p_dist p) (0%nat :: r ++ [0%nat]) HD (HB r (or_introl eq_refl))).
      pose proof (Qpos_nonneg (route_load (p_demand p) r - p_cap p)) as H1.
      unfold route_length. pose proof (Qmult_le_0_compat _ _ HP H1). lra. }
    lra.
  Qed.

  Lemma cost_perm (L L' : list (list nat)) : Permutation L L' -> cost L == cost L'.
  Proof. intros P. unfold total_penalized. apply Qsum_perm, Permutation_map; auto. Qed.

  Lemma angles_ok_Q : angles_ok p.
  Proof.
    intros r _. unfold fisnan. numq. apply negb_false_iff. apply Qeq_bool_iff. reflexivity.
  Qed.

  Hypothesis gran_pos : (0 < c_granularity c)%nat.

  Lemma zero_not_lt_Q : @approx_lt NumQ f0 f0 = false.
  Proof. reflexivity. Qed.

  Theorem ls_never_worse fuel epen s i r s' i' r' :
    ls_ready p c s -> length (i_pheno i) = nv -> serves_all_once dim (i_pheno i) ->
    @ls_run NumQ p c pen fuel epen s i r = Ok (s', i', r') ->
    exists n, s_count s' = Z.of_nat n /\
      cost (i_pheno i') + inject_Z (Z.of_nat n) * eps <= cost (i_pheno i).
  Proof.
    intros R HL SV E.
    destruct (ls_run_partial_ok p c pen zero_not_lt_Q gran_pos dim_pos _ _ _ _ _ _ _ _ R HL SV E)
      as (_ & _ & rs & n & lc & T & K & (P & _) & _).
    exists n. split; auto. apply trace_lowers in T. unfold LsDelta.total in T.
    rewrite (cost_perm _ _ P).
    assert (AR : all_routes c (fun r => nth r (i_pheno i) []) = i_pheno i) by (apply map_nth_seq; auto).
    rewrite AR in T. exact T.
  Qed.

  Theorem ls_terminates fuel epen s i r :
    ls_ready p c s -> length (i_pheno i) = nv -> serves_all_once dim (i_pheno i) ->
    (forall a b, (a < dim)%nat -> (b < dim)%nat -> 0 <= p_dist p a b) -> 0 <= pen ->
    cost (i_pheno i) < inject_Z (Z.of_nat fuel) * eps ->
    exists s' i' r', @ls_run NumQ p c pen fuel epen s i r = Ok (s', i', r') /\ outcome p c pen epen s i s' i'.
  Proof.
    intros R HL SV HD HP HF.
    destruct (ls_run_ok p c pen zero_not_lt_Q gran_pos dim_pos fuel epen s i r R HL SV angles_ok_Q)
      as [X|(_ & rs & n & s' & T & L & H')]; auto.
    exfalso. apply trace_lowers in T. unfold LsDelta.total in T.
    assert (AR : all_routes c (fun r => nth r (i_pheno i) []) = i_pheno i) by (apply map_nth_seq; auto).
    rewrite AR in T. pose proof (cost_nonneg (all_routes c rs) HD HP (h_serves _ _ _ _ _ H')).
    assert (inject_Z (Z.of_nat fuel) <= inject_Z (Z.of_nat n)) by (rewrite <- Zle_Qle; lia).
    lra.
  Qed.
End RunQ.
