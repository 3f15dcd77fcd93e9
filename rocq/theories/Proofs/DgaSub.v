(** The genetic algorithm inside a decomposition: what it makes of the solution it is given. *)
From Coq Require Import List Arith NArith ZArith QArith Qround Bool Lia Lqa Permutation.
From Verif.Model Require Import Num Prelude Evaluate Individual Config Crossover Split Matrix Population
  LocalSearch World Schedule RuinRecreate Genetic Decomposition.
From Verif.Spec Require Import Solution Split Library Population LocalSearch RuinRecreate Genetic Decomposition.
From Verif.Proofs Require Import Lists QNum EvalFacts EvalThms SplitStruct SplitPart SplitThms MatrixFacts Fleet PopFacts PopQ PopMain
  LsRunQ RrRun RrRecreate RrQ RrMachine GaInv GaQ GaClock Streams GaBound Decompose DecomposeQ.
Import ListNotations.
Open Scope nat_scope.

Section Run.
  Variable L : lib.
  Hypothesis LOK : lib_ok L.
  Variable p : @problem NumQ.
  Variable c : @config NumQ.
  Variable E : @env NumQ.
  Variable log_interval : nat.
  Variable max_distance : option (@F NumQ).
  Variable fuel : nat.
  Hypothesis OK : instance_ok p c.
  Variable short : Prop.
  Variable rr_top : nat.
  Variable lively : (nat -> BinNums.N) -> Prop.
  Variable last : nat.
  Hypothesis BD : bounded short rr_top lively last L p c E fuel usualQ.
  Local Open Scope Q_scope.
  Notation TP := (total_penalized (p_dist p) (p_demand p) (p_cap p)).

  (** The best solution is a proper one; with a bound [V], there is one and it stays below the bound. *)
  Definition best_ok (V : option Q) (b : option (@individual NumQ)) (h : @history NumQ) : Prop :=
    (forall j, b = Some j -> record_ok p c j /\
       forall v, V = Some v -> exists x : Q, penalized_cost j = Some (x : @F NumQ) /\ x <= v) /\
    (forall v, V = Some v -> b <> None /\ exists x : Q, h_best h = Some (x : @F NumQ) /\ x <= v).

  Lemma evaluated_record (A : Q -> Prop) (pen : @F NumQ) i : A pen -> evaluated p pen i -> is_feasible i = true ->
    record_under p A i /\ penalized_cost i = Some (@gtotal NumQ p pen (i_pheno i)).
  Proof.
    intros HA (S & G & e & EV) FE.
    assert (C : penalized_cost i = Some (@gtotal NumQ p pen (i_pheno i))) by (unfold penalized_cost; now rewrite EV).
    split; [|exact C]. split; [exact S|]. split.
    - unfold is_feasible in FE. rewrite EV in FE. now apply gfeasible_Q.
    - exists pen, (@gtotal NumQ p pen (i_pheno i)). split; auto. split; auto. apply gtotal_Q.
  Qed.

  Lemma best_ga V (pen : @F NumQ) b h i : allowedQ c pen -> best_ok V b h -> evaluated p pen i -> is_feasible i = true ->
    oapprox_lt (penalized_cost i) (h_best h) = true -> best_ok V (Some i) (hist_add h i).
  Proof.
    intros HA [B1 B2] EV FE LT. destruct (evaluated_record (allowedQ c) pen i HA EV FE) as [RO C].
    assert (LE : forall v, V = Some v -> (@gtotal NumQ p pen (i_pheno i) : Q) <= v).
    { intros v HV. destruct (B2 v HV) as (_ & x & EX & LX). rewrite C, EX in LT. cbn [oapprox_lt] in LT.
      apply approx_lt_Q in LT. change (@F NumQ) with Q in *. lra. }
    split.
    - intros j [= <-]. split; [exact RO|]. intros v HV. eexists. split; [exact C|]. now apply LE.
    - intros v HV. split; [discriminate|]. eexists. split; [exact C|]. now apply LE.
  Qed.

  Lemma best_rr V : rr_used c -> forall (pen : @F NumQ) b h cand h', allowedQ c pen -> best_ok V b h ->
    sound p c (exact_route p) cand -> priced pen cand -> rr_recorded p c pen h cand h' -> best_ok V b h'.
  Proof.
    intros U pen b h cand h' HA [B1 B2] [SS SF] PC (FE & LT & i0 & i & _ & (P1 & P2 & P3 & P4 & P5 & _) & ->).
    assert (C : penalized_cost i = Some (@gtotal NumQ p pen (i_pheno i))) by (unfold penalized_cost; now rewrite P5).
    split; [exact B1|]. intros v HV. destruct (B2 v HV) as (NB & x & EX & LX). split; [exact NB|].
    eexists. split; [exact C|]. unfold priced in PC. rewrite PC, EX in LT. cbn [oapprox_lt] in LT. apply approx_lt_Q in LT.
    pose proof (so_total_Q p pen cand (proj1 (exact_routes_Forall p cand) SF)) as T1.
    pose proof (gtotal_Q p pen (i_pheno i)) as T2. pose proof (TP_perm p pen _ _ P1) as T3.
    change (@F NumQ) with Q in *. lra.
  Qed.

  (** What the run makes of an evaluated solution. *)
  Definition result_of (i : @individual NumQ) (gw : @ga NumQ * @world NumQ) : Prop :=
    match ga_best_sol (fst gw) with
    | Some j => record_ok p c j /\ (is_feasible i = true -> exists x y : Q,
        penalized_cost i = Some (x : @F NumQ) /\ penalized_cost j = Some (y : @F NumQ) /\ y <= x)
    | None => is_feasible i = false
    end.

  Notation invQ H := (inv L p c (exact_route p) usualQ (allowedQ c) H (fun _ => allowedQ c) short rr_top).

  Lemma sub_run_safe corr lh rh w0 i : neighbours_ok p c corr -> rows_ok p corr -> usualQ (w_pen w0) -> w_hist w0 = hist_new ->
    evaluated p (w_pen w0) i -> (num_nonempty_routes i <= c_num_vehicles c)%nat -> lively (rdraw (w_rng w0)) ->
    safe p c (exact_route p) (allowedQ c) short (let '(g, w) := ga_new p c corr lh rh w0 in
      rbind (add_initial L c g i w) (fun '(g, w) => solver_run L p c E log_interval max_distance fuel fuel g w))
      (result_of i).
  Proof.
    intros NB RO U HH EV FT LV.
    destruct (ga_new p c corr lh rh w0) as [g w] eqn:EN.
    pose proof OK as [O1 [O2 O2'] O3 O4 O5 O6 O7 O8 O9 O10 O11].
    assert (EW : w_pen w = w_pen w0 /\ w_hist w = hist_new /\ ga_cur_best g = None /\ ga_st g = Created /\ ga_best_sol g = None).
    { unfold ga_new in EN. destruct (ind_random p (c_num_vehicles c) 0 (w_rng w0)). injection EN as <- <-. auto. }
    destruct EW as (W1 & W2 & W3 & W4 & W5).
    destruct (new_inv L p c (exact_route p) usualQ (allowedQ c) (usual_allowedQ c) (best_ok None) (fun _ => allowedQ c) short rr_top (bd_mutation _ _ _ _ _ _ _ _ _ _ BD) corr lh rh w0 g w NB RO U) as [I _]; auto.
    { split; [intros; discriminate|intros v HV; discriminate HV]. }
    rewrite <- W1 in EV.
    assert (LV1 : lively (rdraw (w_rng w))) by (rewrite (ga_new_flows _ _ _ _ _ _ _ _ EN); exact LV).
    eapply safe_bind with (P := fun gw => invQ (best_ok (if is_feasible i then penalized_cost i else None)) (fst gw) (snd gw) /\
      lively (rdraw (w_rng (snd gw)))).
    - pose proof (initial_safe L LOK p c (exact_route p) O1 O2 O10 O2' usualQ (allowedQ c) (best_ok None) (best_ga None) (fun _ => allowedQ c) short rr_top g w i I W4 EV FT) as SA.
      destruct (add_initial L c g i w) as [[g1 w1]|e] eqn:EA; [|exact SA].
      cbn [safe] in *. destruct SA as (I1 & _). cbn [fst snd]. split.
      2:{ unfold add_initial in EA. destruct (add_individual L c _ i) as [g0|]; [|discriminate EA]. cbn [rbind] in EA. injection EA as EA.
          rewrite (update_best_flows _ _ _ _ EA). exact LV1. }
      apply (inv_other _ _ _ _ _ _ _ _ _ _ _ _ _ I1). cbn [fst snd].
      unfold add_initial, add_individual in EA. destruct (pop_add L c (ga_pop g) i false) as [po|]; [|discriminate EA].
      cbn [rbind] in EA. injection EA as EA. unfold update_best in EA. cbn [ga_child set_child set_gpop ga_cur_best] in EA.
      rewrite W3, W2 in EA. destruct (is_feasible i) eqn:FE; cbn [andb] in EA.
      + destruct (evaluated_record (allowedQ c) (w_pen w) i) as [RI CI]; auto.
        { rewrite W1. now apply usual_allowedQ. }
        rewrite CI in EA. cbn [oapprox_lt set_current ga_cur_best h_best hist_new] in EA.
        injection EA as <- <-. cbn [ga_best_sol set_best_sol w_hist set_w_hist]. split.
        * intros j [= <-]. split; [exact RI|]. intros v HV. exists v. split; [exact HV|apply Qle_refl].
        * intros v HV. split; [discriminate|]. exists v. split; [exact HV|apply Qle_refl].
      + injection EA as <- <-. cbn [ga_best_sol]. split; [|intros v HV; discriminate HV].
        intros j HJ. cbn in HJ. rewrite W5 in HJ. discriminate HJ.
    - intros [g1 w1] [I1 L1]. cbn [fst snd] in I1, L1.
      eapply safe_weaken.
      { eapply (run_bounded short rr_top lively last L LOK p c E log_interval max_distance fuel OK BD); [apply best_ga|apply best_rr|exact I1|exact L1|].
        destruct (enough_calls short rr_top lively last L p c E fuel BD w1); auto. }
      intros [g2 w2] [I2 _]. cbn [fst snd] in *. unfold result_of. cbn [fst].
      pose proof (gb_hist _ _ _ _ _ _ _ _ (in_base _ _ _ _ _ _ _ _ _ _ _ _ I2)) as [B1 B2].
      destruct (ga_best_sol g2) as [j|].
      + destruct (B1 j eq_refl) as [RO1 X]. split; [exact RO1|]. intros FE. rewrite FE in X, B2.
        assert (exists v : Q, penalized_cost i = Some (v : @F NumQ)) as (v & HV).
        { destruct EV as (_ & _ & e & EV). unfold penalized_cost. rewrite EV. eexists. reflexivity. }
        destruct (X v HV) as (x & EX & LX). exists v, x. auto.
      + destruct (is_feasible i) eqn:FE; [|reflexivity]. exfalso.
        destruct EV as (_ & _ & e & EV).
        destruct (B2 (@gtotal NumQ p (w_pen w) (i_pheno i))) as [NN _]; [unfold penalized_cost; rewrite EV; reflexivity|].
        now apply NN.
  Qed.
End Run.
