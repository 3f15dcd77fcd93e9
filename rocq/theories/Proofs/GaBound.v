(** The genetic algorithm with bounds on its loops. *)
From Coq Require Import List Arith NArith ZArith QArith Bool Lia Permutation.
From Verif.Model Require Import Num Prelude Evaluate Individual Config Crossover Split Matrix Population
  LocalSearch World Schedule RuinRecreate Genetic.
From Verif.Spec Require Import Solution Split Library Population LocalSearch RuinRecreate Genetic.
From Verif.Proofs Require Import Lists QNum EvalFacts EvalThms SplitStruct SplitPart SplitThms PopFacts PopQ PopMain
  LsRunQ RrRun RrRecreate RrQ RrMachine GaInv GaQ GaClock Streams.
Import ListNotations.
Open Scope nat_scope.

(** [short] follows when a loop of the run is cut off.  [rr_top] bounds the length of a ruin and
    recreate schedule, [lively] is what is known of the random numbers, and from the reading [last]
    of the clock on the time is up. *)
Record bounded (short : Prop) (rr_top : nat) (lively : (nat -> N) -> Prop) (last : nat)
    (L : lib) (p : @problem NumQ) (c : @config NumQ) (E : @env NumQ) (fuel : nat) (usual : @F NumQ -> Prop) : Prop := {
  bd_mutation : short \/ fround (c_rr_gamma c *: fnat (p_dim p - 1)%nat)%num <= rr_top;
  bd_rr : fuel < rr_top -> short;
  bd_ls : forall allowed H mult g w pen0, base L p c (exact_route p) allowed H g w -> usual (w_pen w) ->
    mult = f1 \/ mult = flit 10 1 -> child_at p c pen0 (ga_child g) -> fine p c (exact_route p) allowed -> run_ls p c fuel mult g w = Err EFuel -> short;
  bd_draw : forall (g : @ga NumQ) one two r, finished p one -> finished p two -> lively (rdraw r) ->
    make_child fuel g one two r = Err EFuel -> short;
  bd_time : forall w : @world NumQ, last <= w_clock w -> fst (terminate c E w) = true \/ short;
  bd_calls : fuel <= last -> short
}.

Lemma bounded_true L p c E fuel usual : bounded True 0 (fun _ => True) 0 L p c E fuel usual.
Proof. constructor; auto. Qed.

Section Bound.
  Variable short : Prop.
  Variable rr_top : nat.
  Variable lively : (nat -> N) -> Prop.
  Variable last : nat.
  Variable L : lib.
  Hypothesis LOK : lib_ok L.
  Variable p : @problem NumQ.
  Variable c : @config NumQ.
  Variable E : @env NumQ.
  Variable log_interval : nat.
  Variable max_distance : option (@F NumQ).
  Variable fuel : nat.
  Hypothesis OK : instance_ok p c.
  Hypothesis BD : bounded short rr_top lively last L p c E fuel usualQ.
  Variable H : option (@individual NumQ) -> @history NumQ -> Prop.
  Hypothesis H_ga : forall pen b h i, allowedQ c pen -> H b h -> evaluated p pen i -> is_feasible i = true ->
    oapprox_lt (penalized_cost i) (h_best h) = true -> H (Some i) (hist_add h i).
  Hypothesis H_rr : rr_used c -> forall pen b h cand h', allowedQ c pen -> H b h -> sound p c (exact_route p) cand -> priced pen cand ->
    rr_recorded p c pen h cand h' -> H b h'.
  Notation invQ := (inv L p c (exact_route p) usualQ (allowedQ c) H (fun _ => allowedQ c) short rr_top).

  Lemma step_bounded g w : invQ g w -> lively (rdraw (w_rng w)) ->
    safe p c (exact_route p) (allowedQ c) short (ga_iterate L p c E log_interval max_distance fuel g w)
      (fun gw => invQ (fst gw) (snd gw) /\ counted g w (fst gw) (snd gw)).
  Proof.
    intros I LV. destruct BD as [B1 B2 B3 B4 B5 B6].
    apply (bounded_step L LOK p c E log_interval max_distance fuel OK H H_ga H_rr short rr_top lively); auto.
    intros mult g0 w0 pen0 BA. eapply B3; eauto.
  Qed.

  Lemma iterate_stops g w : fst (terminate c E w) = true ->
    exists g' w', ga_iterate L p c E log_interval max_distance fuel g w = Ok (g', w') /\ ga_terminated g' = true.
  Proof.
    intros T. unfold ga_iterate. destruct (terminate c E w) as [stop w1]. cbn [fst] in T. subst stop. cbn [set_st ga_st].
    eexists _, _. split; reflexivity.
  Qed.

  Lemma run_bounded k : forall g w, invQ g w -> lively (rdraw (w_rng w)) ->
    short \/ ga_terminated g = true \/ (1 <= k /\ last + 1 <= k + w_clock w) ->
    safe p c (exact_route p) (allowedQ c) short (solver_run L p c E log_interval max_distance fuel k g w)
      (fun gw => invQ (fst gw) (snd gw) /\ ga_terminated (fst gw) = true).
  Proof.
    induction k as [|k IH]; intros g w I LV HK; cbn [solver_run]; destruct (ga_terminated g) eqn:ET; try (split; [exact I|exact ET]).
    - intros _. split; [reflexivity|]. destruct HK as [S|[X|[X _]]]; [exact S|discriminate X|lia].
    - pose proof (step_bounded g w I LV) as SB.
      destruct (ga_iterate L p c E log_interval max_distance fuel g w) as [[g1 w1]|e] eqn:EI; [|exact SB].
      cbn [rbind safe fst snd] in SB |- *. destruct SB as [I1 _]. apply IH; [exact I1|rewrite (iterate_flows _ _ _ _ _ _ _ _ _ _ _ EI); exact LV|].
      destruct HK as [S|[X|[X Y]]]; [now left|discriminate X|].
      pose proof (iterate_later _ _ _ _ _ _ _ _ _ _ _ EI) as LT.
      destruct (le_lt_dec last (w_clock w)) as [LE|GT].
      + destruct (bd_time _ _ _ _ _ _ _ _ _ _ BD w LE) as [T|S]; [|now left].
        destruct (iterate_stops g w T) as (g2 & w2 & E2 & T2). rewrite EI in E2. injection E2 as -> ->. right. now left.
      + right. right. lia.
  Qed.

  Lemma enough_calls (w : @world NumQ) : short \/ (1 <= fuel /\ last + 1 <= fuel + w_clock w).
  Proof. destruct (le_lt_dec fuel last) as [X|X]; [left; exact (bd_calls _ _ _ _ _ _ _ _ _ _ BD X)|right; lia]. Qed.
End Bound.
