(** Bounds under which every loop of the genetic algorithm ends. *)
From Coq Require Import List Arith NArith ZArith QArith Qround Bool Lia Lqa Permutation.
From Verif.Model Require Import Num Prelude Evaluate Individual Config Crossover Split Matrix Population
  LocalSearch World Schedule RuinRecreate Genetic.
From Verif.Spec Require Import Solution Split Library Population LocalSearch RuinRecreate Genetic.
From Verif.Proofs Require Import Lists QNum EvalFacts EvalThms CrossoverFacts SplitStruct SplitPart SplitThms PopFacts PopQ PopMain
  LsRunQ RrRun RrRecreate RrQ RrMachine GaInv GaQ GaClock Streams GaBound Fleet.
Import ListNotations.
Open Scope nat_scope.

Local Notation nat2Q n := (inject_Z (Z.of_nat n)).

(** Numbers large enough exist. *)
Lemma archimedes (x : Q) : exists n : nat, forall m, n <= m -> (x < nat2Q m * (1 # 1000000))%Q.
Proof.
  exists (Z.to_nat (Qfloor (x * 1000000) + 1)). intros m Hm.
  assert (X : (x * 1000000 < nat2Q m)%Q).
  { eapply Qlt_le_trans; [apply Qlt_floor|]. rewrite <- Zle_Qle. lia. }
  lra.
Qed.
Lemma maximum (f : nat -> nat) n : exists top, forall m, m <= n -> f m <= top.
Proof.
  induction n as [|n [top IH]].
  - exists (f 0). intros m Hm. now replace m with 0 by lia.
  - exists (Nat.max top (f (S n))). intros m Hm. destruct (Nat.eq_dec m (S n)) as [->|NE]; [lia|]. specialize (IH m). lia.
Qed.

Section Cost.
  Variable p : @problem NumQ.
  Variable c : @config NumQ.
  Hypothesis OK : instance_ok p c.
  Local Open Scope Q_scope.
  Notation TP := (total_penalized (p_dist p) (p_demand p) (p_cap p)).

  Lemma penalized_bound (top pen : Q) rs : (forall a b, (a < p_dim p)%nat -> (b < p_dim p)%nat -> p_dist p a b <= top) ->
    0 <= pen -> serves_all_once (p_dim p) rs ->
    TP pen rs <= top * nat2Q (p_dim p - 1 + length rs) + pen * route_load (p_demand p) (seq 1 (p_dim p - 1)).
  Proof.
    intros HT HP SV. pose proof OK as [O1 [O2 O2'] O3 O4 O5 O6 O7 O8 O9 O10 O11].
    rewrite <- (GaQ.load_perm (p_demand p) _ _ SV).
    replace (p_dim p - 1 + length rs)%nat with (length (concat rs) + length rs)%nat
      by (rewrite (Permutation_length SV), seq_length; reflexivity).
    assert (HB : forall r a, In r rs -> In a r -> (a < p_dim p)%nat).
    { intros r a Hr Ha. assert (IC : In a (concat rs)) by (apply in_concat; eauto). apply (serves_In _ _ _ SV) in IC. lia. }
    clear SV. unfold total_penalized. induction rs as [|r rs IH].
    - cbn [map Qsum concat length Nat.add]. change (route_load (p_demand p) []) with 0. change (nat2Q 0) with 0. lra.
    - cbn [map Qsum concat]. assert (IH' := IH (fun r' a Hr => HB r' a (or_intror Hr))). clear IH.
      rewrite (Fleet.load_app (p_demand p)), app_length.
      assert (HW : walk_length (p_dist p) (0%nat :: r ++ [0%nat]) <= top * nat2Q (length (0%nat :: r ++ [0%nat]) - 1)).
      { assert (HR : forall a, In a (0%nat :: r ++ [0%nat]) -> (a < p_dim p)%nat).
        { intros a [<-|Ha]; [lia|]. apply in_app_or in Ha as [Ha|[<-|[]]]; [|lia]. apply (HB r); [now left|exact Ha]. }
        apply walk_bound. intros a b Ha Hb. apply HT; now apply HR. }
      assert (HL : 0 <= route_load (p_demand p) r).
      { apply load_nonneg. intros a Ha. apply O4. apply (HB r); [now left|exact Ha]. }
      assert (HQ : pen * Qpos (route_load (p_demand p) r - p_cap p) <= pen * route_load (p_demand p) r).
      { rewrite !(Qmult_comm pen). apply Qmult_le_compat_r; [|exact HP]. unfold Qpos. destruct (Qle_bool _ 0); [exact HL|].
        change (@F NumQ) with Q in *. lra. }
      unfold route_penalized at 1. unfold route_length.
      replace (length (0%nat :: r ++ [0%nat]) - 1)%nat with (length r + 1)%nat in HW by (cbn [length]; rewrite app_length; cbn; lia).
      replace (Z.of_nat (length r + length (concat rs) + length (r :: rs)))
        with (Z.of_nat (length r + 1) + Z.of_nat (length (concat rs) + length rs))%Z by (cbn [length]; lia).
      rewrite inject_Z_plus. change (@F NumQ) with Q in *. set (A := nat2Q (length r + 1)) in *. clearbody A.
      set (B := nat2Q (length (concat rs) + length rs)) in *. clearbody B. lra.
  Qed.
End Cost.

(** The bounds for one instance: [top] of the distances, [top_pen] of the penalties, [n] at least
    the number of nodes. *)
Section Ends.
  Variable L : lib.
  Variable p : @problem NumQ.
  Variable c : @config NumQ.
  Variable E : @env NumQ.
  Variable fuel : nat.
  Variable usual : @F NumQ -> Prop.
  Variable top top_pen : Q.
  Variable n B last rr_top : nat.
  Hypothesis OK : instance_ok p c.
  Hypothesis D3 : 3 <= p_dim p <= n.
  Hypothesis SY : symmetric p.
  Hypothesis TOP : forall a b, a < p_dim p -> b < p_dim p -> (p_dist p a b <= top)%Q.
  Hypothesis US : forall x, usual x -> (0 <= x <= top_pen)%Q.
  Hypothesis RR : fround (c_rr_gamma c *: fnat (p_dim p - 1)%nat)%num <= rr_top.
  Hypothesis TU : time_up c E last.
  Hypothesis F1 : rr_top <= fuel.
  Hypothesis F2 : B <= fuel.
  Hypothesis F3 : last < fuel.
  Hypothesis F4 : (top * nat2Q (p_dim p - 1 + c_num_vehicles c)
    + 10 * top_pen * route_load (p_demand p) (seq 1 (p_dim p - 1)) < nat2Q fuel * (1 # 1000000))%Q.

  Lemma finished_geno i : finished p i -> NoDup (i_geno i) /\ length (i_geno i) = p_dim p - 1 /\ Permutation (i_geno i) (seq 1 (p_dim p - 1)).
  Proof.
    intros (SV & G & _). rewrite G. unfold serves_all_once in SV. split; [|split; [|exact SV]].
    - apply (Permutation_NoDup (Permutation_sym SV)), seq_NoDup.
    - rewrite (Permutation_length SV), seq_length. reflexivity.
  Qed.

  Lemma bounded_ends : bounded False rr_top (varied n B) last L p c E fuel usual.
  Proof.
    constructor.
    - right. exact RR.
    - lia.
    - intros allowed H mult g w pen0 [A1 A2 A3 A4 A5 A6 A7 A8 A9 A10] U MU (SV & HL & _) _ HE.
      assert (PN : (0 <= fmul (w_pen w) mult /\ fmul (w_pen w) mult <= 10 * top_pen)%Q).
      { destruct (US _ U) as [U1 U2]. change (@F NumQ) with Q in *. destruct MU as [-> | ->]; numq; lra. }
      destruct PN as [P1 P2]. destruct SY as [SY1 SY2].
      assert (LD : (0 <= route_load (p_demand p) (seq 1 (p_dim p - 1)))%Q).
      { apply load_nonneg. intros a Ha. apply in_seq in Ha. apply (io_dem _ _ OK). lia. }
      assert (CB : (total_penalized (p_dist p) (p_demand p) (p_cap p) (fmul (w_pen w) mult) (i_pheno (ga_child g)) < nat2Q fuel * (1 # 1000000))%Q).
      { eapply Qle_lt_trans; [apply (penalized_bound p c OK top); [exact TOP|exact P1|exact SV]|]. rewrite HL.
        assert (M : (fmul (w_pen w) mult * route_load (p_demand p) (seq 1 (p_dim p - 1)) <=
                10 * top_pen * route_load (p_demand p) (seq 1 (p_dim p - 1)))%Q) by (apply Qmult_le_compat_r; auto).
        change (@F NumQ) with Q in *. lra. }
      unfold run_ls in HE.
      destruct (ls_terminates p c (fmul (w_pen w) mult) SY2 SY1 ltac:(lia) ltac:(pose proof (io_gran _ _ OK); lia) fuel (w_pen w)
        (ga_ls g) (ga_child g) (w_rng w) A1 HL SV (io_dist _ _ OK) P1 CB) as (s' & i' & r' & E1 & _).
      rewrite E1 in HE. cbn [rbind] in HE. discriminate HE.
    - intros g one two r F1' F2' LV HE.
      destruct (finished_geno one F1') as (N1 & L1 & G1). destruct (finished_geno two F2') as (_ & L2 & G2).
      destruct (LV (p_dim p - 1) ltac:(lia) (rpos r)) as (j & J1 & J2).
      destruct (crossover_ends (i_geno one) (i_geno two) r (j - rpos r - 1) fuel) as (ch & r' & EC & _).
      + rewrite L1. lia.
      + exact N1.
      + now rewrite G1, G2.
      + rewrite L1. rewrite Nat.add_0_r. replace (rpos r + (1 + (j - rpos r - 1))) with j by lia. exact J2.
      + lia.
      + unfold make_child in HE. rewrite EC in HE. cbn [rbind] in HE. discriminate HE.
    - intros w HW. left. unfold terminate, now. cbn [fst]. assert (X : c_time_limit c <=? ffloor (e_clock E (w_clock w)) = true).
      { apply Nat.leb_le. now apply TU. }
      rewrite X. reflexivity.
    - lia.
  Qed.
End Ends.

(** The random numbers of a run are those it starts with. *)
Lemma reached_flows {N : Num} L p c E li md fuel w0 g w : ga_reached L p c E li md fuel w0 g w -> flows w0 w.
Proof.
  induction 1 as [corr lh rh g w _ _ EN|g w i g' w' _ IH _ _ _ _ _ EA|g w g' w' _ IH EI].
  - exact (ga_new_flows p c corr lh rh w0 g w EN).
  - eapply flows_trans; [exact IH|]. unfold add_initial in EA. destruct (add_individual L c g i) as [g1|e]; [|discriminate]. cbn [rbind] in EA.
    injection EA as EA. exact (update_best_flows _ _ _ _ EA).
  - eapply flows_trans; [exact IH|]. exact (iterate_flows _ _ _ _ _ _ _ _ _ _ _ EI).
Qed.

(** ** The genetic algorithm ends *)
Section Run.
  Variable p : @problem NumQ.
  Variable c : @config NumQ.
  Variable B last : nat.
  Hypothesis OK : instance_ok p c.
  Hypothesis D3 : 3 <= p_dim p.
  Hypothesis SY : symmetric p.

  (** One bound for all libraries, environments, seeds and matrices. *)
  Definition bound_ok (usual : @F NumQ -> Prop) (bound : nat) : Prop := exists rr_top,
    forall L E fuel, time_up c E last -> bound <= fuel -> bounded False rr_top (varied (p_dim p) B) last L p c E fuel usual.

  Lemma bound_exists (usual : @F NumQ -> Prop) (top_pen : Q) : (forall x, usual x -> (0 <= x <= top_pen)%Q) ->
    exists bound, bound_ok usual bound.
  Proof.
    intros US. destruct (io_small _ _ OK) as (top & TOP & _).
    destruct (archimedes (top * nat2Q (p_dim p - 1 + c_num_vehicles c)
      + 10 * top_pen * route_load (p_demand p) (seq 1 (p_dim p - 1)))) as (m & HM).
    set (rr_top := fround (c_rr_gamma c *: fnat (p_dim p - 1)%nat)%num).
    exists (Nat.max rr_top (Nat.max B (Nat.max (last + 1) m))), rr_top. intros L E fuel TU HF.
    apply (bounded_ends L p c E fuel usual top top_pen); auto; try lia. apply HM. lia.
  Qed.

  Hypothesis WO : workable c.

  Lemma run_ends bound L E li md w0 g w fuel k : bound_ok usualQ bound -> lib_ok L -> time_up c E last -> bound <= fuel ->
    usualQ (w_pen w0) -> varied (p_dim p) B (rdraw (w_rng w0)) -> ga_reached L p c E li md fuel w0 g w -> last + 1 <= k ->
    (exists g' w', ga_iterate L p c E li md fuel g w = Ok (g', w')) /\
    exists g' w', solver_run L p c E li md fuel k g w = Ok (g', w') /\ ga_terminated g' = true.
  Proof.
    intros (rr_top & BE) LOK TU HF U LV R HK. specialize (BE L E fuel TU HF). destruct WO as (W1 & W2 & W3 & W4).
    set (H := fun (_ : option (@individual NumQ)) (_ : @history NumQ) => True).
    assert (LVA : forall g w, ga_reached L p c E li md fuel w0 g w -> varied (p_dim p) B (rdraw (w_rng w))).
    { intros g1 w1 R1. apply reached_flows in R1. rewrite R1. exact LV. }
    assert (HG : forall pen b h i, allowedQ c pen -> H b h -> evaluated p pen i -> is_feasible i = true ->
      oapprox_lt (penalized_cost i) (h_best h) = true -> H (Some i) (hist_add h i)) by (intros; exact I).
    assert (HR : rr_used c -> forall pen b h cand h', allowedQ c pen -> H b h -> sound p c (exact_route p) cand -> priced pen cand ->
      rr_recorded p c pen h cand h' -> H b h') by (intros; exact I).
    destruct (bounded_inv L LOK p c E li md fuel OK H HG HR False rr_top (varied (p_dim p) B)
      (bd_mutation _ _ _ _ _ _ _ _ _ _ BE) (bd_rr _ _ _ _ _ _ _ _ _ _ BE)
      ltac:(intros; eapply (bd_ls _ _ _ _ _ _ _ _ _ _ BE); eauto) (bd_draw _ _ _ _ _ _ _ _ _ _ BE) w0 g w U I LVA R) as [IV _].
    pose proof (fineQ p c OK (exact_route p) (allowedQ c) (Build_sizes _ c W1 W2 W3 W4)) as FI.
    split.
    - pose proof (step_bounded False rr_top _ last L LOK p c E li md fuel OK BE H HG HR g w IV (LVA _ _ R)) as SB.
      destruct (ga_iterate L p c E li md fuel g w) as [[g' w']|e]; [eauto|]. destruct (SB FI) as [_ []].
    - pose proof (run_bounded False rr_top _ last L LOK p c E li md fuel OK BE H HG HR k g w IV (LVA _ _ R)) as RB.
      specialize (RB ltac:(right; right; lia)).
      destruct (solver_run L p c E li md fuel k g w) as [[g' w']|e]; [|destruct (RB FI) as [_ []]].
      exists g', w'. split; [reflexivity|]. exact (proj2 RB).
  Qed.
End Run.
