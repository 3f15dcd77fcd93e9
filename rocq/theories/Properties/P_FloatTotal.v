(** The program in double precision ends and writes a right solution file (C70). *)
From Coq Require Import Ascii String List Arith NArith ZArith Bool Lia Reals Lra Permutation.
From Flocq Require Import Core BinarySingleNaN.
From Verif.Model Require Import Num NumFloat Prelude Evaluate Individual Config Crossover Split Matrix Population
  LocalSearch World Schedule RuinRecreate Genetic Text Parser Display ConfigFile Main.
From Verif.Spec Require Import Solution Library Floats Population LocalSearch RuinRecreate Genetic Instance Output ConfigFile Program FloatProgram
  FloatTotal.
From Verif.Proofs Require Import Lists TextFacts ParserFacts ConfigFacts FloatFacts FloatRun FloatStart FloatFine FloatEnds GaInv GaQ RustLib ProgramFacts.
From Verif.Properties Require Import P_RuinRecreate P_Genetic P_Files P_Config P_Program P_FloatRun P_FloatProgram P_FloatFine P_FloatEnds P_Ends.
From Verif.Spec Require Import FloatSearch.
Import ListNotations.
Open Scope nat_scope.

Local Lemma u64_floor (x : dbl) : is_finite x = true -> @ffloor NumF x = Z.to_nat (Z.min (2 ^ 64 - 1) (Zfloor (B2R x))).
Proof.
  intros FX. change (@ffloor NumF x) with (d_to_u64 (@Bnearbyint 53 1024 prec_emax mode_DN x)).
  destruct (Bnearbyint_correct 53 1024 prec_emax mode_DN x) as (A & B & _).
  set (y := Bnearbyint mode_DN x) in *. rewrite FX in B. change (round_mode mode_DN) with Zfloor in A. rewrite round_FIX_IZR in A.
  assert (T : Btrunc y = Zfloor (B2R x)).
  { apply eq_IZR. rewrite (Btrunc_correct 53 1024 prec_emax), round_FIX_IZR, A. f_equal. apply Ztrunc_IZR. }
  rewrite <- T. unfold d_to_u64. destruct y; try discriminate; reflexivity.
Qed.

Section Program.
Variable L : lib.
Hypothesis library : lib_ok L.
Variable X : @outside NumF.
Hypothesis functions : double_functions X.
Hypothesis arctangent : forall y x : dbl, is_finite y = true -> is_finite x = true -> is_nan (x_atan2 X y x : dbl) = false.
Variable read : text -> text.
Variable yaml : @value NumF.
Variable cl : command_line.
Variable i : @instance NumF.
Variable d : nat -> nat -> Z.
Variable q : nat -> Z.
Variable cap : Z.
Variable f : @fields NumF.
Local Notation file := (read (cl_instance cl)).
Local Notation size := (length (in_nodes i)).
Hypothesis described : instance_file (fun w x => x_parse_f64 X w = Some x) i file.
Hypothesis readable : forall l, In l (lines_of file) -> x_utf8 X l = true.
Hypothesis rounded : rounded_instance i d q cap.
Hypothesis drawn : drawable_nodes i.
Hypothesis accepted : main_config yaml cl = Ok f.
Hypothesis granularity : exists z, has f (txt "local_search_granularity") (VInt z) /\ (1 <= z <= Z.of_nat (Nat.min 200 (size - 2)))%Z.
Hypothesis whole : not_decomposed f size.
Hypothesis positive : populated f.
Hypothesis finite : finite_settings f.
Hypothesis elite : elite_settings f size.
Variable B last : nat.
Hypothesis random : forall seed, varied size B (rdraw (x_random X seed)).
Hypothesis clock : time_passesF X f last.

Local Lemma bounded_functions n : double_functions (with_bound X n).
Proof. destruct functions. constructor; assumption. Qed.

Local Lemma started_ends x : startedF X i d q cap f x ->
  3 <= p_dim (x_problem x) /\ workable (x_config x) /\ time_up (x_config x) (x_env X) last /\
  (Z.of_nat (c_num_diversity_closest (x_config x)) < 2 ^ 64)%Z /\ drawable (x_problem x) /\ elite_fits (x_problem x) (x_config x).
Proof.
  intro HX. destruct (main_facts yaml cl f accepted) as (HC & _ & _ & _).
  destruct (sf_config _ _ _ _ _ _ _ HX) as (nv & EC).
  destruct (config_of_fields f nv _ EC) as (_ & _ & M1 & M2 & F1 & F2 & F3 & F4 & F5). destruct (config_of_elite f nv _ EC) as (G1 & G2 & G3).
  assert (POS : forall name n, In (txt name) [txt "num_diversity_closest"; txt "min_population_size"; txt "initial_individuals"; txt "tournament_size"] ->
            get_u64 f name = Ok n -> 1 <= n).
  { intros name n HIn EG. destruct (positive _ HIn) as (y & HY & BY). rewrite (u64_has f HC _ _ HY) in EG. injection EG as <-. lia. }
  split; [|split; [|split; [|split; [|split]]]].
  - rewrite (sf_dim _ _ _ _ _ _ _ HX). destruct granularity as (z & _ & BZ). lia.
  - split; [|split; [|split]].
    + apply (POS "num_diversity_closest"%string); [cbn [In]; auto|exact F1].
    + apply (POS "min_population_size"%string); [cbn [In]; auto|exact F2].
    + apply (POS "initial_individuals"%string); [cbn [In]; auto|exact F3].
    + apply (POS "tournament_size"%string); [cbn [In]; auto|exact F4].
  - destruct clock as (z & HZ & CK).
    assert (BZ : (z < 2 ^ 64)%Z).
    { destruct (conf_has f HC (txt "time_limit") KU64 eq_refl) as (v & _ & HV & SV).
      rewrite <- (has_unique f _ _ _ (conf_nodup f HC) HZ HV) in SV. inversion SV as [|n HN| | | | | | |]; subst. clear -HN. apply N2Z.inj_lt in HN. exact HN. }
    rewrite (u64_has f HC _ _ HZ) in F5. injection F5 as F5. intros t Ht. rewrite <- F5.
    destruct (CK t Ht) as [FT LT]. rewrite u64_floor by exact FT. apply Zfloor_lub in LT. lia.
  - destruct (conf_has f HC (txt "num_diversity_closest") KU64 eq_refl) as (v & EV & _ & SV). unfold get_u64 in F1. rewrite EV in F1.
    inversion SV as [|n HN| | | | | | |]; subst v. injection F1 as <-. rewrite Z2Nat.id by apply N2Z.is_nonneg. clear -HN. apply N2Z.inj_lt in HN. exact HN.
  - split; [|rewrite (sf_atan2 _ _ _ _ _ _ _ HX); exact arctangent]. intros a HA. rewrite (sf_coord _ _ _ _ _ _ _ HX). apply drawn.
    rewrite <- (sf_dim _ _ _ _ _ _ _ HX). exact HA.
  - destruct elite as [ES|(ES & gamma & dec & inc & r & S1 & S2 & S3 & BB)].
    + left. apply (bool_has f HC) in ES. rewrite ES in G1. now injection G1.
    + right. apply (bool_has f HC) in ES. rewrite ES in G2. injection G2 as <-. split; [reflexivity|].
      apply (f64_has f HC) in S1, S2, S3. rewrite S1 in G3. rewrite S2 in M2. rewrite S3 in M1. injection G3 as G3. injection M2 as M2. injection M1 as M1.
      exists r. rewrite <- M1, <- M2. destruct BB as (B1 & B2 & B3 & B4 & B5 & B6). repeat (split; [assumption|]).
      unfold elite_length. rewrite <- G3, (sf_dim _ _ _ _ _ _ _ HX). exact B6.
Qed.

Local Lemma started_moderate x peak : startedF X i d q cap f x -> is_finite peak = true -> (0 <= B2R peak)%R ->
  moderate_data size d q cap (B2R peak) -> moderate (x_problem x) d q cap peak.
Proof.
  intros HX FP P0 [M1 M2 M3]. constructor; rewrite ?(sf_dim _ _ _ _ _ _ _ HX); auto.
  intros a b HA HB. apply (dist_symZ i d q cap rounded); auto. exact (P_FloatProgram.weights_size X i file described (ri_nodes _ _ _ _ rounded)).
Qed.

(** For every bound on the loops that is large enough the program writes its file, unless the
    capacity penalty exceeds a tenth of [peak] during the run. *)
Theorem C70_program_ends (peak : dbl) : is_finite peak = true -> (0 <= B2R peak)%R -> moderate_data size d q cap (B2R peak) ->
  exists bound, forall n, bound <= n ->
    (exists content, program L (with_bound X n) read yaml cl = Ok (Some (output_path cl, content))) \/
    exists pa x li g w, parse (x_parse_f64 X) (x_utf8 X) file = Ok pa /\ context_new X pa f = Ok x /\
      ga_reached L (x_problem x) (x_config x) (x_env X) li (dm_max (x_dist x)) n (x_world x) g w /\
      ga_st g <> EliteEducation /\ ga_st g <> Terminated /\ (B2R peak < 10 * B2R (w_pen w : dbl))%R.
Proof.
  intros FP P0 MD. destruct (main_facts yaml cl f accepted) as (HC & HI & HS & _).
  destruct (P_FloatProgram.start X functions read yaml cl i d q cap f described readable rounded accepted granularity) as (pa & EP & HX).
  destruct (context_new X pa f) as [x|e] eqn:EX; [|destruct HX as (nm & NB & HN); destruct (finite nm NB HN)].
  destruct (started_ends x HX) as (D3 & WO & TU & Q5 & DR & EF).
  destruct (C70_run_ends _ _ d q cap peak B last (sf_ok _ _ _ _ _ _ _ HX) DR EF (started_moderate x peak HX FP P0 MD) D3 WO Q5) as (bound & RE).
  exists bound. intros n Hn.
  unfold program. rewrite accepted. cbn [rbind]. rewrite (string_has f HC _ _ HI). cbn [rbind].
  change (x_parse_f64 (with_bound X n)) with (x_parse_f64 X). change (x_utf8 (with_bound X n)) with (x_utf8 X). rewrite EP. cbn [rbind].
  change (context_new (with_bound X n) pa f) with (context_new X pa f). rewrite EX. cbn [rbind].
  unfold run_solver. cbn [with_bound x_fuel x_env x_ls_hash x_rr_hash]. destruct whole as (z & HZ & BZ). rewrite (u64_has f HC _ _ HZ). cbn [rbind].
  destruct (u64_ok f HC "decomposed_problem_min_size" eq_refl) as (ms & ->). cbn [rbind].
  destruct (u64_ok f HC "log_interval" eq_refl) as (li & ->). cbn [rbind].
  rewrite (sf_dim _ _ _ _ _ _ _ HX). destruct (Z.to_nat z <=? size - 1) eqn:EL; [apply Nat.leb_le in EL; lia|].
  destruct (ga_new (x_problem x) (x_config x) (cm_store (x_corr x)) (x_ls_hash X) (x_rr_hash X) (x_world x)) as [g w1] eqn:ENW.
  pose proof (gr_new L _ _ (x_env X) li (dm_max (x_dist x)) n _ _ _ _ _ _ (sf_near _ _ _ _ _ _ _ HX) (sf_rows _ _ _ _ _ _ _ HX) ENW) as R0.
  destruct (context_random X pa f x EX) as (seed & ES).
  assert (LV : varied (p_dim (x_problem x)) B (rdraw (w_rng (x_world x)))) by (rewrite ES, (sf_dim _ _ _ _ _ _ _ HX); apply random).
  destruct (RE L (x_env X) li (dm_max (x_dist x)) n (x_world x) g w1 library TU Hn (sf_set _ _ _ _ _ _ _ HX) LV R0) as [[_ (g' & w' & ER & _)]|(g' & w' & Y)].
  - left. rewrite ER. cbn [rbind]. rewrite (opt_string_has f HC _ _ HS). cbn [rbind]. eexists. reflexivity.
  - right. exists pa, x, li, g', w'. split; [reflexivity|]. split; [exact EX|]. exact Y.
Qed.

(** With a peak of 10^8, ten times the largest penalty, the program always ends: from some bound on
    it writes the same file.  The file is right (C65): it is empty, when no feasible solution was
    found, or it holds one, whose cost is its length in the rounded distances. *)
Theorem C70_total_correctness : moderate_data size d q cap (10 ^ 8)%R ->
  exists content, settles (fun n => program L (with_bound X n) read yaml cl) (Ok (Some (output_path cl, content))) /\
    (content = [] \/
     exists routes cost solution, content = solution ++ [LF] /\ solution_text 1 routes cost solution /\
       serves_all_once size routes /\ (forall r, In r routes -> r <> []) /\
       (forall r, In r routes -> (zload q r <= cap)%Z) /\
       Z.of_nat cost = zsum (map (ztour d) routes)).
Proof.
  intros MD. destruct (int_of_Z (10 ^ 8)) as [F8 E8]; [reflexivity|].
  assert (R8 : (B2R (d_of_Z (10 ^ 8)) = 10 ^ 8)%R) by (rewrite E8; change (IZR (10 ^ 8)) with (IZR 100000000); lra).
  rewrite <- R8 in MD.
  destruct (main_facts yaml cl f accepted) as (HC & HI & HS & _).
  destruct (P_FloatProgram.start X functions read yaml cl i d q cap f described readable rounded accepted granularity) as (pa & EP & HX).
  destruct (context_new X pa f) as [x|e] eqn:EX; [|destruct HX as (nm & NB & HN); destruct (finite nm NB HN)].
  destruct (C70_program_ends (d_of_Z (10 ^ 8)) F8 ltac:(rewrite R8; lra) MD) as (bound & PE).
  destruct (PE bound (le_n _)) as [(content & EQ)|(pa' & x' & li & g & w & EP' & EX' & R & S1 & S2 & PB)].
  - exists content. split.
    + exists bound. intros n Hn. apply (C57_bound_irrelevant NumF L X read yaml cl bound n); [exact Hn|exact EQ|discriminate].
    + destruct (C65_solution_file L library (with_bound X bound) (bounded_functions bound) read yaml cl i d q cap f described readable rounded accepted
        granularity whole _ EQ) as (_ & _ & _ & _ & _ & content' & _ & _ & _ & _ & EO & [[_ ->]|(rs & c & so & P1 & P2 & P3 & P4 & P5 & P6 & _)]);
        injection EO as ->; [now left|right]. exists rs, c, so. repeat (split; [assumption|]). exact P6.
  - exfalso. rewrite EP in EP'. injection EP' as <-. rewrite EX in EX'. injection EX' as <-. rewrite R8 in PB.
    pose proof (penalty_below (x_problem x) (x_config x) d q cap L _ _ _ _ _ _ _ (sf_ok _ _ _ _ _ _ _ HX) library (sf_set _ _ _ _ _ _ _ HX) R S1 S2). lra.
Qed.
End Program.
Print Assumptions C70_program_ends.
Print Assumptions C70_total_correctness.

(** ** Cases *)
(** The surroundings and the settings of C62, with random numbers that count up from the seed and a
    clock that stops after a minute. *)
Definition ft_outside : @outside NumF := let X := P_FloatFine.pe_outside 0 in
  @mkOutside NumF (x_parse_f64 X) (x_utf8 X) (x_sqrt X) (x_round X) (x_sort X) (x_atan2 X) (x_ln X) (x_real X) (x_angle X)
    fn_env (fun seed => mkRng (fun k => N.of_nat (match seed with Some s => s | None => 0 end + k)) 0)
    (x_ls_hash X) (x_rr_hash X) (x_hashes X) 0.
Fact ft_functions : double_functions ft_outside.
Proof. destruct (P_FloatFine.pe_functions 0) as [A B C D]. constructor; assumption. Qed.
Fact ft_arctangent (y x : dbl) : is_finite y = true -> is_finite x = true -> is_nan (x_atan2 ft_outside y x : dbl) = false.
Proof.
  intros F _. cbn [ft_outside P_FloatFine.pe_outside x_atan2]. destruct (dlt x (d_of_Z 0)); [reflexivity|]. destruct y; try reflexivity; discriminate.
Qed.
Fact ft_random seed : varied 6 1 (rdraw (x_random ft_outside seed)).
Proof. exact (pe_random seed). Qed.
Fact ft_clock f : main_config P_FloatFine.pe_yaml pr_cl = Ok f -> time_passesF ft_outside f 60.
Proof.
  intro accepted. exists 60%Z. split; [apply (P_FloatFine.pe_int f accepted); vm_compute; reflexivity|].
  intros t Ht. cbn [ft_outside x_env fn_env e_clock]. rewrite Nat.min_r by exact Ht.
  destruct (int_of_Z (Z.of_nat 60)) as [A B]; [reflexivity|]. split; [exact A|]. rewrite B. apply IZR_le. lia.
Qed.
Fact ft_drawn (i : @instance NumF) : in_nodes i = in_nodes pf_instance -> drawable_nodes i.
Proof.
  intros EN a HA. unfold coord. rewrite EN in *. change (length (in_nodes pf_instance)) with 6 in HA.
  assert (X : nth a (in_nodes pf_instance) (d_of_Z 0, d_of_Z 0, d_of_Z 0) = (d_of_Z (pf_x a), d_of_Z (pf_y a), d_of_Z (pf_q a))).
  { do 6 (destruct a as [|a]; [reflexivity|]). lia. }
  rewrite X. cbn [fst snd].
  assert (Y : (0 <= pf_x a < 100 /\ 0 <= pf_y a < 100)%Z) by (do 6 (destruct a as [|a]; [cbn; lia|]); lia). destruct Y as [Y1 Y2].
  destruct (P_FloatFine.small_coordinate _ Y1), (P_FloatFine.small_coordinate _ Y2). auto.
Qed.
Fact ft_settings f : main_config P_FloatFine.pe_yaml pr_cl = Ok f ->
  (exists z, has f (txt "local_search_granularity") (VInt z) /\ (1 <= z <= Z.of_nat (Nat.min 200 (6 - 2)))%Z) /\
  not_decomposed f 6 /\ populated f /\ finite_settings f /\ elite_settings f 6.
Proof.
  intro EF. split; [|split; [|split; [|split]]].
  - exists 3%Z. split; [apply (P_FloatFine.pe_int f EF); vm_compute; reflexivity|cbn; lia].
  - exists 3000%Z. split; [apply (P_FloatFine.pe_int f EF); vm_compute; reflexivity|cbn; lia].
  - intros name H. cbn [In] in H. destruct H as [<-|[<-|[<-|[<-|[]]]]].
    + exists 2%Z. split; [apply (P_FloatFine.pe_int f EF); vm_compute; reflexivity|lia].
    + exists 2%Z. split; [apply (P_FloatFine.pe_int f EF); vm_compute; reflexivity|lia].
    + exists 3%Z. split; [apply (P_FloatFine.pe_int f EF); vm_compute; reflexivity|lia].
    + exists 2%Z. split; [apply (P_FloatFine.pe_int f EF); vm_compute; reflexivity|lia].
  - intros name NB H.
    assert (X : forallb (fun e : text * @value NumF => match snd e with VFloat None => text_eqb (fst e) (txt "bks") | _ => true end)
                  (match main_config P_FloatFine.pe_yaml pr_cl with Ok f => f | Err _ => [] end) = true) by (vm_compute; reflexivity).
    rewrite EF, forallb_forall in X. specialize (X _ H). cbn [fst snd] in X. apply text_eqb_spec in X. contradiction.
  - right. split; [apply (P_FloatFine.pe_bool f EF); vm_compute; reflexivity|].
    destruct (P_FloatFine.pe_gamma f EF) as (gamma & G1 & G2).
    destruct (P_FloatFine.pe_float f EF "penalty_dec_multiplier"%string ltac:(vm_compute; reflexivity)) as (dec & D1 & D2 & D3).
    destruct (P_FloatFine.pe_float f EF "penalty_inc_multiplier"%string ltac:(vm_compute; reflexivity)) as (inc & I1 & I2 & I3).
    exists gamma, dec, inc, 2%R. repeat (split; [first [assumption|lra]|]). rewrite G2. change (5000 / 1000) with 5.
    assert (E0 : (0 < bpow radix2 (-50) <= 1)%R) by (split; [apply bpow_gt_0|change 1%R with (bpow radix2 0); apply bpow_le; lia]).
    eapply Rle_trans; [apply (pow_incr _ (bpow radix2 2)); change (bpow radix2 2) with 4%R; lra|].
    change (bpow radix2 2 ^ 5)%R with (bpow radix2 2 * (bpow radix2 2 * (bpow radix2 2 * (bpow radix2 2 * (bpow radix2 2 * 1)))))%R.
    rewrite Rmult_1_r, <- !bpow_plus. apply bpow_le. lia.
Qed.
Fact ft_size : forall a b, a < 6 -> b < 6 -> (pf_d a b <= 14)%Z.
Proof.
  intros a b HA HB. assert (X : forallb (fun a => forallb (fun b => Z.leb (pf_d a b) 14) (seq 0 6)) (seq 0 6) = true) by (vm_compute; reflexivity).
  rewrite forallb_forall in X. specialize (X a ltac:(apply in_seq; lia)). rewrite forallb_forall in X. apply Z.leb_le, X, in_seq. lia.
Qed.

(** The file of C59, where two vehicles of capacity 10 serve a demand of 20: the program ends if the
    penalty stays below 4900000. *)
Example C70_program_applies : exists bound, forall n, bound <= n ->
  (exists content, @program NumF rust_lib (with_bound ft_outside n) pr_read P_FloatFine.pe_yaml pr_cl = Ok (Some (txt "a.sol", content))) \/
  exists f pa x li g w, main_config P_FloatFine.pe_yaml pr_cl = Ok f /\
    parse (x_parse_f64 ft_outside) (x_utf8 ft_outside) (pr_read (txt "a.vrp")) = Ok pa /\ context_new ft_outside pa f = Ok x /\
    ga_reached rust_lib (x_problem x) (x_config x) (x_env ft_outside) li (dm_max (x_dist x)) n (x_world x) g w /\
    ga_st g <> EliteEducation /\ ga_st g <> Terminated /\ (49000000 < 10 * B2R (w_pen w : dbl))%R.
Proof.
  destruct P_FloatFine.pe_accepted as (f & EF). destruct (ft_settings f EF) as (S1 & S2 & S3 & S4 & S5).
  destruct (int_of_Z 49000000) as [PF PE]; [reflexivity|].
  destruct (C70_program_ends rust_lib rust_lib_ok ft_outside ft_functions ft_arctangent pr_read P_FloatFine.pe_yaml pr_cl pf_instance pf_d pf_q 10 f
    pf_described (fun _ _ => eq_refl) pf_rounded (ft_drawn _ eq_refl) EF S1 S2 S3 S4 S5 1 60 ft_random (ft_clock f EF) (d_of_Z 49000000) PF) as (bound & H).
  - rewrite PE. lra.
  - constructor; [reflexivity|vm_compute; discriminate|]. exists 14%Z. split; [exact ft_size|].
    rewrite PE. change (zload pf_q (seq 1 (length (in_nodes pf_instance) - 1))) with 20%Z. change (Z.of_nat (length (in_nodes pf_instance))) with 6%Z.
    change (Z.max 0 (20 - 10)) with 10%Z. change ((6 + 8) * 14)%Z with 196%Z. lra.
  - exists bound. intros n Hn. destruct (H n Hn) as [X|(pa & x & li & g & w & X1 & X2 & X3 & X4 & X5 & X6)]; [left; exact X|right].
    exists f, pa, x, li, g, w. rewrite PE in X6. repeat (split; [assumption|]). exact X6.
Qed.

(** The same file with vehicles of capacity 16: the program ends. *)
Definition ft_lines : list text :=
  [txt "NAME : program"; txt "TYPE : CVRP"; txt "DIMENSION : 6"; txt "EDGE_WEIGHT_TYPE : EUC_2D"; txt "CAPACITY : 16";
   txt "NODE_COORD_SECTION"; txt "1 0 0"; txt "2 3 4"; txt "3 6 8"; txt "4 7 0"; txt "5 0 9"; txt "6 2 2";
   txt "DEMAND_SECTION"; txt "1 0"; txt "2 4"; txt "3 5"; txt "4 3"; txt "5 6"; txt "6 2"; txt "DEPOT_SECTION"; txt "1"; txt "-1"; txt "EOF"].
Definition ft_read (path : text) : text := if text_eqb path (txt "a.vrp") then join true ft_lines else [].
Definition ft_parts : list part :=
  [Other [txt "NAME"; txt "program"]; Other [txt "TYPE"; txt "CVRP"]; Header (txt "DIMENSION") (txt "6") [];
   Header (txt "EDGE_WEIGHT_TYPE") (txt "EUC_2D") []; Header (txt "CAPACITY") (txt "16") [];
   Section_ (txt "NODE_COORD_SECTION") [] [[txt "1"; txt "0"; txt "0"]; [txt "2"; txt "3"; txt "4"]; [txt "3"; txt "6"; txt "8"];
     [txt "4"; txt "7"; txt "0"]; [txt "5"; txt "0"; txt "9"]; [txt "6"; txt "2"; txt "2"]];
   Section_ (txt "DEMAND_SECTION") [] [[txt "1"; txt "0"]; [txt "2"; txt "4"]; [txt "3"; txt "5"]; [txt "4"; txt "3"]; [txt "5"; txt "6"]; [txt "6"; txt "2"]];
   Other [txt "DEPOT_SECTION"]; Other [txt "1"]; Other [txt "-1"]; Other [txt "EOF"]].
Definition ft_instance : @instance NumF := @mkInstance NumF (d_of_Z 16) (in_nodes pf_instance) None.
Fact ft_described : instance_file (fun w x => pf_parse w = Some x) ft_instance (join true ft_lines).
Proof.
  exists ft_parts, ft_lines. split; [|split].
  - exists (txt "6"), (txt "16"), (txt "EUC_2D"), [], [], [], [], [].
    exists [[txt "1"; txt "0"; txt "0"]; [txt "2"; txt "3"; txt "4"]; [txt "3"; txt "6"; txt "8"];
       [txt "4"; txt "7"; txt "0"]; [txt "5"; txt "0"; txt "9"]; [txt "6"; txt "2"; txt "2"]],
      [[txt "1"; txt "0"]; [txt "2"; txt "4"]; [txt "3"; txt "5"]; [txt "4"; txt "3"]; [txt "5"; txt "6"]; [txt "6"; txt "2"]].
    exists [], [Other [txt "NAME"; txt "program"]; Other [txt "TYPE"; txt "CVRP"]; Other [txt "DEPOT_SECTION"]; Other [txt "1"]; Other [txt "-1"]; Other [txt "EOF"]].
    split; [|split; [|split; [reflexivity|split; [reflexivity|]]]].
    + unfold ft_parts. apply NoDup_Permutation.
      * repeat constructor; cbn; intuition discriminate.
      * repeat constructor; cbn; intuition discriminate.
      * intro x. cbn [app In]. tauto.
    + apply (dec_digit 6). split; [lia|reflexivity].
    + assert (PL : forall rows, forallb (fun r => match r with [] => true | w :: _ => negb (existsb (text_eqb w) (keys ft_instance)) end) rows = true ->
        Forall (plain ft_instance) rows).
      { intros rows H. rewrite forallb_forall in H. apply Forall_forall. intros r Hr. specialize (H r Hr). unfold plain. destruct r as [|w r]; auto.
        intro I. apply negb_true_iff in H. assert (X : existsb (text_eqb w) (keys ft_instance) = true).
        { apply existsb_exists. exists w. split; auto. apply text_eqb_refl. } congruence. }
      split; [|split; [|split; [|split; [|split]]]].
      * repeat (apply Forall2_cons; [eexists _, _, _, _; repeat split; reflexivity|]). apply Forall2_nil.
      * apply PL. reflexivity.
      * repeat (apply Forall2_cons; [eexists _, _, _; repeat split; reflexivity|]). apply Forall2_nil.
      * apply PL. reflexivity.
      * cbn [weight_parts ft_instance in_weights]. split; reflexivity.
      * apply Forall_forall. intros x Hx.
        assert (exists line, x = Other line) as (line & ->) by (cbn in Hx; intuition subst; eauto).
        exists line. split; auto. revert Hx. cbn [In]. intuition (try discriminate);
          match goal with H : Other _ = Other _ |- _ => injection H as <- end; cbn; intuition discriminate.
  - change (concat (map part_lines ft_parts)) with (map words ft_lines).
    assert (F : forall ls, (forall l, In l ls -> line_text (words l) l) -> Forall2 line_text (map words ls) ls).
    { induction ls as [|l ls IH]; intro H; cbn [map]; constructor; [apply H; now left|apply IH; intros; apply H; now right]. }
    apply F. intros l Hl.
    assert (X : forallb (fun l => lay (words l) l) ft_lines = true) by (vm_compute; reflexivity).
    rewrite forallb_forall in X. apply lay_sound. now apply X.
  - apply join_text. discriminate.
Qed.
Fact ft_rounded : rounded_instance ft_instance pf_d pf_q 16.
Proof.
  destruct pf_rounded as [A1 A2 A3 A4 A5 A6 A7 A8]. constructor; try assumption.
  split; [apply int_of_Z; reflexivity|unfold exact_bound; lia].
Qed.
Example C70_total_applies : exists content,
  settles (fun n => @program NumF rust_lib (with_bound ft_outside n) ft_read P_FloatFine.pe_yaml pr_cl) (Ok (Some (txt "a.sol", content))) /\
    (content = [] \/
     exists routes cost solution, content = solution ++ [LF] /\ solution_text 1 routes cost solution /\
       serves_all_once 6 routes /\ (forall r, In r routes -> r <> []) /\
       (forall r, In r routes -> (zload pf_q r <= 16)%Z) /\
       Z.of_nat cost = zsum (map (ztour pf_d) routes)).
Proof.
  destruct P_FloatFine.pe_accepted as (f & EF). destruct (ft_settings f EF) as (S1 & S2 & S3 & S4 & S5).
  apply (C70_total_correctness rust_lib rust_lib_ok ft_outside ft_functions ft_arctangent ft_read P_FloatFine.pe_yaml pr_cl ft_instance pf_d pf_q 16 f
    ft_described (fun _ _ => eq_refl) ft_rounded (ft_drawn _ eq_refl) EF S1 S2 S3 S4 S5 1 60 ft_random (ft_clock f EF)).
  constructor; [reflexivity|vm_compute; discriminate|]. exists 14%Z. split; [exact ft_size|].
  change (zload pf_q (seq 1 (length (in_nodes ft_instance) - 1))) with 20%Z. change (Z.of_nat (length (in_nodes ft_instance))) with 6%Z.
  change (Z.max 0 (20 - 16)) with 4%Z. change ((6 + 8) * 14)%Z with 196%Z. lra.
Qed.
