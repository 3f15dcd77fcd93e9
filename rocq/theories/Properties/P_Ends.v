(** Every run ends (C57): for any instance, configuration, stream of random numbers that is not
    constant for ever modulo some number of customers, and clock that reaches the time limit, there
    is a bound on the lengths of the loops that is never exceeded, and the outcome does not depend
    on it.  So the bounds, which the code does not have, leave nothing out. *)
From Coq Require Import Ascii String List Arith NArith ZArith Bool Lia QArith Qround Lqa Permutation Sorted.
From Verif.Model Require Import Num Prelude Evaluate Individual Config Crossover Split Matrix Population
  LocalSearch World Schedule RuinRecreate Genetic Decomposition Text Parser Display ConfigFile Main.
From Verif.Spec Require Import Solution Library LocalSearch RuinRecreate Genetic Decomposition Instance Output ConfigFile Program.
From Verif.Proofs Require Import Lists QNum MatrixFacts GaQ Fleet RustLib DgaInv GaEnds DgaEnds FuelMore ProgramFacts.
From Verif.Properties Require Import P_Matrix P_Genetic P_Decomposed P_Program.
Import ListNotations.
Open Scope nat_scope.

(** The genetic algorithm: with one bound for all libraries, clocks, seeds and matrices, every call
    of [iterate] returns and the whole run ends. *)
Theorem C57_run_ends p c B last : instance_ok p c -> 3 <= p_dim p -> symmetric p -> workable c ->
  exists bound, forall L E li md fuel w0 g w, lib_ok L -> time_up c E last -> bound <= fuel ->
    set_up p md w0 -> varied (p_dim p) B (rdraw (w_rng w0)) -> ga_reached L p c E li md fuel w0 g w ->
    (exists g' w', ga_iterate L p c E li md fuel g w = Ok (g', w')) /\
    exists g' w', solver_run L p c E li md fuel fuel g w = Ok (g', w') /\ ga_st g' = Terminated.
Proof.
  intros OK D3 SY WO.
  assert (US : forall x : @F NumQ, usualQ x -> (0 <= x <= inject_Z (10 ^ 7))%Q).
  { intros x [H1 H2]. change (@F NumQ) with Q in *. set (T := inject_Z (10 ^ 7)) in *. clearbody T. split; lra. }
  destruct (bound_exists p c B last OK D3 SY usualQ (inject_Z (10 ^ 7)) US) as (bound & BO). clear US.
  exists (Nat.max bound (last + 1)). intros L E li md fuel w0 g w LOK TU HF ((d & _ & EP) & _) LV R.
  assert (U : usualQ (w_pen w0)) by (rewrite EP; apply usual_initialQ).
  destruct (run_ends p c B last OK D3 WO bound L E li md w0 g w fuel fuel BO LOK TU ltac:(lia) U LV R ltac:(lia)) as [RI (g' & w' & ER & T)].
  split; [exact RI|]. exists g', w'. split; [exact ER|]. unfold ga_terminated in T. destruct (ga_st g'); try discriminate T. reflexivity.
Qed.
Print Assumptions C57_run_ends.

(** With decomposition it ends, too, or panics in a round that starts from an infeasible solution or
    whose merged solution has too many routes (see C55). *)
Theorem C57_decomposed_run_ends p c ms B last : decomposed_ok p c ms -> 3 <= p_dim p -> symmetric p -> workable c ->
  exists bound, forall L E li md fuel sqrt_ round_ lsort dm hashes gd w0 d w, lib_ok L -> time_up c E last -> bound <= fuel ->
    sort_contract lsort -> dfun sqrt_ round_ dm (p_dim p) gd ->
    set_up p md w0 -> varied (p_dim p) B (rdraw (w_rng w0)) ->
    dga_reached L p c E li fuel sqrt_ round_ lsort dm ms hashes w0 d w ->
    match dga_run L p c E li fuel sqrt_ round_ lsort dm ms hashes fuel d w with
    | Ok (d', w') => d_st d' = DTerminated
    | Err e => e = EPanic /\ exists d w, dga_reached L p c E li fuel sqrt_ round_ lsort dm ms hashes w0 d w /\ d_st d = DCycle /\
        (is_feasible (d_sol d) = false \/ misfit L p c E li fuel sqrt_ round_ lsort dm ms hashes d (snd (terminate c E w)))
    end.
Proof.
  intros DC D3 SY WO. destruct (dga_bound_exists p c ms B last DC D3 SY) as (bound & rr_top & BB).
  exists bound. intros L E li md fuel sqrt_ round_ lsort dm hashes gd w0 d w LOK TU HF SO DF SU LV R.
  pose proof (db_last _ _ _ _ _ _ BB) as LT.
  pose proof (dga_run_ends p c ms B last DC D3 WO bound rr_top BB L LOK E TU li md fuel HF sqrt_ round_ lsort dm hashes gd SO DF w0 SU LV fuel d w R
    ltac:(right; lia)) as X.
  destruct (dga_run L p c E li fuel sqrt_ round_ lsort dm ms hashes fuel d w) as [[d' w']|e]; [|exact X].
  unfold dga_terminated in X. destruct (d_st d'); try discriminate X. reflexivity.
Qed.
Print Assumptions C57_decomposed_run_ends.

(** Once the bound is not reached, a larger one changes nothing: not the outcome of the genetic
    algorithm, with or without decomposition, and not the outcome of the program. *)
Theorem C57_bound_irrelevant (N : Num) L X read yaml cl m n r : m <= n ->
  program L (with_bound X m) read yaml cl = r -> r <> Err EFuel -> program L (with_bound X n) read yaml cl = r.
Proof.
  intros H <- NF. assert (U : upto (program L (with_bound X m) read yaml cl) (program L (with_bound X n) read yaml cl)); [|now destruct U].
  clear NF. unfold program. apply upto_bind; [apply upto_refl|]. intros f. apply upto_bind; [apply upto_refl|]. intros path.
  apply upto_bind; [apply upto_refl|]. intros pa. apply upto_bind; [apply upto_refl|]. intros x. apply upto_bind; [|intros w; apply upto_refl].
  unfold run_solver. apply upto_bind; [apply upto_refl|]. intros lim. apply upto_bind; [apply upto_refl|]. intros ms.
  apply upto_bind; [apply upto_refl|]. intros li. cbn [with_bound x_fuel x_env x_sqrt x_round x_sort x_hashes x_ls_hash x_rr_hash].
  destruct (lim <=? p_dim (x_problem x) - 1).
  - destruct (dga_new _ _ _ _ _ _) as [d w]. apply upto_bind; [now apply dga_run_more|]. intros [d' w']. apply upto_refl.
  - destruct (ga_new _ _ _ _ _ _) as [g w]. apply upto_bind; [now apply solver_run_more|]. intros [g' w']. apply upto_refl.
Qed.
Print Assumptions C57_bound_irrelevant.

Lemma context_random {N : Num} X pa f x : context_new X pa f = Ok x -> exists seed, rdraw (w_rng (x_world x)) = rdraw (x_random X seed).
Proof.
  unfold context_new. intro H.
  repeat (match type of H with
          | rbind ?m _ = _ => destruct m eqn:?; [cbn [rbind] in H|discriminate H]
          | (let '(_, _) := ?y in _) = _ => destruct y
          end).
  injection H as <-. cbn [x_world].
  match goal with E : reset_penalty _ _ _ = Ok _ |- _ => unfold reset_penalty in E; destruct (max_demand _); [|discriminate E]; cbn [rbind] in E; injection E as <- end.
  eexists. reflexivity.
Qed.

Section Program.
Variable L : lib.
Hypothesis library : lib_ok L.
Variable X : @outside NumQ.
Hypothesis functions : functions_ok X.
Variable read : text -> text.
Variable yaml : @value NumQ.
Variable cl : command_line.
Variable i : @instance NumQ.
Variable f : @fields NumQ.
Local Notation file := (read (cl_instance cl)).
Local Notation size := (length (in_nodes i)).
Local Notation dist := (instance_distance (x_sqrt X) (x_round X) i).
Local Notation demand := (instance_demand i).
Local Notation capacity := (in_cap i).
Hypothesis described : instance_file (fun w x => x_parse_f64 X w = Some x) i file.
Hypothesis readable : forall l, In l (lines_of file) -> x_utf8 X l = true.
Hypothesis reasonable : sensible (x_sqrt X) (x_round X) i.
Hypothesis depot : (demand 0 == 0)%Q.
Hypothesis accepted : main_config yaml cl = Ok f.
Hypothesis settings : settings_ok f size.
Hypothesis positive : populated f.
Hypothesis finite : finite_settings f.
Variable B last : nat.
Hypothesis random : forall seed, varied size B (rdraw (x_random X seed)).
Hypothesis clock : time_passes X f last.

Local Lemma bounded_functions n : functions_ok (with_bound X n).
Proof. destruct functions. constructor; assumption. Qed.

Local Lemma start_ends x : started X i f x ->
  3 <= p_dim (x_problem x) /\ symmetric (x_problem x) /\ workable (x_config x) /\ time_up (x_config x) (x_env X) last.
Proof.
  intro SD. destruct (main_facts yaml cl f accepted) as (HC & _ & _ & _).
  destruct (so_granularity _ _ settings) as (g & _ & BG).
  destruct (sd_config _ _ _ _ SD) as (nv & EC). destruct (config_of_fields f nv _ EC) as (_ & _ & _ & _ & F1 & F2 & F3 & F4 & F5).
  assert (POS : forall name n, In (txt name) [txt "num_diversity_closest"; txt "min_population_size"; txt "initial_individuals"; txt "tournament_size"] ->
            get_u64 f name = Ok n -> 1 <= n).
  { intros name n HIn EG. destruct (positive _ HIn) as (y & HY & BY). rewrite (u64_has f HC _ _ HY) in EG. injection EG as <-. lia. }
  split; [rewrite (sd_dim _ _ _ _ SD); lia|]. split; [split|split; [split; [|split; [|split]]|]].
  - rewrite (sd_dim _ _ _ _ SD). intros a b Ha Hb. rewrite !(sd_dist _ _ _ _ SD) by assumption. apply (dist_sym X functions). eapply P_Program.weights_size; eauto.
  - rewrite (sd_demand _ _ _ _ SD). exact depot.
  - apply (POS "num_diversity_closest"%string); [cbn [In]; auto|exact F1].
  - apply (POS "min_population_size"%string); [cbn [In]; auto|exact F2].
  - apply (POS "initial_individuals"%string); [cbn [In]; auto|exact F3].
  - apply (POS "tournament_size"%string); [cbn [In]; auto|exact F4].
  - destruct clock as (z & HZ & CK). rewrite (u64_has f HC _ _ HZ) in F5. injection F5 as F5. intros t Ht. rewrite <- F5.
    specialize (CK t Ht). change (Z.to_nat z <= Z.to_nat (Qfloor (e_clock (x_env X) t))).
    apply Qfloor_resp_le in CK. rewrite Qfloor_Z in CK. lia.
Qed.

(** The program ends: for every bound on the loops that is large enough it writes the same file. *)
Theorem C57_program_ends : not_decomposed f size ->
  exists content, settles (fun n => program L (with_bound X n) read yaml cl) (Ok (Some (output_path cl, content))).
Proof.
  intros whole. destruct (main_facts yaml cl f accepted) as (HC & HI & HS & _).
  assert (EN : exists bound, forall n, bound <= n -> program L (with_bound X n) read yaml cl <> Err EFuel).
  { destruct (P_Program.start X functions read yaml cl i f described readable reasonable accepted settings) as (pa & EP & HX).
    destruct (context_new X pa f) as [x|e] eqn:EX; [|destruct HX as (nm & NB & HN); destruct (finite nm NB HN)].
    destruct (start_ends x HX) as (D3 & SY & WO & TU).
    destruct (C57_run_ends _ _ B last (sd_ok _ _ _ _ HX) D3 SY WO) as (bound & RE). exists bound. intros n Hn.
    unfold program. rewrite accepted. cbn [rbind]. rewrite (string_has f HC _ _ HI). cbn [rbind].
    change (x_parse_f64 (with_bound X n)) with (x_parse_f64 X). change (x_utf8 (with_bound X n)) with (x_utf8 X). rewrite EP. cbn [rbind].
    change (context_new (with_bound X n) pa f) with (context_new X pa f). rewrite EX. cbn [rbind].
    unfold run_solver. cbn [with_bound x_fuel x_env x_ls_hash x_rr_hash]. destruct whole as (z & HZ & BZ). rewrite (u64_has f HC _ _ HZ). cbn [rbind].
    destruct (u64_ok f HC "decomposed_problem_min_size" eq_refl) as (ms & ->). cbn [rbind].
    destruct (u64_ok f HC "log_interval" eq_refl) as (li & ->). cbn [rbind].
    rewrite (sd_dim _ _ _ _ HX). destruct (Z.to_nat z <=? size - 1) eqn:EL; [apply Nat.leb_le in EL; lia|].
    destruct (ga_new (x_problem x) (x_config x) (cm_store (x_corr x)) (x_ls_hash X) (x_rr_hash X) (x_world x)) as [g w1] eqn:ENW.
    pose proof (gr_new L _ _ (x_env X) li (dm_max (x_dist x)) n _ _ _ _ _ _ (sd_near _ _ _ _ HX) (sd_rows _ _ _ _ HX) ENW) as R0.
    destruct (context_random X pa f x EX) as (seed & ES).
    assert (LV : varied (p_dim (x_problem x)) B (rdraw (w_rng (x_world x)))) by (rewrite ES, (sd_dim _ _ _ _ HX); apply random).
    destruct (RE L (x_env X) li (dm_max (x_dist x)) n (x_world x) g w1 library TU Hn (sd_set _ _ _ _ HX) LV R0) as [_ (g' & w' & ER & _)].
    rewrite ER. cbn [rbind]. rewrite (opt_string_has f HC _ _ HS). discriminate. }
  destruct EN as (bound & EN).
  destruct (C53_no_panic L library (with_bound X bound) (bounded_functions bound) read yaml cl i f described readable reasonable accepted settings
    whole positive finite) as [(content & EP)|EP]; [|destruct (EN bound (le_n _) EP)].
  exists content, bound. intros n Hn. apply (C57_bound_irrelevant NumQ L X read yaml cl bound n); [exact Hn|exact EP|discriminate].
Qed.

(** And the file is right (C52): with integral data it is empty, when no feasible solution was found,
    or it holds routes within the capacity that serve every customer once, and their length. *)
Theorem C57_total_correctness : not_decomposed f size ->
  (forall a, a < size -> integer (demand a)) -> integer capacity -> (forall x, integer (x_round X x)) ->
  exists content, settles (fun n => program L (with_bound X n) read yaml cl) (Ok (Some (output_path cl, content))) /\
    (content = [] \/
     exists routes cost solution, content = solution ++ [LF] /\ solution_text 1 routes cost solution /\
       serves_all_once size routes /\ (forall r, In r routes -> r <> []) /\
       (forall r, In r routes -> route_load demand r <= capacity)%Q /\
       (inject_Z (Z.of_nat cost) == total_length dist routes)%Q).
Proof.
  intros whole HD HC HR. destruct (C57_program_ends whole) as (content & bound & EP). exists content. split; [exists bound; exact EP|].
  destruct (C52_solution_file_integral L library (with_bound X bound) (bounded_functions bound) read yaml cl i f described readable reasonable accepted settings
    (or_introl whole) _ (EP bound (le_n _)) HD HC HR) as (content' & EQ & R). injection EQ as <-. exact R.
Qed.

(** With decomposition the program settles on a file or on a panic; C53_decomposed_partial tells
    where the panics come from. *)
Theorem C57_decomposed_program_ends : parts_ok (x_sqrt X) (x_round X) f i ->
  exists r, settles (fun n => program L (with_bound X n) read yaml cl) r /\
    (r = Err EPanic \/ exists content, r = Ok (Some (output_path cl, content))).
Proof.
  intros PK. destruct (main_facts yaml cl f accepted) as (HC & HI & HS & _).
  destruct (u64_ok f HC "decompose_limit" eq_refl) as (lim & EL).
  destruct (lim <=? size - 1) eqn:CL.
  2:{ apply Nat.leb_gt in CL. assert (whole : not_decomposed f size).
      { destruct (get_u64_has f HC _ _ EL) as (z & HZ & EZ). exists z. split; [exact HZ|]. lia. }
      destruct (C57_program_ends whole) as (content & ST). eexists. split; [exact ST|]. right. eauto. }
  assert (EN : exists bound, forall n, bound <= n -> program L (with_bound X n) read yaml cl <> Err EFuel).
  { destruct (P_Program.start X functions read yaml cl i f described readable reasonable accepted settings) as (pa & EP & HX).
    destruct (context_new X pa f) as [x|e] eqn:EX; [|destruct HX as (nm & NB & HN); destruct (finite nm NB HN)].
    destruct (start_ends x HX) as (D3 & SY & WO & TU).
    destruct (u64_ok f HC "decomposed_problem_min_size" eq_refl) as (ms & EM).
    destruct (P_Program.parts X yaml cl i f accepted settings x ms HX PK EM) as [DC GC].
    destruct (C57_decomposed_run_ends _ _ ms B last DC D3 SY WO) as (bound & RE). exists bound. intros n Hn.
    unfold program. rewrite accepted. cbn [rbind]. rewrite (string_has f HC _ _ HI). cbn [rbind].
    change (x_parse_f64 (with_bound X n)) with (x_parse_f64 X). change (x_utf8 (with_bound X n)) with (x_utf8 X). rewrite EP. cbn [rbind].
    change (context_new (with_bound X n) pa f) with (context_new X pa f). rewrite EX. cbn [rbind].
    unfold run_solver. cbn [with_bound x_fuel x_env x_ls_hash x_rr_hash x_sqrt x_round x_sort x_hashes]. rewrite EL, EM. cbn [rbind].
    destruct (u64_ok f HC "log_interval" eq_refl) as (li & ->). cbn [rbind].
    rewrite (sd_dim _ _ _ _ HX), CL.
    destruct (dga_new (x_problem x) (x_config x) (cm_store (x_corr x)) (x_ls_hash X) (x_rr_hash X) (x_world x)) as [d w1] eqn:ENW.
    pose proof (dr_new L _ _ (x_env X) li n (x_sqrt X) (x_round X) (x_sort X) (x_dist x) ms (x_hashes X) _ _ _ _ _ _
      (sd_near _ _ _ _ HX) (sd_distinct _ _ _ _ HX) GC ENW) as R0.
    destruct (context_random X pa f x EX) as (seed & ES).
    assert (LV : varied (p_dim (x_problem x)) B (rdraw (w_rng (x_world x)))) by (rewrite ES, (sd_dim _ _ _ _ HX); apply random).
    destruct (sd_matrix _ _ _ _ HX) as (gd & DF). rewrite <- (sd_dim _ _ _ _ HX) in DF.
    pose proof (RE L (x_env X) li (dm_max (x_dist x)) n (x_sqrt X) (x_round X) (x_sort X) (x_dist x) (x_hashes X) gd (x_world x) d w1 library TU Hn
      (sort_ok X functions) DF (sd_set _ _ _ _ HX) LV R0) as Y.
    destruct (dga_run L _ _ _ _ _ _ _ _ _ _ _ _ d w1) as [[d' w']|e]; cbn [rbind].
    - rewrite (opt_string_has f HC _ _ HS). discriminate.
    - destruct Y as [-> _]. discriminate. }
  destruct EN as (bound & EN). exists (program L (with_bound X bound) read yaml cl). split.
  - exists bound. intros n Hn. apply (C57_bound_irrelevant NumQ L X read yaml cl bound n); [exact Hn|reflexivity|now apply EN].
  - destruct (C53_decomposed_partial L library (with_bound X bound) (bounded_functions bound) read yaml cl i f described readable reasonable accepted settings
      PK positive finite) as [(content & EP)|[EP|[EP _]]]; [right; eauto|destruct (EN bound (le_n _) EP)|now left].
Qed.
End Program.
Print Assumptions C57_program_ends.
Print Assumptions C57_total_correctness.
Print Assumptions C57_decomposed_program_ends.

(** ** Example: the file of P_Program.v, with random numbers that count up from the seed *)
Definition pe_outside : @outside NumQ := let X := pr_outside 0 in
  mkOutside (x_parse_f64 X) (x_utf8 X) (x_sqrt X) (x_round X) (x_sort X) (x_atan2 X) (x_ln X) (x_real X) (x_angle X)
    (x_env X) (fun seed => mkRng (fun k => N.of_nat (match seed with Some s => s | None => 0 end + k)) 0)
    (x_ls_hash X) (x_rr_hash X) (x_hashes X) 0.
Fact pe_functions : functions_ok pe_outside.
Proof. destruct (pr_functions 0). constructor; assumption. Qed.
Fact pe_random seed : varied 6 1 (rdraw (x_random pe_outside seed)).
Proof.
  intros m Hm k. exists (k + 1). split; [lia|]. cbn [pe_outside x_random rdraw].
  set (s := match seed with Some s => s | None => 0 end). clearbody s.
  replace (N.of_nat (s + (k + 1))) with (N.of_nat (s + k) + 1)%N by lia.
  generalize (N.of_nat (s + k)). intros x. assert (2 <= N.of_nat m)%N by lia. generalize dependent (N.of_nat m). intros y Hy.
  pose proof (N.mod_lt x y ltac:(lia)) as B. intro E. rewrite N.add_mod, (N.mod_small 1 y) in E by lia.
  set (z := (x mod y)%N) in *. clearbody z. destruct (N.eq_dec (z + 1) y) as [Q|Q].
  - rewrite Q, N.mod_same in E by lia. lia.
  - rewrite N.mod_small in E by lia. lia.
Qed.
Fact pe_clock f : main_config pr_yaml pr_cl = Ok f -> time_passes pe_outside f 60.
Proof.
  intro accepted. exists 60%Z. split; [apply (P_Program.pr_int pr_yaml f accepted); vm_compute; reflexivity|].
  intros t Ht. change (inject_Z 60 <= inject_Z (Z.of_nat t))%Q. rewrite <- Zle_Qle. lia.
Qed.

Example pe_applies : exists content,
  settles (fun n => program rust_lib (with_bound pe_outside n) pr_read pr_yaml pr_cl) (Ok (Some (txt "a.sol", content))) /\
    (content = [] \/
     exists routes cost solution, content = solution ++ [LF] /\ solution_text 1 routes cost solution /\
       serves_all_once 6 routes /\ (forall r, In r routes -> r <> []) /\
       (forall r, In r routes -> route_load (instance_demand pr_instance) r <= in_cap pr_instance)%Q /\
       (inject_Z (Z.of_nat cost) == total_length (instance_distance pr_sqrt pr_round pr_instance) routes)%Q).
Proof.
  destruct pr_accepted as (f & EF). destruct (pr_settings f EF) as (S1 & S2 & S3 & S4).
  apply (C57_total_correctness rust_lib rust_lib_ok pe_outside pe_functions pr_read pr_yaml pr_cl pr_instance f pr_described
    (fun _ _ => eq_refl) pr_sensible (Qeq_refl _) EF S1 S3 S4 1 60 pe_random (pe_clock f EF) S2).
  - intros a _. do 6 (destruct a as [|a]; [eexists; reflexivity|]). exists 0%Z. destruct a; reflexivity.
  - exists 10%Z. reflexivity.
  - intro x. eexists. reflexivity.
Qed.

(** Here a bound of 60 suffices, and the file is not empty. *)
Example pe_file : settles (fun n => program rust_lib (with_bound pe_outside n) pr_read pr_yaml pr_cl)
  (Ok (Some (txt "a.sol", txt "Route #1: 3 2 5
Route #2: 1 4
Cost 45
"))).
Proof.
  exists 60. intros n Hn. apply (C57_bound_irrelevant NumQ rust_lib pe_outside pr_read pr_yaml pr_cl 60 n); [exact Hn| |discriminate].
  vm_compute. reflexivity.
Qed.

(** With decomposition. *)
Fact pd_clock f : main_config pp_yaml pr_cl = Ok f -> time_passes pe_outside f 60.
Proof.
  intro accepted. exists 60%Z. split; [apply (P_Program.pr_int pp_yaml f accepted); vm_compute; reflexivity|].
  intros t Ht. change (inject_Z 60 <= inject_Z (Z.of_nat t))%Q. rewrite <- Zle_Qle. lia.
Qed.
Example pd_applies : exists r,
  settles (fun n => program rust_lib (with_bound pe_outside n) pr_read pp_yaml pr_cl) r /\
    (r = Err EPanic \/ exists content, r = Ok (Some (txt "a.sol", content))).
Proof.
  destruct pp_accepted as (f & EF). destruct (pp_settings f EF) as (S1 & _ & S2 & S3 & S4).
  exact (C57_decomposed_program_ends rust_lib rust_lib_ok pe_outside pe_functions pr_read pp_yaml pr_cl pr_instance f pr_described
    (fun _ _ => eq_refl) pr_sensible (Qeq_refl _) EF S1 S3 S4 1 60 pe_random (pd_clock f EF) S2).
Qed.
