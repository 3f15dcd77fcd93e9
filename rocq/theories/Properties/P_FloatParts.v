(** The program as a whole in double precision when it decomposes the instance (C64). *)
From Coq Require Import Ascii String List Arith NArith ZArith Bool Lia Reals Lra Permutation Sorted.
From Flocq Require Import Core BinarySingleNaN.
From Verif.Model Require Import Num NumFloat Prelude Evaluate Individual Config Crossover Split Matrix Population
  LocalSearch World Schedule RuinRecreate Genetic Decomposition Text Parser Display ConfigFile Main.
From Verif.Spec Require Import Solution Library Floats LocalSearch RuinRecreate Genetic Decomposition Instance Output ConfigFile Program FloatProgram FloatDecomposed.
From Verif.Proofs Require Import Lists TextFacts ParserFacts ConfigFacts FloatFacts FloatRun FloatStart GaQ RustLib ProgramFacts.
From Verif.Properties Require Import P_RuinRecreate P_Genetic P_Files P_Config P_Decomposed P_Program P_FloatRun P_FloatProgram P_FloatFine P_FloatDecomposed.
Import ListNotations.
Open Scope nat_scope.

Section Program.
Variable L : lib.
Hypothesis library : lib_ok L.
Variable X : @outside NumF.
Hypothesis functions : double_functions X.
(** the file system, the configuration file and the command line *)
Variable read : text -> text.
Variable yaml : @value NumF.
Variable cl : command_line.
Variable i : @instance NumF.
Variable d : nat -> nat -> Z.
Variable q : nat -> Z.
Variable cap : Z.
Variable f : @fields NumF.
Local Notation file := (read (cl_instance cl)).
Local Notation size := (length (in_nodes i)).
Hypothesis described : instance_file (fun w x => x_parse_f64 X w = Some x) i file.
Hypothesis readable : forall l, In l (lines_of file) -> x_utf8 X l = true.
Hypothesis rounded : rounded_instance i d q cap.
Hypothesis accepted : main_config yaml cl = Ok f.
Hypothesis sizes : part_sizes f size.

(** A run of the genetic algorithm, or of the one with decomposition, has ended in the world [w]. *)
Definition ended_doubles (x : @context NumF) (w : @world NumF) : Prop :=
  (exists li g, ga_reached L (x_problem x) (x_config x) (x_env X) li (dm_max (x_dist x)) (x_fuel X) (x_world x) g w /\
     ga_st g = Terminated) \/
  (exists li ms g, dga_reached L (x_problem x) (x_config x) (x_env X) li (x_fuel X) (x_sqrt X) (x_round X) (x_sort X) (x_dist x) ms
     (x_hashes X) (x_world x) g w /\ d_st g = DTerminated).

Local Lemma granularity : exists z, has f (txt "local_search_granularity") (VInt z) /\ (1 <= z <= Z.of_nat (Nat.min 200 (size - 2)))%Z.
Proof. destruct sizes as (g & m & HG & _ & B0 & B1 & B2). exists g. split; [exact HG|]. lia. Qed.

Local Lemma parts x ms : startedF X i d q cap f x -> get_u64 f "decomposed_problem_min_size" = Ok ms ->
  decomposed_integral (x_problem x) (x_config x) d q cap ms /\ c_granularity (x_config x) < m_cols (cm_store (x_corr x)).
Proof.
  intros SD EM. destruct sizes as (g & m & HG & HM & B0 & B1 & B2). destruct (main_facts yaml cl f accepted) as (HC & _ & _ & _).
  destruct (sf_config _ _ _ _ _ _ _ SD) as (nv & EC). destruct (config_of_fields f nv _ EC) as (_ & CG & _).
  rewrite (u64_has f HC _ _ HG) in CG. injection CG as CG. rewrite (u64_has f HC _ _ HM) in EM. injection EM as EM.
  rewrite (sf_cols _ _ _ _ _ _ _ SD), <- CG. split; [|lia]. constructor.
  - exact (sf_ok _ _ _ _ _ _ _ SD).
  - destruct (ri_cap _ _ _ _ rounded) as [_ C]. lia.
  - exact (sf_load _ _ _ _ _ _ _ SD).
  - rewrite <- CG, <- EM. lia.
  - rewrite <- CG. lia.
Qed.

(** What is in the history when the solver returns. *)
Local Lemma outcome x w : startedF X i d q cap f x -> run_solver L X f x = Ok w ->
  ended_doubles x w /\
  exists is, recorded hist_new is (w_hist w) /\
    Forall (fun j : @individual NumF => exact_record (x_problem x) d q cap (i_pheno j) (penalized_cost j)) is /\
    (forall e, reported (w_hist w) e -> exact_record (x_problem x) d q cap (he_routes e) (he_cost e) /\
       forall j, In j is -> (zsum (map (ztour d) (he_routes e)) <= zsum (map (ztour d) (i_pheno j)))%Z).
Proof.
  intros SD. unfold run_solver. destruct (main_facts yaml cl f accepted) as (HC & _ & _ & _).
  destruct (u64_ok f HC "decompose_limit" eq_refl) as (lim & EL). rewrite EL. cbn [rbind].
  destruct (u64_ok f HC "decomposed_problem_min_size" eq_refl) as (ms & EM). rewrite EM. cbn [rbind].
  destruct (u64_ok f HC "log_interval" eq_refl) as (li & ->). cbn [rbind].
  rewrite (sf_dim _ _ _ _ _ _ _ SD). destruct (lim <=? size - 1) eqn:CL.
  - destruct (parts x ms SD EM) as [DC GC].
    destruct (dga_new (x_problem x) (x_config x) (cm_store (x_corr x)) (x_ls_hash X) (x_rr_hash X) (x_world x)) as [g w1] eqn:EN.
    destruct (dga_run L _ _ _ _ _ _ _ _ _ _ _ _ g w1) as [[g2 w2]|e] eqn:ER; [|discriminate]. cbn [rbind]. intro H. injection H as <-.
    pose proof (dr_new L _ _ (x_env X) li (x_fuel X) (x_sqrt X) (x_round X) (x_sort X) (x_dist x) ms (x_hashes X) _ _ _ _ _ _
      (sf_near _ _ _ _ _ _ _ SD) (sf_distinct _ _ _ _ _ _ _ SD) GC EN) as R0.
    pose proof (dga_run_reached L _ _ _ _ _ _ _ _ _ _ _ _ _ _ _ _ _ R0 ER) as R.
    split; [right; exists li, ms, g2; split; [exact R|exact (C56_run L _ _ _ _ _ _ _ _ _ _ _ _ _ _ _ _ ER)]|].
    destruct (sf_matrix _ _ _ _ _ _ _ SD) as (gd & DF & NN). rewrite <- (sf_dim _ _ _ _ _ _ _ SD) in DF, NN.
    destruct (C64_recorded L _ _ d q cap _ _ (dm_max (x_dist x)) _ _ _ _ _ _ _ gd library (sort_okF X functions) DF NN DC _ _ _ (sf_set _ _ _ _ _ _ _ SD) R)
      as (is & RE & FA & _ & RP). exists is. auto.
  - destruct (ga_new (x_problem x) (x_config x) (cm_store (x_corr x)) (x_ls_hash X) (x_rr_hash X) (x_world x)) as [g w1] eqn:EN.
    destruct (solver_run L _ _ _ _ _ _ _ g w1) as [[g2 w2]|e] eqn:ER; [|discriminate]. cbn [rbind]. intro H. injection H as <-.
    pose proof (gr_new L _ _ (x_env X) li (dm_max (x_dist x)) (x_fuel X) _ _ _ _ _ _ (sf_near _ _ _ _ _ _ _ SD) (sf_rows _ _ _ _ _ _ _ SD) EN) as R0.
    pose proof (run_reached L _ _ _ _ _ _ _ _ _ _ _ _ R0 ER) as R.
    split; [left; exists li, g2; split; [exact R|]; exact (C33_run L _ _ _ _ _ _ _ _ _ _ _ ER)|].
    destruct (C58_float_run L _ _ d q cap _ _ _ _ _ _ _ library (sf_ok _ _ _ _ _ _ _ SD) (sf_set _ _ _ _ _ _ _ SD) R) as (is & RE & FA & _ & RP).
    exists is. auto.
Qed.

(** What the program leaves behind is as in C59_solution_file_doubles, whether or not the instance
    is decomposed. *)
Theorem C64_solution_file out : program L X read yaml cl = Ok out ->
  exists pa x w content, parse (x_parse_f64 X) (x_utf8 X) file = Ok pa /\ context_new X pa f = Ok x /\ ended_doubles x w /\
    out = Some (output_path cl, content) /\
    ((h_entries (w_hist w) = [] /\ content = []) \/
     exists routes cost solution, content = solution ++ [LF] /\ solution_text 1 routes cost solution /\
       serves_all_once size routes /\ (forall r, In r routes -> r <> []) /\
       (forall r, In r routes -> (zload q r <= cap)%Z) /\
       Z.of_nat cost = zsum (map (ztour d) routes) /\
       forall e, In e (h_entries (w_hist w)) -> exists (v : dbl) z, he_cost e = Some (v : @F NumF) /\ is_int v z /\ (Z.of_nat cost <= z)%Z).
Proof.
  unfold program. intro H. rewrite accepted in H. cbn [rbind] in H.
  destruct (main_facts yaml cl f accepted) as (HC & HI & HS & _).
  rewrite (string_has f HC _ _ HI) in H. cbn [rbind] in H.
  destruct (P_FloatProgram.start X functions read yaml cl i d q cap f described readable rounded accepted granularity) as (pa & EP & HX).
  rewrite EP in H. cbn [rbind] in H.
  destruct (context_new X pa f) as [x|e] eqn:EX; [|discriminate H]. cbn [rbind] in H.
  destruct (run_solver L X f x) as [w|e] eqn:ER; [|discriminate H]. cbn [rbind] in H.
  rewrite (opt_string_has f HC _ _ HS) in H. cbn [rbind] in H. injection H as <-.
  destruct (outcome x w HX ER) as (EN & is & RE & FA & RP).
  exists pa, x, w. eexists. split; [exact EP|]. split; [exact EX|]. split; [exact EN|]. split; [reflexivity|].
  destruct (history_file _ _ d q cap _ _ (sf_ok _ _ _ _ _ _ _ HX) RE FA RP) as [H|H]; [now left|right].
  rewrite (sf_dim _ _ _ _ _ _ _ HX) in H. exact H.
Qed.

Hypothesis arctangent : forall y x : dbl, is_finite y = true -> is_finite x = true -> is_nan (x_atan2 X y x : dbl) = false.
Hypothesis drawn : drawable_nodes i.

(** The program in doubles, on integral data, under a configuration in which elite education, used
    without decomposition, keeps the penalty finite: it writes the file, its loops outlast the
    bound, or it panics in a round of the decomposition that starts from a solution above the
    capacity or whose merged solution has not one route per vehicle.  Missing for the full claim:
    these panics, which do happen (C64_infeasible_refuted, C64_misfit_refuted). *)
Theorem C64_program_partial : populated f -> finite_settings f -> (elite_settings f size \/ ~ not_decomposed f size) ->
  (exists content, program L X read yaml cl = Ok (Some (output_path cl, content))) \/
  program L X read yaml cl = Err EFuel \/
  program L X read yaml cl = Err EPanic /\
  exists pa x li ms g w, parse (x_parse_f64 X) (x_utf8 X) file = Ok pa /\ context_new X pa f = Ok x /\
    dga_reached L (x_problem x) (x_config x) (x_env X) li (x_fuel X) (x_sqrt X) (x_round X) (x_sort X) (x_dist x) ms
      (x_hashes X) (x_world x) g w /\ d_st g = DCycle /\
    (~ all_fit q cap (i_pheno (d_sol g)) \/
     misfit L (x_problem x) (x_config x) (x_env X) li (x_fuel X) (x_sqrt X) (x_round X) (x_sort X) (x_dist x) ms
       (x_hashes X) g (snd (terminate (x_config x) (x_env X) w))).
Proof.
  intros PO FI ES. destruct (main_facts yaml cl f accepted) as (HC & HI & HS & _).
  destruct (u64_ok f HC "decompose_limit" eq_refl) as (lim & EL).
  destruct (lim <=? size - 1) eqn:CL.
  2:{ apply Nat.leb_gt in CL. assert (whole : not_decomposed f size).
      { destruct (get_u64_has f HC _ _ EL) as (z & HZ & EZ). exists z. split; [exact HZ|]. lia. }
      destruct ES as [ES|ES]; [|contradiction].
      destruct (C62_program_doubles L library X functions arctangent read yaml cl i d q cap f described readable rounded drawn accepted granularity whole PO FI ES)
        as [R|R]; [now left|right; now left]. }
  unfold program. rewrite accepted. cbn [rbind].
  rewrite (string_has f HC _ _ HI). cbn [rbind].
  destruct (P_FloatProgram.start X functions read yaml cl i d q cap f described readable rounded accepted granularity) as (pa & EP & HX).
  rewrite EP. cbn [rbind].
  destruct (context_new X pa f) as [x|e] eqn:EX; [|destruct HX as (n & NB & HN); destruct (FI n NB HN)]. cbn [rbind].
  unfold run_solver. rewrite EL. cbn [rbind].
  destruct (u64_ok f HC "decomposed_problem_min_size" eq_refl) as (ms & EM). rewrite EM. cbn [rbind].
  destruct (u64_ok f HC "log_interval" eq_refl) as (li & ->). cbn [rbind].
  rewrite (sf_dim _ _ _ _ _ _ _ HX), CL. destruct (parts x ms HX EM) as [DC GC].
  destruct (dga_new (x_problem x) (x_config x) (cm_store (x_corr x)) (x_ls_hash X) (x_rr_hash X) (x_world x)) as [g0 w1] eqn:EN.
  pose proof (dr_new L _ _ (x_env X) li (x_fuel X) (x_sqrt X) (x_round X) (x_sort X) (x_dist x) ms (x_hashes X) _ _ _ _ _ _
      (sf_near _ _ _ _ _ _ _ HX) (sf_distinct _ _ _ _ _ _ _ HX) GC EN) as R0.
  destruct (sf_matrix _ _ _ _ _ _ _ HX) as (gd & DF & NN). rewrite <- (sf_dim _ _ _ _ _ _ _ HX) in DF, NN.
  destruct (sf_config _ _ _ _ _ _ _ HX) as (nv & EC). destruct (config_of_fields f nv _ EC) as (_ & _ & _ & _ & F1 & F2 & F3 & F4 & _).
  assert (POS : forall name n, In (txt name) [txt "num_diversity_closest"; txt "min_population_size"; txt "initial_individuals"; txt "tournament_size"] ->
            get_u64 f name = Ok n -> 1 <= n).
  { intros name n HIn EG. destruct (PO _ HIn) as (y & HY & BY). rewrite (u64_has f HC _ _ HY) in EG. injection EG as <-. lia. }
  assert (Q1 : 1 <= c_num_diversity_closest (x_config x)) by (apply (POS "num_diversity_closest"%string); [cbn [In]; auto|exact F1]).
  assert (Q2 : 1 <= c_min_population_size (x_config x)) by (apply (POS "min_population_size"%string); [cbn [In]; auto|exact F2]).
  assert (Q3 : 1 <= c_initial_individuals (x_config x)) by (apply (POS "initial_individuals"%string); [cbn [In]; auto|exact F3]).
  assert (Q4 : 1 <= c_tournament_size (x_config x)) by (apply (POS "tournament_size"%string); [cbn [In]; auto|exact F4]).
  assert (Q5 : (Z.of_nat (c_num_diversity_closest (x_config x)) < 2 ^ 1000)%Z).
  { destruct (conf_has f HC (txt "num_diversity_closest") KU64 eq_refl) as (v & EV & _ & SV). unfold get_u64 in F1. rewrite EV in F1.
    inversion SV as [|n HN| | | | | | |]; subst v. injection F1 as <-. rewrite Z2Nat.id by apply N2Z.is_nonneg. clear -HN. apply N2Z.inj_lt in HN.
    eapply Z.lt_trans; [exact HN|]. reflexivity. }
  assert (DR : drawable (x_problem x)).
  { split; [|rewrite (sf_atan2 _ _ _ _ _ _ _ HX); exact arctangent]. intros a HA. rewrite (sf_coord _ _ _ _ _ _ _ HX). apply drawn.
    rewrite <- (sf_dim _ _ _ _ _ _ _ HX). exact HA. }
  assert (RUN : forall k g w, dga_reached L (x_problem x) (x_config x) (x_env X) li (x_fuel X) (x_sqrt X) (x_round X) (x_sort X) (x_dist x) ms
      (x_hashes X) (x_world x) g w ->
    match dga_run L (x_problem x) (x_config x) (x_env X) li (x_fuel X) (x_sqrt X) (x_round X) (x_sort X) (x_dist x) ms (x_hashes X) k g w with
    | Ok _ => True
    | Err e => e = EFuel \/ e = EPanic /\ exists g w,
        dga_reached L (x_problem x) (x_config x) (x_env X) li (x_fuel X) (x_sqrt X) (x_round X) (x_sort X) (x_dist x) ms
          (x_hashes X) (x_world x) g w /\ d_st g = DCycle /\
        (~ all_fit q cap (i_pheno (d_sol g)) \/
         misfit L (x_problem x) (x_config x) (x_env X) li (x_fuel X) (x_sqrt X) (x_round X) (x_sort X) (x_dist x) ms
           (x_hashes X) g (snd (terminate (x_config x) (x_env X) w)))
    end).
  { induction k as [|k IH]; intros g w R; cbn [dga_run]; destruct (dga_terminated g); auto.
    destruct (C64_panics_partial L _ _ d q cap _ li (dm_max (x_dist x)) (x_fuel X) _ _ _ _ ms (x_hashes X) gd library (sort_okF X functions) DF NN DC _ _ _
      (sf_set _ _ _ _ _ _ _ HX) R DR Q5 Q1 Q2 Q3 Q4) as [(g' & w' & EI)|[EI|(EI & ST & Y)]]; rewrite EI; cbn [rbind].
    - apply IH. eapply dr_iterate; eauto.
    - now left.
    - right. split; [reflexivity|]. exists g, w. auto. }
  specialize (RUN (x_fuel X) g0 w1 R0).
  destruct (dga_run L _ _ _ _ _ _ _ _ _ _ _ _ g0 w1) as [[g' w']|e]; cbn [rbind].
  - left. rewrite (opt_string_has f HC _ _ HS). cbn [rbind]. eexists. reflexivity.
  - right. destruct RUN as [->|[-> (g & w & R & ST & Y)]]; [now left|right]. split; [reflexivity|].
    exists pa, x, li, ms, g, w. auto 10.
Qed.
End Program.
Print Assumptions C64_solution_file.
Print Assumptions C64_program_partial.

(** ** Case: the file of C59 with a configuration under which it is decomposed.  (The first solution
    takes 100000 rounds of ruin and recreate, too many to be computed here.) *)
Definition pd_yaml : @value NumF := VMap
  (let key (s : string) (v : @value NumF) : @value NumF * @value NumF := (@VString NumF (txt s), v) in
   [key "deterministic" (VBool true); key "seed" (VInt 7); key "max_iterations" (VInt 4);
    key "min_population_size" (VInt 2); key "initial_individuals" (VInt 3); key "population_lambda" (VInt 2);
    key "num_elites" (VInt 1); key "num_diversity_closest" (VInt 2); key "local_search_granularity" (VInt 3);
    key "decompose_limit" (VInt 5); key "decomposed_problem_min_size" (VInt 4)])%string.
Fact pd_accepted : exists f, main_config pd_yaml pr_cl = Ok f.
Proof.
  destruct (main_config pd_yaml pr_cl) as [f|e] eqn:E; [eauto|]. exfalso.
  assert (X : match main_config pd_yaml pr_cl with Ok _ => true | Err _ => false end = true) by (vm_compute; reflexivity).
  rewrite E in X. discriminate X.
Qed.
Local Notation pd_look name := (match main_config pd_yaml pr_cl with Ok f => lookup (txt name) f | Err _ => None end).
Local Lemma pd_int f : main_config pd_yaml pr_cl = Ok f -> forall name z,
  match pd_look name with Some (VInt y) => Z.eqb y z | _ => false end = true -> has f (txt name) (VInt z).
Proof.
  intros accepted name z. rewrite accepted. intro H. destruct (main_facts _ _ f accepted) as (HC & _). apply (lookup_has f); [exact (conf_nodup f HC)|].
  destruct (lookup (txt name) f) as [[| |y| | | |]|]; try discriminate H. apply Z.eqb_eq in H. now subst.
Qed.
Fact pd_settings f : main_config pd_yaml pr_cl = Ok f ->
  part_sizes f 6 /\ ~ not_decomposed f 6 /\ populated f /\ finite_settings f.
Proof.
  intro accepted. split; [|split; [|split]].
  - exists 3%Z, 4%Z. split; [apply (pd_int f accepted); vm_compute; reflexivity|].
    split; [apply (pd_int f accepted); vm_compute; reflexivity|]. cbn. lia.
  - intros (z & HZ & B). destruct (main_facts _ _ f accepted) as (HC & _).
    assert (H5 : has f (txt "decompose_limit") (@VInt NumF 5)) by (apply (pd_int f accepted); vm_compute; reflexivity).
    apply (lookup_has f) in HZ; [|exact (conf_nodup f HC)]. apply (lookup_has f) in H5; [|exact (conf_nodup f HC)].
    rewrite H5 in HZ. injection HZ as <-. cbn in B. lia.
  - intros name H. cbn [In] in H. destruct H as [<-|[<-|[<-|[<-|[]]]]].
    + exists 2%Z. split; [apply (pd_int f accepted); vm_compute; reflexivity|lia].
    + exists 2%Z. split; [apply (pd_int f accepted); vm_compute; reflexivity|lia].
    + exists 3%Z. split; [apply (pd_int f accepted); vm_compute; reflexivity|lia].
    + exists 2%Z. split; [apply (pd_int f accepted); vm_compute; reflexivity|lia].
  - intros name NB H.
    assert (X : forallb (fun e : text * @value NumF => match snd e with VFloat None => text_eqb (fst e) (txt "bks") | _ => true end)
                  (match main_config pd_yaml pr_cl with Ok f => f | Err _ => [] end) = true) by (vm_compute; reflexivity).
    rewrite accepted, forallb_forall in X. specialize (X _ H). cbn [fst snd] in X. apply text_eqb_spec in X. contradiction.
Qed.

(** So when the program ends with this configuration it has written the right file, and it ends so,
    outlasts the bound or panics for one of the two reasons. *)
Example C64_applies fuel : let X := pe_outside fuel in
  ((exists content, @program NumF rust_lib X pr_read pd_yaml pr_cl = Ok (Some (txt "a.sol", content)) /\
     (content = [] \/
      exists routes cost solution, content = solution ++ [LF] /\ solution_text 1 routes cost solution /\
        serves_all_once 6 routes /\ (forall r, In r routes -> (zload pf_q r <= 10)%Z) /\
        Z.of_nat cost = zsum (map (ztour pf_d) routes))) \/
   @program NumF rust_lib X pr_read pd_yaml pr_cl = Err EFuel \/
   @program NumF rust_lib X pr_read pd_yaml pr_cl = Err EPanic).
Proof.
  intros X. destruct pd_accepted as (f & EF). destruct (pd_settings f EF) as (S1 & S2 & S3 & S4).
  assert (U : forall l, In l (lines_of (pr_read (cl_instance pr_cl))) -> x_utf8 X l = true) by reflexivity.
  destruct (C64_program_partial rust_lib rust_lib_ok X (pe_functions fuel) pr_read pd_yaml pr_cl pf_instance pf_d pf_q 10 f
    pf_described U pf_rounded EF S1) as [(content & EP)|[EP|[EP _]]]; auto.
  - intros y x F _. cbn [X pe_outside x_atan2]. destruct (dlt x (d_of_Z 0)); [reflexivity|]. destruct y; try reflexivity; discriminate.
  - intros a HA. change (length (in_nodes pf_instance)) with 6 in HA. unfold coord.
    assert (Y : nth a (in_nodes pf_instance) (d_of_Z 0, d_of_Z 0, d_of_Z 0) = (d_of_Z (pf_x a), d_of_Z (pf_y a), d_of_Z (pf_q a))).
    { do 6 (destruct a as [|a]; [reflexivity|]). lia. }
    rewrite Y. cbn [fst snd].
    assert (Z : (0 <= pf_x a < 100 /\ 0 <= pf_y a < 100)%Z) by (do 6 (destruct a as [|a]; [cbn; lia|]); lia). destruct Z as [Y1 Y2].
    destruct (P_FloatFine.small_coordinate _ Y1), (P_FloatFine.small_coordinate _ Y2). auto.
  - left. exists content. split; [exact EP|].
    destruct (C64_solution_file rust_lib rust_lib_ok X (pe_functions fuel) pr_read pd_yaml pr_cl pf_instance pf_d pf_q 10 f
      pf_described U pf_rounded EF S1 _ EP) as (pa & x & w & content' & _ & _ & _ & EQ & R).
    injection EQ as <-. destruct R as [[_ R]|(routes & cost & solution & R1 & R2 & R3 & _ & R4 & R5 & _)]; [now left|right].
    exists routes, cost, solution. auto.
Qed.
