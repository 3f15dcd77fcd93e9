(** No panics in double precision (C62). *)
From Coq Require Import Ascii String List Arith NArith ZArith Bool Lia Reals Lra Permutation Sorted.
From Flocq Require Import Core BinarySingleNaN.
From Verif.Model Require Import Num NumFloat Prelude Evaluate Individual Config Crossover Split Matrix Population
  LocalSearch World Schedule RuinRecreate Genetic Decomposition Text Parser Display ConfigFile Main.
From Verif.Spec Require Import Solution Library Floats Population LocalSearch RuinRecreate Genetic Instance Output ConfigFile Program FloatProgram.
From Verif.Proofs Require Import Lists TextFacts ParserFacts ConfigFacts FloatFacts FloatRun FloatStart FloatFine GaInv GaQ RustLib ProgramFacts.
From Verif.Properties Require Import P_RuinRecreate P_Genetic P_Files P_Config P_Program P_FloatRun P_FloatProgram.
Import ListNotations.
Open Scope nat_scope.

(** On integral data, whatever the generator, the clock and the logarithms give, no call of
    [iterate] panics or indexes out of bounds in double precision: it returns, or one of its loops
    outlasts the bound.  Elite education may run as long as the penalty, which it does not clamp,
    stays below 2^900; the penalty is finite and not negative in every state. *)
Theorem C62_no_panic_doubles L (p : @problem NumF) (c : @config NumF) d q cap E li md fuel w0 g w :
  lib_ok L -> integral_instance p c d q cap -> drawable p -> elite_fits p c ->
  1 <= c_num_diversity_closest c -> (Z.of_nat (c_num_diversity_closest c) < 2 ^ 64)%Z ->
  1 <= c_min_population_size c -> 1 <= c_initial_individuals c -> 1 <= c_tournament_size c ->
  set_up p md w0 -> ga_reached L p c E li md fuel w0 g w ->
  (is_finite (w_pen w : dbl) = true /\ (0 <= B2R (w_pen w : dbl) <= bpow radix2 900)%R) /\
  ((exists g' w', ga_iterate L p c E li md fuel g w = Ok (g', w')) \/ ga_iterate L p c E li md fuel g w = Err EFuel).
Proof.
  intros LO II DR EF H1 H2 H3 H4 H5 SU R.
  assert (HC : (Z.of_nat (c_num_diversity_closest c) < 2 ^ 1000)%Z) by (eapply Z.lt_le_trans; [exact H2|apply Z.pow_le_mono_r; lia]).
  destruct (iterate_fineF p c d q cap II DR L LO EF E li md fuel w0 g w HC (Build_sizes _ _ H1 H3 H4 H5) SU R) as [A B].
  split; [exact A|]. destruct (ga_iterate L p c E li md fuel g w) as [[g' w']|e]; [left; eauto|right; now rewrite B].
Qed.
Print Assumptions C62_no_panic_doubles.

(** The multipliers 1.2 and 0.85, with which the program comes, leave room for elite education of
    3 million moves; with the factor 1000 of config.yml that is all instances that are not
    decomposed. *)
Theorem C62_elite_default (p : @problem NumF) (c : @config NumF) :
  c_elite_education_time_based c = false -> c_penalty_inc_multiplier c = d_lit 12 10 -> c_penalty_dec_multiplier c = d_lit 85 100 ->
  elite_length p c / 1000 <= 3000 -> elite_fits p c.
Proof.
  intros TB EI ED LE. right. split; [exact TB|]. exists (IZR 6 / IZR 5)%R. rewrite EI, ED.
  split; [lra|].
  assert (V1 : exists m e, B2SF (d_lit 12 10) = SpecFloat.S754_finite false m e /\ (Z.pos m * 5 <= 6 * 2 ^ (- e))%Z /\ (e <= 0)%Z).
  { eexists _, _. split; [vm_compute; reflexivity|]. split; vm_compute; discriminate. }
  assert (V2 : exists m e, B2SF (d_lit 85 100) = SpecFloat.S754_finite false m e /\ (Z.pos m * 5 <= 6 * 2 ^ (- e))%Z /\ (e <= 0)%Z).
  { eexists _, _. split; [vm_compute; reflexivity|]. split; vm_compute; discriminate. }
  assert (V : forall x : dbl, (exists m e, B2SF x = SpecFloat.S754_finite false m e /\ (Z.pos m * 5 <= 6 * 2 ^ (- e))%Z /\ (e <= 0)%Z) ->
    is_finite x = true /\ (0 <= B2R x <= IZR 6 / IZR 5)%R).
  { intros x (m & e & ES & LE1 & LE2). split; [rewrite <- is_finite_SF_B2SF, ES; reflexivity|].
    rewrite <- SF2R_B2SF, ES. unfold SF2R, F2R. cbn [SpecFloat.cond_Zopp Fnum Fexp].
    pose proof (bpow_gt_0 radix2 e) as P. apply IZR_le in LE1. rewrite !mult_IZR in LE1.
    assert (EQ : (IZR (2 ^ (- e)) * bpow radix2 e = 1)%R).
    { change 2%Z with (radix_val radix2). rewrite IZR_Zpower by lia. rewrite <- bpow_plus. replace (- e + e)%Z with 0%Z by lia. reflexivity. }
    assert (M0 : (0 < IZR (Z.pos m))%R) by (apply IZR_lt; reflexivity).
    split; [apply Rmult_le_pos; lra|].
    assert (X : (IZR (Z.pos m) * 5 * bpow radix2 e <= 6 * IZR (2 ^ (- e)) * bpow radix2 e)%R) by (apply Rmult_le_compat_r; lra).
    rewrite (Rmult_assoc 6), EQ in X. lra. }
  destruct (V _ V1) as [F1 B1], (V _ V2) as [F2 B2]. split; [exact F2|]. split; [exact B2|]. split; [exact F1|]. split; [exact B1|].
  set (b := (IZR 6 / IZR 5 * (1 + bpow radix2 (-50)))%R).
  assert (E0 : (0 < bpow radix2 (-50) <= / IZR 1000)%R).
  { split; [apply bpow_gt_0|]. change (-50)%Z with (- (50))%Z. rewrite bpow_opp. apply Rinv_le; [lra|].
    rewrite <- (IZR_Zpower radix2) by lia. apply IZR_le. vm_compute. discriminate. }
  assert (B0 : (1 <= b <= IZR 12012 / IZR 10000)%R) by (unfold b; lra).
  eapply Rle_trans; [apply (Rle_pow b _ (15 * 200)); [apply B0|exact LE]|].
  rewrite pow_mult. assert (B15 : (b ^ 15 <= 16)%R).
  { eapply Rle_trans; [apply (pow_incr b (IZR 12012 / IZR 10000)); lra|]. lra. }
  eapply Rle_trans; [apply (pow_incr (b ^ 15) 16); split; [apply pow_le; lra|exact B15]|].
  replace 16%R with (bpow radix2 4) by reflexivity.
  replace (bpow radix2 4 ^ 200)%R with (bpow radix2 800).
  - apply bpow_le. lia.
  - assert (G : forall n, (bpow radix2 4 ^ n)%R = bpow radix2 (4 * Z.of_nat n)).
    { induction n as [|n IH]; [reflexivity|]. cbn [pow]. rewrite IH, <- bpow_plus. f_equal. lia. }
    rewrite G. f_equal.
Qed.
Print Assumptions C62_elite_default.

Section Program.
Variable L : lib.
Hypothesis library : lib_ok L.
Variable X : @outside NumF.
Hypothesis functions : double_functions X.
Hypothesis arctangent : forall y x : dbl, is_finite y = true -> is_finite x = true -> is_nan (x_atan2 X y x : dbl) = false.
Variable read : text -> text.
Variable yaml : @value NumF.
Variable cl : command_line.
Variable i : @instance NumF.
Variable d : nat -> nat -> Z.
Variable q : nat -> Z.
Variable cap : Z.
Variable f : @fields NumF.
Local Notation file := (read (cl_instance cl)).
Local Notation size := (length (in_nodes i)).
Hypothesis described : instance_file (fun w x => x_parse_f64 X w = Some x) i file.
Hypothesis readable : forall l, In l (lines_of file) -> x_utf8 X l = true.
Hypothesis rounded : rounded_instance i d q cap.
Hypothesis drawn : drawable_nodes i.
Hypothesis accepted : main_config yaml cl = Ok f.
Hypothesis granularity : exists z, has f (txt "local_search_granularity") (VInt z) /\ (1 <= z <= Z.of_nat (Nat.min 200 (size - 2)))%Z.

(** The program in doubles, on integral data: it writes the file, or it is still in one of its
    loops when the bound on their lengths is reached. *)
Theorem C62_program_doubles : not_decomposed f size -> populated f -> finite_settings f -> elite_settings f size ->
  (exists content, program L X read yaml cl = Ok (Some (output_path cl, content))) \/
  program L X read yaml cl = Err EFuel.
Proof.
  intros whole PO FI ES. unfold program. rewrite accepted. cbn [rbind]. destruct (main_facts yaml cl f accepted) as (HC & HI & HS & _).
  rewrite (string_has f HC _ _ HI). cbn [rbind].
  destruct (P_FloatProgram.start X functions read yaml cl i d q cap f described readable rounded accepted granularity) as (pa & EP & HX).
  rewrite EP. cbn [rbind].
  destruct (context_new X pa f) as [x|e]; [|destruct HX as (n & NB & HN); destruct (FI n NB HN)]. cbn [rbind].
  assert (R : (exists w, run_solver L X f x = Ok w) \/ run_solver L X f x = Err EFuel).
  { unfold run_solver. destruct whole as (z & HZ & BZ). rewrite (u64_has f HC _ _ HZ). cbn [rbind].
    destruct (u64_ok f HC "decomposed_problem_min_size" eq_refl) as (ms & ->). cbn [rbind].
    destruct (u64_ok f HC "log_interval" eq_refl) as (li & ->). cbn [rbind].
    rewrite (sf_dim _ _ _ _ _ _ _ HX). destruct (Z.to_nat z <=? size - 1) eqn:EL; [apply Nat.leb_le in EL; lia|].
    destruct (ga_new (x_problem x) (x_config x) (cm_store (x_corr x)) (x_ls_hash X) (x_rr_hash X) (x_world x)) as [g w1] eqn:EN.
    pose proof (gr_new L _ _ (x_env X) li (dm_max (x_dist x)) (x_fuel X) _ _ _ _ _ _ (sf_near _ _ _ _ _ _ _ HX) (sf_rows _ _ _ _ _ _ _ HX) EN) as R0.
    destruct (sf_config _ _ _ _ _ _ _ HX) as (nv & EC).
    destruct (config_of_fields f nv _ EC) as (_ & _ & M1 & M2 & F1 & F2 & F3 & F4 & _). destruct (config_of_elite f nv _ EC) as (G1 & G2 & G3).
    assert (POS : forall name n, In (txt name) [txt "num_diversity_closest"; txt "min_population_size"; txt "initial_individuals"; txt "tournament_size"] ->
              get_u64 f name = Ok n -> 1 <= n).
    { intros name n HIn EG. destruct (PO _ HIn) as (y & HY & BY). rewrite (u64_has f HC _ _ HY) in EG. injection EG as <-. lia. }
    assert (Q1 : 1 <= c_num_diversity_closest (x_config x)) by (apply (POS "num_diversity_closest"%string); [cbn [In]; auto|exact F1]).
    assert (Q2 : 1 <= c_min_population_size (x_config x)) by (apply (POS "min_population_size"%string); [cbn [In]; auto|exact F2]).
    assert (Q3 : 1 <= c_initial_individuals (x_config x)) by (apply (POS "initial_individuals"%string); [cbn [In]; auto|exact F3]).
    assert (Q4 : 1 <= c_tournament_size (x_config x)) by (apply (POS "tournament_size"%string); [cbn [In]; auto|exact F4]).
    assert (Q5 : (Z.of_nat (c_num_diversity_closest (x_config x)) < 2 ^ 64)%Z).
    { destruct (conf_has f HC (txt "num_diversity_closest") KU64 eq_refl) as (v & EV & _ & SV). unfold get_u64 in F1. rewrite EV in F1.
      inversion SV as [|n HN| | | | | | |]; subst v. injection F1 as <-. rewrite Z2Nat.id by apply N2Z.is_nonneg. clear -HN. apply N2Z.inj_lt in HN. exact HN. }
    assert (DR : drawable (x_problem x)).
    { split; [|rewrite (sf_atan2 _ _ _ _ _ _ _ HX); exact arctangent]. intros a HA. rewrite (sf_coord _ _ _ _ _ _ _ HX). apply drawn.
      rewrite <- (sf_dim _ _ _ _ _ _ _ HX). exact HA. }
    assert (EF : elite_fits (x_problem x) (x_config x)).
    { destruct ES as [ES|(ES & gamma & dec & inc & r & S1 & S2 & S3 & B)].
      - left. apply (bool_has f HC) in ES. rewrite ES in G1. now injection G1.
      - right. apply (bool_has f HC) in ES. rewrite ES in G2. injection G2 as <-. split; [reflexivity|].
        apply (f64_has f HC) in S1, S2, S3. rewrite S1 in G3. rewrite S2 in M2. rewrite S3 in M1. injection G3 as G3. injection M2 as M2. injection M1 as M1.
        exists r. rewrite <- M1, <- M2. destruct B as (B1 & B2 & B3 & B4 & B5 & B6). repeat (split; [assumption|]).
        unfold elite_length. rewrite <- G3, (sf_dim _ _ _ _ _ _ _ HX). exact B6. }
    assert (RUN : forall k g w, ga_reached L (x_problem x) (x_config x) (x_env X) li (dm_max (x_dist x)) (x_fuel X) (x_world x) g w ->
      (exists g' w', solver_run L (x_problem x) (x_config x) (x_env X) li (dm_max (x_dist x)) (x_fuel X) k g w = Ok (g', w')) \/
      solver_run L (x_problem x) (x_config x) (x_env X) li (dm_max (x_dist x)) (x_fuel X) k g w = Err EFuel).
    { induction k as [|k IH]; intros g1 w2 R1; cbn [solver_run]; destruct (ga_terminated g1); eauto.
      destruct (C62_no_panic_doubles L _ _ d q cap _ _ _ _ _ _ _ library (sf_ok _ _ _ _ _ _ _ HX) DR EF Q1 Q5 Q2 Q3 Q4 (sf_set _ _ _ _ _ _ _ HX) R1)
        as [_ [(g2 & w3 & EI)|EI]]; rewrite EI; cbn [rbind]; [|now right].
      apply IH. exact (gr_iterate _ _ _ _ _ _ _ _ _ _ _ _ R1 EI). }
    destruct (RUN (x_fuel X) g w1 R0) as [(g' & w' & EG)|EG]; rewrite EG; cbn [rbind]; [left; eexists; reflexivity|now right]. }
  destruct R as [(w & ->)| ->]; cbn [rbind]; [left|now right].
  rewrite (opt_string_has f HC _ _ HS). cbn [rbind]. eexists. reflexivity.
Qed.
End Program.
Print Assumptions C62_program_doubles.

(** ** Cases *)
Local Lemma small_coordinate z : (0 <= z < 100)%Z -> is_finite (d_of_Z z) = true /\ (Rabs (B2R (d_of_Z z)) <= bpow radix2 900)%R.
Proof.
  intros H. destruct (int_of_Z z) as [F E]; [unfold exact_bound; lia|]. split; [exact F|]. rewrite E, <- abs_IZR.
  eapply Rle_trans; [apply IZR_le; instantiate (1 := (2 ^ 7)%Z); lia|]. change 2%Z with (radix_val radix2) at 1. rewrite IZR_Zpower by lia.
  apply bpow_le. lia.
Qed.

(** The instance and the run of C58, which has no elite education, and the same instance with elite
    education of 2500 moves. *)
Definition ff_c : @config NumF := @mkConfig NumF
  (Some 6%nat) 3 4 60
  2 3 2 1 2 (d_lit 2 10) 2 (d_lit 5 10)
  (d_lit 15 10) true
  false 3 true true true true true true true true true true
  2 (d_lit 12 10) (d_lit 85 100)
  3 3 true (d_lit 1 1) (d_lit 1 1) (d_lit 10 1)
  true 1 (d_lit 500 1) (d_lit 50 1) false (d_lit 2 100).
Definition ff_start a b := @ga_new NumF fr_p ff_c rr_corr (rr_stream 3 5) (rr_stream 7 1) (fr_world a b).
Local Notation ff_step gw := (@ga_iterate NumF rust_lib fr_p ff_c fr_env 5 fr_md 50 (fst gw) (snd gw)).

Fact fr_drawable : drawable fr_p.
Proof.
  split; [|intros y x _ _; reflexivity].
  intros a _. cbn [p_coord fr_p fst snd]. assert (X : (0 <= fr_x a < 100)%Z) by (unfold fr_x; do 6 (destruct a as [|a]; [cbn; lia|]); destruct a; cbn; lia).
  destruct (small_coordinate _ X), (small_coordinate 0 ltac:(lia)). auto.
Qed.
Fact ff_instance : integral_instance fr_p ff_c fr_d fr_q 8.
Proof. destruct fr_instance as [A1 A2 A3 A4 A5 A6 A7 A8]. constructor; assumption. Qed.
Fact ff_fits : elite_length fr_p ff_c = 2500 /\ elite_fits fr_p ff_c.
Proof.
  assert (X : elite_length fr_p ff_c = 2500) by (vm_compute; reflexivity). split; [exact X|].
  apply C62_elite_default; try reflexivity. rewrite X. vm_compute. repeat constructor.
Qed.

Example C62_applicable : exists g w,
  ga_reached rust_lib fr_p fr_c fr_env 5 fr_md 50 (fr_world 802240676188735462 307058226201110381) g w /\ length (h_entries (w_hist w)) = 2 /\
  lib_ok rust_lib /\ integral_instance fr_p fr_c fr_d fr_q 8 /\ drawable fr_p /\ elite_fits fr_p fr_c /\
  set_up fr_p fr_md (fr_world 802240676188735462 307058226201110381).
Proof.
  destruct C58_applicable as (g & w & R & LN & LO & II & SU & _). exists g, w. repeat (split; [assumption|]). split; [exact fr_drawable|].
  split; [left; reflexivity|exact SU].
Qed.
Local Definition ff_educated (r : res (@ga NumF * @world NumF)) : bool :=
  match r with Ok (g, w) => match ga_st g with EliteEducation => negb (rr_complete (ga_rr g)) | _ => false end | Err _ => false end.
Example C62_applicable_elite : exists g w,
  ga_reached rust_lib fr_p ff_c fr_env 5 fr_md 50 (fr_world 802240676188735462 307058226201110381) g w /\
  ga_st g = EliteEducation /\ rr_complete (ga_rr g) = false /\
  lib_ok rust_lib /\ integral_instance fr_p ff_c fr_d fr_q 8 /\ drawable fr_p /\ elite_fits fr_p ff_c /\
  set_up fr_p fr_md (fr_world 802240676188735462 307058226201110381).
Proof.
  assert (V : ff_educated (ff_step (ff_start 802240676188735462 307058226201110381)) = true) by (vm_compute; reflexivity).
  destruct (ff_start 802240676188735462 307058226201110381) as [g0 w0] eqn:ES. cbn [fst snd] in V.
  destruct (ga_iterate rust_lib fr_p ff_c fr_env 5 fr_md 50 g0 w0) as [[g w]|e] eqn:G; [|discriminate V]. exists g, w. split.
  - eapply gr_iterate; [|exact G]. eapply gr_new; [| |exact ES].
    + split; [cbn; lia|]. split; [reflexivity|]. intros u v Hu I. cbn in Hu.
      do 6 (destruct u as [|u]; [vm_compute in I; cbn [p_dim fr_p]; lia|]). lia.
    + split; [reflexivity|]. intros u v Hu I. cbn in Hu.
      do 6 (destruct u as [|u]; [vm_compute in I; cbn [p_dim fr_p]; lia|]). lia.
  - unfold ff_educated in V. destruct (ga_st g); try discriminate V. split; [reflexivity|]. split; [now apply negb_true_iff|].
    split; [exact rust_lib_ok|]. split; [exact ff_instance|]. split; [exact fr_drawable|]. split; [apply ff_fits|]. apply fr_set_up.
Qed.

(** The program of C59 with elite education and an arctangent that is never NaN. *)
Definition pe_outside (fuel : nat) : @outside NumF := @mkOutside NumF pf_parse any_text d_sqrt NumFloat.d_round
  (fun l : list (nat * dbl) => isort (fun a b => Bleb (snd a) (snd b)) l)
  (fun y x => if dlt x (d_of_Z 0) then d_of_Z 3 else y) (fun x => dsub x (d_of_Z 1)) unit_double (fun _ _ => 0%Z)
  (@mkEnv NumF (fun x => dadd (d_of_Z 1) (ddiv x (d_of_Z 2))) (fun k => d_of_Z (Z.of_nat k)))
  (fun seed => match seed with Some s => rr_stream (N.of_nat s * 10 ^ 16) 307058226201110381 | None => rr_stream 5 11 end)
  (rr_stream 3 5) (rr_stream 7 1) (fun _ => (rr_stream 1 2, rr_stream 3 4, rr_stream 5 6)) fuel.
Definition pe_yaml : @value NumF := VMap
  (let key (s : string) (v : @value NumF) : @value NumF * @value NumF := (@VString NumF (txt s), v) in
   [key "deterministic" (VBool true); key "seed" (VInt 7); key "max_iterations" (VInt 4);
    key "min_population_size" (VInt 2); key "initial_individuals" (VInt 3); key "population_lambda" (VInt 2);
    key "num_elites" (VInt 1); key "num_diversity_closest" (VInt 2); key "local_search_granularity" (VInt 3);
    key "elite_education" (VBool true); key "elite_education_problem_size_limit" (VInt 2); key "elite_education_gamma" (VInt 1000)])%string.

Fact pe_functions fuel : double_functions (pe_outside fuel).
Proof. destruct (pf_functions fuel) as [A B C D]. constructor; assumption. Qed.
Fact pe_accepted : exists f, main_config pe_yaml pr_cl = Ok f.
Proof.
  destruct (main_config pe_yaml pr_cl) as [f|e] eqn:E; [eauto|]. exfalso.
  assert (X : match main_config pe_yaml pr_cl with Ok _ => true | Err _ => false end = true) by (vm_compute; reflexivity).
  rewrite E in X. discriminate X.
Qed.
Local Notation pe_look name := (match main_config pe_yaml pr_cl with Ok f => lookup (txt name) f | Err _ => None end).
Local Lemma pe_int f : main_config pe_yaml pr_cl = Ok f -> forall name z,
  match pe_look name with Some (VInt y) => Z.eqb y z | _ => false end = true -> has f (txt name) (VInt z).
Proof.
  intros accepted name z. rewrite accepted. intro H. destruct (main_facts _ _ f accepted) as (HC & _). apply (lookup_has f); [exact (conf_nodup f HC)|].
  destruct (lookup (txt name) f) as [[| |y| | | |]|]; try discriminate H. apply Z.eqb_eq in H. now subst.
Qed.
Local Lemma pe_bool f : main_config pe_yaml pr_cl = Ok f -> forall name b,
  match pe_look name with Some (VBool y) => Bool.eqb y b | _ => false end = true -> has f (txt name) (VBool b).
Proof.
  intros accepted name b. rewrite accepted. intro H. destruct (main_facts _ _ f accepted) as (HC & _). apply (lookup_has f); [exact (conf_nodup f HC)|].
  destruct (lookup (txt name) f) as [[|y| | | | |]|]; try discriminate H. apply Bool.eqb_prop in H. now subst.
Qed.
(** A number between 0 and 2, or the number [z]. *)
Local Lemma pe_float f : main_config pe_yaml pr_cl = Ok f -> forall name,
  match pe_look name with Some (VFloat (Some x)) => is_finite (x : dbl) && Bleb (d_of_Z 0) (x : dbl) && Bleb (x : dbl) (d_of_Z 2) | _ => false end = true ->
  exists x : dbl, has f (txt name) (VFloat (Some (x : @F NumF))) /\ is_finite x = true /\ (0 <= B2R x <= 2)%R.
Proof.
  intros accepted name. rewrite accepted. intro H. destruct (main_facts _ _ f accepted) as (HC & _).
  destruct (lookup (txt name) f) as [[| | |[x|]| | |]|] eqn:E; try discriminate H. exists x. split; [apply (lookup_has f); [exact (conf_nodup f HC)|exact E]|].
  apply andb_prop in H as [H H2]. apply andb_prop in H as [H0 H1]. split; [exact H0|].
  destruct (int_of_Z 0) as [F0 E0]; [unfold exact_bound; lia|]. destruct (int_of_Z 2) as [F2 E2]; [unfold exact_bound; lia|].
  rewrite Bleb_correct in H1 by auto. rewrite Bleb_correct in H2 by auto. rewrite E0 in H1. rewrite E2 in H2. revert H1 H2.
  case Rle_bool_spec; [|discriminate]. case Rle_bool_spec; [|discriminate]. auto.
Qed.
Local Lemma pe_gamma f : main_config pe_yaml pr_cl = Ok f ->
  exists x : dbl, has f (txt "elite_education_gamma") (VFloat (Some (x : @F NumF))) /\ @fround NumF (dmul x (d_of_Z (Z.of_nat (6 - 1)))) = 5000.
Proof.
  intros accepted. destruct (main_facts _ _ f accepted) as (HC & _).
  assert (X : match pe_look "elite_education_gamma" with Some (VFloat (Some x)) => Nat.eqb (@fround NumF (dmul x (d_of_Z (Z.of_nat (6 - 1))))) 5000 | _ => false end = true)
    by (vm_compute; reflexivity).
  rewrite accepted in X. destruct (lookup (txt "elite_education_gamma") f) as [[| | |[x|]| | |]|] eqn:E; try discriminate X.
  exists x. split; [apply (lookup_has f); [exact (conf_nodup f HC)|exact E]|]. now apply Nat.eqb_eq.
Qed.

(** So the program writes a file or its loops outlast the bound, whatever the bound. *)
Example C62_program_applies fuel :
  (exists content, @program NumF rust_lib (pe_outside fuel) pr_read pe_yaml pr_cl = Ok (Some (txt "a.sol", content))) \/
  @program NumF rust_lib (pe_outside fuel) pr_read pe_yaml pr_cl = Err EFuel.
Proof.
  destruct pe_accepted as (f & EF).
  refine (C62_program_doubles rust_lib rust_lib_ok (pe_outside fuel) (pe_functions fuel) _ pr_read pe_yaml pr_cl pf_instance pf_d pf_q 10 f
    pf_described _ pf_rounded _ EF _ _ _ _ _).
  - intros y x F _. cbn [pe_outside x_atan2]. destruct (dlt x (d_of_Z 0)); [reflexivity|]. destruct y; try reflexivity; discriminate.
  - reflexivity.
  - intros a HA. change (length (in_nodes pf_instance)) with 6 in HA. unfold coord.
    assert (X : nth a (in_nodes pf_instance) (d_of_Z 0, d_of_Z 0, d_of_Z 0) = (d_of_Z (pf_x a), d_of_Z (pf_y a), d_of_Z (pf_q a))).
    { do 6 (destruct a as [|a]; [reflexivity|]). lia. }
    rewrite X. cbn [fst snd].
    assert (Y : (0 <= pf_x a < 100 /\ 0 <= pf_y a < 100)%Z) by (do 6 (destruct a as [|a]; [cbn; lia|]); lia). destruct Y as [Y1 Y2].
    destruct (small_coordinate _ Y1), (small_coordinate _ Y2). auto.
  - exists 3%Z. split; [apply (pe_int f EF); vm_compute; reflexivity|cbn; lia].
  - exists 3000%Z. split; [apply (pe_int f EF); vm_compute; reflexivity|cbn; lia].
  - intros name H. cbn [In] in H. destruct H as [<-|[<-|[<-|[<-|[]]]]].
    + exists 2%Z. split; [apply (pe_int f EF); vm_compute; reflexivity|lia].
    + exists 2%Z. split; [apply (pe_int f EF); vm_compute; reflexivity|lia].
    + exists 3%Z. split; [apply (pe_int f EF); vm_compute; reflexivity|lia].
    + exists 2%Z. split; [apply (pe_int f EF); vm_compute; reflexivity|lia].
  - intros name NB H.
    assert (X : forallb (fun e : text * @value NumF => match snd e with VFloat None => text_eqb (fst e) (txt "bks") | _ => true end)
                  (match main_config pe_yaml pr_cl with Ok f => f | Err _ => [] end) = true) by (vm_compute; reflexivity).
    rewrite EF, forallb_forall in X. specialize (X _ H). cbn [fst snd] in X. apply text_eqb_spec in X. contradiction.
  - right. split; [apply (pe_bool f EF); vm_compute; reflexivity|]. change (length (in_nodes pf_instance)) with 6.
    destruct (pe_gamma f EF) as (gamma & G1 & G2).
    destruct (pe_float f EF "penalty_dec_multiplier"%string ltac:(vm_compute; reflexivity)) as (dec & D1 & D2 & D3).
    destruct (pe_float f EF "penalty_inc_multiplier"%string ltac:(vm_compute; reflexivity)) as (inc & I1 & I2 & I3).
    exists gamma, dec, inc, 2%R. repeat (split; [first [assumption|lra]|]). rewrite G2. change (5000 / 1000) with 5.
    assert (E0 : (0 < bpow radix2 (-50) <= 1)%R) by (split; [apply bpow_gt_0|change 1%R with (bpow radix2 0); apply bpow_le; lia]).
    eapply Rle_trans; [apply (pow_incr _ (bpow radix2 2)); change (bpow radix2 2) with 4%R; lra|].
    change (bpow radix2 2 ^ 5)%R with (bpow radix2 2 * (bpow radix2 2 * (bpow radix2 2 * (bpow radix2 2 * (bpow radix2 2 * 1)))))%R.
    rewrite Rmult_1_r, <- !bpow_plus. apply bpow_le. lia.
Qed.
