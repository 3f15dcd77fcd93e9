(** Reproducibility: what the clock, the limits and the unseeded hash order can change (C61, C47). *)
From Coq Require Import Ascii String List Arith NArith ZArith Bool Lia QArith Lqa.
From Verif.Model Require Import Num Prelude Evaluate Individual Config Crossover Split Matrix Population
  LocalSearch World Schedule RuinRecreate Genetic Decomposition Text Parser Display ConfigFile Main.
From Verif.Spec Require Import Solution Library LocalSearch RuinRecreate Genetic Repro.
From Verif.Proofs Require Import Lists QNum GaQ RustLib ProgramFacts Repro.
From Verif.Properties Require Import P_RuinRecreate P_Genetic P_Files P_Program.
Import ListNotations.
Open Scope nat_scope.

(** ** C61: the clock only decides when to stop *)
Section Clock.
Context {N : Num}.
Variable L : lib.
Variable p : problem.
Variable c : config.
Variables E1 E2 : env.
Variable li : nat.
Variable md : option F.
Variable fuel : nat.
Hypothesis same_exp : e_exp E1 = e_exp E2.
Hypothesis untimed : timed_education p c = false.
Variables (corr : matrix nat) (ls_hash rr_hash : rng) (w0 : world).
Local Notation start := (ga_new p c corr ls_hash rr_hash w0).

(** The run that is allowed more time and more iterations records everything the shorter run
    records, in the same order, and then possibly more. *)
Theorem C61_anytime t m k1 k2 g1 w1 g2 w2 :
  (forall k, past (c_time_limit c) E1 k = false -> past t E2 k = false) ->
  (forall n, capped (c_max_iterations c) n = false -> capped m n = false) ->
  solver_run L p c E1 li md fuel k1 (fst start) (snd start) = Ok (g1, w1) ->
  solver_run L p (with_limits c t m) E2 li md fuel k2 (fst start) (snd start) = Ok (g2, w2) ->
  exists is, recorded (w_hist w1) is (w_hist w2).
Proof.
  intros HT HM R1 R2.
  refine (longer_run L p li md fuel c t m E1 E2 same_exp untimed HT HM k1 k2 _ _ g1 w1 g2 w2 _ R1 R2).
  unfold ga_new. destruct (ind_random _ _ _ _). cbn [fst ga_rr rr_new setup_mutation]. eexists. reflexivity.
Qed.

(** If the limits stop neither run, the clock and the time limit change nothing. *)
Theorem C61_clock_free t k :
  (forall k, past (c_time_limit c) E1 k = false) -> (forall k, past t E2 k = false) ->
  solver_run L p c E1 li md fuel k (fst start) (snd start) =
  solver_run L p (with_limits c t (c_max_iterations c)) E2 li md fuel k (fst start) (snd start).
Proof.
  intros H1 H2. apply same_run; auto.
  unfold ga_new. destruct (ind_random _ _ _ _). cbn [fst ga_rr rr_new setup_mutation]. eexists. reflexivity.
Qed.
End Clock.
Print Assumptions C61_anytime.
Print Assumptions C61_clock_free.

(** In exact arithmetic: what is reported in the end is no worse. *)
Section Exact.
Variable L : lib.
Hypothesis library : lib_ok L.
Variable p : @problem NumQ.
Variable c : @config NumQ.
Variables E1 E2 : @env NumQ.
Variable li : nat.
Variable md : option (@F NumQ).
Variable fuel : nat.
Local Open Scope Q_scope.

Local Lemma costs_kept (l : list (@entry NumQ)) : map he_cost (remove_previous_data l) = map he_cost l.
Proof. induction l as [|e [|e' l] IH]; auto. cbn [remove_previous_data map] in *. now rewrite IH. Qed.
Local Lemma costs_recorded is : forall h : @history NumQ,
  map he_cost (h_entries (fold_left hist_add is h)) = map he_cost (h_entries h) ++ map penalized_cost is.
Proof.
  induction is as [|i is IH]; intros h; cbn [fold_left map]; [now rewrite app_nil_r|].
  rewrite IH. cbn [hist_add h_entries]. rewrite map_app, costs_kept, <- app_assoc. reflexivity.
Qed.
Local Lemma falls (l : list (option Q)) : forall l1 (x : Q) z,
  (forall l1 a b l2, l = l1 ++ a :: b :: l2 -> exists x y : Q, a = Some x /\ b = Some y /\ y < x - (1 # 1000000)) ->
  forall l2, l = l1 ++ Some x :: l2 ++ [z] -> exists y : Q, z = Some y /\ y < x - (1 # 1000000).
Proof.
  intros l1 x z AD l2. revert l1 x. induction l2 as [|b l2 IH]; intros l1 x E; cbn [app] in E.
  - destruct (AD _ _ _ _ E) as (x' & y & EX & -> & LT). injection EX as <-. eauto.
  - destruct (AD _ _ _ _ E) as (x' & y & EX & -> & LT). injection EX as <-.
    destruct (IH (l1 ++ [Some x]) y) as (v & -> & LV); [rewrite <- app_assoc; exact E|].
    exists v. split; auto. lra.
Qed.

Theorem C61_no_worse corr ls_hash rr_hash w0 t m k1 k2 g1 w1 g2 w2 (x : Q) :
  instance_ok p c -> set_up p md w0 -> neighbours_ok p c corr -> rows_ok p corr ->
  e_exp E1 = e_exp E2 -> timed_education p c = false ->
  (forall k, past (c_time_limit c) E1 k = false -> past t E2 k = false) ->
  (forall n, capped (c_max_iterations c) n = false -> capped m n = false) ->
  let start := ga_new p c corr ls_hash rr_hash w0 in
  solver_run L p c E1 li md fuel k1 (fst start) (snd start) = Ok (g1, w1) ->
  solver_run L p (with_limits c t m) E2 li md fuel k2 (fst start) (snd start) = Ok (g2, w2) ->
  h_best (w_hist w1) = Some (x : @F NumQ) ->
  exists y : Q, h_best (w_hist w2) = Some (y : @F NumQ) /\ (w_hist w2 = w_hist w1 \/ y < x - (1 # 1000000)).
Proof.
  intros IO SU NO RO SE UT HT HM start R1 R2 HB.
  destruct (C61_anytime L p c E1 E2 li md fuel SE UT corr ls_hash rr_hash w0 t m k1 k2 g1 w1 g2 w2 HT HM R1 R2) as (is & RE).
  assert (IO2 : instance_ok p (with_limits c t m)) by (destruct IO; constructor; auto).
  assert (G1 : ga_reached L p c E1 li md fuel w0 g1 w1).
  { eapply run_reached; [|exact R1]. eapply gr_new; eauto. fold start. apply surjective_pairing. }
  assert (G2 : ga_reached L p (with_limits c t m) E2 li md fuel w0 g2 w2).
  { eapply run_reached; [|exact R2]. eapply gr_new with (corr := corr) (ls_hash := ls_hash) (rr_hash := rr_hash); eauto. apply surjective_pairing. }
  destruct (C04_recorded_improve L p c E1 li md fuel w0 g1 w1 library IO SU G1) as (_ & N1 & B1).
  destruct (C04_recorded_improve L p _ E2 li md fuel w0 g2 w2 library IO2 SU G2) as (A2 & _ & B2).
  unfold recorded in RE. pose proof (costs_recorded is (w_hist w1)) as CR. rewrite <- RE in CR.
  destruct is as [|i is] using rev_ind; [cbn in RE; rewrite RE; eauto|]. clear IHis.
  rewrite map_app in CR. cbn [map] in CR.
  destruct (h_entries (w_hist w1)) as [|e l] eqn:E1' using rev_ind; [rewrite N1 in HB by auto; discriminate|]. clear IHl.
  rewrite (B1 e) in HB by (exists l; rewrite E1'; reflexivity).
  rewrite map_app in CR. cbn [map] in CR. rewrite HB, <- app_assoc in CR. cbn [app] in CR.
  destruct (falls (map he_cost (h_entries (w_hist w2))) (map he_cost l) x (penalized_cost i)) with (l2 := map penalized_cost is) as (y & EY & LT).
  - intros l1 a b l2 EQ. apply map_eq_app in EQ as (m1 & m2 & EQ & M1 & M2).
    destruct m2 as [|ea [|eb m2]]; try discriminate. cbn [map] in M2. injection M2 as <- <- <-.
    destruct (A2 m1 ea eb m2 EQ) as (u & v & EU & EV & LT & _). exists u, v. auto.
  - exact CR.
  - exists y. split; [|right; exact LT]. rewrite RE, fold_left_app. exact EY.
Qed.
End Exact.
Print Assumptions C61_no_worse.

(** ** The whole program *)
Section Program.
Context {N : Num}.
Variable L : lib.
Variable X : outside.
Variable read : text -> text.
Variable yaml : @value N.
Variable cl : command_line.
Variable f : @fields N.
Hypothesis accepted : main_config yaml cl = Ok f.
Variables (path : text) (pa : parsed).
Hypothesis at_path : get_string f "instance_path" = Ok path.
Hypothesis instance : parse (x_parse_f64 X) (x_utf8 X) (read path) = Ok pa.
Hypothesis deterministic : get_bool f "deterministic" = Ok true.
(** no decomposition *)
Variable limit : nat.
Hypothesis decompose_limit : get_u64 f "decompose_limit" = Ok limit.
Hypothesis whole : length (pa_nodes pa) - 1 < limit.
Variable t : nat.
Hypothesis time_limit : get_u64 f "time_limit" = Ok t.
(** the other run *)
Variables (E : @env N) (random : option nat -> rng) (rr_hash : rng) (hashes : nat -> rng * rng * rng).
Hypothesis seeded : forall s, random (Some s) = x_random X (Some s).
Local Notation Y := (elsewhere X E random rr_hash hashes).

Local Lemma same_context : context_new Y pa f = context_new X pa f.
Proof using deterministic seeded.
  unfold context_new. rewrite deterministic. cbn [rbind]. destruct (get_u64 f "seed") as [s|]; [|reflexivity]. cbn [rbind].
  cbn [elsewhere x_random]. rewrite seeded. reflexivity.
Qed.
Local Lemma context_facts x : context_new X pa f = Ok x ->
  p_dim (x_problem x) = length (pa_nodes pa) /\ exists nv, config_of f nv = Ok (x_config x).
Proof using.
  clear accepted at_path instance deterministic decompose_limit whole time_limit seeded. unfold context_new. intro H.
  repeat (match type of H with rbind ?m _ = _ => destruct m eqn:?; [cbn [rbind] in H|discriminate H]
          | (let '(_, _) := ?m in _) = _ => destruct m end).
  injection H as <-. cbn [x_problem x_config problem_of p_dim]. eauto.
Qed.
Local Lemma config_facts nv c : config_of f nv = Ok c ->
  get_bool f "rr_mutation" = Ok (c_rr_mutation c) /\ get_bool f "elite_education" = Ok (c_elite_education c) /\
  get_u64 f "elite_education_problem_size_limit" = Ok (c_elite_education_problem_size_limit c) /\
  get_bool f "elite_education_time_based" = Ok (c_elite_education_time_based c) /\
  get_u64 f "time_limit" = Ok (c_time_limit c).
Proof using.
  clear accepted at_path instance deterministic decompose_limit whole time_limit seeded. unfold config_of. intro H.
  repeat (match type of H with rbind ?m _ = _ => destruct m eqn:?; [cbn [rbind] in H|discriminate H] end).
  injection H as <-. cbn. repeat split; assumption.
Qed.
Local Lemma limits_same c : with_limits c (c_time_limit c) (c_max_iterations c) = c.
Proof using. destruct c. reflexivity. Qed.

Local Lemma program_from_run :
  (forall x li, context_new X pa f = Ok x ->
     let '(g, w) := ga_new (x_problem x) (x_config x) (cm_store (x_corr x)) (x_ls_hash X) (x_rr_hash X) (x_world x) in
     let '(h, v) := ga_new (x_problem x) (x_config x) (cm_store (x_corr x)) (x_ls_hash X) rr_hash (x_world x) in
     rel (fun a b => snd a = snd b)
       (solver_run L (x_problem x) (x_config x) (x_env X) li (dm_max (x_dist x)) (x_fuel X) (x_fuel X) g w)
       (solver_run L (x_problem x) (x_config x) E li (dm_max (x_dist x)) (x_fuel X) (x_fuel X) h v)) ->
  program L Y read yaml cl = program L X read yaml cl.
Proof using accepted at_path instance deterministic decompose_limit whole seeded.
  intro SR. unfold program. rewrite accepted. cbn [rbind]. rewrite at_path. cbn [rbind].
  cbn [elsewhere x_parse_f64 x_utf8]. rewrite instance. cbn [rbind]. fold Y. rewrite same_context.
  destruct (context_new X pa f) as [x|] eqn:EX; [|reflexivity]. cbn [rbind].
  assert (ER : run_solver L Y f x = run_solver L X f x); [|now rewrite ER].
  unfold run_solver. rewrite decompose_limit. cbn [rbind]. destruct (get_u64 f "decomposed_problem_min_size"); [|reflexivity]. cbn [rbind].
  destruct (get_u64 f "log_interval") as [li|]; [|reflexivity]. cbn [rbind].
  destruct (context_facts x EX) as [ED _].
  assert (EL : (limit <=? p_dim (x_problem x) - 1) = false) by (apply Nat.leb_gt; rewrite ED; exact whole).
  rewrite EL. cbn [elsewhere x_ls_hash x_rr_hash x_env x_fuel]. specialize (SR x li eq_refl).
  destruct (ga_new _ _ _ _ (x_rr_hash X) _) as [g w]. destruct (ga_new _ _ _ _ rr_hash _) as [h v].
  destruct (solver_run L _ _ (x_env X) _ _ _ _ _ _) as [[g1 w1]|], (solver_run L _ _ E _ _ _ _ _ _) as [[h1 v1]|];
    cbn [rel] in SR; try contradiction; cbn [rbind snd] in *; congruence.
Qed.

(** C61 for the program: with the same seed and the same hash order, and while the clock does not
    reach the limit, the solution file does not depend on the clock. *)
Theorem C61_program_clock :
  rr_hash = x_rr_hash X -> e_exp (x_env X) = e_exp E ->
  get_bool f "elite_education" = Ok false \/ get_bool f "elite_education_time_based" = Ok false ->
  (forall k, past t (x_env X) k = false) -> (forall k, past t E k = false) ->
  program L Y read yaml cl = program L X read yaml cl.
Proof using accepted at_path instance deterministic decompose_limit whole seeded time_limit.
  intros HH HE EE P1 P2. apply program_from_run. intros x li EX. destruct (context_facts x EX) as (_ & nv & EC).
  destruct (config_facts nv _ EC) as (_ & F2 & _ & F4 & F5). rewrite time_limit in F5. injection F5 as ET. rewrite HH.
  assert (UT : timed_education (x_problem x) (x_config x) = false).
  { unfold timed_education. destruct EE as [EE|EE]; [rewrite EE in F2; injection F2 as <-; reflexivity|].
    rewrite EE in F4. injection F4 as <-. apply andb_false_r. }
  pose proof (C61_clock_free L (x_problem x) (x_config x) (x_env X) E li (dm_max (x_dist x)) (x_fuel X) HE UT
    (cm_store (x_corr x)) (x_ls_hash X) (x_rr_hash X) (x_world x) t (x_fuel X)) as CF.
  rewrite ET, limits_same in CF. rewrite ET in P1, P2. specialize (CF P1 P2).
  destruct (ga_new _ _ _ _ _ _) as [g w]. cbn [fst snd] in CF. rewrite CF. apply rel_refl. auto.
Qed.

(** C47 where it holds: without ruin and recreate the solution file of a seeded run depends
    neither on the clock, nor on the unseeded hash order, nor on the random numbers drawn when no
    seed is given.  (With ruin and recreate it is refuted, see P_RuinRecreate.v and below; runs with
    decomposition are left out.) *)
Theorem C47_reproducible_partial :
  get_bool f "rr_mutation" = Ok false -> get_bool f "elite_education" = Ok false ->
  (forall k, past t (x_env X) k = past t E k) ->
  program L Y read yaml cl = program L X read yaml cl.
Proof using accepted at_path instance deterministic decompose_limit whole seeded time_limit.
  intros EM EE PE. apply program_from_run. intros x li EX. destruct (context_facts x EX) as (_ & nv & EC).
  destruct (config_facts nv _ EC) as (F1 & F2 & _ & _ & F5). rewrite time_limit in F5. injection F5 as ET.
  rewrite EM in F1. injection F1 as F1. rewrite EE in F2. injection F2 as F2.
  assert (NR : no_ruin (x_problem x) (x_config x) = true) by (unfold no_ruin; rewrite <- F1, <- F2; reflexivity).
  rewrite ET in PE.
  pose proof (fun g h w => no_ruin_run L (x_problem x) li (dm_max (x_dist x)) (x_fuel X) (x_config x) _ (x_env X) E NR PE (x_fuel X) g h w) as R.
  rewrite limits_same in R. unfold ga_new. destruct (ind_random _ _ _ _) as [child r].
  eapply rel_mono; [apply R|].
  - eexists. reflexivity.
  - discriminate.
  - intros a b [_ EQ]. exact EQ.
Qed.
End Program.
Print Assumptions C61_program_clock.
Print Assumptions C47_reproducible_partial.

(** ** C47 for the whole program: refuted with ruin and recreate *)
Definition rp_lines : list text :=
  [txt "NAME : program"; txt "TYPE : CVRP"; txt "DIMENSION : 8"; txt "EDGE_WEIGHT_TYPE : EUC_2D"; txt "CAPACITY : 10";
   txt "NODE_COORD_SECTION"; txt "1 3 3"; txt "2 6 3"; txt "3 0 3"; txt "4 3 6"; txt "5 3 0"; txt "6 6 6"; txt "7 0 0"; txt "8 0 6";
   txt "DEMAND_SECTION"; txt "1 0"; txt "2 4"; txt "3 3"; txt "4 4"; txt "5 3"; txt "6 2"; txt "7 3"; txt "8 2";
   txt "DEPOT_SECTION"; txt "1"; txt "-1"; txt "EOF"].
Definition rp_read (path : text) : text := join true rp_lines.
Definition rp_yaml (mutation search : bool) (limit : Z) : @value NumQ := VMap
  (let key (s : string) (v : @value NumQ) : @value NumQ * @value NumQ := (@VString NumQ (txt s), v) in
   [key "deterministic" (VBool true); key "seed" (VInt 9); key "max_iterations" (VInt limit);
    key "min_population_size" (VInt 2); key "initial_individuals" (VInt 2); key "population_lambda" (VInt 2);
    key "num_elites" (VInt 1); key "num_diversity_closest" (VInt 2); key "local_search_granularity" (VInt 3);
    key "penalty_update_interval" (VInt 2); key "average_ruin_cardinality" (VInt 3); key "max_ruin_string_length" (VInt 3);
    key "rr_gamma" (VInt 1); key "rr_mutation" (VBool mutation); key "rr_probability" (@VFloat NumQ (Some 1%Q));
    key "ls_enabled" (VBool search)])%string.
Local Notation rp_outside hash := (let X := pr_outside 200 in elsewhere X (x_env X) (x_random X) hash (x_hashes X)).

(** The same instance, configuration, seed, clock and random numbers; only the order in which the
    unseeded hash set is iterated differs: solution files of different costs. *)
Theorem C47_program_refuted : exists (X : @outside NumQ) read yaml cl f hash file1 file2,
  main_config yaml cl = Ok f /\ get_bool f "deterministic" = Ok true /\
  program rust_lib X read yaml cl = Ok (Some (txt "a.sol", txt file1)) /\
  program rust_lib (elsewhere X (x_env X) (x_random X) hash (x_hashes X)) read yaml cl = Ok (Some (txt "a.sol", txt file2)) /\
  file1 = "Route #1: 2 7 3
Route #2: 5
Route #3: 1 4 6
Cost 34
"%string /\ file2 = "Route #1: 6 2 7
Route #2: 3 5 1
Route #3: 4
Cost 32
"%string.
Proof.
  destruct (main_config (rp_yaml true false 1) pr_cl) as [f|e] eqn:EF.
  2:{ assert (B : match main_config (rp_yaml true false 1) pr_cl with Ok _ => true | Err _ => false end = true) by (vm_compute; reflexivity).
      rewrite EF in B. discriminate B. }
  exists (rp_outside (rr_stream 1 13)), rp_read, (rp_yaml true false 1), pr_cl, f, (rr_stream 2 13). do 2 eexists.
  split; [exact EF|]. split.
  { assert (B : (f <- main_config (rp_yaml true false 1) pr_cl ;; get_bool f "deterministic") = Ok true) by (vm_compute; reflexivity).
    rewrite EF in B. exact B. }
  split; [|split; [|split; reflexivity]]; vm_compute; reflexivity.
Qed.
Print Assumptions C47_program_refuted.

(** ** Examples *)

(** C61: 4 seconds or 60, without local search: 46 becomes 36 over 42; the shorter history is a part
    of the longer one. *)
Definition rp_cfg (t : nat) : @config NumQ := with_limits (ga_cfg false false false) t (Some 6).
Local Notation rp_start := (@ga_new NumQ rr_p (rp_cfg 4) rr_corr (rr_stream 3 5) (rr_stream 7 1) (ga_world 23 331)).
Local Notation rp_run t :=
  (@solver_run NumQ rust_lib rr_p (rp_cfg t) rr_env 5 (Some 18%Q) 50 60 (fst rp_start) (snd rp_start)).
Definition rp_view (r : res (@ga NumQ * @world NumQ)) :=
  match r with Ok (g, w) => Some (map (fun e => (he_routes e, @option_map (@F NumQ) Q Qred (he_cost e))) (h_entries (w_hist w))) | Err _ => None end.
Example rp_runs :
  rp_view (rp_run 4) = Some [([[2; 1]; [5]; [4; 3]; []], Some 46%Q)] /\
  rp_view (rp_run 60) = Some [([], Some 46%Q); ([], Some 42%Q); ([[1; 5; 2]; [3; 4]; []; []], Some 36%Q)].
Proof. split; vm_compute; reflexivity. Qed.
Fact rp_view_ok r v : rp_view r = Some v -> exists g w, r = Ok (g, w) /\ length (h_entries (w_hist w)) = length v.
Proof. destruct r as [[g w]|]; [|discriminate]. intro H. injection H as <-. exists g, w. rewrite map_length. auto. Qed.
Example rp_anytime : exists g1 w1 g2 w2 is, rp_run 4 = Ok (g1, w1) /\ rp_run 60 = Ok (g2, w2) /\
  recorded (w_hist w1) is (w_hist w2) /\ length (h_entries (w_hist w1)) = 1 /\ length (h_entries (w_hist w2)) = 3.
Proof.
  destruct (rp_view_ok _ _ (proj1 rp_runs)) as (g1 & w1 & R1 & L1). destruct (rp_view_ok _ _ (proj2 rp_runs)) as (g2 & w2 & R2 & L2).
  assert (LC : with_limits (rp_cfg 4) 60 (Some 6) = rp_cfg 60) by reflexivity.
  pose proof (C61_anytime rust_lib rr_p (rp_cfg 4) rr_env rr_env 5 (Some (18%Q : @F NumQ)) 50 eq_refl eq_refl rr_corr (rr_stream 3 5) (rr_stream 7 1)
    (ga_world 23 331) 60 (Some 6) 60 60 g1 w1 g2 w2) as A. rewrite LC in A.
  destruct A as (is & RE); [| |exact R1|exact R2|].
  - intros k. unfold past. cbn [rp_cfg with_limits c_time_limit]. intro H. apply Nat.leb_gt in H. apply Nat.leb_gt. lia.
  - intros n H. exact H.
  - exists g1, w1, g2, w2, is. repeat (split; [assumption|]). exact L2.
Qed.
(** The hypotheses of [C61_no_worse]. *)
Example rp_exact : instance_ok rr_p (rp_cfg 4) /\ set_up rr_p (Some (18%Q : @F NumQ)) (ga_world 23 331) /\
  neighbours_ok rr_p (rp_cfg 4) rr_corr /\ rows_ok rr_p rr_corr /\ timed_education rr_p (rp_cfg 4) = false.
Proof.
  split; [destruct (ga_instance false false false); constructor; assumption|]. split; [apply ga_set_up|].
  split; [exact (ga_neighbours false false false)|]. split; [exact rr_corr_ok|reflexivity].
Qed.

(** Without ruin and recreate C47 applies to the file above: a clock that is half a second late,
    another exponential function, other unseeded numbers, any hash order give the same file. *)
Definition rp_env : @env NumQ := @mkEnv NumQ (fun _ => 1%Q) (fun k => (inject_Z (Z.of_nat k) + (1 # 2))%Q).
Definition rp_random (seed : option nat) : rng := match seed with Some s => rr_stream (N.of_nat s) 3 | None => rr_stream 1 1 end.
Definition rp_check (X : @outside NumQ) (read : text -> text) (m : res (@fields NumQ)) : bool :=
  match m with
  | Ok f =>
      match get_bool f "deterministic", get_u64 f "decompose_limit", get_u64 f "time_limit", get_bool f "rr_mutation", get_bool f "elite_education",
            get_string f "instance_path" with
      | Ok true, Ok d, Ok t, Ok false, Ok false, Ok path => (7 <? d) && (t =? 60) &&
          match parse (x_parse_f64 X) (x_utf8 X) (read path) with Ok pa => length (pa_nodes pa) =? 8 | Err _ => false end
      | _, _, _, _, _, _ => false
      end
  | Err _ => false
  end.
Fact rp_checked X read m : rp_check X read m = true -> exists f d path pa, m = Ok f /\ get_string f "instance_path" = Ok path /\
  parse (x_parse_f64 X) (x_utf8 X) (read path) = Ok pa /\ get_bool f "deterministic" = Ok true /\ get_u64 f "decompose_limit" = Ok d /\
  length (pa_nodes pa) - 1 < d /\ get_u64 f "time_limit" = Ok 60 /\ get_bool f "rr_mutation" = Ok false /\ get_bool f "elite_education" = Ok false.
Proof.
  unfold rp_check. destruct m as [f|]; [|discriminate]. intro B.
  destruct (get_bool f "deterministic") as [[|]|] eqn:F1; try discriminate B.
  destruct (get_u64 f "decompose_limit") as [d|] eqn:F2; try discriminate B.
  destruct (get_u64 f "time_limit") as [t|] eqn:F3; try discriminate B.
  destruct (get_bool f "rr_mutation") as [[|]|] eqn:F4; try discriminate B.
  destruct (get_bool f "elite_education") as [[|]|] eqn:F5; try discriminate B.
  destruct (get_string f "instance_path") as [path|] eqn:F6; try discriminate B.
  destruct (parse _ _ _) as [pa|] eqn:F7; [|rewrite andb_false_r in B; discriminate B].
  apply andb_true_iff in B as [B B3]. apply andb_true_iff in B as [B1 B2].
  apply Nat.ltb_lt in B1. apply Nat.eqb_eq in B2, B3. subst t.
  exists f, d, path, pa. repeat (split; [first [assumption|reflexivity|lia]|]). exact F5.
Qed.
Example rp_file hash hashes :
  pr_view (program rust_lib (elsewhere (pr_outside 200) rp_env rp_random hash hashes) rp_read (rp_yaml false true 4) pr_cl) =
    Some ("a.sol", "Route #1: 1
Route #2: 7 3 5
Route #3: 4 6 2
Cost 32
")%string.
Proof.
  assert (S : pr_view (program rust_lib (pr_outside 200) rp_read (rp_yaml false true 4) pr_cl) = Some ("a.sol", "Route #1: 1
Route #2: 7 3 5
Route #3: 4 6 2
Cost 32
")%string) by (vm_compute; reflexivity).
  rewrite <- S. apply (f_equal pr_view). clear S.
  assert (B : rp_check (pr_outside 200) rp_read (main_config (rp_yaml false true 4) pr_cl) = true) by (vm_compute; reflexivity).
  destruct (rp_checked _ _ _ B) as (f & d & path & pa & EF & F6 & F7 & F1 & F2 & B3 & F3 & F4 & F5).
  apply (C47_reproducible_partial rust_lib (pr_outside 200) rp_read (rp_yaml false true 4) pr_cl f EF path pa F6 F7 F1 d F2 B3 60 F3
    rp_env rp_random hash hashes (fun _ => eq_refl) F4 F5).
  intros k. unfold past, rp_env. cbn [e_clock x_env pr_outside].
  assert (X : @ffloor NumQ ((inject_Z (Z.of_nat k) + (1 # 2))%Q : @F NumQ) = @ffloor NumQ (inject_Z (Z.of_nat k) : @F NumQ)).
  { cbn [ffloor NumQ]. rewrite Qround.Qfloor_Z. f_equal. unfold Qround.Qfloor, inject_Z, Qplus. cbn [Qnum Qden].
    change (Z.pos (1 * 2)) with 2%Z. rewrite Z.mul_1_r. rewrite Z.div_add_l by discriminate. rewrite Z.add_0_r. reflexivity. }
  now rewrite X.
Qed.
