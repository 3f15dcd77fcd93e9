(** The program as a whole in double precision (C59). *)
From Coq Require Import Ascii String List Arith NArith ZArith Bool Lia Reals Lra Permutation Sorted.
From Flocq Require Import Core BinarySingleNaN.
From Verif.Model Require Import Num NumFloat Prelude Evaluate Individual Config Crossover Split Matrix Population
  LocalSearch World Schedule RuinRecreate Genetic Decomposition Text Parser Display ConfigFile Main.
From Verif.Spec Require Import Solution Library Floats LocalSearch RuinRecreate Genetic Instance Output ConfigFile Program FloatProgram.
From Verif.Proofs Require Import Lists TextFacts ParserFacts ConfigFacts FloatFacts FloatRun FloatStart GaQ RustLib ProgramFacts.
From Verif.Properties Require Import P_RuinRecreate P_Genetic P_Files P_Config P_Program P_FloatRun.
Import ListNotations.
Open Scope nat_scope.

Local Lemma ztour_used d rs : d 0 0 = 0%Z -> zsum (map (ztour d) (used_routes rs)) = zsum (map (ztour d) rs).
Proof.
  intro H. unfold used_routes. induction rs as [|[|a r] rs IH]; [reflexivity| |]; cbn [filter map zsum].
  - rewrite IH. change (ztour d []) with (d 0%nat 0%nat + 0)%Z. lia.
  - now rewrite IH.
Qed.

(** What is written from a history of exact records. *)
Lemma history_file (p : @problem NumF) (c : @config NumF) d q cap h (is : list (@individual NumF)) : integral_instance p c d q cap ->
  recorded hist_new is h -> Forall (fun i : @individual NumF => exact_record p d q cap (i_pheno i) (penalized_cost i)) is ->
  (forall e, reported h e -> exact_record p d q cap (he_routes e) (he_cost e) /\
     forall i, In i is -> (zsum (map (ztour d) (he_routes e)) <= zsum (map (ztour d) (i_pheno i)))%Z) ->
  (h_entries h = [] /\ solution_file h = []) \/
  exists routes cost solution, solution_file h = solution ++ [LF] /\ solution_text 1 routes cost solution /\
    serves_all_once (p_dim p) routes /\ (forall r, In r routes -> r <> []) /\
    (forall r, In r routes -> (zload q r <= cap)%Z) /\
    Z.of_nat cost = zsum (map (ztour d) routes) /\
    forall e, In e (h_entries h) -> exists (v : dbl) z, he_cost e = Some (v : @F NumF) /\ is_int v z /\ (Z.of_nat cost <= z)%Z.
Proof.
  intros II RE FA RP.
  assert (RE' := RE). unfold recorded in RE'. rewrite RE' in RP. rewrite RE'.
  destruct (C44_file NumF (fold_left hist_add is hist_new)) as [F1 F2].
  destruct is as [|j is _] using rev_ind; [left; split; [reflexivity|apply F2; reflexivity]|right].
  destruct (RP (mkEntry (i_pheno j) (penalized_cost j))) as [_ BEST].
  { exists (map (fun k => mkEntry [] (penalized_cost k)) is). apply recorded_entries. }
  cbn [he_routes] in BEST. rewrite Forall_forall in FA.
  destruct (FA j) as (S & W & v & EV & IV); [apply in_or_app; right; now left|].
  destruct (F1 _ _ v (recorded_entries is j) EV) as (t & ET & TX).
  pose proof (serves_total _ _ _ _ _ II _ S) as TOT.
  assert (UI : @fround NumF v = Z.to_nat (zsum (map (ztour d) (i_pheno j)))) by (apply u64_int; [exact IV|exact TOT]).
  exists (used_routes (i_pheno j)), (@fround NumF v), t. split; [exact ET|]. split; [exact TX|].
  split; [unfold serves_all_once; rewrite used_concat; exact S|].
  split; [intros r Hr; now apply used_in in Hr|].
  split; [intros r Hr; apply used_in in Hr as [Hr _]; now apply W|].
  split; [rewrite ztour_used by exact (ii_depot _ _ _ _ _ II); rewrite UI; apply Z2Nat.id; lia|].
  intros e HE. rewrite recorded_entries in HE.
  assert (K : exists k, In k (is ++ [j]) /\ he_cost e = penalized_cost k).
  { apply in_app_or in HE as [HE|[<-|[]]].
    - apply in_map_iff in HE as (k & <- & HK). exists k. split; [apply in_or_app; now left|reflexivity].
    - exists j. split; [apply in_or_app; right; now left|reflexivity]. }
  destruct K as (k & HK & EK). destruct (FA k HK) as (_ & _ & u & EU & IU).
  exists u. eexists. split; [rewrite EK; exact EU|]. split; [exact IU|]. rewrite UI, Z2Nat.id by lia. now apply BEST.
Qed.

(** A matrix in the file has a row for every node but the first. *)
Lemma weights_size (X : @outside NumF) (i : @instance NumF) file : instance_file (fun w x => x_parse_f64 X w = Some x) i file ->
  2 <= length (in_nodes i) -> forall w, in_weights i = Some w -> length w + 1 = length (in_nodes i).
Proof.
  intros described H2N w HW. destruct described as (parts & lines & (dd & cp & type & m1 & m2 & m3 & m4 & m5 & coords & demands & more & others & HD) & _).
  destruct HD as (_ & _ & _ & _ & _ & _ & _ & _ & HD & _). unfold weight_parts in HD. rewrite HW in HD.
  destruct HD as (_ & n1 & n2 & rows & _ & _ & HL & H2). rewrite <- (@MatrixFacts.Forall2_length _ _ _ _ _ H2). lia.
Qed.

Section Program.
Variable L : lib.
Hypothesis library : lib_ok L.
Variable X : @outside NumF.
Hypothesis functions : double_functions X.
(** the file system, the configuration file and the command line *)
Variable read : text -> text.
Variable yaml : @value NumF.
Variable cl : command_line.
Variable i : @instance NumF.
Variable d : nat -> nat -> Z.
Variable q : nat -> Z.
Variable cap : Z.
Variable f : @fields NumF.
Local Notation file := (read (cl_instance cl)).
Local Notation size := (length (in_nodes i)).
Hypothesis described : instance_file (fun w x => x_parse_f64 X w = Some x) i file.
Hypothesis readable : forall l, In l (lines_of file) -> x_utf8 X l = true.
Hypothesis rounded : rounded_instance i d q cap.
Hypothesis accepted : main_config yaml cl = Ok f.
Hypothesis granularity : exists z, has f (txt "local_search_granularity") (VInt z) /\ (1 <= z <= Z.of_nat (Nat.min 200 (size - 2)))%Z.
Hypothesis whole : not_decomposed f size.

Local Lemma start : exists pa, parse (x_parse_f64 X) (x_utf8 X) file = Ok pa /\
  match context_new X pa f with
  | Ok x => startedF X i d q cap f x
  | Err e => exists name, name <> txt "bks" /\ has f name (VFloat None)
  end.
Proof.
  exists (parsedF i). destruct (main_facts yaml cl f accepted) as (HC & _ & _ & HR). split.
  - pose proof (ri_nodes _ _ _ _ rounded). apply (C43_read_back NumF); [exact described|lia|exact readable].
  - exact (context_okF X functions i d q cap rounded (weights_size X i file described (ri_nodes _ _ _ _ rounded)) f HC HR granularity).
Qed.

Local Lemma outcome x w : startedF X i d q cap f x -> run_solver L X f x = Ok w ->
  exists li g, ga_reached L (x_problem x) (x_config x) (x_env X) li (dm_max (x_dist x)) (x_fuel X) (x_world x) g w /\ ga_st g = Terminated.
Proof.
  intros SD. unfold run_solver. destruct (main_facts yaml cl f accepted) as (HC & _ & _ & _).
  destruct whole as (z & HZ & BZ). rewrite (u64_has f HC _ _ HZ). cbn [rbind].
  destruct (u64_ok f HC "decomposed_problem_min_size" eq_refl) as (ms & ->). cbn [rbind].
  destruct (u64_ok f HC "log_interval" eq_refl) as (li & ->). cbn [rbind].
  rewrite (sf_dim _ _ _ _ _ _ _ SD). destruct (Z.to_nat z <=? size - 1) eqn:EL; [apply Nat.leb_le in EL; lia|].
  destruct (ga_new (x_problem x) (x_config x) (cm_store (x_corr x)) (x_ls_hash X) (x_rr_hash X) (x_world x)) as [g w1] eqn:EN.
  destruct (solver_run L _ _ _ _ _ _ _ g w1) as [[g2 w2]|e] eqn:ER; [|discriminate]. cbn [rbind]. intro H. injection H as <-.
  pose proof (gr_new L _ _ (x_env X) li (dm_max (x_dist x)) (x_fuel X) _ _ _ _ _ _ (sf_near _ _ _ _ _ _ _ SD) (sf_rows _ _ _ _ _ _ _ SD) EN) as R0.
  pose proof (run_reached L _ _ _ _ _ _ _ _ _ _ _ _ R0 ER) as R.
  exists li, g2. split; [exact R|]. exact (C33_run L _ _ _ _ _ _ _ _ _ _ _ ER).
Qed.

(** What the program leaves behind when it computes in doubles and the demands are integers: a file
    at the path of [-s] (or output.sol) that is empty or holds the text of one solution, in which
    every customer is in exactly one of the numbered routes, no route carries more than the
    capacity, and the number in the line "Cost" is exactly the length of the routes in the
    distances of the instance, each the integer to which the computed one rounds.  The file is empty only if
    the run, which ended in the world [w], recorded nothing; else every cost that it recorded is an
    integer that is not smaller. *)
Theorem C65_solution_file out : program L X read yaml cl = Ok out ->
  exists pa x li g w content, parse (x_parse_f64 X) (x_utf8 X) file = Ok pa /\ context_new X pa f = Ok x /\
    ga_reached L (x_problem x) (x_config x) (x_env X) li (dm_max (x_dist x)) (x_fuel X) (x_world x) g w /\ ga_st g = Terminated /\
    out = Some (output_path cl, content) /\
    ((h_entries (w_hist w) = [] /\ content = []) \/
     exists routes cost solution, content = solution ++ [LF] /\ solution_text 1 routes cost solution /\
       serves_all_once size routes /\ (forall r, In r routes -> r <> []) /\
       (forall r, In r routes -> (zload q r <= cap)%Z) /\
       Z.of_nat cost = zsum (map (ztour d) routes) /\
       forall e, In e (h_entries (w_hist w)) -> exists (v : dbl) z, he_cost e = Some (v : @F NumF) /\ is_int v z /\ (Z.of_nat cost <= z)%Z).
Proof.
  unfold program. intro H. rewrite accepted in H. cbn [rbind] in H.
  destruct (main_facts yaml cl f accepted) as (HC & HI & HS & _).
  rewrite (string_has f HC _ _ HI) in H. cbn [rbind] in H. destruct start as (pa & EP & HX). rewrite EP in H. cbn [rbind] in H.
  destruct (context_new X pa f) as [x|e] eqn:EX; [|discriminate H]. cbn [rbind] in H.
  destruct (run_solver L X f x) as [w|e] eqn:ER; [|discriminate H]. cbn [rbind] in H.
  rewrite (opt_string_has f HC _ _ HS) in H. cbn [rbind] in H. injection H as <-.
  destruct (outcome x w HX ER) as (li & g & R & TM).
  exists pa, x, li, g, w. eexists. split; [exact EP|]. split; [exact EX|]. split; [exact R|]. split; [exact TM|]. split; [reflexivity|].
  pose proof (sf_ok _ _ _ _ _ _ _ HX) as II. pose proof (sf_dim _ _ _ _ _ _ _ HX) as DIM.
  destruct (C58_float_run L _ _ d q cap _ _ _ _ _ _ _ library II (sf_set _ _ _ _ _ _ _ HX) R) as (is & RE & FA & _ & RP).
  destruct (history_file _ _ d q cap _ _ II RE FA RP) as [H|H]; [now left|right]. rewrite DIM in H. exact H.
Qed.
End Program.

(** With integral coordinates, or a matrix, each of these distances is the integer nearest to the
    true one. *)
Theorem C59_solution_file_doubles (L : lib) (X : @outside NumF) (read : text -> text) (yaml : @value NumF) (cl : command_line)
    (i : @instance NumF) (d : nat -> nat -> Z) (q : nat -> Z) (cap : Z) (f : @fields NumF) :
  let file := read (cl_instance cl) in let size := length (in_nodes i) in
  lib_ok L -> double_functions X ->
  instance_file (fun w x => x_parse_f64 X w = Some x) i file -> (forall l, In l (lines_of file) -> x_utf8 X l = true) ->
  integer_instance i d q cap -> main_config yaml cl = Ok f ->
  (exists z, has f (txt "local_search_granularity") (VInt z) /\ (1 <= z <= Z.of_nat (Nat.min 200 (size - 2)))%Z) ->
  not_decomposed f size -> forall out, program L X read yaml cl = Ok out ->
  exists pa x li g w content, parse (x_parse_f64 X) (x_utf8 X) file = Ok pa /\ context_new X pa f = Ok x /\
    ga_reached L (x_problem x) (x_config x) (x_env X) li (dm_max (x_dist x)) (x_fuel X) (x_world x) g w /\ ga_st g = Terminated /\
    out = Some (output_path cl, content) /\
    ((h_entries (w_hist w) = [] /\ content = []) \/
     exists routes cost solution, content = solution ++ [LF] /\ solution_text 1 routes cost solution /\
       serves_all_once size routes /\ (forall r, In r routes -> r <> []) /\
       (forall r, In r routes -> (zload q r <= cap)%Z) /\
       Z.of_nat cost = zsum (map (ztour d) routes) /\
       forall e, In e (h_entries (w_hist w)) -> exists (v : dbl) z, he_cost e = Some (v : @F NumF) /\ is_int v z /\ (Z.of_nat cost <= z)%Z).
Proof.
  intros file size library functions described readable integers accepted granularity whole out.
  apply (C65_solution_file L library X functions read yaml cl i d q cap f); auto.
  apply integer_rounded; [|exact integers]. exact (weights_size X i file described (ni_nodes _ _ _ _ integers)).
Qed.
Print Assumptions C65_solution_file.
Print Assumptions C59_solution_file_doubles.

(** ** Example: the file of [pr_run] (P_Program), in doubles *)
Definition pf_parse (w : text) : option (@F NumF) :=
  match w with [] => None | _ => option_map (fun n => d_of_Z (Z.of_N n)) (digits_value w 0) end.
Definition pf_outside (fuel : nat) : @outside NumF := @mkOutside NumF pf_parse any_text d_sqrt NumFloat.d_round
  (fun l : list (nat * dbl) => isort (fun a b => Bleb (snd a) (snd b)) l)
  (fun y x => ddiv y (dadd (d_of_Z 100) x)) (fun x => dsub x (d_of_Z 1)) unit_double (fun _ _ => 0%Z)
  (@mkEnv NumF (fun x => dadd (d_of_Z 1) (ddiv x (d_of_Z 2))) (fun k => d_of_Z (Z.of_nat k)))
  (fun seed => match seed with Some s => rr_stream (N.of_nat s * 10 ^ 16) 307058226201110381 | None => rr_stream 5 11 end)
  (rr_stream 3 5) (rr_stream 7 1) (fun _ => (rr_stream 1 2, rr_stream 3 4, rr_stream 5 6)) fuel.
Definition pf_yaml : @value NumF := VMap
  (let key (s : string) (v : @value NumF) : @value NumF * @value NumF := (@VString NumF (txt s), v) in
   [key "deterministic" (VBool true); key "seed" (VInt 7); key "max_iterations" (VInt 4);
    key "min_population_size" (VInt 2); key "initial_individuals" (VInt 3); key "population_lambda" (VInt 2);
    key "num_elites" (VInt 1); key "num_diversity_closest" (VInt 2); key "local_search_granularity" (VInt 3);
    key "penalty_update_interval" (VInt 2); key "average_ruin_cardinality" (VInt 3); key "max_ruin_string_length" (VInt 3);
    key "rr_gamma" (VInt 1)])%string.
Definition pf_instance : @instance NumF :=
  let n (x y q : Z) : @F NumF * @F NumF * @F NumF := (d_of_Z x, d_of_Z y, d_of_Z q) in
  @mkInstance NumF (d_of_Z 10) [n 0 0 0; n 3 4 4; n 6 8 5; n 7 0 3; n 0 9 6; n 2 2 2]%Z None.
Definition pf_x (a : nat) : Z := nth a [0; 3; 6; 7; 0; 2]%Z 0%Z.
Definition pf_y (a : nat) : Z := nth a [0; 4; 8; 0; 9; 2]%Z 0%Z.
Definition pf_q (a : nat) : Z := nth a [0; 4; 5; 3; 6; 2]%Z 0%Z.
Definition pf_square (a b : nat) : Z := ((pf_x b - pf_x a) * (pf_x b - pf_x a) + (pf_y b - pf_y a) * (pf_y b - pf_y a))%Z.
Definition pf_d (a b : nat) : Z := ((Z.sqrt (4 * pf_square a b) + 1) / 2)%Z.

Example pf_run : pr_view (@program NumF rust_lib (pf_outside 60) pr_read pf_yaml pr_cl) = Some ("a.sol", "Route #1: 3 2 5
Route #2: 1 4
Cost 45
")%string.
Proof. vm_compute. reflexivity. Qed.

(** The hypotheses hold of it. *)
Fact pf_functions fuel : double_functions (pf_outside fuel).
Proof.
  constructor; cbn [pf_outside x_sqrt x_round x_sort x_real]; try reflexivity; [|intro x; apply unit_double_ok].
  intros l NN. split; [apply isort_perm|]. apply (isort_sorted _ (fun a => is_nan (snd a) = false)); [| |exact NN].
  - intros [n a] [m b] A B. cbn [snd] in *. destruct (is_finite a) eqn:FA, (is_finite b) eqn:FB.
    1: { rewrite !Bleb_correct by auto. destruct (Rle_lt_dec (B2R a) (B2R b)); [left|right]; apply Rle_bool_true; lra. }
    all: destruct a as [|[]| |], b as [|[]| |[]]; try discriminate; auto.
  - intros [n a] [m b] [k c] A B C. cbn [snd] in *. destruct (is_finite a) eqn:FA, (is_finite b) eqn:FB, (is_finite c) eqn:FC.
    1: { rewrite !Bleb_correct by auto. intros H1 H2. apply Rle_bool_true.
         revert H1 H2. case Rle_bool_spec; [|discriminate]. case Rle_bool_spec; [|discriminate]. lra. }
    all: destruct a as [|[]| |[]], b as [|[]| |[]], c as [|[]| |[]]; try discriminate; auto.
Qed.

Fact pf_described : instance_file (fun w x => pf_parse w = Some x) pf_instance pr_file.
Proof.
  exists pr_parts, pr_lines. split; [|split].
  - exists (txt "6"), (txt "10"), (txt "EUC_2D"), [], [], [], [], [].
    exists [[txt "1"; txt "0"; txt "0"]; [txt "2"; txt "3"; txt "4"]; [txt "3"; txt "6"; txt "8"];
       [txt "4"; txt "7"; txt "0"]; [txt "5"; txt "0"; txt "9"]; [txt "6"; txt "2"; txt "2"]],
      [[txt "1"; txt "0"]; [txt "2"; txt "4"]; [txt "3"; txt "5"]; [txt "4"; txt "3"]; [txt "5"; txt "6"]; [txt "6"; txt "2"]].
    exists [], [Other [txt "NAME"; txt "program"]; Other [txt "TYPE"; txt "CVRP"]; Other [txt "DEPOT_SECTION"]; Other [txt "1"]; Other [txt "-1"]; Other [txt "EOF"]].
    split; [|split; [|split; [reflexivity|split; [reflexivity|]]]].
    + unfold pr_parts. apply NoDup_Permutation.
      * repeat constructor; cbn; intuition discriminate.
      * repeat constructor; cbn; intuition discriminate.
      * intro x. cbn [app In]. tauto.
    + apply (dec_digit 6). split; [lia|reflexivity].
    + assert (PL : forall rows, forallb (fun r => match r with [] => true | w :: _ => negb (existsb (text_eqb w) (keys pf_instance)) end) rows = true ->
        Forall (plain pf_instance) rows).
      { intros rows H. rewrite forallb_forall in H. apply Forall_forall. intros r Hr. specialize (H r Hr). unfold plain. destruct r as [|w r]; auto.
        intro I. apply negb_true_iff in H. assert (X : existsb (text_eqb w) (keys pf_instance) = true).
        { apply existsb_exists. exists w. split; auto. apply text_eqb_refl. } congruence. }
      split; [|split; [|split; [|split; [|split]]]].
      * repeat (apply Forall2_cons; [eexists _, _, _, _; repeat split; reflexivity|]). apply Forall2_nil.
      * apply PL. reflexivity.
      * repeat (apply Forall2_cons; [eexists _, _, _; repeat split; reflexivity|]). apply Forall2_nil.
      * apply PL. reflexivity.
      * cbn [weight_parts pf_instance in_weights]. split; reflexivity.
      * apply Forall_forall. intros x Hx.
        assert (exists line, x = Other line) as (line & ->) by (cbn in Hx; intuition subst; eauto).
        exists line. split; auto. revert Hx. cbn [In]. intuition (try discriminate);
          match goal with H : Other _ = Other _ |- _ => injection H as <- end; cbn; intuition discriminate.
  - change (concat (map part_lines pr_parts)) with (map words pr_lines).
    assert (F : forall ls, (forall l, In l ls -> line_text (words l) l) -> Forall2 line_text (map words ls) ls).
    { induction ls as [|l ls IH]; intro H; cbn [map]; constructor; [apply H; now left|apply IH; intros; apply H; now right]. }
    apply F. intros l Hl.
    assert (X : forallb (fun l => lay (words l) l) pr_lines = true) by (vm_compute; reflexivity).
    rewrite forallb_forall in X. apply lay_sound. now apply X.
  - apply join_text. discriminate.
Qed.

Lemma nearest_sqrt n z : (0 <= n)%Z -> (0 <= z)%Z -> (z = 0 \/ (2 * z - 1) * (2 * z - 1) <= 4 * n)%Z -> (4 * n < (2 * z + 1) * (2 * z + 1))%Z ->
  nearest (R_sqrt.sqrt (IZR n)) z.
Proof.
  intros N0 Z0 A B. assert (P : (0 <= IZR n)%R) by now apply IZR_le. pose proof (sqrt_pos (IZR n)) as S0. pose proof (sqrt_sqrt _ P) as S2.
  set (s := R_sqrt.sqrt (IZR n)) in *. clearbody s. apply IZR_lt in B. rewrite !mult_IZR, plus_IZR, mult_IZR in B.
  assert (Q : (0 <= IZR z)%R) by now apply IZR_le. split; [|nra].
  destruct A as [->|A]; [lra|]. destruct (Z.eq_dec z 0) as [->|NZ]; [lra|]. assert (1 <= IZR z)%R by (apply IZR_le; lia).
  apply IZR_le in A. rewrite !mult_IZR, minus_IZR, mult_IZR in A. nra.
Qed.

Local Lemma pf_node a : nth a (in_nodes pf_instance) (d_of_Z 0, d_of_Z 0, d_of_Z 0) = (d_of_Z (pf_x a), d_of_Z (pf_y a), d_of_Z (pf_q a)).
Proof. do 6 (destruct a as [|a]; [reflexivity|]). destruct a; reflexivity. Qed.
Local Lemma pf_small a : (0 <= pf_x a <= 9 /\ 0 <= pf_y a <= 9 /\ 0 <= pf_q a <= 6)%Z.
Proof. do 6 (destruct a as [|a]; [vm_compute; intuition discriminate|]). destruct a; vm_compute; intuition discriminate. Qed.
Local Lemma pf_ints z : (0 <= z <= 9)%Z -> is_int (d_of_Z z) z.
Proof. intro H. apply int_of_Z. unfold exact_bound. lia. Qed.

Fact pf_integers : integer_instance pf_instance pf_d pf_q 10.
Proof.
  change (length (in_nodes pf_instance)) with 6.
  assert (K : forall P : nat -> nat -> bool, forallb (fun a => forallb (P a) (seq 0 6)) (seq 0 6) = true ->
            forall a b, a < 6 -> b < 6 -> P a b = true).
  { intros P H a b HA HB. rewrite forallb_forall in H. specialize (H a ltac:(apply in_seq; lia)). rewrite forallb_forall in H.
    apply H. apply in_seq. lia. }
  constructor.
  - change (length (in_nodes pf_instance)) with 6. lia.
  - intros _ a _. unfold coord. rewrite pf_node. cbn [fst snd]. destruct (pf_small a) as (A & B & _).
    exists (pf_x a), (pf_y a). split; [now apply pf_ints|]. split; [now apply pf_ints|]. split; lia.
  - discriminate.
  - change (length (in_nodes pf_instance)) with 6. intros a b HA HB.
    assert (KK := K (fun a b => if a =? b then Z.eqb (pf_d a b) 0 else
      Z.leb 0 (pf_d a b) && (Z.eqb (pf_d a b) 0 || Z.leb ((2 * pf_d a b - 1) * (2 * pf_d a b - 1)) (4 * pf_square a b)) &&
      Z.ltb (4 * pf_square a b) ((2 * pf_d a b + 1) * (2 * pf_d a b + 1)))%bool ltac:(vm_compute; reflexivity) a b HA HB). cbv beta in KK.
    destruct (a =? b); [now apply Z.eqb_eq|].
    apply andb_prop in KK as [KK K3]. apply andb_prop in KK as [K1 K2]. apply Z.ltb_lt in K3. apply Z.leb_le in K1.
    assert (ET : true_distance pf_instance a b = R_sqrt.sqrt (IZR (pf_square a b))).
    { unfold true_distance. change (in_weights pf_instance) with (@None (list (list dbl))). unfold coord. rewrite !pf_node. cbn [fst snd].
      destruct (pf_small a) as (A1 & A2 & _), (pf_small b) as (B1 & B2 & _).
      destruct (pf_ints _ A1) as [_ ->], (pf_ints _ A2) as [_ ->], (pf_ints _ B1) as [_ ->], (pf_ints _ B2) as [_ ->].
      f_equal. unfold pf_square. rewrite plus_IZR, !mult_IZR, !minus_IZR. ring. }
    rewrite ET. apply nearest_sqrt; [unfold pf_square; apply Z.add_nonneg_nonneg; apply Z.square_nonneg|exact K1| |exact K3].
    apply orb_prop in K2 as [K2|K2]; [left; now apply Z.eqb_eq|right; now apply Z.leb_le].
  - intros a _. unfold demand. rewrite pf_node. cbn [snd]. destruct (pf_small a) as (_ & _ & A). split; [apply pf_ints|]; lia.
  - split; [|unfold exact_bound; lia]. apply int_of_Z. unfold exact_bound. lia.
  - exists 14%Z. change (length (in_nodes pf_instance)) with 6. split; [lia|]. split; [|reflexivity]. intros a b HA HB.
    assert (KK := K (fun a b => Z.leb (pf_d a b) 14) ltac:(vm_compute; reflexivity) a b HA HB). now apply Z.leb_le.
  - reflexivity.
Qed.

Fact pf_rounded : rounded_instance pf_instance pf_d pf_q 10.
Proof. apply integer_rounded; [discriminate|exact pf_integers]. Qed.

Fact pf_accepted : exists f, main_config pf_yaml pr_cl = Ok f.
Proof.
  destruct (main_config pf_yaml pr_cl) as [f|e] eqn:E; [eauto|]. exfalso.
  assert (X : match main_config pf_yaml pr_cl with Ok _ => true | Err _ => false end = true) by (vm_compute; reflexivity).
  rewrite E in X. discriminate X.
Qed.
Local Lemma pf_int f : main_config pf_yaml pr_cl = Ok f -> forall name z,
  match (match main_config pf_yaml pr_cl with Ok f => lookup (txt name) f | Err _ => None end) with Some (VInt y) => Z.eqb y z | _ => false end = true ->
  has f (txt name) (VInt z).
Proof.
  intros accepted name z. rewrite accepted. intro H. destruct (main_facts _ _ f accepted) as (HC & _). apply (lookup_has f); [exact (conf_nodup f HC)|].
  destruct (lookup (txt name) f) as [[| |y| | | |]|]; try discriminate H. apply Z.eqb_eq in H. now subst.
Qed.

(** So the theorem applies to it, whatever the bound on the loops. *)
Example C59_applies fuel out : @program NumF rust_lib (pf_outside fuel) pr_read pf_yaml pr_cl = Ok out ->
  exists content, out = Some (txt "a.sol", content) /\
    (content = [] \/
     exists routes cost solution, content = solution ++ [LF] /\ solution_text 1 routes cost solution /\
       serves_all_once 6 routes /\ (forall r, In r routes -> r <> []) /\
       (forall r, In r routes -> (zload pf_q r <= 10)%Z) /\ Z.of_nat cost = zsum (map (ztour pf_d) routes)).
Proof.
  intro H. destruct pf_accepted as (f & EF).
  assert (U : forall l, In l (lines_of (pr_read (cl_instance pr_cl))) -> x_utf8 (pf_outside fuel) l = true) by reflexivity.
  assert (G : exists z, has f (txt "local_search_granularity") (VInt z) /\ (1 <= z <= Z.of_nat (Nat.min 200 (length (in_nodes pf_instance) - 2)))%Z).
  { exists 3%Z. split; [apply (pf_int f EF); vm_compute; reflexivity|cbn; lia]. }
  assert (W : not_decomposed f (length (in_nodes pf_instance))).
  { exists 3000%Z. split; [apply (pf_int f EF); vm_compute; reflexivity|cbn; lia]. }
  destruct (C59_solution_file_doubles rust_lib (pf_outside fuel) pr_read pf_yaml pr_cl pf_instance pf_d pf_q 10 f
    rust_lib_ok (pf_functions fuel) pf_described U pf_integers EF G W out H) as (pa & x & li & g & w & content & _ & _ & _ & _ & EO & R).
  exists content. split; [exact EO|]. destruct R as [[_ R]|(routes & cost & sol & R1 & R2 & R3 & R4 & R5 & R6 & _)]; [now left|right].
  exists routes, cost, sol. auto 10.
Qed.
