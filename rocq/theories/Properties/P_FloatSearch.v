(** The local search in double precision (C66): it never makes a solution worse and ends while the
    numbers are of moderate size, and may go on for ever when they are larger. *)
From Coq Require Import Ascii String List Arith NArith ZArith Bool Lia Reals Lra Permutation.
From Flocq Require Import Core BinarySingleNaN.
From Verif.Model Require Import Num NumFloat Prelude Evaluate Individual Config Crossover Split Sector Random Matrix LinkedList Population
  LocalSearch World Schedule RuinRecreate Genetic Decomposition Text Parser Display ConfigFile Main.
From Verif.Spec Require Import Solution Library Floats LocalSearch RuinRecreate Genetic Instance Output ConfigFile Program FloatProgram FloatSearch.
From Verif.Proofs Require Import Lists EvalFacts EvalThms SplitStruct TextFacts ParserFacts FloatFacts FloatRun FloatFine FloatDelta FloatLs FloatHang
  LsSearch LsRun LsHistory RustLib.
From Verif.Properties Require Import P_RuinRecreate P_Genetic P_Files P_Config P_Program P_FloatRun P_FloatProgram P_FloatFine.
Import ListNotations.
Open Scope nat_scope.

(** If the run returns, it returns a solution of the same customers whose true cost, without any
    rounding, is lower by at least 5 * 10^-7 for each move it carried out. *)
Theorem C66_never_worse (p : @problem NumF) (c : @config NumF) d q cap (pen epen : dbl) fuel (s : @lsearch NumF)
    (i : @individual NumF) r s' i' r' :
  integral_instance p c d q cap -> moderate p d q cap pen ->
  usable p c s -> length (i_pheno i) = c_num_vehicles c -> serves_all_once (p_dim p) (i_pheno i) ->
  @ls_run NumF p c pen fuel epen s i r = Ok (s', i', r') ->
  serves_all_once (p_dim p) (i_pheno i') /\
  (true_cost d q cap (B2R pen) (i_pheno i') + IZR (s_count s') * / 2000000 <= true_cost d q cap (B2R pen) (i_pheno i))%R /\
  (0 <= s_count s')%Z.
Proof.
  intros II MO U HL SV E. pose proof (ii_dim _ _ _ _ _ II) as D2. pose proof (ii_gran _ _ _ _ _ II) as G1.
  pose proof (usable_ready p c zero_not_lt_F s ltac:(lia) ltac:(lia) U) as R.
  destruct (ls_run_partial_ok p c pen zero_not_lt_F ltac:(lia) ltac:(lia) _ _ _ _ _ _ _ _ R HL SV E)
    as (_ & _ & rs & n & lc & T & K & (P & P1 & P2 & P3 & P4 & _) & _).
  split; [exact P2|].
  destruct (ls_never_worseF p c d q cap pen II MO _ _ _ _ _ _ _ _ R HL SV E) as (k & -> & L).
  split; [|lia]. rewrite <- INR_IZR_INZ. exact L.
Qed.
Print Assumptions C66_never_worse.

(** The run returns as soon as the allowed number of passes exceeds the true cost by 5 * 10^-7. *)
Theorem C66_terminates (p : @problem NumF) (c : @config NumF) d q cap (pen epen : dbl) fuel (s : @lsearch NumF)
    (i : @individual NumF) r :
  integral_instance p c d q cap -> moderate p d q cap pen -> drawable p ->
  usable p c s -> length (i_pheno i) = c_num_vehicles c -> serves_all_once (p_dim p) (i_pheno i) ->
  (2000000 * true_cost d q cap (B2R pen) (i_pheno i) < INR fuel)%R ->
  exists s' i' r', @ls_run NumF p c pen fuel epen s i r = Ok (s', i', r').
Proof.
  intros II MO DR U HL SV LF. pose proof (ii_dim _ _ _ _ _ II) as D2. pose proof (ii_gran _ _ _ _ _ II) as G1.
  pose proof (usable_ready p c zero_not_lt_F s ltac:(lia) ltac:(lia) U) as R.
  destruct (ls_terminatesF p c d q cap pen II MO DR fuel epen s i r R HL SV) as (s' & i' & r' & E & _); [|eauto].
  unfold sure_gain. lra.
Qed.
Print Assumptions C66_terminates.

(** With larger numbers it is false.  Two customers, 1900000000 from each other and from the depot,
    whose demands exceed the capacity together, and the penalty such an instance starts with: no
    solution is without a move that seems to lower the cost, because the new cost is computed from
    two rounded sums and twice the old cost from one.  So the search does not return, whatever the
    number of passes allowed, the random numbers and the solution it starts from. *)
Theorem C66_endless (p : @problem NumF) (c : @config NumF) (epen : dbl) fuel (s : @lsearch NumF) (i : @individual NumF) r :
  two_far p -> c_relocate_single c = true -> 0 < c_granularity c ->
  usable p c s -> length (i_pheno i) = c_num_vehicles c -> serves_all_once (p_dim p) (i_pheno i) ->
  @ls_run NumF p c far_penalty fuel epen s i r = Err EFuel.
Proof.
  intros TF RE GP U HL SV. assert (D : 0 < p_dim p) by (rewrite (tf_dim _ TF); lia). rewrite (tf_dim _ TF) in SV.
  apply ls_hangs; auto. exact (usable_ready p c zero_not_lt_F s D GP U).
Qed.
Print Assumptions C66_endless.

(** ** Cases *)
Local Lemma fs_moderate : moderate fr_p fr_d fr_q 8 (d_of_Z 2).
Proof.
  destruct (int_of_Z 2) as [PF PE]; [unfold exact_bound; lia|].
  constructor.
  - reflexivity.
  - intros a b _ _. unfold fr_d. lia.
  - split; [exact PF|]. rewrite PE. lra.
  - vm_compute. discriminate.
  - exists 9%Z. split.
    + intros a b HA HB. cbn [p_dim fr_p] in *. unfold fr_d.
      assert (X : forall k, (k < 6)%nat -> (0 <= fr_x k <= 9)%Z) by (intros k Hk; do 6 (destruct k as [|k]; [cbn; lia|]); lia).
      pose proof (X a HA). pose proof (X b HB). lia.
    + rewrite PE. change (zload fr_q (seq 1 (p_dim fr_p - 1))) with 15%Z. change (Z.of_nat (p_dim fr_p)) with 6%Z.
      change (Z.max 0 (15 - 8)) with 7%Z. change ((6 + 8) * 9)%Z with 126%Z. lra.
Qed.
Local Lemma fs_usable hash : usable fr_p fr_c (ls_new fr_p rr_corr hash).
Proof.
  apply us_new. split; [cbn; lia|]. split; [reflexivity|]. intros u v Hu I. cbn in Hu.
  do 6 (destruct u as [|u]; [vm_compute in I; cbn [p_dim fr_p]; lia|]). lia.
Qed.
Definition fs_start : @individual NumF := mkInd 0 [1; 4; 2; 3; 5] [[1; 4]; [2; 3]; [5]; []] None se_new.
Definition fs_view (r : res (@lsearch NumF * @individual NumF * rng)) : option (Z * list (list nat)) :=
  match r with Ok (s, i, _) => Some (s_count s, i_pheno i) | Err _ => None end.
(** Four moves from a solution of length 18 + 10 + 16 = 44 to one of length 10 + 18 = 28. *)
Example C66_run : fs_view (@ls_run NumF fr_p fr_c (d_of_Z 2) 100 (d_of_Z 2) (ls_new fr_p rr_corr (rr_stream 3 5)) fs_start (rr_stream 3 5)) =
  Some (4%Z, [[2; 1]; [5; 4; 3]; []; []]).
Proof. vm_compute. reflexivity. Qed.
Example C66_applicable : integral_instance fr_p fr_c fr_d fr_q 8 /\ moderate fr_p fr_d fr_q 8 (d_of_Z 2) /\ drawable fr_p /\
  usable fr_p fr_c (ls_new fr_p rr_corr (rr_stream 3 5)) /\ length (i_pheno fs_start) = c_num_vehicles fr_c /\
  serves_all_once (p_dim fr_p) (i_pheno fs_start) /\
  true_cost fr_d fr_q 8 (B2R (d_of_Z 2)) (i_pheno fs_start) = 44%R /\
  true_cost fr_d fr_q 8 (B2R (d_of_Z 2)) [[2; 1]; [5; 4; 3]; []; []] = 28%R.
Proof.
  split; [exact fr_instance|]. split; [exact fs_moderate|]. split; [exact fr_drawable|]. split; [apply fs_usable|].
  split; [reflexivity|]. split.
  - apply NoDup_Permutation; [repeat constructor; cbn; lia|apply seq_NoDup|]. intro x. cbn. lia.
  - split; unfold true_cost, true_route_cost, fs_start; cbn [i_pheno map rsum fold_right];
      repeat match goal with |- context [IZR (ztour fr_d ?r)] => let v := eval vm_compute in (ztour fr_d r) in change (ztour fr_d r) with v end;
      repeat match goal with |- context [Z.max 0 ?r] => let v := eval vm_compute in (Z.max 0 r) in change (Z.max 0 r) with v end; unfold rsum; cbn [fold_right]; lra.
Qed.

(** The instance on which the search does not end meets every requirement but the one on sizes. *)
Definition fe_d (a b : nat) : Z := if a =? b then 0 else 1900000000.
Definition fe_q (a : nat) : Z := if a =? 0 then 0 else 700000.
Definition fe_p : @problem NumF := @mkProblem NumF 3 (fun a b => d_of_Z (fe_d a b)) (fun a => d_of_Z (fe_q a))
  (fun i => (d_of_Z (fr_x i), d_of_Z 0)) (d_of_Z 1000000) (fun i => filter (fun j => negb (Nat.eqb i j)) [1; 2])
  (fun _ _ => d_of_Z 0) unit_double (fun x => dsub x (d_of_Z 1)) Z.of_nat.
Definition fe_c : @config NumF := @mkConfig NumF (Some 6%nat) 3 2 60 2 3 2 1 2 (d_lit 2 10) 2 (d_lit 5 10) (d_lit 15 10) true
  true 1 true true true true true true true true true true
  2 (d_lit 12 10) (d_lit 85 100) 3 3 true (d_lit 1 1) (d_lit 1 1) (d_lit 10 1) false 1 (d_lit 3 1) (d_lit 50 1) false (d_lit 2 100).
Local Lemma fe_instance : integral_instance fe_p fe_c fe_d fe_q 1000000.
Proof.
  assert (B : forall z, (0 <= z <= 1900000000)%Z -> is_int (d_of_Z z) z /\ (0 <= z)%Z) by (intros z H; split; [apply int_of_Z; unfold exact_bound; lia|lia]).
  constructor.
  - constructor.
    + intros a b _ _. cbn [p_dist fe_p]. apply B. unfold fe_d. destruct (a =? b); lia.
    + intros a _. cbn [p_demand fe_p]. apply B. unfold fe_q. destruct (a =? 0); lia.
    + cbn [p_cap fe_p]. split; [apply B; lia|unfold exact_bound; lia].
  - cbn. lia.
  - split; [cbn; lia|]. change (@vehicle_lower_bound NumF fe_p <= 2). apply Nat.leb_le. vm_compute. reflexivity.
  - reflexivity.
  - exists 1900000000%Z. split; [lia|]. split; [|reflexivity]. intros a b _ _. unfold fe_d. destruct (a =? b); lia.
  - reflexivity.
  - intro x. apply unit_double_ok.
  - cbn. lia.
Qed.
Theorem C66_terminates_refuted : exists (p : @problem NumF) (c : @config NumF) d q cap (pen : dbl) (s : @lsearch NumF) (i : @individual NumF),
  integral_instance p c d q cap /\ drawable p /\ (forall a b, d a b = d b a) /\ q 0 = 0%Z /\ (0 < B2R pen < 10000)%R /\
  usable p c s /\ length (i_pheno i) = c_num_vehicles c /\ serves_all_once (p_dim p) (i_pheno i) /\
  forall epen fuel r, @ls_run NumF p c pen fuel epen s i r = Err EFuel.
Proof.
  exists fe_p, fe_c, fe_d, fe_q, 1000000%Z, far_penalty, (ls_new fe_p (mkMatrix 3 1 [1; 2; 1]) (rr_stream 3 5)), (mkInd 0 [1; 2] [[1]; [2]] None se_new).
  assert (TF : two_far fe_p).
  { constructor; [reflexivity| | |reflexivity].
    - intros a b _ _. cbn [p_dist fe_p]. unfold fe_d. now destruct (a =? b).
    - intros a _. cbn [p_demand fe_p]. unfold fe_q. now destruct (a =? 0). }
  assert (U : usable fe_p fe_c (ls_new fe_p (mkMatrix 3 1 [1; 2; 1]) (rr_stream 3 5))).
  { apply us_new. split; [cbn; lia|]. split; [reflexivity|]. intros u v Hu I. cbn in Hu.
    do 3 (destruct u as [|u]; [vm_compute in I; cbn [p_dim fe_p]; lia|]). lia. }
  assert (S : serves_all_once 3 [[1]; [2]]) by apply Permutation_refl.
  split; [exact fe_instance|]. split.
  { split; [|intros y x _ _; reflexivity]. intros a _. cbn [p_coord fe_p fst snd].
    assert (X : (0 <= fr_x a < 100)%Z) by (unfold fr_x; do 6 (destruct a as [|a]; [cbn; lia|]); destruct a; cbn; lia).
    destruct (P_FloatFine.small_coordinate _ X), (P_FloatFine.small_coordinate 0 ltac:(lia)). auto. }
  split; [intros a b; unfold fe_d; now rewrite Nat.eqb_sym|]. split; [reflexivity|]. split.
  { assert (E : B2SF far_penalty = SpecFloat.S754_finite false 5968777407926857 (-41)) by (vm_compute; reflexivity).
    rewrite <- SF2R_B2SF, E. unfold SF2R, F2R. cbn [Fnum Fexp cond_Zopp]. change (bpow radix2 (-41)) with (/ 2199023255552)%R. lra. }
  split; [exact U|]. split; [reflexivity|]. split; [exact S|]. intros epen fuel r.
  apply C66_endless; [exact TF|reflexivity|cbn; lia|exact U|reflexivity|exact S].
Qed.
Print Assumptions C66_terminates_refuted.

(** ** The instance as a file *)
Definition pt_lines : list text :=
  [txt "NAME : far"; txt "TYPE : CVRP"; txt "DIMENSION : 3"; txt "EDGE_WEIGHT_TYPE : EUC_2D"; txt "CAPACITY : 1000000";
   txt "NODE_COORD_SECTION"; txt "1 0 950000000"; txt "2 1645448267 0"; txt "3 1645448267 1900000000";
   txt "DEMAND_SECTION"; txt "1 0"; txt "2 700000"; txt "3 700000"; txt "DEPOT_SECTION"; txt "1"; txt "-1"; txt "EOF"].
Definition pt_read (path : text) : text := if text_eqb path (txt "a.vrp") then join true pt_lines else [].
(** Default settings but for the granularity, which has to be less than the number of customers,
    and the choice whether SWAP* is used. *)
Definition pt_yaml (star : bool) : @value NumF :=
  VMap [(@VString NumF (txt "local_search_granularity"), VInt 1); (@VString NumF (txt "swap_star"), @VBool NumF star)].
Definition pt_outside (E : @env NumF) (random : option nat -> rng) (ls_hash rr_hash : rng) (hashes : nat -> rng * rng * rng) (fuel : nat) : @outside NumF :=
  @mkOutside NumF pf_parse any_text d_sqrt NumFloat.d_round
  (fun l : list (nat * dbl) => isort (fun a b => Bleb (snd a) (snd b)) l)
  (fun y x => ddiv y (dadd (d_of_Z 100) x)) (fun x => dsub x (d_of_Z 1)) unit_double (fun _ _ => 0%Z) E random ls_hash rr_hash hashes fuel.

(** Everything before the search. *)
Definition pt_stage (X : @outside NumF) (read : text -> text) (yaml : @value NumF) (cl : command_line) : res (@fields NumF * @context NumF) :=
  f <- main_config yaml cl ;;
  path <- get_string f "instance_path" ;;
  pa <- parse (x_parse_f64 X) (x_utf8 X) (read path) ;;
  x <- context_new X pa f ;;
  Ok (f, x).
Local Lemma stage_program L X read yaml cl : @program NumF L X read yaml cl =
  match pt_stage X read yaml cl with
  | Ok (f, x) => w <- run_solver L X f x ;; out <- get_opt_string f "solution_path" ;;
                 Ok (match out with Some out => Some (out, solution_file (w_hist w)) | None => None end)
  | Err e => Err e
  end.
Proof.
  unfold program, pt_stage. destruct (main_config yaml cl) as [f|]; [|reflexivity]. cbn [rbind].
  destruct (get_string f _) as [path|]; [|reflexivity]. cbn [rbind].
  destruct (parse _ _ _) as [pa|]; [|reflexivity]. cbn [rbind]. destruct (context_new X pa f) as [x|]; reflexivity.
Qed.

Definition sf_eqb (a b : SpecFloat.spec_float) : bool :=
  match a, b with
  | SpecFloat.S754_zero s, SpecFloat.S754_zero t => Bool.eqb s t
  | SpecFloat.S754_finite s m e, SpecFloat.S754_finite t n f => Bool.eqb s t && Pos.eqb m n && Z.eqb e f
  | _, _ => false
  end.
Local Lemma sf_eqb_ok (a b : dbl) : sf_eqb (B2SF a) (B2SF b) = true -> a = b.
Proof.
  intro H. apply B2SF_inj. destruct (B2SF a), (B2SF b); cbn in H; try discriminate H.
  - apply eqb_prop in H. now subst.
  - apply andb_prop in H as [H H2]. apply andb_prop in H as [H0 H1]. apply eqb_prop in H0. apply Pos.eqb_eq in H1. apply Z.eqb_eq in H2. now subst.
Qed.
Definition pt_split_ok (x : @context NumF) (geno : list nat) : bool :=
  let c := x_config x in
  match @split_run NumF (x_problem x) c far_penalty split_new (mkInd 0 geno (repeat [] (c_num_vehicles c)) None se_new) (c_num_vehicles c) with
  | Ok (_, i) => (length (i_pheno i) =? c_num_vehicles c) && match concat (i_pheno i) with [1; 2] | [2; 1] => true | _ => false end
  | Err _ => false
  end.
Definition pt_check (fx : @fields NumF * @context NumF) : bool :=
  let '(f, x) := fx in
  let p := x_problem x in
  let c := x_config x in
  let cm := cm_store (x_corr x) in
  (p_dim p =? 3) &&
  forallb (fun a => forallb (fun b => sf_eqb (B2SF (p_dist p a b : dbl)) (B2SF (if a =? b then d_of_Z 0 else far))) [0; 1; 2]) [0; 1; 2] &&
  forallb (fun a => sf_eqb (B2SF (p_demand p a : dbl)) (B2SF (if a =? 0 then d_of_Z 0 else heavy))) [0; 1; 2] &&
  sf_eqb (B2SF (p_cap p : dbl)) (B2SF (d_of_Z 1000000)) &&
  (c_relocate_single c && c_ls_enabled c && negb (c_elite_education c) && (c_granularity c =? 1) && (1 <=? c_initial_individuals c) &&
   match c_max_iterations c with Some m => 1 <=? m | None => true end && (c_time_limit c =? 60)) &&
  ((m_cols cm =? 1) && (length (m_data cm) =? 3) && match near c cm 1 with [2] => true | _ => false end && match near c cm 2 with [1] => true | _ => false end) &&
  (sf_eqb (B2SF (w_pen (x_world x) : dbl)) (B2SF far_penalty) && (w_clock (x_world x) =? 0) && (w_iter (x_world x) =? 0)) &&
  (pt_split_ok x [1; 2] && pt_split_ok x [2; 1]) &&
  match get_u64 f "decompose_limit" with Ok n => 3 <=? n | Err _ => false end &&
  match get_u64 f "decomposed_problem_min_size" with Ok _ => true | Err _ => false end &&
  match get_u64 f "log_interval" with Ok _ => true | Err _ => false end.

Local Lemma pt_checked star E random lh rh hashes fuel :
  match pt_stage (pt_outside E random lh rh hashes fuel) pt_read (pt_yaml star) pr_cl with
  | Ok (f, x) => pt_check (f, x) && Bool.eqb (c_swap_star (x_config x)) star | Err _ => false end = true.
Proof. destruct star; vm_compute; reflexivity. Qed.

(** On this file the program never ends.  The time limit is 60 seconds; if the first two of the
    readings of the clock are below it, no number of passes, whatever the random numbers, the hash
    orders and the later readings, is enough for the local search of the first individual.
    (The code counts moves in an [i32], the model in [Z].  With SWAP* off nothing depends on the
    count: unless the overflow is checked, the code goes on for ever.  With SWAP* on the time stamps
    are wrong after 2^31 moves and the code may stop then.) *)
Theorem C66_program_ends_refuted : exists (read : text -> text) (yaml : bool -> @value NumF) (cl : command_line),
  forall star, (exists f, main_config (yaml star) cl = Ok f /\ get_bool f "swap_star" = Ok star) /\
  forall L E random ls_hash rr_hash hashes fuel, (forall k, k < 2 -> @ffloor NumF (e_clock E k) < 60) ->
    @program NumF L (pt_outside E random ls_hash rr_hash hashes fuel) read (yaml star) cl = Err EFuel.
Proof.
  exists pt_read, pt_yaml, pr_cl. intros star. split.
  { assert (X : match main_config (pt_yaml star) pr_cl with
                | Ok f => match get_bool f "swap_star" with Ok b => Bool.eqb b star | Err _ => false end | Err _ => false end = true)
      by (destruct star; vm_compute; reflexivity).
    destruct (main_config (pt_yaml star) pr_cl) as [f|]; [|discriminate X]. exists f. split; [reflexivity|].
    destruct (get_bool f "swap_star") as [b|]; [|discriminate X]. apply eqb_prop in X. now subst. }
  intros L E random lh rh hashes fuel TL. rewrite stage_program.
  pose proof (pt_checked star E random lh rh hashes fuel) as K. set (X := pt_outside E random lh rh hashes fuel) in *.
  destruct (pt_stage X pt_read (pt_yaml star) pr_cl) as [[f x]|]; [|discriminate K]. apply andb_prop in K as [K _]. unfold pt_check in K.
  apply andb_prop in K as [K KL]. apply andb_prop in K as [K KM]. apply andb_prop in K as [K KD]. apply andb_prop in K as [K KS].
  apply andb_prop in K as [K KW]. apply andb_prop in K as [K KN]. apply andb_prop in K as [K KC]. apply andb_prop in K as [K K4].
  apply andb_prop in K as [K K3]. apply andb_prop in K as [K1 K2]. apply Nat.eqb_eq in K1.
  set (p := x_problem x) in *. set (c := x_config x) in *. set (cm := cm_store (x_corr x)) in *.
  assert (IN : forall a, a < 3 -> In a [0; 1; 2]) by (intros a H; cbn; lia).
  assert (TF : two_far p).
  { constructor; [exact K1| | |].
    - intros a b HA HB. rewrite forallb_forall in K2. specialize (K2 a (IN a HA)). rewrite forallb_forall in K2.
      apply sf_eqb_ok. exact (K2 b (IN b HB)).
    - intros a HA. rewrite forallb_forall in K3. apply sf_eqb_ok. exact (K3 a (IN a HA)).
    - apply sf_eqb_ok. exact K4. }
  apply andb_prop in KC as [KC C7]. apply andb_prop in KC as [KC C6]. apply andb_prop in KC as [KC C5]. apply andb_prop in KC as [KC C4].
  apply andb_prop in KC as [KC C3]. apply andb_prop in KC as [C1 C2].
  apply Nat.eqb_eq in C7, C4. apply Nat.leb_le in C5. apply negb_true_iff in C3.
  apply andb_prop in KN as [KN N4]. apply andb_prop in KN as [KN N3]. apply andb_prop in KN as [N1 N2]. apply Nat.eqb_eq in N1, N2.
  apply andb_prop in KW as [KW W3]. apply andb_prop in KW as [W1 W2]. apply sf_eqb_ok in W1. apply Nat.eqb_eq in W2, W3.
  apply andb_prop in KS as [S1 S2].
  assert (SP : forall geno, pt_split_ok x geno = true -> exists st i,
    @split_run NumF p c far_penalty split_new (mkInd 0 geno (repeat [] (c_num_vehicles c)) None se_new) (c_num_vehicles c) = Ok (st, i) /\
    length (i_pheno i) = c_num_vehicles c /\ serves_all_once 3 (i_pheno i)).
  { intros geno H. unfold pt_split_ok in H. fold p c in H. destruct (split_run p c _ _ _ _) as [[st i]|]; [|discriminate H].
    exists st, i. apply andb_prop in H as [H1 H2]. apply Nat.eqb_eq in H1. split; [reflexivity|]. split; [exact H1|].
    unfold serves_all_once. cbn [seq Nat.sub]. destruct (concat (i_pheno i)) as [|[|[|[|]]] [|[|[|[|]]] [|]]]; try discriminate H2; auto. apply perm_swap. }
  assert (NO : neighbours_ok p c cm).
  { split; [lia|]. split; [rewrite N2, K1, N1; reflexivity|]. rewrite K1. intros u v Hu I.
    assert (A : u = 1 \/ u = 2) by lia. destruct A as [-> | ->].
    - destruct (near c cm 1) as [|[|[|[|]]] [|]]; try discriminate N3. destruct I as [<-|[]]. lia.
    - destruct (near c cm 2) as [|[|[|[|]]] [|]]; try discriminate N4. destruct I as [<-|[]]. lia. }
  unfold run_solver. fold p c.
  destruct (get_u64 f "decompose_limit") as [dl|]; [|discriminate KD]. apply Nat.leb_le in KD. cbn [rbind].
  destruct (get_u64 f "decomposed_problem_min_size") as [ms|]; [|discriminate KM]. cbn [rbind].
  destruct (get_u64 f "log_interval") as [li|]; [|discriminate KL]. cbn [rbind].
  replace (dl <=? p_dim p - 1) with false by (symmetry; apply Nat.leb_gt; lia). fold cm.
  destruct (ga_new p c cm (x_ls_hash X) (x_rr_hash X) (x_world x)) as [g w] eqn:EN.
  rewrite (run_hangs p c TF C1 ltac:(lia) C2 C3 C5) with (corr := cm) (lh := x_ls_hash X) (rh := x_rr_hash X) (w0 := x_world x); auto.
  - destruct (c_max_iterations c); [apply Nat.leb_le in C6; lia|exact I].
  - intros geno P. apply Permutation_sym in P. apply Permutation_length_2_inv in P as [-> | ->]; auto.
  - rewrite C7. exact TL.
Qed.
Print Assumptions C66_program_ends_refuted.
