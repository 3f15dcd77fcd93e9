(** The decomposed genetic algorithm keeps its invariant in double precision on integral data. *)
From Coq Require Import List Arith NArith ZArith Reals Bool Lia Lra Psatz Permutation.
From Flocq Require Import Core BinarySingleNaN Relative.
From Verif.Model Require Import Num NumFloat Prelude Evaluate Individual Config Crossover Split Matrix Population
  LocalSearch World Schedule RuinRecreate Genetic Decomposition.
From Verif.Spec Require Import Floats Solution Library Population LocalSearch RuinRecreate Genetic Decomposition.
From Verif.Proofs Require Import Lists EvalFacts EvalThms SplitStruct SplitPart MatrixFacts RrRuin RrRecreate RrRun RrMachine
  GaInv GaQ Decompose DgaInst DgaInv FloatFacts FloatPenalty FloatRun FloatStart FloatFine DgaFloat.
Import ListNotations.
Open Scope Z_scope.

Local Notation fx := (SpecFloat.fexp 53 1024).
Local Notation rnd := (round radix2 fx ZnearestE).
Local Existing Instance fx_valid.

(** ** Penalties *)

(** All of them, and those between the calls of [iterate]. *)
Definition pensF (x : @F NumF) : Prop := within x 44.
Definition lowpenF (x : @F NumF) : Prop := in_range lowF (d_lit 10000 1) x.
Local Notation mega := (d_lit 1000000 1).

Lemma low_initialF md dm : lowpenF (@initial_penalty NumF md dm).
Proof.
  destruct md as [a|], dm as [b|]; [|split; vm_compute; reflexivity..].
  exact (clamp_range lowF (d_lit 10000 1) low_finF top_finF low_topF (ddiv a b)).
Qed.
Lemma low_usualF x : lowpenF x -> usualF x.
Proof.
  intros R. pose proof (range_fin _ _ x low_finF top_finF R) as FX. destruct R as [R1 R2]. split; [exact R1|].
  pose proof (proj1 (dle_R _ _ top_finF high_finF) high_more) as HM. apply (dle_R _ _ FX top_finF) in R2.
  apply (dle_R _ _ FX high_finF). lra.
Qed.
Lemma low_pensF x : lowpenF x -> pensF x.
Proof. intros H. apply (within_more _ 24); [apply usual_within, low_usualF, H|lia]. Qed.

Lemma mega_int : is_int mega 1000000.
Proof.
  assert (E : B2SF mega = SpecFloat.S754_finite false 8589934592000000 (-33)) by (vm_compute; reflexivity).
  assert (V : B2R mega = (8589934592000000 * bpow radix2 (-33))%R) by (rewrite <- SF2R_B2SF, E; reflexivity).
  assert (FF : is_finite mega = true) by (vm_compute; reflexivity).
  split; [exact FF|]. rewrite V. change (bpow radix2 (-33)) with (/ 8589934592)%R. lra.
Qed.
Lemma low_highF' x : lowpenF x -> pensF (@fmul NumF x (@flit NumF 1000000 1)).
Proof.
  intros H. change (pensF (dmul x mega)). pose proof (usual_within x (low_usualF x H)) as W.
  assert (M : within mega 20).
  { destruct mega_int as [F R]. split; [exact F|]. rewrite R. rewrite <- IZR_Zpower by lia. split; apply IZR_le; vm_compute; discriminate. }
  exact (mul_within _ _ 24 20 W M ltac:(lia) ltac:(lia) ltac:(lia)).
Qed.

(** Multiplying by 1e6 and dividing again keeps the bounds, since both operations are monotone. *)
Lemma mul_mega_mono x y : is_finite x = true -> is_finite y = true -> (0 <= B2R x)%R -> (B2R x <= B2R y)%R -> is_finite (dmul y mega) = true ->
  is_finite (dmul x mega) = true -> (B2R (dmul x mega) <= B2R (dmul y mega))%R.
Proof.
  intros FX FY X0 XY F1 F2. destruct mega_int as [FM RM].
  assert (G : forall z : dbl, is_finite (dmul z mega) = true -> B2R (dmul z mega) = rnd (B2R z * B2R mega)).
  { intros z FZ. pose proof (Bmult_correct 53 1024 prec_pos prec_emax mode_NE z mega) as B. change (round_mode mode_NE) with ZnearestE in B.
    destruct (Rlt_bool _ _); [apply B|]. exfalso. unfold dmul in FZ. destruct (Bmult mode_NE z mega); try discriminate FZ; cbn in B; destruct (xorb _ _); discriminate B. }
  rewrite (G x F2), (G y F1). apply round_le; [apply fx_valid|apply valid_rnd_N|]. apply Rmult_le_compat_r; [rewrite RM; lra|exact XY].
Qed.
Lemma div_mega (x : dbl) : is_finite x = true -> (0 <= B2R x <= bpow radix2 44)%R ->
  is_finite (ddiv x mega) = true /\ B2R (ddiv x mega) = rnd (B2R x / 1000000).
Proof.
  intros FX HX. destruct mega_int as [FM RM].
  pose proof (Bdiv_correct 53 1024 prec_pos prec_emax mode_NE x mega) as B. change (round_mode mode_NE) with ZnearestE in B.
  rewrite RM in B. specialize (B ltac:(lra)).
  rewrite Rlt_bool_true in B.
  - destruct B as (B1 & B2 & _). unfold ddiv. rewrite B1, B2. auto.
  - apply Rle_lt_trans with (bpow radix2 44); [|apply bpow_lt; lia].
    apply abs_round_le_generic; [apply fx_valid|apply valid_rnd_N|apply bpow_format; lia|].
    rewrite Rabs_pos_eq by lra. lra.
Qed.
Lemma low_backF x : lowpenF x -> lowpenF (@fdiv NumF (@fmul NumF x (@flit NumF 1000000 1)) (@flit NumF 1000000 1)).
Proof.
  intros H. change (lowpenF (ddiv (dmul x mega) mega)).
  pose proof (range_fin _ _ x low_finF top_finF H) as FX. pose proof (low_highF' x H) as [FM BM]. change (@fmul NumF x _) with (dmul x mega) in FM, BM.
  destruct (div_mega _ FM BM) as [FD RD]. pose proof H as [R1 R2]. apply (dle_R _ _ low_finF FX) in R1. apply (dle_R _ _ FX top_finF) in R2.
  assert (L0 : (0 <= B2R lowF)%R).
  { destruct (int_of_Z 0 eq_refl) as [F0 Z0]. pose proof (proj1 (dle_R _ _ F0 low_finF) low_zero) as Y. now rewrite Z0 in Y. }
  assert (H1 : lowpenF lowF) by (split; vm_compute; reflexivity). assert (H2 : lowpenF (d_lit 10000 1)) by (split; vm_compute; reflexivity).
  pose proof (low_highF' _ H1) as [F1 B1]. pose proof (low_highF' _ H2) as [F2 B2].
  change (@fmul NumF lowF _) with (dmul lowF mega) in F1, B1. change (@fmul NumF (d_lit 10000 1) _) with (dmul (d_lit 10000 1) mega) in F2, B2.
  pose proof (mul_mega_mono _ _ low_finF FX L0 R1 FM F1) as M1. pose proof (mul_mega_mono _ _ FX top_finF ltac:(lra) R2 F2 FM) as M2.
  destruct (div_mega _ F1 B1) as [G1 D1]. destruct (div_mega _ F2 B2) as [G2 D2].
  assert (E1 : ddiv (dmul lowF mega) mega = lowF) by (apply B2SF_inj; vm_compute; reflexivity).
  assert (E2 : ddiv (dmul (d_lit 10000 1) mega) mega = d_lit 10000 1) by (apply B2SF_inj; vm_compute; reflexivity).
  rewrite E1 in D1. rewrite E2 in D2. split.
  - apply (dle_R _ _ low_finF FD). rewrite RD, D1. apply round_le; [apply fx_valid|apply valid_rnd_N|lra].
  - apply (dle_R _ _ FD top_finF). rewrite RD, D2. apply round_le; [apply fx_valid|apply valid_rnd_N|lra].
Qed.

(** What is below a number minus the tolerance is below that number. *)
Lemma minus_below (a b : dbl) : is_finite b = true -> dlt a (dsub b (d_lit 1 1000000)) = true ->
  a = B754_infinity true \/ is_finite a = true /\ (B2R a <= B2R b)%R.
Proof.
  intros FB LT. destruct eps_small as [[E1 E2] FE].
  pose proof (Bminus_correct 53 1024 prec_pos prec_emax mode_NE b _ FB FE) as B.
  change (round_mode mode_NE) with ZnearestE in B. set (e := d_lit 1 1000000) in *.
  change (@Bminus 53 1024 prec_pos prec_emax mode_NE b e) with (dsub b e) in B.
  destruct (Rlt_bool _ _).
  - destruct B as (B1 & B2 & _). assert (LE : (B2R (dsub b e) <= B2R b)%R).
    { rewrite B1. apply round_le_generic; [apply fx_valid|apply valid_rnd_N|apply generic_format_B2R|lra]. }
    destruct (is_finite a) eqn:FA.
    + right. split; [reflexivity|]. unfold dlt in LT. rewrite Bltb_correct in LT by auto.
      destruct (Rlt_bool_spec (B2R a) (B2R (dsub b e))); [lra|discriminate LT].
    + left. destruct a as [|[]| |]; try discriminate FA; [reflexivity| |].
      * exfalso. revert LT B2. generalize (dsub b e). intros [|[]| |] ? ?; discriminate.
      * exfalso. revert LT. generalize (dsub b e). intros [|[]| |] ?; discriminate.
  - exfalso. destruct B as [B1 B2]. assert (SE : Bsign e = false) by (vm_compute; reflexivity). rewrite SE in B2. cbn [negb] in B2. rewrite B2 in B1.
    revert LT B1. generalize (dsub b e). intros [|[]| |]; intros LT B1; try discriminate B1. destruct a as [|[]| |[]]; discriminate LT.
Qed.

Lemma below_sub (a b v : dbl) : dle b v = true -> is_finite v = true -> dlt a (dsub b (d_lit 1 1000000)) = true -> dle a v = true.
Proof.
  intros LE FV LT. destruct (is_finite b) eqn:FB.
  - destruct (minus_below a b FB LT) as [->|[FA AB]]; [destruct v as [|[]| |[]]; try discriminate FV; reflexivity|].
    apply (dle_R _ _ FB FV) in LE. apply (dle_R _ _ FA FV). lra.
  - exfalso. destruct b as [|[]| |]; try discriminate FB.
    + assert (X : dsub (B754_infinity true) (d_lit 1 1000000) = B754_infinity true) by (apply B2SF_inj; vm_compute; reflexivity).
      rewrite X in LT. destruct a as [|[]| |[]]; discriminate LT.
    + destruct v as [|[]| |[]]; try discriminate FV; discriminate LE.
    + discriminate LE.
Qed.


Section Dga.
  Variable L : lib.
  Hypothesis LOK : lib_ok L.
  Variable p : @problem NumF.
  Variable c : @config NumF.
  Variable d : nat -> nat -> Z.
  Variable q : nat -> Z.
  Variable cap : Z.
  Hypothesis II : integral_instance p c d q cap.
  Hypothesis CAP : 1 <= cap.
  Hypothesis LOAD : zload q (seq 0 (p_dim p)) < exact_bound.
  Variable E : @env NumF.
  Variable log_interval : nat.
  Variable fuel : nat.
  Variable sqrt_ round_ : @F NumF -> @F NumF.
  Variable lsort : list (nat * @F NumF) -> list (nat * @F NumF).
  Variable dm : @dmatrix NumF.
  Variable min_size : nat.
  Variable hashes : nat -> rng * rng * rng.
  Variable gd : nat -> nat -> @F NumF.
  Hypothesis SO : sort_contract lsort.
  Hypothesis DF : dfun sqrt_ round_ dm (p_dim p) gd.
  Hypothesis NG : no_nan gd (p_dim p).
  Hypothesis GM : (c_granularity c < min_size)%nat.
  Hypothesis G2 : (c_granularity c <= 200)%nat.
  Notation nv := (c_num_vehicles c).
  Notation good := (exactF p d q cap).
  Notation len i := (length_of d i).
  Notation recs := (recordsF p d q cap).
  Notation baseD := (base L p c good pensF recs).
  Notation doneD := (done L p c good pensF recs True 0).
  Notation safeD := (safe p c good pensF True).
  Let O1 := ii_dim _ _ _ _ _ II.
  Let O2 := proj1 (ii_fleet _ _ _ _ _ II).
  Let O2' := proj2 (ii_fleet _ _ _ _ _ II).
  Let O10 := ii_gran _ _ _ _ _ II.

  (** Under which nothing panics. *)
  Definition nice : Prop := drawable p /\ Z.of_nat (c_num_diversity_closest c) < 2 ^ 1000 /\ sizes c.

  Lemma pens_held x : pensF x -> heldF x.
  Proof. intros H. apply (within_more _ 44); [exact H|lia]. Qed.
  Lemma fineD : nice -> fine p c good pensF.
  Proof.
    intros (DR & HC & HS). destruct (fineF p c d q cap II DR HC HS) as [A1 A2 A3 A4 A5 A6]. constructor; auto.
    - intros pen H. apply A4. now apply pens_held.
    - intros pa pb a b HA HB. apply A5; now apply pens_held.
  Qed.

  Lemma recs_gaD (pen : @F NumF) b h i : pensF pen -> recs b h -> evaluated p pen i -> is_feasible i = true ->
    oapprox_lt (penalized_cost i) (h_best h) = true -> recs (Some i) (hist_add h i).
  Proof. intros _. exact (recordsF_ga p c d q cap II pen b h i I). Qed.
  Lemma recs_rrD : True -> forall (pen : @F NumF) b h cand h', pensF pen -> recs b h -> sound p c good cand -> priced pen cand ->
      rr_recorded p c pen h cand h' -> recs b h'.
  Proof. intros _ pen b h cand h' _. exact (recordsF_rr p c d q cap II pen b h cand h' I). Qed.


  Lemma base_rrF g w st : baseD g w -> rr_inv p c good st -> baseD (set_rr g st) w.
  Proof. intros [A1 A2 A3 A4 A5 A6 A7 A8 A9 A10] HX. constructor; auto. Qed.
  Lemma base_histF g w w' : baseD g w -> pensF (w_pen w') -> recs (ga_best_sol g) (w_hist w') -> baseD g w'.
  Proof. intros [A1 A2 A3 A4 A5 A6 A7 A8 A9 A10] HX HY. constructor; auto. Qed.

  Lemma until_F b corr (pen0 : @F NumF) k : rows_ok p corr -> forall n st w, ready p c good st ->
    searching pensF recs b pen0 k st w ->
    safeD (rr_until p c E n corr st w)
      (fun '(st', w') => ready p c good st' /\ searching pensF recs b pen0 k st' w' /\ quick True 0 st').
  Proof.
    intros RO n st w R SE.
    refine (rr_until_safe p c E fuel good (exactF_remove p c d q cap II) (exactF_add p c d q cap II) (below_one p c d q cap II)
      O1 O2 O10 O2' pensF recs True recs_rrD True 0 (or_introl I) (fun _ => I) b corr pen0 k I RO n st w R SE (or_introl I)).
  Qed.

  (** *** The best solution of ruin and recreate *)
  Definition at_mostF (pen : @F NumF) (v : dbl) (st : @rrstate NumF) (w : @world NumF) : Prop :=
    rr_update_penalty st = false /\ w_pen w = pen /\
    exists b, rr_best st = Some b /\ priced pen b /\ dle (@so_total NumF pen b) v = true.

  Lemma searches_at_mostF pen V st w st' w' : 0 <= V < exact_bound -> rr_searches p c E st w st' w' -> ready p c good st ->
    at_mostF pen (d_of_Z V) st w -> ready p c good st' /\ at_mostF pen (d_of_Z V) st' w'.
  Proof.
    intros HV. apply (rr_searches_inv p c E good (exactF_remove p c d q cap II) (exactF_add p c d q cap II) (below_one p c d q cap II) O1 O2
      (at_mostF pen (d_of_Z V))).
    - intros corr s1 w1 s2 w2 cand R1 (U & W & b & EB & PB & LE) R2 ST.
      split; [rewrite (st_up _ _ _ _ _ _ _ _ _ _ ST); auto|].
      split; [rewrite (st_pen _ _ _ _ _ _ _ _ _ _ ST); auto|].
      pose proof (st_priced _ _ _ _ _ _ _ _ _ _ ST) as PC. rewrite W in PC.
      destruct (st_cases _ _ _ _ _ _ _ _ _ _ ST) as (r0 & [(_ & _ & B & _)|(_ & _ & [(b0 & _ & _ & B & _)|(B & LT & _)])]).
      + exists b. rewrite B. auto.
      + exists b. rewrite B. auto.
      + exists cand. split; auto. split; auto. specialize (LT b EB). unfold priced in *. rewrite PB, PC in LT.
        cbn [oapprox_lt] in LT. exact (below_sub _ _ _ LE (proj1 (int_of_Z V ltac:(lia))) LT).
    - intros s1 w1 s2 w2 _ (U & H) G. unfold rr_penalty in G. rewrite U in G. injection G as <- <-. split; auto.
  Qed.

  Lemma so_total_within (pen : dbl) s : is_finite pen = true -> sound p c good s -> (forall r, In r (routes_of s) -> zload q r <= cap) ->
    is_int (@so_total NumF pen s) (zsum (map (ztour d) (routes_of s))).
  Proof.
    intros FP [SS FA] HC. pose proof (ss_serves _ _ _ SS) as SV. pose proof (serves_total p c d q cap II _ SV) as TB.
    unfold routes_of in *. rewrite map_map in *.
    apply (total_int p c d q cap II pen FP (so_routes s) (@f0 NumF) 0 FA); auto using int_zero; try lia.
    intros r I. apply HC. now apply in_map.
  Qed.

  (** Searching under one penalty from a solution within capacity: the best one, if it is within capacity
      too, is not longer. *)
  Lemma never_worseF st i (w : @world NumF) st1 w1 st2 w2 j j' :
    shaped p c (rr_sol st) -> rr_update_penalty st = false -> is_finite (w_pen w : dbl) = true ->
    finished p i -> length (i_pheno i) = nv -> (forall r, In r (i_pheno i) -> zload q r <= cap) ->
    rr_load E st i w = Ok (st1, w1) -> rr_searches p c E st1 w1 st2 w2 ->
    length (i_pheno j) = nv -> rr_get_best_solution p (w_pen w2) st2 j = Ok j' ->
    (forall r, In r (i_pheno j') -> zload q r <= cap) -> len j' <= len i.
  Proof.
    intros SH HU FP HF HL HC HG HS HJ HB HC'.
    destruct (rr_load_ok p c E good (exactF_eval p c d q cap II) O1 O2 st i w SH HF HL) as (sx & wx & GX & LO).
    rewrite HG in GX. injection GX as <- <-.
    pose proof (lo_ready _ _ _ _ _ _ _ _ _ LO) as R1. pose proof (lo_sol _ _ _ _ _ _ _ _ _ LO) as ES.
    assert (S1 : sound p c good (rr_sol st1)) by apply R1.
    assert (T1 : is_int (@so_total NumF (w_pen w) (rr_sol st1)) (len i)).
    { unfold length_of. rewrite <- ES. apply so_total_within; [exact FP|exact S1|]. now rewrite ES. }
    assert (LB : 0 <= len i < exact_bound) by (apply (len_bound p c d q cap II); apply HF).
    destruct (int_of_Z (len i) ltac:(lia)) as [FV RV].
    destruct (searches_at_mostF (w_pen w) (len i) st1 w1 st2 w2 LB HS R1) as [R2 (U2 & W2 & b & EB & PB & LE)].
    { split; [rewrite (lo_up _ _ _ _ _ _ _ _ _ LO); auto|]. split; [apply (lo_pen _ _ _ _ _ _ _ _ _ LO)|].
      exists (rr_sol st1). split; [apply (lo_best _ _ _ _ _ _ _ _ _ LO)|]. split; [apply (lo_priced _ _ _ _ _ _ _ _ _ LO)|].
      destruct T1 as [F1 E1]. apply (dle_R _ _ F1 FV). rewrite E1, RV. lra. }
    unfold rr_get_best_solution in HB. rewrite EB in HB.
    assert (SB : sound p c good b).
    { destruct R2 as (_ & _ & b' & E' & S'). rewrite EB in E'. injection E' as <-. exact S'. }
    apply (rr_update_individual_ok p c good O1 O2) in HB; auto. destruct HB as (P1 & P2 & _).
    assert (TB : is_int (@so_total NumF (w_pen w) b) (len j')).
    { unfold length_of. rewrite (zsum_perm _ _ (Permutation_map (ztour d) P1)). apply so_total_within; [exact FP|exact SB|].
      intros r Hr. apply HC'. eapply Permutation_in; [symmetry; exact P1|exact Hr]. }
    destruct TB as [F2 E2]. apply (dle_R _ _ F2 FV) in LE. rewrite E2, RV in LE. now apply le_IZR in LE.
  Qed.

  (** *** The first solution *)
  Lemma improve_safeF k : forall g w, baseD g w -> ready p c good (ga_rr g) -> rr_update_penalty (ga_rr g) = false ->
    length (i_pheno (ga_child g)) = nv -> safeD (improve_global p c E fuel k g w) (doneD g w).
  Proof.
    induction k as [|k IH]; intros g w B R U HL; cbn [improve_global].
    { intros _. split; [reflexivity|exact I]. }
    destruct (rr_reset E (ga_rr g) w) as [st w1] eqn:ER. unfold rr_reset in ER.
    destruct (acc_reset E (rr_acc (ga_rr g)) w) as [a w2] eqn:EA. injection ER as <- <-.
    destruct (acc_reset_world _ _ _ _ _ EA) as (W1 & W2 & W3).
    set (st := rr_set_acceptance (ga_rr g) a).
    assert (R0 : ready p c good st) by exact R.
    assert (RO : rows_ok p (s_corr (ga_ls g))) by exact (gb_rows _ _ _ _ _ _ _ _ B).
    assert (SE : searching pensF recs (ga_best_sol g) (w_pen w) (w_iter w) st w2).
    { unfold searching. rewrite W1, W2, W3. split; [exact (gb_hist _ _ _ _ _ _ _ _ B)|]. split; [exact (gb_pen _ _ _ _ _ _ _ _ B)|].
      split; [reflexivity|]. split; [exact U|reflexivity]. }
    pose proof (until_F (ga_best_sol g) (s_corr (ga_ls g)) (w_pen w) (w_iter w) RO fuel st w2 R0 SE) as UN.
    destruct (rr_until p c E fuel (s_corr (ga_ls g)) st w2) as [[st3 w3]|e3] eqn:EUN; cbn [rbind]; [|exact UN].
    destruct UN as (R3 & (I1 & I2 & I3 & I4 & I5) & Q3).
    eapply safe_bind; [apply (get_best_safe p c good O1 O2); [exact R3|exact HL]|]. intros i' C'.
    rewrite I5 in C'.
    assert (B' : baseD (set_child (set_rr g st3) i') w3).
    { apply base_child. apply base_histF with (w := w).
      - apply base_rrF; [exact B|]. now apply ready_inv.
      - exact I2.
      - exact I1. }
    assert (K' : kept True 0 g w (set_child (set_rr g st3) i') w3).
    { constructor; cbn; auto using same_rows_refl. now rewrite U. }
    destruct (oapprox_gte (rr_best_cost st3) (rr_best_cost (ga_rr g))) eqn:EO.
    - cbn [safe]. split; [exact B'|]. split; [exact K'|]. exact C'.
    - eapply safe_weaken; [apply IH; [exact B'|exact R3|exact I4|apply C']|].
      intros [g4 w4] (B4 & K4 & C4). cbn [fst snd] in *. split; [exact B4|]. split; [eapply kept_trans; eauto|].
      cbn [fst snd]. rewrite <- I5. exact C4.
  Qed.

  Lemma evaluate_childF (pen pen' : @F NumF) i : child_at p c pen i ->
    exists i', ind_evaluate p pen' i = Ok i' /\ child_at p c pen' i' /\ i_pheno i' = i_pheno i.
  Proof.
    intros (S & HL & G & _). unfold ind_evaluate. rewrite evaluate_eq.
    - cbn [rbind]. eexists. split; [reflexivity|]. split; [|reflexivity]. split; [exact S|]. split; [exact HL|]. split; [exact G|].
      eexists. reflexivity.
    - intros n Hn. apply (serves_In _ _ _ S) in Hn. lia.
    - lia.
  Qed.

  Definition createdF (w : @world NumF) (g : @ga NumF) (r : @individual NumF * @ga NumF * @world NumF) : Prop :=
    let '(i, g', w') := r in
    baseD g' w' /\ rr_update_penalty (ga_rr g') = false /\ lowpenF (w_pen w') /\
    child_at p c (w_pen w') i /\ same_rows (s_corr (ga_ls g)) (s_corr (ga_ls g')) /\ w_iter w' = w_iter w.

  Lemma create_safeF g w : baseD g w -> rr_update_penalty (ga_rr g) = false -> lowpenF (w_pen w) ->
    safeD (create_global_solution L p c E fuel g w) (createdF w g).
  Proof.
    intros B U LW. unfold create_global_solution.
    destruct (ind_random p nv 0 (w_rng w)) as [i r] eqn:ER. apply shuffle_perm_random in ER as (P1 & _).
    set (w1 := set_w_pen (set_w_rng w r) (fmul (w_pen (set_w_rng w r)) (flit 1000000 1))).
    assert (HP : pensF (w_pen w1)) by (apply low_highF'; exact LW).
    assert (B1 : baseD (set_child g i) w1).
    { apply base_child. apply base_histF with (w := w); [exact B|exact HP|exact (gb_hist _ _ _ _ _ _ _ _ B)]. }
    eapply safe_bind.
    { apply (run_split_safe L p c fuel good O1 O2 O10 O2' pensF pensF (split_fits44 p c d q cap II) recs True 0
        (or_introl I) (fun _ => I) (set_child g i) w1 nv B1 HP P1). split; [exact O2|apply le_n]. }
    intros g2 (B2 & K2 & C2 & _).
    assert (U2 : rr_update_penalty (ga_rr g2) = false) by (rewrite (kp_up _ _ _ _ _ _ K2); exact U).
    eapply safe_bind.
    { exact (educate_safe L LOK p c E fuel good (exactF_remove p c d q cap II) (exactF_add p c d q cap II) (exactF_eval p c d q cap II)
        (below_one p c d q cap II) O1 O2 zero_lt O10 O2' pensF pensF recs recs_gaD True
        (fun _ => I) recs_rrD True 0 (or_introl I) (fun _ => I)
        (fun _ _ _ _ _ _ _ _ _ _ => I) g2 w1 B2 HP U2 (or_introl I) C2). }
    intros [g3 w3] (B3 & K3 & C3). cbn [fst snd] in B3, K3, C3. cbn beta iota zeta.
    set (g3' := set_rr g3 (rr_set_acceptance (ga_rr g3) (AIter (is_new (flit 10 1) (100 * 1000))))).
    assert (EW3 : w_pen w3 = w_pen w1) by exact (kp_pen _ _ _ _ _ _ K3).
    assert (B3' : baseD g3' w3) by (apply base_rrF; [exact B3|exact (gb_rr _ _ _ _ _ _ _ _ B3)]).
    destruct (rr_load_ok p c E good (exactF_eval p c d q cap II) O1 O2 (ga_rr g3') (ga_child g3') w3
                (proj1 (gb_rr _ _ _ _ _ _ _ _ B3')) (child_finished p c O1 O2 O10 O2' _ _ C3)) as (st & w4 & GL & LO); [apply C3|].
    rewrite GL. cbn [rbind].
    assert (W4 : w_pen w4 = w_pen w1) by (rewrite (lo_pen _ _ _ _ _ _ _ _ _ LO); exact EW3).
    assert (U3 : rr_update_penalty st = false).
    { rewrite (lo_up _ _ _ _ _ _ _ _ _ LO). change (rr_update_penalty (ga_rr g3) = false). rewrite (kp_up _ _ _ _ _ _ K3). exact U2. }
    assert (B4 : baseD (set_rr g3' st) w4).
    { apply base_histF with (w := w3).
      - apply base_rrF; [exact B3'|]. apply ready_inv. exact (lo_ready _ _ _ _ _ _ _ _ _ LO).
      - rewrite W4. exact HP.
      - rewrite (lo_hist _ _ _ _ _ _ _ _ _ LO). exact (gb_hist _ _ _ _ _ _ _ _ B3). }
    eapply safe_bind; [apply (improve_safeF fuel (set_rr g3' st) w4 B4); [exact (lo_ready _ _ _ _ _ _ _ _ _ LO)|exact U3|apply C3]|].
    intros [g5 w5] (B5 & K5 & C5). cbn [fst snd] in B5, K5, C5. cbn beta iota zeta.
    set (w6 := set_w_pen w5 (fdiv (w_pen w5) (flit 1000000 1))).
    assert (EP : w_pen w6 = fdiv (fmul (w_pen w) (flit 1000000 1)) (flit 1000000 1)).
    { unfold w6. cbn [w_pen set_w_pen]. rewrite (kp_pen _ _ _ _ _ _ K5), W4. reflexivity. }
    pose proof (low_backF _ LW) as LB. rewrite <- EP in LB.
    destruct (evaluate_childF _ (w_pen w6) _ C5) as (i' & EI & CI & _). rewrite EI. cbn [rbind safe createdF].
    split; [apply base_histF with (w := w5); [exact B5|now apply low_pensF|exact (gb_hist _ _ _ _ _ _ _ _ B5)]|].
    split; [rewrite (kp_up _ _ _ _ _ _ K5); exact U3|]. split; [exact LB|]. split; [exact CI|]. split.
    - eapply same_rows_trans; [exact (kp_corr _ _ _ _ _ _ K2)|]. eapply same_rows_trans; [exact (kp_corr _ _ _ _ _ _ K3)|exact (kp_corr _ _ _ _ _ _ K5)].
    - change (w_iter w5 = w_iter w1). rewrite (kp_witer _ _ _ _ _ _ K5), (lo_iter _ _ _ _ _ _ _ _ _ LO). exact (kp_witer _ _ _ _ _ _ K3).
  Qed.

  (** *** One round *)
  Record dinvF (g : @dga NumF) (w : @world NumF) : Prop := {
    df_base : baseD (d_ga g) w;
    df_up : rr_update_penalty (ga_rr (d_ga g)) = false;
    df_pen : lowpenF (w_pen w);
    df_rows : rows_distinct p (s_corr (ga_ls (d_ga g)));
    df_cols : (c_granularity c < m_cols (s_corr (ga_ls (d_ga g))))%nat;
    df_cycle : d_st g = DCycle -> child_at p c (w_pen w) (d_sol g)
  }.

  Lemma feasible_loads (sp : @problem NumF) sc sd sq (pen : @F NumF) (i : @individual NumF) : integral_instance sp sc sd sq cap -> evaluated sp pen i ->
    (is_feasible i = true <-> forall r, In r (i_pheno i) -> zload sq r <= cap).
  Proof.
    intros IS (SV & _ & e & EV). unfold is_feasible. rewrite EV. cbn [geval se_feasible].
    apply (gfeasible_int sp sd sq cap (ii_data _ _ _ _ _ IS) (dim_pos sp sc sd sq cap IS)).
    - intros n Hn. exact (serves_in sp _ SV n Hn).
    - exact (zload_below sp sc sd sq cap IS _ SV).
  Qed.

  Lemma nonempty_permF (i j : @individual NumF) : Permutation (i_pheno i) (i_pheno j) -> num_nonempty_routes i = num_nonempty_routes j.
  Proof.
    intros P. unfold num_nonempty_routes. revert P. generalize (i_pheno i) (i_pheno j).
    induction 1; cbn [filter]; auto; repeat (destruct (_ <? _)%nat); cbn [length]; lia.
  Qed.

  (** The numbers of a subproblem. *)
  Definition sub_d (mapping : list nat) (i j : nat) : Z := d (nth i mapping 0%nat) (nth j mapping 0%nat).
  Definition sub_q (mapping : list nat) (i : nat) : Z := q (nth i mapping 0%nat).

  Lemma zload_renamed mapping r : zload (sub_q mapping) r = zload q (map (fun i => nth i mapping 0%nat) r).
  Proof. unfold zload, sub_q. now rewrite map_map. Qed.
  Lemma zwalk_map (f : nat -> nat) l : zwalk (fun i j => d (f i) (f j)) l = zwalk d (map f l).
  Proof.
    induction l as [|a [|b l] IH]; [reflexivity|reflexivity|]. cbn [map] in *.
    change (d (f a) (f b) + zwalk (fun i j => d (f i) (f j)) (b :: l) = d (f a) (f b) + zwalk d (f b :: map f l)). now rewrite IH.
  Qed.
  Lemma ztour_renamed mapping r : nth 0 mapping 0%nat = 0%nat -> ztour (sub_d mapping) r = ztour d (map (fun i => nth i mapping 0%nat) r).
  Proof.
    intros N0. unfold ztour, sub_d. rewrite (zwalk_map (fun i => nth i mapping 0%nat)). cbn [map]. rewrite map_app. cbn [map]. now rewrite N0.
  Qed.
  Notation zlen rs := (zsum (map (ztour d) rs)).
  Lemma len_renamed mapping rs : nth 0 mapping 0%nat = 0%nat -> zsum (map (ztour (sub_d mapping)) rs) = zlen (renamed mapping rs).
  Proof.
    intros N0. unfold renamed. rewrite map_map. f_equal. apply map_ext. intros r. now apply ztour_renamed.
  Qed.
  Lemma zlen_app a b : zlen (a ++ b) = zlen a + zlen b.
  Proof. induction a as [|x a IH]; [reflexivity|]. cbn [app map zsum]. rewrite IH. ring. Qed.
  Lemma ztour_nil : ztour d [] = 0.
  Proof. unfold ztour. cbn. rewrite (ii_depot _ _ _ _ _ II). reflexivity. Qed.
  Lemma zlen_empties k : zlen (repeat [] k) = 0.
  Proof. induction k as [|k IH]; [reflexivity|]. cbn [repeat map zsum]. rewrite IH, ztour_nil. reflexivity. Qed.
  Lemma zlen_used rs : zlen (used_routes rs) = zlen rs.
  Proof.
    unfold used_routes. induction rs as [|[|a r] rs IH]; [reflexivity| |]; cbn [filter map zsum].
    - rewrite IH, ztour_nil. reflexivity.
    - now rewrite IH.
  Qed.
  Lemma zlen_perm a b : Permutation a b -> zlen a = zlen b.
  Proof. intros P. exact (zsum_perm _ _ (Permutation_map (ztour d) P)). Qed.

  (** What taking the subproblem out gives. *)
  Record cutF (g : @dga NumF) (w : @world NumF) (sub : @individual NumF) (mapping : list nat) (rest : @individual NumF)
      (mats : @dmatrix NumF * cmatrix) (w1 : @world NumF) (sub0 : @individual NumF) (chosen : list (list nat)) : Prop := {
    cf_cut : cut_out p (d_sol g) sub0 mapping rest chosen;
    cf_sub : Permutation (i_pheno sub) (i_pheno sub0);
    cf_ok : integral_instance (sub_problem p mapping) (sub_config c) (sub_d mapping) (sub_q mapping) cap;
    cf_draw : drawable p -> drawable (sub_problem p mapping);
    cf_near : neighbours_ok (sub_problem p mapping) (sub_config c) (cm_store (snd mats));
    cf_rows : rows_ok (sub_problem p mapping) (cm_store (snd mats));
    cf_eval : evaluated (sub_problem p mapping) (w_pen w) sub;
    cf_fits : (num_nonempty_routes sub <= nv)%nat;
    cf_feasible : is_feasible (d_sol g) = true -> is_feasible sub = true;
    cf_pen : w_pen w1 = w_pen w;
    cf_hist : w_hist w1 = w_hist w;
    cf_iter : w_iter w1 = w_iter w
  }.

  Lemma new_okF g w hash : dinvF g w -> d_st g = DCycle ->
    match decomposition_new p sqrt_ round_ lsort dm min_size (s_corr (ga_ls (d_ga g))) (d_sol g) hash w with
    | Ok (sub, mapping, rest, mats, w1) => exists sub0 chosen, cutF g w sub mapping rest mats w1 sub0 chosen
    | Err _ => ~ drawable p
    end.
  Proof.
    intros [B U LW RD CO DC] ST. specialize (DC ST). pose proof DC as (S & HL & G & e & EV).
    set (corr := s_corr (ga_ls (d_ga g))) in *.
    assert (WS : whole_solution (p_dim p) (d_sol g)) by (split; assumption).
    destruct (decompose_global_ok p min_size corr (d_sol g) hash (w_rng w) WS ltac:(lia) O1 RD) as (sub0 & mapping & rest & r' & rs & ED & T).
    unfold decomposition_new. rewrite ED. cbn [rbind].
    assert (SZ : (c_granularity c < length (concat rs))%nat) by (destruct (tk_size _ _ _ _ _ _ _ T); lia).
    assert (S1 : (1 <= length (concat rs))%nat) by lia.
    destruct (any_matrices p c O1 min_size corr (d_sol g) sub0 rest mapping rs WS T S1 sqrt_ round_ lsort dm gd SO DF NG SZ G2)
      as (dd & cm & EM & NB & RO).
    rewrite EM. cbn [rbind].
    pose proof (sub_integral p c d q cap II CAP LOAD min_size corr (d_sol g) sub0 rest mapping rs WS T S1) as IO.
    pose proof (sub_drawable p c d q cap II min_size corr (d_sol g) sub0 rest mapping rs WS T) as DS.
    pose proof (taken_serves min_size corr (d_sol g) sub0 rest mapping rs T) as SV.
    pose proof (tk_geno _ _ _ _ _ _ _ T) as GE.
    destruct (sort_routes (sub_problem p mapping) sub0) as [sub1|e1] eqn:ES; cbn [rbind].
    2:{ intros DR. destruct (SplitStruct.sort_routes_total (sub_problem p mapping) sub0 (anglesF _ _ _ _ _ IO (DS DR))) as (sub1 & ES').
        - now rewrite GE.
        - exact SV.
        - congruence. }
    destruct (sort_routes_spec _ _ _ ltac:(now rewrite GE) ES) as (P1 & G1 & _).
    assert (SV1 : serves_all_once (length mapping) (i_pheno sub1)) by (unfold serves_all_once; rewrite (concat_perm _ _ P1); exact SV).
    unfold ind_evaluate. rewrite evaluate_eq; cbn [rbind].
    2:{ intros n Hn. apply (serves_In _ _ _ SV1) in Hn. change (p_dim (sub_problem p mapping)) with (length mapping). lia. }
    2:{ pose proof (ii_dim _ _ _ _ _ IO). lia. }
    pose proof (taken_cut p min_size corr (d_sol g) sub0 rest mapping rs O1 WS T) as CU.
    exists sub0, rs.
    assert (EVS : forall k f, evaluated (sub_problem p mapping) (w_pen w) (mkInd k (i_geno sub1) (i_pheno sub1) f
                     (geval (sub_problem p mapping) (w_pen w) (i_eval sub1) (i_pheno sub1)))).
    { intros k f. split; [exact SV1|]. split; [exact G1|]. exists (i_eval sub1). reflexivity. }
    constructor; [exact CU|exact P1|exact IO|exact DS|exact NB|exact RO|apply EVS| | |reflexivity|reflexivity|reflexivity].
    - assert (X : num_nonempty_routes sub1 = num_nonempty_routes sub0) by now apply nonempty_permF.
      change (num_nonempty_routes sub1 <= nv)%nat. rewrite X. unfold num_nonempty_routes. rewrite (tk_pheno _ _ _ _ _ _ _ T).
      assert (FL : forall l k, (length (filter (fun r : list nat => (0 <? length r)%nat) (l ++ repeat [] k)) <= length l)%nat).
      { intros l k. induction l as [|a l IHl]; cbn [app filter].
        - induction k as [|k IHk]; cbn [repeat filter length]; auto.
        - destruct (0 <? length a)%nat; cbn [length]; lia. }
      etransitivity; [apply FL|]. rewrite numbered_length.
      pose proof (Permutation_length (tk_perm _ _ _ _ _ _ _ T)) as PL. rewrite app_length in PL. lia.
    - intros FE. rewrite (feasible_loads p c d q (w_pen w) (d_sol g) II (child_evaluated p c _ _ DC)) in FE.
      apply (feasible_loads _ _ _ _ (w_pen w) _ IO); [apply EVS|]. cbn [i_pheno].
      intros x Hx. destruct (co_renamed _ _ _ _ _ _ CU) as (k & ER).
      eapply Permutation_in in Hx; [|exact P1].
      assert (HX : In (map (fun i => nth i mapping 0%nat) x) (rs ++ repeat [] k)) by (rewrite <- ER; unfold renamed; now apply in_map).
      change (zload (sub_q mapping) x <= cap). rewrite zload_renamed. apply in_app_or in HX as [HX|HX].
      + apply FE. eapply Permutation_in; [symmetry; exact (co_routes _ _ _ _ _ _ CU)|]. apply in_or_app. now left.
      + apply repeat_spec in HX. rewrite HX. change (zload q []) with 0. lia.
  Qed.

  (** What the genetic algorithm makes of the subproblem. *)
  Definition part_solvedF (sub : @individual NumF) (mapping : list nat) (best : @individual NumF) : Prop :=
    record_okF (sub_problem p mapping) (sub_d mapping) (sub_q mapping) cap best /\
    (is_feasible sub = true -> length_of (sub_d mapping) best <= length_of (sub_d mapping) sub).

  Lemma solve_okF g w sub mapping rest mats w1 sub0 chosen lh rh : lowpenF (w_pen w) ->
    cutF g w sub mapping rest mats w1 sub0 chosen ->
    match decomposition_run L p c E log_interval fuel sub mapping mats lh rh (sub_world w1 (w_rng w1)) with
    | Ok (best, _) => part_solvedF sub mapping best
    | Err e => nice -> e = EFuel \/ e = EPanic /\ is_feasible sub = false
    end.
  Proof.
    intros LW [C1 C2 C3 C3' C4 C5 C6 C7 C8 C9 C10 C11].
    pose proof (sub_run_safeF L LOK (sub_problem p mapping) (sub_config c) (sub_d mapping) (sub_q mapping) cap C3 eq_refl E log_interval (dm_max (fst mats)) fuel
      (cm_store (snd mats)) lh rh (sub_world w1 (w_rng w1)) sub C4 C5) as SR.
    specialize (SR ltac:(change (usualF (w_pen w1)); rewrite C9; now apply low_usualF) eq_refl).
    specialize (SR ltac:(change (evaluated (sub_problem p mapping) (w_pen w1) sub); rewrite C9; exact C6) C7).
    assert (FS : nice -> fine (sub_problem p mapping) (sub_config c) (exactF (sub_problem p mapping) (sub_d mapping) (sub_q mapping) cap) heldF).
    { intros (DR & HC & [F1 F2 F3 F4]). apply (fineF _ _ _ _ _ C3 (C3' DR) HC). constructor; assumption. }
    unfold decomposition_run. cbv zeta. destruct (ga_new (sub_problem p mapping) (sub_config c) _ lh rh _) as [g1 w2].
    destruct (add_initial L (sub_config c) g1 sub w2) as [[g3 w3]|e]; cbn [rbind] in SR |- *.
    2:{ intros FI. left. exact (proj1 (SR (FS FI))). }
    destruct (solver_run L _ _ E log_interval _ fuel fuel g3 w3) as [[g4 w4]|e]; cbn [rbind] in SR |- *.
    2:{ intros FI. left. exact (proj1 (SR (FS FI))). }
    cbn [safe] in SR. unfold result_ofF in SR. cbn [fst] in SR. destruct (ga_best_sol g4) as [j|].
    - exact SR.
    - intros _. right. auto.
  Qed.

  Local Notation misfit := (misfit L p c E log_interval fuel sqrt_ round_ lsort dm min_size hashes).

  (** Between [old] and [new] there is a solution within capacity that is not longer than [old]; if
      [new] is within capacity, it is not longer than that one. *)
  Definition not_longer (old new : list (list nat)) : Prop := exists merged,
    serves_all_once (p_dim p) merged /\ length merged = nv /\ (forall r, In r merged -> zload q r <= cap) /\
    zlen merged <= zlen old /\ ((forall r, In r new -> zload q r <= cap) -> zlen new <= zlen merged).

  Lemma low_finite x : lowpenF x -> is_finite (x : dbl) = true.
  Proof. intros H. exact (proj1 (low_pensF x H)). Qed.

  Lemma cycle_okF g w : dinvF g w -> d_st g = DCycle ->
    match decompose_cycle L p c E log_interval fuel sqrt_ round_ lsort dm min_size hashes g w with
    | Ok (g', w') => dinvF g' w' /\ d_st g' = DCycle /\ w_pen w' = w_pen w /\ w_iter w' = w_iter w /\
        (is_feasible (d_sol g) = true -> not_longer (i_pheno (d_sol g)) (i_pheno (d_sol g')))
    | Err e => nice -> e = EFuel \/ e = EPanic /\ (is_feasible (d_sol g) = false \/ misfit g w)
    end.
  Proof.
    intros DI ST. pose proof DI as [B U LW RD CO DC]. specialize (DC ST).
    unfold decompose_cycle, misfit. destruct (hashes (d_round g)) as [[route_hash ls_hash] rr_hash].
    pose proof (new_okF g w route_hash DI ST) as NK.
    destruct (decomposition_new p sqrt_ round_ lsort dm min_size (s_corr (ga_ls (d_ga g))) (d_sol g) route_hash w)
      as [[[[[sub mapping] rest] mats] w1]|e0] eqn:EN; cbn [rbind].
    2:{ intros (DR & _). contradiction. }
    destruct NK as (sub0 & chosen & CT). pose proof CT as [C1 C2 C3 C3' C4 C5 C6 C7 C8 C9 C10 C11].
    pose proof (solve_okF g w sub mapping rest mats w1 sub0 chosen ls_hash rr_hash LW CT) as SV.
    destruct (decomposition_run L p c E log_interval fuel sub mapping mats ls_hash rr_hash (sub_world w1 (w_rng w1))) as [[best clock]|e] eqn:ERUN;
      cbn [rbind].
    2:{ intros FI. destruct (SV FI) as [->|[-> FS]]; [left; auto|right]. split; [reflexivity|]. left.
        destruct (is_feasible (d_sol g)) eqn:FE; [|reflexivity]. specialize (C8 eq_refl). congruence. }
    destruct SV as [(BS & BW & _) BC]. change (p_dim (sub_problem p mapping)) with (length mapping) in BS.
    assert (WS : whole_solution (p_dim p) (d_sol g)) by (destruct DC as (S & _ & G & _); split; assumption).
    cbn [w_pen]. rewrite C9.
    destruct (decomposition_finish p (w_pen w) best mapping rest) as [merged|e1] eqn:EF; cbn [rbind].
    2:{ intros (DR & _). exfalso.
        destruct (finish_total_angles p (d_sol g) sub0 rest mapping chosen O1 WS C1 (w_pen w) best (anglesF _ _ _ _ _ II DR) BS) as (m & EF').
        congruence. }
    destruct (finish_ok p (d_sol g) sub0 rest mapping chosen O1 WS C1 (w_pen w) best merged BS EF) as ((M1 & M2) & M3 & e & M4).
    set (w2 := mkWorld (w_pen w) (w_hist w1) (w_iter w1) (w_rng w1) clock).
    destruct (update_best (set_child (d_ga g) merged) w2) as [g3 w3] eqn:EU.
    assert (EM : evaluated p (w_pen w2) (ga_child (set_child (d_ga g) merged))).
    { split; [exact M1|]. split; [exact M2|]. exists e. exact M4. }
    assert (B2 : baseD (set_child (d_ga g) merged) w2).
    { apply base_child. apply base_histF with (w := w); [exact B|exact (gb_pen _ _ _ _ _ _ _ _ B)|].
      change (recs (ga_best_sol (d_ga g)) (w_hist w1)). rewrite C10. exact (gb_hist _ _ _ _ _ _ _ _ B). }
    destruct (update_best_ok L p c good pensF recs recs_gaD True 0 _ _ _ _ B2 EM EU) as (B3 & K3 & E3 & _).
    assert (W3 : w_pen w3 = w_pen w) by exact (kp_pen _ _ _ _ _ _ K3).
    unfold rr_reset. destruct (acc_reset E (rr_acc (ga_rr g3)) w3) as [a w4] eqn:EA.
    destruct (acc_reset_world _ _ _ _ _ EA) as (V1 & V2 & V3). cbn [fst snd].
    set (st3 := rr_set_acceptance (ga_rr g3) a).
    assert (SH : shaped p c (rr_sol st3)) by exact (proj1 (gb_rr _ _ _ _ _ _ _ _ B3)).
    assert (FM : finished p (ga_child g3)).
    { rewrite E3. exact (evaluated_finished p c O1 O2 O10 O2' _ _ EM). }
    assert (EC : ga_child g3 = merged) by exact E3.
    destruct (Nat.eq_dec (length (i_pheno merged)) nv) as [HL|NL].
    2:{ assert (EL : rr_load E st3 (ga_child g3) w4 = Err EPanic).
        { unfold rr_load, so_load. rewrite (proj1 SH), EC. destruct (Nat.eqb_spec (length (i_pheno merged)) nv); [contradiction|reflexivity]. }
        rewrite EL. cbn [rbind]. intros _. right. split; [reflexivity|]. right.
        exists sub, mapping, rest, mats, w1, best, clock, merged. auto. }
    destruct (rr_load_ok p c E good (exactF_eval p c d q cap II) O1 O2 st3 (ga_child g3) w4 SH FM) as (st & w5 & GL & LO); [now rewrite EC|].
    rewrite GL. cbn [rbind].
    assert (W5 : w_pen w5 = w_pen w) by (rewrite (lo_pen _ _ _ _ _ _ _ _ _ LO), V1; exact W3).
    assert (RO3 : rows_ok p (s_corr (ga_ls g3))) by exact (gb_rows _ _ _ _ _ _ _ _ B3).
    pose proof (until_F (ga_best_sol g3) (s_corr (ga_ls g3)) (w_pen w) (w_iter w) RO3 fuel st w5 (lo_ready _ _ _ _ _ _ _ _ _ LO)) as UN.
    assert (U3 : rr_update_penalty st3 = false).
    { change (rr_update_penalty (ga_rr g3) = false). rewrite (kp_up _ _ _ _ _ _ K3). exact U. }
    assert (I5 : w_iter w5 = w_iter w).
    { rewrite (lo_iter _ _ _ _ _ _ _ _ _ LO), V2, (kp_witer _ _ _ _ _ _ K3). exact C11. }
    assert (SE : searching pensF recs (ga_best_sol g3) (w_pen w) (w_iter w) st w5).
    { unfold searching. rewrite W5, I5, (lo_hist _ _ _ _ _ _ _ _ _ LO), (lo_up _ _ _ _ _ _ _ _ _ LO), V3.
      split; [exact (gb_hist _ _ _ _ _ _ _ _ B3)|]. split; [exact (gb_pen _ _ _ _ _ _ _ _ B)|].
      split; [reflexivity|]. split; [exact U3|reflexivity]. }
    specialize (UN SE).
    destruct (rr_until p c E fuel (s_corr (ga_ls g3)) st w5) as [[st6 w6]|e6] eqn:EUN; cbn [rbind].
    2:{ intros FI. left. exact (proj1 (UN (fineD FI))). }
    destruct UN as (R6 & (J1 & J2 & J3 & J4 & J5) & QK6).
    assert (HLC : length (i_pheno (ga_child g3)) = nv) by now rewrite EC.
    pose proof (get_best_safe p c good O1 O2 pensF True (w_pen w6) st6 (ga_child g3) R6 HLC) as GB.
    destruct (rr_get_best_solution p (w_pen w6) st6 (ga_child g3)) as [i7|e7] eqn:EG; cbn [rbind].
    2:{ intros FI. left. exact (proj1 (GB (fineD FI))). }
    cbn [safe] in GB.
    destruct (update_best (set_child (set_rr g3 st6) i7) w6) as [g8 w8] eqn:EU8.
    assert (B7 : baseD (set_child (set_rr g3 st6) i7) w6).
    { apply base_child. apply base_histF with (w := w3); [apply base_rrF; [exact B3|now apply ready_inv]|exact J2|exact J1]. }
    destruct (update_best_ok L p c good pensF recs recs_gaD True 0 _ _ _ _ B7 (child_evaluated p c _ _ GB) EU8) as (B8 & K8 & E8 & _).
    assert (E8' : ga_child g8 = i7) by exact E8.
    assert (W8 : w_pen w8 = w_pen w) by (rewrite (kp_pen _ _ _ _ _ _ K8); exact J5).
    assert (SR : same_rows (s_corr (ga_ls (d_ga g))) (s_corr (ga_ls g8))).
    { eapply same_rows_trans; [exact (kp_corr _ _ _ _ _ _ K3)|exact (kp_corr _ _ _ _ _ _ K8)]. }
    split; [constructor; cbn [d_ga d_sol d_st]|].
    - exact B8.
    - rewrite (kp_up _ _ _ _ _ _ K8). exact J4.
    - rewrite W8. exact LW.
    - exact (distinct_same p _ _ SR RD).
    - rewrite (proj1 SR). exact CO.
    - intros _. rewrite E8', W8, <- J5. exact GB.
    - split; [reflexivity|]. split; [exact W8|]. split; [rewrite (kp_witer _ _ _ _ _ _ K8); exact J3|].
      intros FE. cbn [d_sol]. rewrite E8'.
      pose proof (proj1 (feasible_loads p c d q (w_pen w) (d_sol g) II (child_evaluated p c _ _ DC)) FE) as OLD.
      assert (MC : forall r, In r (i_pheno merged) -> zload q r <= cap).
      { intros r Hr. eapply Permutation_in in Hr; [|exact M3]. apply in_app_or in Hr as [Hr|Hr].
        - apply OLD. eapply Permutation_in; [symmetry; apply (co_routes _ _ _ _ _ _ C1)|]. apply in_or_app. now right.
        - apply filter_In in Hr as [Hr _]. apply in_map_iff in Hr as (r' & <- & Hr'). rewrite <- zload_renamed. now apply BW. }
      exists (i_pheno merged). split; [exact M1|]. split; [exact HL|]. split; [exact MC|]. split.
      + pose proof (BC (C8 FE)) as LE. unfold length_of in LE. rewrite !len_renamed in LE by exact (co_depot _ _ _ _ _ _ C1).
        assert (PS : zlen (renamed mapping (i_pheno sub)) = zlen chosen).
        { unfold renamed. rewrite (zlen_perm _ _ (Permutation_map _ C2)).
          destruct (co_renamed _ _ _ _ _ _ C1) as (k & ER). unfold renamed in ER. rewrite ER, zlen_app, zlen_empties. lia. }
        rewrite (zlen_perm _ _ M3), zlen_app, zlen_used, (zlen_perm _ _ (co_routes _ _ _ _ _ _ C1)), zlen_app. lia.
      + intros NEW.
        pose proof (never_worseF st3 (ga_child g3) w4 st w5 st6 w6 (ga_child g3) i7 SH U3) as NW. rewrite EC in NW.
        apply NW; auto.
        * rewrite V1, W3. now apply low_finite.
        * now rewrite <- EC.
        * now rewrite <- EC.
        * exact (until_searches p c E _ RO3 _ _ _ _ _ EUN).
        * now rewrite <- EC.
  Qed.

  (** *** One call of [iterate] *)
  Lemma not_longer_refl (pen : @F NumF) i : child_at p c pen i -> is_feasible i = true -> not_longer (i_pheno i) (i_pheno i).
  Proof.
    intros C FE. pose proof C as (S & HL & _). exists (i_pheno i). split; [exact S|]. split; [exact HL|]. split.
    - exact (proj1 (feasible_loads p c d q pen i II (child_evaluated p c _ _ C)) FE).
    - split; [lia|intros _; lia].
  Qed.

  Lemma dga_iterate_okF g w : dinvF g w ->
    match dga_iterate L p c E log_interval fuel sqrt_ round_ lsort dm min_size hashes g w with
    | Ok (g', w') => dinvF g' w' /\ w_iter w' = w_iter w /\
        (d_st g = DCycle -> is_feasible (d_sol g) = true -> not_longer (i_pheno (d_sol g)) (i_pheno (d_sol g')))
    | Err e => nice -> e = EFuel \/ e = EPanic /\ d_st g = DCycle /\
        (is_feasible (d_sol g) = false \/ misfit g (snd (terminate c E w)))
    end.
  Proof.
    intros DI. unfold dga_iterate. destruct (terminate c E w) as [stop w1] eqn:ET. cbn [snd].
    assert (W1 : w_pen w1 = w_pen w /\ w_hist w1 = w_hist w /\ w_iter w1 = w_iter w).
    { unfold terminate, now in ET. injection ET as _ <-. auto. }
    destruct W1 as (W1 & W2 & W3). pose proof DI as [B U LW RD CO DC].
    assert (DI1 : forall st, (st = DCycle -> d_st g = DCycle) -> dinvF (mkDGA st (d_sol g) (d_ga g) (d_round g)) w1).
    { intros st HS. constructor; cbn [d_ga d_sol d_st]; auto; [eapply base_world; eauto|now rewrite W1|rewrite W1; auto]. }
    destruct stop; cbn [d_st].
    - split; [apply DI1; discriminate|]. split; [exact W3|].
      cbn [d_sol]. intros ST FE. eapply not_longer_refl; eauto.
    - assert (ED : mkDGA (d_st g) (d_sol g) (d_ga g) (d_round g) = g) by now destruct g.
      pose proof (DI1 (d_st g) (fun x => x)) as D1. rewrite ED in D1.
      destruct (d_st g) eqn:ST.
      + pose proof (create_safeF (d_ga g) w1 (df_base _ _ D1) U (df_pen _ _ D1)) as CS.
        destruct (create_global_solution L p c E fuel (d_ga g) w1) as [[[i g1] w2]|e]; cbn [rbind safe] in CS |- *.
        * destruct CS as (B2 & U2 & L2 & C2 & S2 & I2). split; [|split; [now rewrite I2|discriminate]].
          constructor; cbn [d_ga d_sol d_st]; auto.
          -- exact (distinct_same p _ _ S2 RD).
          -- rewrite (proj1 S2). exact CO.
        * intros FI. left. exact (proj1 (CS (fineD FI))).
      + pose proof (cycle_okF g w1 D1 ST) as CY.
        destruct (decompose_cycle L p c E log_interval fuel sqrt_ round_ lsort dm min_size hashes g w1) as [[d2 w2]|e].
        * destruct CY as (D2 & S2 & P2 & I2 & NW). split; [exact D2|]. split; [now rewrite I2|]. auto.
        * intros FI. destruct (CY FI) as [->|[-> X]]; auto.
      + split; [exact D1|]. split; [exact W3|discriminate].
  Qed.

  (** *** The first state *)
  Lemma dga_new_invF corr lh rh w0 g w : neighbours_ok p c corr -> rows_distinct p corr -> (c_granularity c < m_cols corr)%nat ->
    lowpenF (w_pen w0) -> w_hist w0 = hist_new -> dga_new p c corr lh rh w0 = (g, w) ->
    dinvF g w /\ w_iter w = w_iter w0 /\ w_pen w = w_pen w0 /\ d_st g = DNotInitialized.
  Proof.
    intros NB RD GC LW HH G. unfold dga_new in G. destruct (ind_random p nv 0 (w_rng w0)) as [i r].
    destruct (ga_new p c corr lh rh (set_w_rng w0 r)) as [g1 w1] eqn:EN. injection G as <- <-.
    assert (RO : rows_ok p corr) by (destruct RD as [R1 R2]; split; [exact R1|intros u v Hu Hv; apply (R2 u); [lia|exact Hv]]).
    destruct (new_inv L p c good pensF pensF (fun _ h => h) recs (fun _ => pensF) True 0 (or_introl I) corr lh rh (set_w_rng w0 r) g1 w1 NB RO) as (I0 & X1 & X2 & X3); auto.
    { now apply low_pensF. }
    { change (recs None (w_hist w0)). rewrite HH. exact (recordsF_none p d q cap None). }
    pose proof EN as EN'. unfold ga_new in EN'. destruct (ind_random p nv 0 (w_rng (set_w_rng w0 r))) as [i2 r2]. injection EN' as EG EW.
    split; [|rewrite <- EW; auto]. constructor; cbn [d_ga d_sol d_st].
    - exact (in_base _ _ _ _ _ _ _ _ _ _ _ _ I0).
    - rewrite <- EG. reflexivity.
    - rewrite <- EW. exact LW.
    - rewrite <- EG. exact RD.
    - rewrite <- EG. exact GC.
    - discriminate.
  Qed.
End Dga.

(** ** The history *)
Lemma recorded_best p d q cap b h : recordsF p d q cap b h ->
  exists is, recorded hist_new is h /\
    Forall (fun i : @individual NumF => exact_record p d q cap (i_pheno i) (penalized_cost i)) is /\
    (forall l1 x y l2, is = l1 ++ x :: y :: l2 -> zsum (map (ztour d) (i_pheno y)) < zsum (map (ztour d) (i_pheno x))) /\
    (forall e, reported h e -> exact_record p d q cap (he_routes e) (he_cost e) /\
       forall i, In i is -> zsum (map (ztour d) (he_routes e)) <= zsum (map (ztour d) (i_pheno i))).
Proof.
  intros (is & RE & FA & IM).
  exists is. split; [exact RE|]. split; [exact FA|]. split; [exact IM|]. intros e RP.
  unfold recorded in RE. rewrite RE in RP. apply reported_last in RP as (l & i & -> & ->). cbn [he_routes he_cost].
  split; [apply Forall_app in FA as [_ FA]; now inversion FA|].
  clear -IM. revert i IM. induction l as [|a l IH] using rev_ind; intros i IM j J.
  - destruct J as [<-|[]]. apply Z.le_refl.
  - apply in_app_iff in J as [J|[<-|[]]]; [|apply Z.le_refl].
    assert (IM' : improvingF d (l ++ [a])).
    { intros l1 x y l2 EQ. apply (IM l1 x y (l2 ++ [i])). rewrite EQ, <- app_assoc. reflexivity. }
    pose proof (IH a IM' j J) as A. specialize (IM l a i [] ltac:(now rewrite <- app_assoc)). unfold length_of in IM. lia.
Qed.
