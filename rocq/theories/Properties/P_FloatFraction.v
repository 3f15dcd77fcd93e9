(** Coordinates with fractions in double precision (C65). *)
From Coq Require Import Ascii String List Arith NArith ZArith Bool Lia Reals Lra Permutation Sorted.
From Flocq Require Import Core BinarySingleNaN.
From Verif.Model Require Import Num NumFloat Prelude Evaluate Individual Config Crossover Split Matrix Population
  LocalSearch World Schedule RuinRecreate Genetic Decomposition Text Parser Display ConfigFile Main.
From Verif.Spec Require Import Solution Library Floats LocalSearch RuinRecreate Genetic Decomposition Instance Output ConfigFile Program FloatProgram FloatDecomposed.
From Verif.Proofs Require Import Lists TextFacts ParserFacts ConfigFacts FloatFacts FloatRun FloatStart FloatDistance GaQ RustLib ProgramFacts.
From Verif.Properties Require Import P_RuinRecreate P_Genetic P_Files P_Config P_Decomposed P_Program P_FloatRun P_FloatProgram P_FloatFine P_FloatDecomposed P_FloatParts.
Import ListNotations.
Open Scope nat_scope.

(** ** Distances *)
Local Notation off := (/ 2 + bpow radix2 (-26))%R.

Local Lemma more_moderate x : (Rabs x <= bpow radix2 22)%R -> (Rabs x <= bpow radix2 400)%R.
Proof. intro H. eapply Rle_trans; [exact H|]. apply bpow_le. lia. Qed.

(** The computed distance, not yet rounded, is within 2^-26 of the true one. *)
Local Lemma computed_error (i : @instance NumF) q cap a b : usual_instance i q cap -> a < length (in_nodes i) -> b < length (in_nodes i) ->
  is_finite (computed_distance i a b) = true /\ (0 <= B2R (computed_distance i a b))%R /\
  (Rabs (B2R (computed_distance i a b) - true_distance i a b) <= bpow radix2 (-26))%R.
Proof.
  intros UI HA HB. unfold computed_distance, true_distance. rewrite (ui_euclidean _ _ _ UI).
  destruct (ui_coords _ _ _ UI a HA) as (A1 & A2 & A3 & A4), (ui_coords _ _ _ UI b HB) as (B1 & B2 & B3 & B4).
  destruct (euclid_value (fst (coord i a)) (snd (coord i a)) (fst (coord i b)) (snd (coord i b))) as (F1 & R1 & P1);
    try solve [split; [assumption|now apply more_moderate]].
  unfold euclidian in *. cbn [fst snd] in *. split; [exact F1|]. split; [exact P1|].
  pose proof (distance_error _ _ _ _ A2 A4 B2 B4) as D. rewrite <- R1 in D. exact D.
Qed.

(** The distances with which the program works exist, are symmetric, and each is within 1/2 + 2^-26
    of the true one. *)
Theorem C65_every_instance (i : @instance NumF) q cap : usual_instance i q cap ->
  exists d, rounded_instance i d q cap /\
    forall a b, a < length (in_nodes i) -> b < length (in_nodes i) ->
      d a b = d b a /\ (Rabs (IZR (d a b) - true_distance i a b) <= / 2 + bpow radix2 (-26))%R.
Proof.
  intro UI. set (d := fun a b => if a =? b then 0%Z else ZnearestA (B2R (computed_distance i a b))).
  assert (TD : forall a, true_distance i a a = 0%R).
  { intro a. unfold true_distance. rewrite (ui_euclidean _ _ _ UI). rewrite !Rminus_diag_eq by reflexivity.
    replace (0 ^ 2 + 0 ^ 2)%R with 0%R by ring. apply sqrt_0. }
  assert (ERR : forall a b, a < length (in_nodes i) -> b < length (in_nodes i) -> (Rabs (IZR (d a b) - true_distance i a b) <= off)%R).
  { intros a b HA HB. unfold d. destruct (a =? b) eqn:EB.
    - apply Nat.eqb_eq in EB. subst b. rewrite TD, Rminus_diag_eq, Rabs_R0 by reflexivity. pose proof (bpow_gt_0 radix2 (-26)). lra.
    - destruct (computed_error i q cap a b UI HA HB) as (_ & _ & E).
      pose proof (Znearest_half (fun x => Z.leb 0 x) (B2R (computed_distance i a b))) as H.
      set (c := B2R (computed_distance i a b)) in *. set (t := true_distance i a b) in *.
      replace (IZR (ZnearestA c) - t)%R with (- (c - IZR (ZnearestA c)) + (c - t))%R by ring.
      eapply Rle_trans; [apply Rabs_triang|]. rewrite Rabs_Ropp. apply Rplus_le_compat; [exact H|exact E]. }
  assert (TOP : forall a b, a < length (in_nodes i) -> b < length (in_nodes i) -> (d a b <= 2 ^ 24 + 1)%Z).
  { intros a b HA HB. specialize (ERR a b HA HB). apply Rabs_le_inv in ERR.
    assert (T : (true_distance i a b <= bpow radix2 24)%R).
    { unfold true_distance. rewrite (ui_euclidean _ _ _ UI).
      destruct (ui_coords _ _ _ UI a HA) as (_ & A2 & _ & A4), (ui_coords _ _ _ UI b HB) as (_ & B2 & _ & B4).
      rewrite <- (sqrt_square (bpow radix2 24)) by apply bpow_ge_0.
      assert (SQ : forall s t, (Rabs s <= bpow radix2 22)%R -> (Rabs t <= bpow radix2 22)%R -> (0 <= (t - s) ^ 2 <= bpow radix2 46)%R).
      { intros s t HS HT. split; [apply pow2_ge_0|]. rewrite <- Rsqr_pow2. change 46%Z with (23 + 23)%Z. rewrite bpow_plus.
        apply Rsqr_le_abs_1 with (y := bpow radix2 23). rewrite (Rabs_pos_eq (bpow radix2 23)) by apply bpow_ge_0.
        eapply Rle_trans; [apply Rabs_triang|]. rewrite Rabs_Ropp. change 23%Z with (22 + 1)%Z. rewrite bpow_plus. change (bpow radix2 1) with (IZR 2). lra. }
      pose proof (SQ _ _ A2 B2). pose proof (SQ _ _ A4 B4).
      apply sqrt_le_1; [lra|rewrite <- bpow_plus; apply bpow_ge_0|]. rewrite <- bpow_plus. change (24 + 24)%Z with (46 + 2)%Z. rewrite bpow_plus.
      change (bpow radix2 2) with (IZR 4). pose proof (bpow_gt_0 radix2 46). lra. }
    assert (S : (bpow radix2 (-26) <= / 2)%R) by (change (/ 2)%R with (bpow radix2 (-1)); apply bpow_le; lia).
    apply le_IZR. rewrite plus_IZR. change (IZR (2 ^ 24)) with (bpow radix2 24). lra. }
  exists d. assert (RI : rounded_instance i d q cap).
  { constructor.
    - apply (ui_nodes _ _ _ UI).
    - intros _ a HA. destruct (ui_coords _ _ _ UI a HA) as (A1 & A2 & A3 & A4). repeat split; auto using more_moderate.
    - intros w EW. rewrite (ui_euclidean _ _ _ UI) in EW. discriminate.
    - intros a b HA HB. unfold d. destruct (a =? b); [reflexivity|].
      destruct (Bnearbyint_correct 53 1024 prec_emax mode_NA (computed_distance i a b)) as (A & B & _).
      split; [unfold NumFloat.d_round; rewrite B; apply (computed_error i q cap a b UI HA HB)|].
      unfold NumFloat.d_round. rewrite A. change (round_mode mode_NA) with ZnearestA. apply round_FIX_IZR.
    - apply (ui_demand _ _ _ UI).
    - apply (ui_cap _ _ _ UI).
    - exists (2 ^ 24 + 1)%Z. split; [lia|]. split; [exact TOP|]. destruct (ui_nodes _ _ _ UI) as [_ SZ]. unfold exact_bound. lia.
    - apply (ui_load _ _ _ UI). }
  split; [exact RI|]. intros a b HA HB. split; [|now apply ERR].
  apply (FloatStart.dist_symZ i d q cap RI); auto. intros w EW. rewrite (ui_euclidean _ _ _ UI) in EW. discriminate.
Qed.
Print Assumptions C65_every_instance.

(** ** Lengths *)
Local Lemma walk_error d (D : nat -> nat -> R) (e : R) size : (forall a b, a < size -> b < size -> (Rabs (IZR (d a b) - D a b) <= e)%R) ->
  forall l a, (forall n, In n (a :: l) -> n < size) -> (Rabs (IZR (zwalk d (a :: l)) - rwalk D (a :: l)) <= INR (length l) * e)%R.
Proof.
  intros H. induction l as [|b l IH]; intros a IN.
  - cbn. rewrite Rminus_diag_eq, Rabs_R0 by reflexivity. lra.
  - change (zwalk d (a :: b :: l)) with (d a b + zwalk d (b :: l))%Z. change (rwalk D (a :: b :: l)) with (D a b + rwalk D (b :: l))%R.
    cbn [length]. rewrite S_INR, plus_IZR.
    replace (IZR (d a b) + IZR (zwalk d (b :: l)) - (D a b + rwalk D (b :: l)))%R
      with ((IZR (d a b) - D a b) + (IZR (zwalk d (b :: l)) - rwalk D (b :: l)))%R by ring.
    eapply Rle_trans; [apply Rabs_triang|].
    assert (A : (Rabs (IZR (d a b) - D a b) <= e)%R) by (apply H; apply IN; cbn; auto).
    assert (B : (Rabs (IZR (zwalk d (b :: l)) - rwalk D (b :: l)) <= INR (length l) * e)%R) by (apply IH; intros n I; apply IN; now right).
    lra.
Qed.

(** The sum of the rounded lengths of all routes: one error for every customer and every route. *)
Theorem C65_true_length d (D : nat -> nat -> R) (e : R) size routes : 1 <= size ->
  (forall a b, a < size -> b < size -> (Rabs (IZR (d a b) - D a b) <= e)%R) -> serves_all_once size routes ->
  (Rabs (IZR (zsum (map (ztour d) routes)) - rsum (map (rtour D) routes)) <= INR (size - 1 + length routes) * e)%R.
Proof.
  intros S1 H SA. assert (IN : forall n, In n (concat routes) -> n < size).
  { intros n I. apply (Permutation_in _ SA) in I. apply in_seq in I. lia. }
  assert (LEN : size - 1 = length (concat routes)) by (rewrite (Permutation_length SA), seq_length; reflexivity). rewrite LEN. clear SA LEN.
  induction routes as [|r rs IH].
  - cbn. rewrite Rminus_diag_eq, Rabs_R0 by reflexivity. lra.
  - cbn [map zsum rsum concat length]. rewrite app_length, plus_IZR.
    replace (IZR (ztour d r) + IZR (zsum (map (ztour d) rs)) - (rtour D r + rsum (map (rtour D) rs)))%R
      with ((IZR (ztour d r) - rtour D r) + (IZR (zsum (map (ztour d) rs)) - rsum (map (rtour D) rs)))%R by ring.
    eapply Rle_trans; [apply Rabs_triang|].
    assert (A : (Rabs (IZR (ztour d r) - rtour D r) <= INR (length r + 1) * e)%R).
    { unfold ztour, rtour. change 1 with (length [0]) at 1. rewrite <- app_length. apply (walk_error d D e size H).
      intros n [<-|I]; [lia|]. apply in_app_or in I as [I|[<-|[]]]; [|lia]. apply IN. cbn [concat]. apply in_or_app. now left. }
    assert (B : (Rabs (IZR (zsum (map (ztour d) rs)) - rsum (map (rtour D) rs)) <= INR (length (concat rs) + length rs) * e)%R).
    { apply IH. intros n I. apply IN. cbn [concat]. apply in_or_app. now right. }
    replace (length r + length (concat rs) + S (length rs)) with ((length r + 1) + (length (concat rs) + length rs)) by lia.
    rewrite (plus_INR (length r + 1)). lra.
Qed.
Print Assumptions C65_true_length.

(** ** The program *)
Section Program.
Variable L : lib.
Hypothesis library : lib_ok L.
Variable X : @outside NumF.
Hypothesis functions : double_functions X.
Variable read : text -> text.
Variable yaml : @value NumF.
Variable cl : command_line.
Variable i : @instance NumF.
Variable q : nat -> Z.
Variable cap : Z.
Variable f : @fields NumF.
Local Notation file := (read (cl_instance cl)).
Local Notation size := (length (in_nodes i)).
Hypothesis described : instance_file (fun w x => x_parse_f64 X w = Some x) i file.
Hypothesis readable : forall l, In l (lines_of file) -> x_utf8 X l = true.
Hypothesis usual : usual_instance i q cap.
Hypothesis accepted : main_config yaml cl = Ok f.
Hypothesis settings : part_sizes f size \/
  (not_decomposed f size /\ exists z, has f (txt "local_search_granularity") (VInt z) /\ (1 <= z <= Z.of_nat (Nat.min 200 (size - 2)))%Z).

(** What the program writes: an empty file if nothing was recorded, else the text of routes that serve every customer
    once within the capacity; the number in the line "Cost" is their true length up to 1/2 + 2^-26
    for every customer and every route. *)
Theorem C65_true_cost out : program L X read yaml cl = Ok out ->
  exists content, out = Some (output_path cl, content) /\
    (content = [] \/
     exists routes cost solution, content = solution ++ [LF] /\ solution_text 1 routes cost solution /\
       serves_all_once size routes /\ (forall r, In r routes -> r <> []) /\
       (forall r, In r routes -> (zload q r <= cap)%Z) /\
       (Rabs (INR cost - rsum (map (rtour (true_distance i)) routes)) <= INR (size - 1 + length routes) * (/ 2 + bpow radix2 (-26)))%R).
Proof.
  intro H. destruct (C65_every_instance i q cap usual) as (d & RI & ER).
  assert (G : exists content w, out = Some (output_path cl, content) /\
    ((h_entries (w_hist (w : @world NumF)) = [] /\ content = []) \/
     exists routes cost solution, content = solution ++ [LF] /\ solution_text 1 routes cost solution /\
       serves_all_once size routes /\ (forall r, In r routes -> r <> []) /\
       (forall r, In r routes -> (zload q r <= cap)%Z) /\
       Z.of_nat cost = zsum (map (ztour d) routes) /\
       forall e, In e (h_entries (w_hist w)) -> exists (v : dbl) z, he_cost e = Some (v : @F NumF) /\ is_int v z /\ (Z.of_nat cost <= z)%Z)).
  { destruct settings as [PS|[whole granularity]].
    - destruct (C64_solution_file L library X functions read yaml cl i d q cap f described readable RI accepted PS out H)
        as (pa & x & w & content & _ & _ & _ & EO & R). exists content, w. auto.
    - destruct (C65_solution_file L library X functions read yaml cl i d q cap f described readable RI accepted granularity whole out H)
        as (pa & x & li & g & w & content & _ & _ & _ & _ & EO & R). exists content, w. auto. }
  destruct G as (content & w & EO & R). exists content. split; [exact EO|].
  destruct R as [[_ R]|(routes & cost & sol & R1 & R2 & R3 & R4 & R5 & R6 & _)]; [now left|right].
  exists routes, cost, sol. repeat (split; [assumption|]). rewrite INR_IZR_INZ, R6.
  apply C65_true_length; [pose proof (ui_nodes _ _ _ usual); lia| |exact R3]. intros a b HA HB. now apply ER.
Qed.
End Program.
Print Assumptions C65_true_cost.

(** ** Case: a file with fractions in its coordinates *)
Definition pq_parse (w : text) : option (@F NumF) :=
  match rev w with
  | c :: "."%char :: rest => option_map (fun n => ddiv (d_of_Z (Z.of_N n)) (d_of_Z 10)) (digits_value (rev rest ++ [c]) 0)
  | _ => pf_parse w
  end.
Definition pq_outside (fuel : nat) : @outside NumF := let X := pf_outside fuel in
  @mkOutside NumF pq_parse (x_utf8 X) (x_sqrt X) (x_round X) (x_sort X) (x_atan2 X) (x_ln X) (x_real X) (x_angle X) (x_env X)
    (x_random X) (x_ls_hash X) (x_rr_hash X) (x_hashes X) fuel.
Definition pq_lines : list text :=
  [txt "NAME : fractions"; txt "DIMENSION : 6"; txt "EDGE_WEIGHT_TYPE : EUC_2D"; txt "CAPACITY : 10";
   txt "NODE_COORD_SECTION"; txt "1 0 0"; txt "2 0.7 2.4"; txt "3 6.5 8"; txt "4 7 0.2"; txt "5 0 9"; txt "6 2.5 2";
   txt "DEMAND_SECTION"; txt "1 0"; txt "2 4"; txt "3 5"; txt "4 3"; txt "5 6"; txt "6 2"; txt "EOF"].
Definition pq_file : text := join true pq_lines.
Definition pq_read (path : text) : text := if text_eqb path (txt "a.vrp") then pq_file else [].
Example pq_run : pr_view (@program NumF rust_lib (pq_outside 60) pq_read pf_yaml pr_cl) = Some ("a.sol", "Route #1: 3 2 5
Route #2: 4 1
Cost 44
")%string.
Proof. vm_compute. reflexivity. Qed.

(** The hypotheses hold of it. *)
Definition pq_instance : @instance NumF :=
  let n (x y q : Z) : @F NumF * @F NumF * @F NumF := (ddiv (d_of_Z x) (d_of_Z 10), ddiv (d_of_Z y) (d_of_Z 10), d_of_Z q) in
  let m (x y q : Z) : @F NumF * @F NumF * @F NumF := (d_of_Z x, d_of_Z y, d_of_Z q) in
  @mkInstance NumF (d_of_Z 10) [m 0 0 0; n 7 24 4; (fst (fst (n 65 0 0)), d_of_Z 8, d_of_Z 5); (d_of_Z 7, snd (fst (n 0 2 0)), d_of_Z 3); m 0 9 6;
    (fst (fst (n 25 0 0)), d_of_Z 2, d_of_Z 2)]%Z None.
Fact pq_functions fuel : double_functions (pq_outside fuel).
Proof. destruct (pf_functions fuel) as [A B C D]. constructor; assumption. Qed.
Definition pq_parts : list part :=
  [Other [txt "NAME"; txt "fractions"]; Header (txt "DIMENSION") (txt "6") [];
   Header (txt "EDGE_WEIGHT_TYPE") (txt "EUC_2D") []; Header (txt "CAPACITY") (txt "10") [];
   Section_ (txt "NODE_COORD_SECTION") [] [[txt "1"; txt "0"; txt "0"]; [txt "2"; txt "0.7"; txt "2.4"]; [txt "3"; txt "6.5"; txt "8"];
     [txt "4"; txt "7"; txt "0.2"]; [txt "5"; txt "0"; txt "9"]; [txt "6"; txt "2.5"; txt "2"]];
   Section_ (txt "DEMAND_SECTION") [] [[txt "1"; txt "0"]; [txt "2"; txt "4"]; [txt "3"; txt "5"]; [txt "4"; txt "3"]; [txt "5"; txt "6"]; [txt "6"; txt "2"]];
   Other [txt "EOF"]].
Fact pq_described : instance_file (fun w x => pq_parse w = Some x) pq_instance pq_file.
Proof.
  exists pq_parts, pq_lines. split; [|split].
  - exists (txt "6"), (txt "10"), (txt "EUC_2D"), [], [], [], [], [].
    exists [[txt "1"; txt "0"; txt "0"]; [txt "2"; txt "0.7"; txt "2.4"]; [txt "3"; txt "6.5"; txt "8"];
     [txt "4"; txt "7"; txt "0.2"]; [txt "5"; txt "0"; txt "9"]; [txt "6"; txt "2.5"; txt "2"]],
      [[txt "1"; txt "0"]; [txt "2"; txt "4"]; [txt "3"; txt "5"]; [txt "4"; txt "3"]; [txt "5"; txt "6"]; [txt "6"; txt "2"]].
    exists [], [Other [txt "NAME"; txt "fractions"]; Other [txt "EOF"]].
    split; [|split; [|split; [reflexivity|split; [reflexivity|]]]].
    + unfold pq_parts. apply NoDup_Permutation.
      * repeat constructor; cbn; intuition discriminate.
      * repeat constructor; cbn; intuition discriminate.
      * intro x. cbn [app In]. tauto.
    + apply (dec_digit 6). split; [lia|reflexivity].
    + assert (PL : forall rows, forallb (fun r => match r with [] => true | w :: _ => negb (existsb (text_eqb w) (keys pq_instance)) end) rows = true ->
        Forall (plain pq_instance) rows).
      { intros rows H. rewrite forallb_forall in H. apply Forall_forall. intros r Hr. specialize (H r Hr). unfold plain. destruct r as [|w r]; auto.
        intro I. apply negb_true_iff in H. assert (X : existsb (text_eqb w) (keys pq_instance) = true).
        { apply existsb_exists. exists w. split; auto. apply text_eqb_refl. } congruence. }
      split; [|split; [|split; [|split; [|split]]]].
      * repeat (apply Forall2_cons; [eexists _, _, _, _; repeat split; reflexivity|]). apply Forall2_nil.
      * apply PL. reflexivity.
      * repeat (apply Forall2_cons; [eexists _, _, _; repeat split; reflexivity|]). apply Forall2_nil.
      * apply PL. reflexivity.
      * cbn [weight_parts pq_instance in_weights]. split; reflexivity.
      * apply Forall_forall. intros x Hx.
        assert (exists line, x = Other line) as (line & ->) by (cbn in Hx; intuition subst; eauto).
        exists line. split; auto. revert Hx. cbn [In]. intuition (try discriminate);
          match goal with H : Other _ = Other _ |- _ => injection H as <- end; cbn; intuition discriminate.
  - change (concat (map part_lines pq_parts)) with (map words pq_lines).
    assert (F : forall ls, (forall l, In l ls -> line_text (words l) l) -> Forall2 line_text (map words ls) ls).
    { induction ls as [|l ls IH]; intro H; cbn [map]; constructor; [apply H; now left|apply IH; intros; apply H; now right]. }
    apply F. intros l Hl.
    assert (X : forallb (fun l => lay (words l) l) pq_lines = true) by (vm_compute; reflexivity).
    rewrite forallb_forall in X. apply lay_sound. now apply X.
  - apply join_text. discriminate.
Qed.

(** Between 0 and 9. *)
Local Definition digit (x : dbl) : bool := (is_finite x && Bleb (d_of_Z 0) x && Bleb x (d_of_Z 9))%bool.
Local Lemma digit_small x : digit x = true -> is_finite x = true /\ (Rabs (B2R x) <= bpow radix2 22)%R.
Proof.
  unfold digit. intro H. apply andb_prop in H as [H H2]. apply andb_prop in H as [H0 H1]. split; [exact H0|].
  destruct (int_of_Z 0) as [F0 E0]; [unfold exact_bound; lia|]. destruct (int_of_Z 9) as [F9 E9]; [unfold exact_bound; lia|].
  rewrite Bleb_correct in H1 by auto. rewrite Bleb_correct in H2 by auto. rewrite E0 in H1. rewrite E9 in H2. revert H1 H2.
  case Rle_bool_spec; [|discriminate]. case Rle_bool_spec; [|discriminate]. intros A B _ _. rewrite Rabs_pos_eq by exact B.
  eapply Rle_trans; [exact A|]. change (bpow radix2 22) with (IZR 4194304). lra.
Qed.
Fact pq_usual : usual_instance pq_instance pf_q 10.
Proof.
  constructor.
  - reflexivity.
  - change (length (in_nodes pq_instance)) with 6. split; lia.
  - change (length (in_nodes pq_instance)) with 6. intros a HA.
    assert (X : forallb (fun a => digit (fst (coord pq_instance a)) && digit (snd (coord pq_instance a)))%bool (seq 0 6) = true) by (vm_compute; reflexivity).
    rewrite forallb_forall in X. specialize (X a ltac:(apply in_seq; lia)). apply andb_prop in X as [X Y].
    destruct (digit_small _ X), (digit_small _ Y). auto.
  - change (length (in_nodes pq_instance)) with 6. intros a HA.
    assert (E : demand pq_instance a = d_of_Z (pf_q a)) by (do 6 (destruct a as [|a]; [reflexivity|]); lia). rewrite E.
    assert (B : (0 <= pf_q a <= 6)%Z) by (do 6 (destruct a as [|a]; [vm_compute; intuition discriminate|]); lia).
    split; [|lia]. apply int_of_Z. unfold exact_bound. lia.
  - split; [|unfold exact_bound; lia]. apply int_of_Z. unfold exact_bound. lia.
  - reflexivity.
Qed.

(** So whenever the program ends on it, the cost in its file is the true length up to 1/2 + 2^-26 for
    each of the 5 customers and of the routes. *)
Example C65_applies fuel out : @program NumF rust_lib (pq_outside fuel) pq_read pf_yaml pr_cl = Ok out ->
  exists content, out = Some (txt "a.sol", content) /\
    (content = [] \/
     exists routes cost solution, content = solution ++ [LF] /\ solution_text 1 routes cost solution /\
       serves_all_once 6 routes /\ (forall r, In r routes -> r <> []) /\
       (forall r, In r routes -> (zload pf_q r <= 10)%Z) /\
       (Rabs (INR cost - rsum (map (rtour (true_distance pq_instance)) routes)) <= INR (5 + length routes) * (/ 2 + bpow radix2 (-26)))%R).
Proof.
  intro H. destruct pf_accepted as (f & EF).
  assert (U : forall l, In l (lines_of (pq_read (cl_instance pr_cl))) -> x_utf8 (pq_outside fuel) l = true) by reflexivity.
  apply (C65_true_cost rust_lib rust_lib_ok (pq_outside fuel) (pq_functions fuel) pq_read pf_yaml pr_cl pq_instance pf_q 10 f
    pq_described U pq_usual EF); [|exact H].
  right. split.
  - exists 3000%Z. split; [apply (P_FloatProgram.pf_int f EF); vm_compute; reflexivity|cbn; lia].
  - exists 3%Z. split; [apply (P_FloatProgram.pf_int f EF); vm_compute; reflexivity|cbn; lia].
Qed.

(** ** That each distance is the nearest integer, as with integral coordinates, does not hold: from
    (0, 0) to (0.7, 2.4), as doubles, it is slightly less than 2.5 and the program takes 3. *)
Local Lemma finite_value (x : dbl) s m e : B2SF x = SpecFloat.S754_finite s m e -> B2R x = F2R (Float radix2 (cond_Zopp s (Zpos m)) e).
Proof. intro H. rewrite <- SF2R_B2SF, H. reflexivity. Qed.
Theorem C65_nearest_refuted : exists (i : @instance NumF) q cap d a b, usual_instance i q cap /\ rounded_instance i d q cap /\
  a < length (in_nodes i) /\ b < length (in_nodes i) /\ a <> b /\ ~ nearest (true_distance i a b) (d a b).
Proof.
  destruct (C65_every_instance pq_instance pf_q 10 pq_usual) as (d & RI & _).
  exists pq_instance, pf_q, 10%Z, d, 0, 1. split; [exact pq_usual|]. split; [exact RI|]. change (length (in_nodes pq_instance)) with 6.
  split; [lia|]. split; [lia|]. split; [lia|].
  pose proof (ri_dist _ _ _ _ RI 0 1 ltac:(cbn; lia) ltac:(cbn; lia)) as [_ RD]. change (0 =? 1) with false in RD.
  assert (D3 : d 0 1 = 3%Z).
  { apply eq_IZR. rewrite <- RD.
    assert (E : B2SF (NumFloat.d_round (computed_distance pq_instance 0 1)) = B2SF (d_of_Z 3)) by (vm_compute; reflexivity).
    apply B2SF_inj in E. rewrite E. destruct (int_of_Z 3) as [_ E3]; [unfold exact_bound; lia|]. exact E3. }
  rewrite D3. intros [LO _]. revert LO. apply Rlt_not_le. unfold true_distance. change (in_weights pq_instance) with (@None (list (list dbl))).
  assert (X0 : B2R (fst (coord pq_instance 0)) = 0%R) by (destruct (int_of_Z 0) as [_ E0]; [unfold exact_bound; lia|exact E0]).
  assert (Y0 : B2R (snd (coord pq_instance 0)) = 0%R) by (destruct (int_of_Z 0) as [_ E0]; [unfold exact_bound; lia|exact E0]).
  assert (X1 : B2R (fst (coord pq_instance 1)) = F2R (Float radix2 6305039478318694 (-53))) by (apply (finite_value _ false 6305039478318694 (-53)); vm_compute; reflexivity).
  assert (Y1 : B2R (snd (coord pq_instance 1)) = F2R (Float radix2 5404319552844595 (-51))) by (apply (finite_value _ false 5404319552844595 (-51)); vm_compute; reflexivity).
  cbv beta match. rewrite X0, Y0, X1, Y1, !Rminus_0_r.
  replace (IZR 3 - / 2)%R with (R_sqrt.sqrt ((5 / 2) * (5 / 2))) by (rewrite sqrt_square; lra).
  apply sqrt_lt_1; [|lra|].
  - apply Rplus_le_le_0_compat; apply pow2_ge_0.
  - unfold F2R. cbn [Fnum Fexp]. change (bpow radix2 (-53)) with (/ IZR 9007199254740992)%R. change (bpow radix2 (-51)) with (/ IZR 2251799813685248)%R. lra.
Qed.
Print Assumptions C65_nearest_refuted.
