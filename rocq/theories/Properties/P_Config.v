(** C45: defaults, configuration file and command line. *)
From Coq Require Import Ascii String List Arith NArith ZArith QArith Bool Lia.
From Verif.Model Require Import Num Prelude Text ConfigFile.
From Verif.Spec Require Import Output ConfigFile.
From Verif.Proofs Require Import Lists MatrixFacts TextFacts ConfigFacts.
Import ListNotations.
Open Scope nat_scope.

(** The defaults have the right types. *)
Theorem C45_defaults (N : Num) : configuration config_default.
Proof.
  split; [reflexivity|]. intros name k v H1 H2.
  pose proof (proj2 (lookup_has config_default name v schema_names) H2) as HL.
  unfold schema in H1. cbn [In] in H1.
  repeat (destruct H1 as [H1|H1]; [injection H1 as <- <-; vm_compute in HL; injection HL as <-;
    first [constructor | apply (sf_u64 (Z.to_N _)); reflexivity | idtac]|]); [..|destruct H1].
  all: match goal with |- stands_for KU64 (VInt ?z) _ => apply (sf_u64 (Z.to_N z)); reflexivity end.
Qed.
Print Assumptions C45_defaults.

(** Values of the file replace the values before them, fields that the file does not mention keep
    theirs. *)
Theorem C45_file_overrides (N : Num) (f : fields) (m : list (value * value)) :
  configuration f -> NoDup (map fst m) ->
  (forall name k v, In (name, k) schema -> gives m name v -> exists w, stands_for k v w) ->
  exists f', update f (VMap m) = Ok f' /\ configuration f' /\
    forall name k, In (name, k) schema ->
      (forall v, gives m name v -> exists w, stands_for k v w /\ has f' name w) /\
      (gives_none m name -> forall w, has f' name w <-> has f name w).
Proof.
  intros [HN HT] ND HA.
  assert (NF : NoDup (map fst f)) by (rewrite HN; apply schema_names).
  assert (GN : forall name, (exists v, gives m name v) \/ gives_none m name).
  { intro name. unfold gives_none, gives. induction m as [|[k v] m IH]; [right; intros v []|].
    inversion ND; subst. destruct IH as [(w & H)|H]; auto.
    { intros n k' v' I G. apply (HA n k' v' I). now right. }
    { left. exists w. now right. }
    assert (D : k = VString name \/ k <> VString name).
    { destruct k as [| | | |t| |]; try (right; discriminate). destruct (text_eqb t name) eqn:E.
      - apply text_eqb_spec in E. subst. now left.
      - right. intro X. injection X as ->. rewrite text_eqb_refl in E. discriminate. }
    destruct D as [->|D]; [left; exists v; now left|]. right. intros w [X|X]; [congruence|exact (H w X)]. }
  destruct (decode_all (fold_left patch m f)) as (f' & E & H1 & H2).
  { now rewrite patch_names. }
  { intros name k v I HL. destruct (GN name) as [(x & G)|G].
    - rewrite (patch_given m name x ND G) in HL; [|rewrite HN; apply (in_map fst) in I; exact I]. injection HL as <-. now apply (HA name k x).
    - rewrite patch_none in HL by auto. apply lookup_has in HL; auto. exists v. now apply (HT name). }
  assert (NF' : NoDup (map fst f')) by (rewrite H1; apply schema_names).
  exists f'. split; [exact E|]. split; [split; [exact H1|]|].
  - intros name k v I HV. destruct (H2 name k I) as (x & w & A & B & C).
    rewrite (has_unique f' name v w NF' HV C). eapply stands_twice; eauto.
  - intros name k I. assert (IN : In name (map fst f)) by (rewrite HN; apply (in_map fst) in I; exact I).
    destruct (H2 name k I) as (x & w & A & B & C). split.
    + intros v G. rewrite (patch_given m name v ND G) in A by auto. injection A as <-. eauto.
    + intros G v. rewrite patch_none in A by auto. apply lookup_has in A; auto.
      assert (w = x) as ->. { pose proof (HT name k x I A) as S. apply decode_spec in S, B. congruence. }
      split; intro H; [rewrite (has_unique f' name v x NF' H C)|rewrite (has_unique f name v x NF H A)]; auto.
Qed.
Print Assumptions C45_file_overrides.

(** Keys that are not names of fields have no effect. *)
Theorem C45_unknown_ignored (N : Num) (f : fields) (m : list (value * value)) (known : value * value -> bool) :
  map fst f = map fst schema ->
  (forall name v, known (VString name, v) = true \/ ~ In name (map fst schema)) ->
  update f (VMap (filter known m)) = update f (VMap m).
Proof.
  intros HN HK. unfold update. f_equal. f_equal. revert f HN. induction m as [|[k v] m IH]; intros f HN; cbn [filter fold_left]; auto.
  assert (HP : map fst (patch f (k, v)) = map fst schema).
  { change (patch f (k, v)) with (fold_left patch [(k, v)] f). now rewrite patch_names. }
  destruct (known (k, v)) eqn:EK; [now apply IH|]. rewrite IH by auto.
  f_equal. unfold patch. cbn [fst snd]. destruct k as [| | | |name| |]; auto.
  destruct (HK name v) as [H|H]; [congruence|]. rewrite <- HN in H. clear -H. induction f as [|[a b] f IH]; cbn; auto.
  destruct (text_eqb a name) eqn:E; [apply text_eqb_spec in E; subst; cbn in H; tauto|]. rewrite <- IH; auto. cbn in H. tauto.
Qed.
Print Assumptions C45_unknown_ignored.

(** A value of the wrong type for a field, or a file that is not a mapping, stops the program. *)
Theorem C45_bad_file_rejected (N : Num) (f : fields) :
  (forall m name k v, map fst f = map fst schema -> NoDup (map fst m) -> In (name, k) schema -> gives m name v -> (forall w, ~ stands_for k v w) ->
     exists e, update f (VMap m) = Err e) /\
  (forall v, (forall m, v <> VMap m) -> exists e, update f v = Err e).
Proof.
  split.
  - intros m name k v HN ND I G B. apply (decode_bad (fold_left patch m f) name k v); auto.
    apply patch_given; auto. rewrite HN. apply (in_map fst) in I. exact I.
  - intros v H. destruct v; try (eexists; reflexivity). exfalso. now apply (H m).
Qed.
Print Assumptions C45_bad_file_rejected.

(** The command line: the instance and the given options take precedence, an iteration limit that
    is not given changes nothing, and no other field is touched.  Partial: the claim says that an
    option that is not given changes nothing. *)
Theorem C45_arguments_partial (N : Num) (f : fields) (cl : command_line) (a : args) :
  configuration f -> args_parse cl = Ok a ->
  let f' := update_from_args f a in
  has f' (txt "instance_path") (VString (cl_instance cl)) /\
  (forall t, cl_solution cl = Some t -> has f' (txt "solution_path") (VString t)) /\
  (forall t n, cl_time_limit cl = Some t -> decimal n t -> has f' (txt "time_limit") (VInt (Z.of_nat n))) /\
  (forall t n, cl_iterations cl = Some t -> decimal n t -> has f' (txt "max_iterations_without_improvement") (VInt (Z.of_nat n))) /\
  (cl_iterations cl = None -> forall v, has f' (txt "max_iterations_without_improvement") v <-> has f (txt "max_iterations_without_improvement") v) /\
  (forall name v, ~ In name [txt "instance_path"; txt "solution_path"; txt "time_limit"; txt "max_iterations_without_improvement"; txt "round_distances"] ->
     has f' name v <-> has f name v).
Proof.
  intros [HN HT] HA f'. pose proof schema_names as ND.
  assert (NF : NoDup (map fst f)) by now rewrite HN.
  unfold args_parse in HA. destruct (parse_option (cl_iterations cl)) as [it|] eqn:E1; [|discriminate]. cbn [rbind] in HA.
  destruct (parse_option (value_or (cl_time_limit cl) "10")) as [tl|] eqn:E2; [|discriminate]. cbn [rbind] in HA. injection HA as <-.
  assert (NF' : NoDup (map fst f')).
  { unfold f', update_from_args, opt_u64. cbn [a_max_iterations a_time_limit]. destruct it, tl; rewrite !set_names; auto. }
  assert (DV : forall t n m, decimal n t -> parse_u64 t = Some m -> m = N.of_nat n).
  { intros t n m HD HP. unfold parse_u64 in HP. pose proof (decimal_nonempty _ _ HD) as HE. pose proof (decimal_digits _ _ HD) as HG.
    destruct t as [|c t]; [contradiction|].
    assert (HC : Ascii.eqb c "+"%char = false).
    { apply Ascii.eqb_neq. intros ->. inversion HG as [|? ? HX _]. revert HX. apply not_digit. left. cbn. lia. }
    rewrite HC, (decimal_value _ _ HD) in HP. destruct (_ <=? _)%N; congruence. }
  assert (L : forall name, lookup name f' =
    if text_eqb (txt "round_distances") name then match lookup name f with Some _ => Some (VBool true) | None => None end
    else if text_eqb (txt "time_limit") name then match tl with Some n => match lookup name f with Some _ => Some (VInt (Z.of_N n)) | None => None end | None => lookup name f end
    else if text_eqb (txt "max_iterations_without_improvement") name then match it with Some n => match lookup name f with Some _ => Some (VInt (Z.of_N n)) | None => None end | None => lookup name f end
    else if text_eqb (txt "solution_path") name then match lookup name f with Some _ => Some (VString (match cl_solution cl with Some t => t | None => txt "output.sol" end)) | None => None end
    else if text_eqb (txt "instance_path") name then match lookup name f with Some _ => Some (VString (cl_instance cl)) | None => None end
    else lookup name f).
  { assert (LS : forall x v g name, lookup name (set_field x v g) =
      if text_eqb x name then match lookup name g with Some _ => Some v | None => None end else lookup name g).
    { intros x v g name. destruct (text_eqb x name) eqn:E.
      - apply text_eqb_spec in E. subst x. destruct (lookup name g) as [w|] eqn:EL.
        + apply lookup_set_same. clear -EL. induction g as [|[k y] g IH]; cbn in *; [discriminate|].
          destruct (text_eqb k name) eqn:E; [left; now apply text_eqb_spec|right; auto].
        + induction g as [|[k y] g IH]; cbn in *; auto. destruct (text_eqb k name) eqn:E; [discriminate|]. cbn. rewrite E. auto.
      - apply lookup_set_other. intros ->. rewrite text_eqb_refl in E. discriminate. }
    intro name. unfold f', update_from_args, opt_u64. cbn [a_max_iterations a_time_limit a_rounded a_solution_path a_instance_path value_or].
    assert (EX : forall a b, text_eqb a b = false -> text_eqb a name = true -> text_eqb b name = false).
    { intros a b H1 H2. apply text_eqb_spec in H2. subst a. destruct (text_eqb b name) eqn:H3; auto. apply text_eqb_spec in H3. subst b.
      rewrite text_eqb_refl in H1. discriminate. }
    rewrite LS. destruct (text_eqb (txt "round_distances") name) eqn:R1.
    - pose proof (EX (txt "round_distances") (txt "time_limit") eq_refl R1) as A1. pose proof (EX (txt "round_distances") (txt "max_iterations_without_improvement") eq_refl R1) as A2.
      pose proof (EX (txt "round_distances") (txt "solution_path") eq_refl R1) as A3. pose proof (EX (txt "round_distances") (txt "instance_path") eq_refl R1) as A4.
      destruct tl, it, (cl_solution cl), (cl_rounded cl); rewrite !LS, ?A1, ?A2, ?A3, ?A4; reflexivity.
    - destruct (text_eqb (txt "time_limit") name) eqn:R2.
      + pose proof (EX (txt "time_limit") (txt "max_iterations_without_improvement") eq_refl R2) as A2.
        pose proof (EX (txt "time_limit") (txt "solution_path") eq_refl R2) as A3. pose proof (EX (txt "time_limit") (txt "instance_path") eq_refl R2) as A4.
        destruct tl, it, (cl_solution cl); rewrite !LS, ?R2, ?A2, ?A3, ?A4; reflexivity.
      + destruct (text_eqb (txt "max_iterations_without_improvement") name) eqn:R3.
        * pose proof (EX (txt "max_iterations_without_improvement") (txt "solution_path") eq_refl R3) as A3. pose proof (EX (txt "max_iterations_without_improvement") (txt "instance_path") eq_refl R3) as A4.
          destruct tl, it, (cl_solution cl); rewrite !LS, ?R2, ?R3, ?A3, ?A4; reflexivity.
        * destruct (text_eqb (txt "solution_path") name) eqn:R4.
          -- pose proof (EX (txt "solution_path") (txt "instance_path") eq_refl R4) as A4.
             destruct tl, it, (cl_solution cl); rewrite !LS, ?R2, ?R3, ?R4, ?A4; reflexivity.
          -- destruct tl, it, (cl_solution cl); rewrite !LS, ?R2, ?R3, ?R4; reflexivity. }
  assert (KN : forall name, In name (map fst (@schema)) -> exists v, lookup name f = Some v).
  { intros name I. apply lookup_name. now rewrite HN. }
  split; [|split; [|split; [|split; [|split]]]].
  - apply lookup_has; auto. rewrite L. cbn [text_eqb]. destruct (KN (txt "instance_path")) as (v & E); [apply (in_map fst schema (txt "instance_path", KString)); now left|].
    rewrite E. reflexivity.
  - intros t HT2. apply lookup_has; auto. rewrite L. destruct (KN (txt "solution_path")) as (v & E); [apply (in_map fst schema (txt "solution_path", KOptString)); cbn; tauto|].
    rewrite E, HT2. reflexivity.
  - intros t n HT2 HD. apply lookup_has; auto. rewrite L. destruct (KN (txt "time_limit")) as (v & E); [apply (in_map fst schema (txt "time_limit", KU64)); cbn; tauto|].
    rewrite E. rewrite HT2 in E2. cbn [value_or parse_option] in E2. destruct (parse_u64 t) as [m|] eqn:EP; [|discriminate]. injection E2 as <-.
    apply (DV t n m HD) in EP. subst m. cbn [text_eqb]. rewrite nat_N_Z. reflexivity.
  - intros t n HT2 HD. apply lookup_has; auto. rewrite L. destruct (KN (txt "max_iterations_without_improvement")) as (v & E); [apply (in_map fst schema (txt "max_iterations_without_improvement", KU64)); cbn; tauto|].
    rewrite E. rewrite HT2 in E1. cbn [parse_option] in E1. destruct (parse_u64 t) as [m|] eqn:EP; [|discriminate]. injection E1 as <-.
    apply (DV t n m HD) in EP. subst m. rewrite nat_N_Z. reflexivity.
  - intros HI v. rewrite <- !lookup_has by auto. rewrite L. rewrite HI in E1. cbn in E1. injection E1 as <-. reflexivity.
  - intros name v HI. rewrite <- !lookup_has by auto. rewrite L. cbn [In] in HI.
    rewrite !text_eqb_neq by tauto. reflexivity.
Qed.
Print Assumptions C45_arguments_partial.

(** All three sources together: what a run is configured with. *)
Theorem C45_merged_partial (N : Num) (m : list (value * value)) (cl : command_line) :
  NoDup (map fst m) ->
  (forall name k v, In (name, k) schema -> gives m name v -> exists w, stands_for k v w) ->
  (forall t, cl_iterations cl = Some t -> exists n, decimal n t /\ (N.of_nat n < 2 ^ 64)%N) ->
  (forall t, cl_time_limit cl = Some t -> exists n, decimal n t /\ (N.of_nat n < 2 ^ 64)%N) ->
  exists f, main_config (VMap m) cl = Ok f /\
    has f (txt "instance_path") (VString (cl_instance cl)) /\
    (forall t, cl_solution cl = Some t -> has f (txt "solution_path") (VString t)) /\
    (forall t n, cl_time_limit cl = Some t -> decimal n t -> has f (txt "time_limit") (VInt (Z.of_nat n))) /\
    (forall t n, cl_iterations cl = Some t -> decimal n t -> has f (txt "max_iterations_without_improvement") (VInt (Z.of_nat n))) /\
    forall name k, In (name, k) schema ->
      ~ In name [txt "instance_path"; txt "solution_path"; txt "time_limit"; txt "round_distances"] ->
      (name = txt "max_iterations_without_improvement" -> cl_iterations cl = None) ->
      (forall v, gives m name v -> exists w, stands_for k v w /\ has f name w) /\
      (gives_none m name -> forall w, has f name w <-> has config_default name w).
Proof.
  intros ND HA HI HT.
  destruct (C45_file_overrides N config_default m (C45_defaults N) ND HA) as (f & E & HC & H).
  assert (PU : forall t n, decimal n t -> (N.of_nat n < 2 ^ 64)%N -> parse_u64 t = Some (N.of_nat n)).
  { intros t n HD HL. unfold parse_u64. pose proof (decimal_nonempty _ _ HD) as HE. pose proof (decimal_digits _ _ HD) as HG.
    destruct t as [|c t]; [contradiction|].
    assert (HP : Ascii.eqb c "+"%char = false).
    { apply Ascii.eqb_neq. intros ->. inversion HG as [|? ? HX _]. revert HX. apply not_digit. left. cbn. lia. }
    rewrite HP, (decimal_value _ _ HD). 
    replace (N.of_nat n <=? u64_max)%N with true by (symmetry; apply N.leb_le; unfold u64_max; lia).
    reflexivity. }
  assert (E10 : parse_option (value_or None "10") = Ok (Some 10%N)) by reflexivity.
  assert (EA : exists a, args_parse cl = Ok a).
  { unfold args_parse. destruct (cl_iterations cl) as [t|] eqn:E1; [destruct (HI t eq_refl) as (n & D & L)|];
    destruct (cl_time_limit cl) as [t'|] eqn:E2; try (destruct (HT t' eq_refl) as (n' & D' & L'));
    rewrite ?E10; cbn [value_or parse_option]; rewrite ?(PU _ _ D L), ?(PU _ _ D' L'); cbn [rbind]; eexists; reflexivity. }
  destruct EA as (a & EA).
  exists (update_from_args f a). unfold main_config. rewrite E. cbn [rbind]. rewrite EA. split; [reflexivity|].
  destruct (C45_arguments_partial N f cl a HC EA) as (A1 & A2 & A3 & A4 & A5 & A6).
  split; [exact A1|]. split; [exact A2|]. split; [exact A3|]. split; [exact A4|].
  intros name k I NI NM.
  assert (EQ : forall v, has (update_from_args f a) name v <-> has f name v).
  { destruct (text_eqb name (txt "max_iterations_without_improvement")) eqn:EN.
    - apply text_eqb_spec in EN. subst name. apply A5. now apply NM.
    - intro v. apply A6. cbn [In] in *. intros [X|[X|[X|[X|[X|[]]]]]]; subst; try tauto. rewrite text_eqb_refl in EN. discriminate. }
  destruct (H name k I) as [B1 B2]. split.
  - intros v G. destruct (B1 v G) as (w & W1 & W2). exists w. split; auto. now apply EQ.
  - intros G w. rewrite EQ. now apply B2.
Qed.
Print Assumptions C45_merged_partial.

(** The claim is false for the time limit: without [-t] the run has ten seconds, whatever the file
    says ... *)
Theorem C45_time_limit_refuted (N : Num) (m : list (value * value)) (cl : command_line) f :
  cl_time_limit cl = None -> main_config (VMap m) cl = Ok f ->
  exists v, has f (txt "time_limit") v /\ v = VInt 10.
Proof.
  intros HT H. unfold main_config in H. destruct (update config_default (VMap m)) as [g|] eqn:E; [|discriminate]. cbn [rbind] in H.
  unfold args_parse in H. rewrite HT in H. destruct (parse_option (cl_iterations cl)) as [it|]; [|discriminate]. cbn [rbind] in H.
  assert (E10 : parse_option (value_or None "10") = Ok (Some 10%N)) by reflexivity. rewrite E10 in H. cbn [rbind] in H. injection H as <-.
  exists (VInt 10). split; [|reflexivity].
  assert (HN : map fst g = map fst schema).
  { unfold update in E. apply mapm_spec in E. clear -E. induction E as [|[n k] [n' v] l1 l2 H F IH]; [reflexivity|].
    cbn. f_equal; auto. unfold decode_field in H. cbn [fst snd] in H.
    destruct (lookup n _); [|discriminate]. destruct (decode k _); [|discriminate]. congruence. }
  assert (HX : forall x f0, map fst (@opt_u64 N "max_iterations_without_improvement" x f0) = map fst f0).
  { intros [n|] f0; [apply set_names|reflexivity]. }
  unfold update_from_args. cbn [a_time_limit a_max_iterations a_solution_path a_instance_path a_rounded].
  unfold opt_u64 at 1.
  set (h := opt_u64 "max_iterations_without_improvement" _ _).
  assert (HH : map fst h = map fst schema) by (unfold h; rewrite HX, !set_names; exact HN).
  apply lookup_has; [rewrite !set_names, HH; apply schema_names|].
  rewrite lookup_set_other by (vm_compute; discriminate).
  apply lookup_set_same. rewrite HH. apply (in_map fst schema (txt "time_limit", KU64)). cbn. tauto.
Qed.
Print Assumptions C45_time_limit_refuted.

(** ... and for the rounding of distances: it is on, whatever the file and the command line say. *)
Theorem C45_rounding_refuted (N : Num) (m : list (value * value)) (cl : command_line) f :
  main_config (VMap m) cl = Ok f -> has f (txt "round_distances") (VBool true).
Proof.
  intros H. unfold main_config in H. destruct (update config_default (VMap m)) as [g|] eqn:E; [|discriminate]. cbn [rbind] in H.
  unfold args_parse in H. destruct (parse_option (cl_iterations cl)) as [it|]; [|discriminate]. cbn [rbind] in H.
  destruct (parse_option (value_or (cl_time_limit cl) "10")) as [tl|]; [|discriminate]. cbn [rbind] in H. injection H as <-.
  assert (HN : map fst g = map fst schema).
  { unfold update in E. apply mapm_spec in E. clear -E. induction E as [|[n k] [n' v] l1 l2 H F IH]; [reflexivity|].
    cbn. f_equal; auto. unfold decode_field in H. cbn [fst snd] in H.
    destruct (lookup n _); [|discriminate]. destruct (decode k _); [|discriminate]. congruence. }
  unfold update_from_args. cbn [a_time_limit a_max_iterations a_solution_path a_instance_path a_rounded].
  assert (HX : forall nm x f0, map fst (@opt_u64 N nm x f0) = map fst f0).
  { intros nm [n|] f0; [apply set_names|reflexivity]. }
  set (h := opt_u64 "time_limit" _ _).
  assert (HH : map fst h = map fst schema) by (unfold h; rewrite !HX, !set_names; exact HN).
  replace (match value_or (cl_rounded cl) "true" with Some _ => true | None => false end) with true by (destruct (cl_rounded cl); reflexivity).
  apply lookup_has; [rewrite !set_names, HH; apply schema_names|].
  apply lookup_set_same. rewrite HH. apply (in_map fst schema (txt "round_distances", KBool)). cbn. tauto.
Qed.
Print Assumptions C45_rounding_refuted.

(** config.yml of the repository, without the comments. *)
Section Example.
Let key (s : string) (v : @value NumQ) : @value NumQ * @value NumQ := (@VString NumQ (txt s), v).
Definition repository_file : list (@value NumQ * @value NumQ) :=
  [key "time_limit" (VInt 600); key "deterministic" (VBool false); key "seed" (VInt 1);
   key "max_iterations_without_improvement" (VInt 20000); key "precompute_distance_size_limit" (VInt 3000);
   key "round_distances" (VBool true); key "decompose_limit" (VInt 3000); key "decomposed_problem_min_size" (VInt 150);
   key "min_population_size" (VInt 25); key "initial_individuals" (VInt 100); key "population_lambda" (VInt 40);
   key "local_search_granularity" (VInt 20); key "feasibility_proportion_target" (@VFloat NumQ (Some (2 # 10)%Q));
   key "num_diversity_closest" (VInt 5); key "num_elites" (VInt 4); key "elite_education" (VBool true);
   key "rr_mutation" (VBool true); key "average_ruin_cardinality" (VInt 10); key "max_ruin_string_length" (VInt 10);
   key "ruin_alpha" (@VFloat NumQ (Some (1 # 100)%Q)); key "blink_probability" (@VFloat NumQ (Some (1 # 100)%Q));
   key "rr_final_temp" (VInt 1); key "elite_education_final_temp" (VInt 1); key "rr_start_temp" (VInt 10);
   key "elite_education_start_temp" (VInt 50); key "rr_gamma" (@VFloat NumQ (Some (1 # 1)%Q));
   key "elite_education_gamma" (@VFloat NumQ (Some (1000 # 1)%Q)); key "elite_education_problem_size_limit" (VInt 500);
   key "elite_education_time_based" (VBool false); key "elite_education_time_fraction" (@VFloat NumQ (Some (5 # 100)%Q))].

Let cl_example := mkCL (txt "X-n101-k25.vrp") None (Some (txt "5000")) None (Some (txt "false")).

(** Running with [-i 5000 -r false]: the file replaces defaults, the option replaces the file, two
    keys of the file have no effect, the limit of 600 seconds is lost and distances are rounded. *)
Example config_example :
  exists f, main_config (VMap repository_file) cl_example = Ok f /\
    has f (txt "elite_education_problem_size_limit") (VInt 500) /\
    has f (txt "elite_education_start_temp") (@VFloat NumQ (Some (50 # 1)%Q)) /\
    has f (txt "max_iterations_without_improvement") (VInt 5000) /\
    has f (txt "tournament_size") (VInt 2) /\
    ~ In (txt "ruin_alpha") (map fst f) /\
    has f (txt "time_limit") (VInt 10) /\
    has f (txt "round_distances") (VBool true).
Proof.
  remember (main_config (VMap repository_file) cl_example) as r eqn:E.
  destruct r as [f|e];
    [|assert (X : match main_config (VMap repository_file) cl_example with Ok _ => true | Err _ => false end = true)
        by (vm_compute; reflexivity); rewrite <- E in X; discriminate].
  exists f. split; [reflexivity|].
  assert (A : forall name z, match main_config (VMap repository_file) cl_example with
            | Ok f => match lookup (txt name) f with Some (VInt z') => Z.eqb z z' | _ => false end
            | Err _ => false end = true -> has f (txt name) (VInt z)).
  { intros name z H. rewrite <- E in H. destruct (lookup (txt name) f) as [[| |z'| | | |]|] eqn:EL; try discriminate H.
    apply Z.eqb_eq in H. subst z'. clear -EL. unfold has. induction f as [|[k v] f IH]; [discriminate|]. cbn [lookup] in EL.
    destruct (text_eqb k (txt name)) eqn:EN; [apply text_eqb_spec in EN; left; congruence|right; auto]. }
  split; [apply A; vm_compute; reflexivity|].
  split.
  { assert (H : match main_config (VMap repository_file) cl_example with
            | Ok f => match lookup (txt "elite_education_start_temp") f with Some (VFloat (Some q)) => Z.eqb (Qnum q) 50 && Pos.eqb (Qden q) 1 | _ => false end
            | Err _ => false end = true) by (vm_compute; reflexivity).
    rewrite <- E in H. destruct (lookup (txt "elite_education_start_temp") f) as [[| | |[[n d]|]| | |]|] eqn:EL; try discriminate H.
    apply andb_true_iff in H. destruct H as [H1 H2]. apply Z.eqb_eq in H1. apply Pos.eqb_eq in H2. cbn [Qnum Qden] in *. subst.
    clear -EL. unfold has. induction f as [|[k v] f IH]; [discriminate|]. cbn [lookup] in EL.
    destruct (text_eqb k (txt "elite_education_start_temp")) eqn:EN; [apply text_eqb_spec in EN; left; rewrite EN; injection EL as ->; reflexivity|right; auto]. }
  split; [apply A; vm_compute; reflexivity|]. split; [apply A; vm_compute; reflexivity|].
  split; [|split; [apply A; vm_compute; reflexivity|]].
  - assert (H : match main_config (VMap repository_file) cl_example with
            | Ok f => existsb (text_eqb (txt "ruin_alpha")) (map fst f) | Err _ => true end = false) by (vm_compute; reflexivity).
    rewrite <- E in H. intro I. assert (existsb (text_eqb (txt "ruin_alpha")) (map fst f) = true); [|congruence].
    apply existsb_exists. exists (txt "ruin_alpha"). split; [exact I|apply text_eqb_refl].
  - eapply C45_rounding_refuted. symmetry. exact E.
Qed.

Let typed (l : list (@value NumQ * @value NumQ)) : bool :=
  forallb (fun kv => match fst kv with
    | VString n => match find (fun nk => text_eqb (fst nk) n) schema with
                   | Some nk => match decode (snd nk) (snd kv) with Some _ => true | None => false end
                   | None => true end
    | _ => true end) l.

(** The hypotheses of the theorems hold of this file. *)
Example config_example_ok :
  NoDup (map fst repository_file) /\
  (forall name k v, In (name, k) (@schema) -> gives repository_file name v -> exists w, stands_for k v w).
Proof.
  split.
  - assert (H : NoDup (map (fun kv => match fst kv with VString t => t | _ => txt "" end) repository_file)).
    { apply distinct_ok. vm_compute. reflexivity. }
    clear -H. revert H. generalize repository_file. intro l. induction l as [|[k v] l IH]; intro H; [constructor|].
    inversion H; subst. constructor; [|now apply IH]. intro X. apply H2. apply in_map_iff in X. destruct X as (y & E & I).
    apply in_map_iff. exists y. split; auto. cbn [fst] in *. now rewrite E.
  - assert (T : typed repository_file = true) by (vm_compute; reflexivity). unfold typed in T. rewrite forallb_forall in T.
    intros name k v I G. specialize (T _ G). cbn [fst snd] in T.
    destruct (find (fun nk => text_eqb (fst nk) name) schema) as [[n k']|] eqn:EF.
    + apply find_some in EF. destruct EF as [I' EF]. cbn [fst] in EF. apply text_eqb_spec in EF. subst n.
      assert (k' = k) as ->.
      { pose proof schema_names as ND. clear -ND I I'. induction schema as [|[a b] s IH]; [destruct I|]. inversion ND; subst.
        destruct I as [I|I], I' as [I'|I']; auto.
        - congruence.
        - injection I as -> ->. apply (in_map fst) in I'. contradiction.
        - injection I' as -> ->. apply (in_map fst) in I. contradiction. }
      cbn [snd] in T. destruct (decode k v) as [w|] eqn:ED; [|discriminate]. exists w. now apply decode_spec.
    + exfalso. apply find_none with (x := (name, k)) in EF; auto. cbn [fst] in EF. rewrite text_eqb_refl in EF. discriminate.
Qed.
End Example.
