(** From the files to the state the solver starts in. *)
From Coq Require Import Ascii String List Arith NArith ZArith Bool Lia QArith Lqa Permutation Sorted.
From Verif.Model Require Import Num Prelude Evaluate Individual Config Crossover Split Matrix Population
  LocalSearch World Schedule RuinRecreate Genetic Decomposition Text Parser Display ConfigFile Main.
From Verif.Spec Require Import Solution Library LocalSearch RuinRecreate Genetic Decomposition Instance ConfigFile Program.
From Verif.Proofs Require Import Lists QNum TextFacts ParserFacts ConfigFacts MatrixFacts Fleet DgaInst.
From Verif.Properties Require Import P_Genetic.
Import ListNotations.
Open Scope nat_scope.

(** ** The configuration *)
Section Config.
  Context {N : Num}.

  Definition kind_eqb (a b : kind) : bool :=
    match a, b with
    | KBool, KBool | KU64, KU64 | KF64, KF64 | KString, KString | KOptU64, KOptU64 | KOptString, KOptString => true
    | _, _ => false
    end.
  Definition declared (name : text) (k : kind) : bool := existsb (fun e => text_eqb (fst e) name && kind_eqb (snd e) k) schema.
  Lemma declared_in name k : declared name k = true -> In (name, k) schema.
  Proof.
    unfold declared. intro H. apply existsb_exists in H as ([n k'] & I & H). apply andb_true_iff in H as [H1 H2]. cbn [fst snd] in *.
    apply text_eqb_spec in H1. subst. destruct k', k; try discriminate; exact I.
  Qed.

  Variable f : @fields N.
  Hypothesis HC : configuration f.
  Lemma conf_nodup : NoDup (map fst f).
  Proof. destruct HC as [-> _]. apply schema_names. Qed.
  Lemma conf_has name k : declared name k = true -> exists v, lookup name f = Some v /\ has f name v /\ stands_for k v v.
  Proof.
    intro D. apply declared_in in D. destruct (lookup_name f name) as [v E].
    { destruct HC as [-> _]. now apply (in_map fst) in D. }
    exists v. pose proof E as E'. apply lookup_has in E'; [|exact conf_nodup]. split; [exact E|]. split; [exact E'|]. destruct HC as [_ H]. now apply (H name k v).
  Qed.
  Lemma u64_ok name : declared (txt name) KU64 = true -> exists n, get_u64 f name = Ok n.
  Proof. intro D. destruct (conf_has _ _ D) as (v & E & _ & H). unfold get_u64. rewrite E. inversion H; subst; eauto. Qed.
  Lemma bool_ok name : declared (txt name) KBool = true -> exists n, get_bool f name = Ok n.
  Proof. intro D. destruct (conf_has _ _ D) as (v & E & _ & H). unfold get_bool. rewrite E. inversion H; subst; eauto. Qed.
  Lemma opt_u64_ok name : declared (txt name) KOptU64 = true -> exists n, get_opt_u64 f name = Ok n.
  Proof. intro D. destruct (conf_has _ _ D) as (v & E & _ & H). unfold get_opt_u64. rewrite E. inversion H; subst; eauto. Qed.

  Lemma u64_has name z : has f (txt name) (VInt z) -> get_u64 f name = Ok (Z.to_nat z).
  Proof. intro H. apply lookup_has in H; [|exact conf_nodup]. unfold get_u64. now rewrite H. Qed.
  Lemma get_u64_has name n : get_u64 f name = Ok n -> exists z, has f (txt name) (VInt z) /\ Z.to_nat z = n.
  Proof.
    unfold get_u64. destruct (lookup (txt name) f) as [[| |z| | | |]|] eqn:E; try discriminate. intro H. injection H as <-.
    exists z. split; [|reflexivity]. apply lookup_has; [exact conf_nodup|exact E].
  Qed.
  Lemma f64_has name x : has f (txt name) (VFloat (Some x)) -> get_f64 f name = Ok x.
  Proof. intro H. apply lookup_has in H; [|exact conf_nodup]. unfold get_f64. now rewrite H. Qed.
  Lemma bool_has name b : has f (txt name) (VBool b) -> get_bool f name = Ok b.
  Proof. intro H. apply lookup_has in H; [|exact conf_nodup]. unfold get_bool. now rewrite H. Qed.
  Lemma string_has name t : has f (txt name) (VString t) -> get_string f name = Ok t.
  Proof. intro H. apply lookup_has in H; [|exact conf_nodup]. unfold get_string. now rewrite H. Qed.
  Lemma opt_string_has name t : has f (txt name) (VString t) -> get_opt_string f name = Ok (Some t).
  Proof. intro H. apply lookup_has in H; [|exact conf_nodup]. unfold get_opt_string. now rewrite H. Qed.
End Config.

Section ConfigOf.
  Context {N : Num}.
  Lemma config_of_fields (f : @fields N) nv c : config_of f nv = Ok c ->
    c_num_vehicles c = nv /\ get_u64 f "local_search_granularity" = Ok (c_granularity c) /\
    get_f64 f "penalty_inc_multiplier" = Ok (c_penalty_inc_multiplier c) /\
    get_f64 f "penalty_dec_multiplier" = Ok (c_penalty_dec_multiplier c) /\
    get_u64 f "num_diversity_closest" = Ok (c_num_diversity_closest c) /\
    get_u64 f "min_population_size" = Ok (c_min_population_size c) /\
    get_u64 f "initial_individuals" = Ok (c_initial_individuals c) /\
    get_u64 f "tournament_size" = Ok (c_tournament_size c) /\
    get_u64 f "time_limit" = Ok (c_time_limit c).
  Proof.
    unfold config_of. intro H.
    repeat (match type of H with rbind ?m _ = _ => destruct m eqn:?; [cbn [rbind] in H|discriminate H] end).
    injection H as <-. cbn. repeat split; try reflexivity; assumption.
  Qed.

  Lemma config_of_elite (f : @fields N) nv c : config_of f nv = Ok c ->
    get_bool f "elite_education" = Ok (c_elite_education c) /\
    get_bool f "elite_education_time_based" = Ok (c_elite_education_time_based c) /\
    get_f64 f "elite_education_gamma" = Ok (c_elite_education_gamma c).
  Proof.
    unfold config_of. intro H.
    repeat (match type of H with rbind ?m _ = _ => destruct m eqn:?; [cbn [rbind] in H|discriminate H] end).
    injection H as <-. cbn. repeat split; assumption.
  Qed.

  Lemma main_facts (yaml : @value N) cl f : main_config yaml cl = Ok f ->
    configuration f /\ has f (txt "instance_path") (VString (cl_instance cl)) /\
    has f (txt "solution_path") (VString (output_path cl)) /\ has f (txt "round_distances") (VBool true).
  Proof.
    unfold main_config. intro H. destruct (update config_default yaml) as [g|] eqn:E; [|discriminate H]. cbn [rbind] in H.
    destruct (args_parse cl) as [a|] eqn:EA; [|discriminate H]. cbn [rbind] in H. injection H as <-.
    assert (HN : map fst g = map fst schema /\ forall name k v, In (name, k) schema -> In (name, v) g -> stands_for k v v).
    { unfold update in E. destruct yaml as [| | | | | |m]; try discriminate E.
      apply mapm_spec in E. pose proof schema_names as ND. revert ND E.
      generalize (fold_left patch m config_default) as h, (@schema) as s. intros h s ND E.
      induction E as [|[n k] [n' v] l1 l2 H F IH]; [split; [reflexivity|intros ? ? ? []]|].
      unfold decode_field in H. cbn [fst snd] in H. destruct (lookup n h) as [u|]; [|discriminate H].
      destruct (decode k u) as [u'|] eqn:ED; [|discriminate H]. injection H as <- <-. apply decode_spec, stands_twice in ED.
      cbn [map fst] in ND. inversion ND as [|? ? NI ND']; subst. destruct (IH ND') as [I1 I2]. split; [cbn [map fst]; now rewrite I1|].
      intros name k' v' [A|A] [B|B].
      - injection A as <- <-. injection B as <-. exact ED.
      - injection A as <- <-. exfalso. apply NI. rewrite <- I1. now apply (in_map fst) in B.
      - injection B as -> ->. exfalso. apply NI. now apply (in_map fst) in A.
      - now apply (I2 name k' v'). }
    destruct HN as [HN HT].
    assert (EP : a_instance_path a = cl_instance cl /\ a_solution_path a = Some (output_path cl) /\ a_rounded a = true /\
                 (forall n, a_max_iterations a = Some n -> (n < 2 ^ 64)%N) /\ (forall n, a_time_limit a = Some n -> (n < 2 ^ 64)%N)).
    { unfold args_parse in EA.
      assert (PO : forall t o, parse_option t = Ok o -> forall n, o = Some n -> (n < 2 ^ 64)%N).
      { intros [t|] o HP n ->; cbn in HP; [|discriminate HP]. destruct (parse_u64 t) as [x|] eqn:EX; [|discriminate HP]. injection HP as ->.
        unfold parse_u64 in EX. destruct (match t with [] => t | c :: r => if (c =? "+")%char then r else t end) eqn:ET; rewrite ?ET in EX; [discriminate EX|].
        destruct (digits_value _ _) as [y|]; [|discriminate EX].
        destruct (N.leb_spec y u64_max) as [LE|]; [|discriminate EX]. injection EX as <-. eapply N.le_lt_trans; [exact LE|]. reflexivity. }
      destruct (parse_option (cl_iterations cl)) as [it|] eqn:E1; [|discriminate EA]. cbn [rbind] in EA.
      destruct (parse_option (value_or (cl_time_limit cl) "10")) as [tl|] eqn:E2; [|discriminate EA]. cbn [rbind] in EA. injection EA as <-.
      cbn [a_instance_path a_solution_path a_rounded a_max_iterations a_time_limit]. split; [reflexivity|].
      split; [unfold output_path; destruct (cl_solution cl); reflexivity|]. split; [destruct (cl_rounded cl); reflexivity|].
      split; [exact (PO _ _ E1)|exact (PO _ _ E2)]. }
    destruct EP as (P1 & P2 & P3 & P4 & P5). unfold update_from_args. rewrite P1, P2, P3.
    (* the types are kept by an assignment of the right type *)
    assert (KEEP : forall name k v h, declared name k = true -> stands_for k v v -> configuration h -> configuration (set_field name v h)).
    { intros name k v h D SF [C1 C2]. split; [now rewrite set_names|]. intros name' k' v' I1 I2.
      assert (NH : NoDup (map fst (set_field name v h))) by (rewrite set_names, C1; apply schema_names).
      apply declared_in in D. apply (lookup_has _ _ _ NH) in I2. destruct (text_eqb name name') eqn:EN.
      - apply text_eqb_spec in EN. subst name'. rewrite lookup_set_same in I2 by (rewrite C1; now apply (in_map fst) in D).
        injection I2 as <-. assert (k' = k); [|subst; exact SF].
        pose proof schema_names as ND. clear -D I1 ND. induction (@schema) as [|[n q] s IH]; [destruct D|].
        cbn [map fst] in ND. inversion ND as [|? ? NI ND']; subst. destruct D as [D|D], I1 as [I|I].
        + congruence.
        + injection D as -> ->. exfalso. apply NI. now apply (in_map fst) in I.
        + injection I as -> ->. exfalso. apply NI. now apply (in_map fst) in D.
        + now apply IH.
      - rewrite lookup_set_other in I2 by (intro; subst; rewrite text_eqb_refl in EN; discriminate).
        apply C2 with (name := name'); auto. apply lookup_has in I2; auto. rewrite C1. apply schema_names. }
    assert (KEEPN : forall name o h, declared (txt name) KU64 = true -> (forall n, o = Some n -> (n < 2 ^ 64)%N) -> configuration h -> configuration (opt_u64 name o h)).
    { intros name [n|] h D HN' CH; cbn [opt_u64]; auto. apply KEEP with (k := KU64); auto. constructor. now apply HN'. }
    set (g1 := set_field (txt "instance_path") (VString (cl_instance cl)) g).
    assert (C1 : configuration g1) by (apply KEEP with (k := KString); [reflexivity|constructor|split; auto]).
    set (g2 := set_field (txt "solution_path") (VString (output_path cl)) g1).
    assert (C2 : configuration g2) by (apply KEEP with (k := KOptString); [reflexivity|constructor|auto]).
    set (g3 := opt_u64 "max_iterations_without_improvement" (a_max_iterations a) g2).
    assert (C3 : configuration g3) by (apply KEEPN; auto).
    set (g4 := opt_u64 "time_limit" (a_time_limit a) g3).
    assert (C4 : configuration g4) by (apply KEEPN; auto).
    set (g5 := set_field (txt "round_distances") (VBool true) g4).
    assert (C5 : configuration g5) by (apply KEEP with (k := KBool); [reflexivity|constructor|auto]).
    assert (LO : forall name x o h, text_eqb (txt x) (txt name) = false -> lookup (txt name) (opt_u64 x o h) = lookup (txt name) h).
    { intros name x [n|] h H; cbn [opt_u64]; auto. apply lookup_set_other. intro K. rewrite K, text_eqb_refl in H. discriminate. }
    assert (LS : forall name x v h, text_eqb (txt x) (txt name) = false -> lookup (txt name) (set_field (txt x) v h) = lookup (txt name) h).
    { intros name x v h H. apply lookup_set_other. intro K. rewrite K, text_eqb_refl in H. discriminate. }
    assert (SC : forall name k h, declared name k = true -> configuration h -> In name (map fst h)).
    { intros name k h D [-> _]. apply declared_in in D. now apply (in_map fst) in D. }
    split; [exact C5|].
    split; [|split]; (apply lookup_has; [exact (conf_nodup g5 C5)|]).
    - unfold g5. rewrite LS by reflexivity. unfold g4. rewrite LO by reflexivity. unfold g3. rewrite LO by reflexivity.
      unfold g2. rewrite LS by reflexivity. apply lookup_set_same. apply (SC _ KString); [reflexivity|]. split; auto.
    - unfold g5. rewrite LS by reflexivity. unfold g4. rewrite LO by reflexivity. unfold g3. rewrite LO by reflexivity.
      apply lookup_set_same. now apply (SC _ KOptString).
    - apply lookup_set_same. now apply (SC _ KBool).
  Qed.
End ConfigOf.

(** ** The matrices, the problem and the context *)
Section Start.
  Variable X : @outside NumQ.
  Hypothesis FO : functions_ok X.
  Variable i : @instance NumQ.
  Local Notation size := (length (in_nodes i)).
  Local Notation dist := (instance_distance (x_sqrt X) (x_round X) i).
  Hypothesis SE : sensible (x_sqrt X) (x_round X) i.
  Hypothesis HW : forall w, in_weights i = Some w -> length w + 1 = size.

  Definition the_nodes : list (@node NumQ) := map (fun n => mkNode (fst n) (snd n)) (in_nodes i).
  Definition the_parsed : @parsed NumQ := @mkParsed NumQ the_nodes (in_cap i) (in_weights i).
  Lemma nodes_size : length the_nodes = size.
  Proof. apply map_length. Qed.
  Lemma nodes_nth a : nth a the_nodes (@mkNode NumQ (0, 0)%Q 0%Q) = mkNode (fst (nth a (in_nodes i) (0, 0, 0)%Q)) (snd (nth a (in_nodes i) (0, 0, 0)%Q)).
  Proof. unfold the_nodes. change (@mkNode NumQ (0, 0)%Q 0%Q) with ((fun n : Q * Q * Q => @mkNode NumQ (fst n) (snd n)) (0, 0, 0)%Q). apply map_nth. Qed.
  Lemma coord_nth a : nth a (map n_coord the_nodes) (0, 0)%Q = fst (nth a (in_nodes i) (0, 0, 0)%Q).
  Proof.
    change (0, 0)%Q with (n_coord (@mkNode NumQ (0, 0)%Q 0%Q)) at 1.
    rewrite (map_nth n_coord), nodes_nth. reflexivity.
  Qed.

  Lemma sort_ok : @sort_contract NumQ (x_sort X).
  Proof.
    intros l _. destruct (fo_sort X FO l) as [P S]. split; [exact P|]. clear P. induction S as [|a l' S' IH FA]; constructor; auto.
    eapply Forall_impl; [|exact FA]. intros b H. apply Qle_bool_iff. exact H.
  Qed.
  Lemma nan_free g n : @no_nan NumQ g n.
  Proof. intros a b _ _. apply nan_Q. Qed.

  Local Notation euc a b := (euclidian (N := NumQ) (x_sqrt X) a b).
  Lemma euclid a b : nth a (map n_coord the_nodes) (0, 0)%Q = fst (nth a (in_nodes i) (0, 0, 0)%Q) ->
    (euc (nth a (map n_coord the_nodes) (0, 0)%Q) (nth b (map n_coord the_nodes) (0, 0)%Q) ==
     let '(x1, y1, _) := nth a (in_nodes i) (0, 0, 0) in let '(x2, y2, _) := nth b (in_nodes i) (0, 0, 0) in
     x_sqrt X ((x2 - x1) * (x2 - x1) + (y2 - y1) * (y2 - y1)))%Q.
  Proof.
    intros _. rewrite !coord_nth. destruct (nth a (in_nodes i) _) as [[x1 y1] q1], (nth b (in_nodes i) _) as [[x2 y2] q2].
    reflexivity.
  Qed.
  Lemma euclid_sym a b : (euc a b == euc b a)%Q.
  Proof. unfold euclidian. apply (fo_sqrt X FO). numq. ring. Qed.
  Lemma euclid_self a : (euc a a == 0)%Q.
  Proof. unfold euclidian. rewrite <- (fo_sqrt_zero X FO). apply (fo_sqrt X FO). numq. ring. Qed.

  Lemma dist_sym a b : (dist a b == dist b a)%Q.
  Proof.
    unfold instance_distance. rewrite (Nat.eqb_sym b a). destruct (a =? b); [reflexivity|]. apply (fo_round X FO).
    rewrite (Nat.min_comm b a), (Nat.max_comm b a). destruct (in_weights i); [reflexivity|].
    destruct (nth a (in_nodes i) _) as [[x1 y1] q1], (nth b (in_nodes i) _) as [[x2 y2] q2]. apply (fo_sqrt X FO). ring.
  Qed.
  Lemma dist_pos a b : a < size -> b < size -> (0 <= dist a b)%Q.
  Proof.
    intros HA HB. unfold instance_distance. destruct (a =? b) eqn:EB; [apply Qle_refl|]. apply (fo_round_positive X FO). apply Nat.eqb_neq in EB.
    destruct (in_weights i) as [w|] eqn:EW.
    - destruct (se_weights _ _ _ SE w EW) as [S1 S2]. pose proof (HW w eq_refl) as HL.
      apply (S2 (nth (Nat.max a b - 1) w [])); [apply nth_In; lia|]. apply nth_In. rewrite S1; lia.
    - destruct (nth a (in_nodes i) _) as [[x1 y1] q1], (nth b (in_nodes i) _) as [[x2 y2] q2]. apply (fo_sqrt_positive X FO).
      assert (SQ : forall x : Q, (0 <= x * x)%Q) by (intro x; destruct x as [[|n|n] d]; unfold Qle; cbn; lia).
      pose proof (SQ (x2 - x1)%Q). pose proof (SQ (y2 - y1)%Q). lra.
  Qed.

  Lemma matrices_ok limit : exists d cm,
    @provider_new NumQ (x_sqrt X) (x_round X) (x_sort X) the_nodes limit true (in_weights i) = Ok (d, cm) /\
    dm_size d = size /\
    (forall a b, a < size -> b < size -> exists v : @F NumQ, dm_get (x_sqrt X) (x_round X) d a b = Ok v /\ (v == dist a b)%Q) /\
    (forall (p : @problem NumQ) c, p_dim p = size -> c_granularity c <= Nat.min 200 (size - 2) ->
       neighbours_ok p c (cm_store cm) /\ rows_ok p (cm_store cm)) /\
    (exists g, dfun (x_sqrt X) (x_round X) d size g) /\
    (forall p : @problem NumQ, p_dim p = size -> rows_distinct p (cm_store cm)) /\
    m_cols (cm_store cm) = Nat.min 200 (size - 2).
  Proof.
    unfold provider_new. rewrite nodes_size. pose proof (se_nodes _ _ _ SE) as S2.
    destruct (size =? 0) eqn:E0; [apply Nat.eqb_eq in E0; lia|].
    set (pre := size - 1 <? limit).
    assert (D : exists d g, @dm_build NumQ (x_sqrt X) (x_round X) (map n_coord the_nodes) pre true (in_weights i) = Ok d /\
                dfun (x_sqrt X) (x_round X) d size g /\ forall a b, a < size -> b < size -> (g a b == dist a b)%Q).
    { unfold instance_distance. destruct (in_weights i) as [w|] eqn:EW.
      - destruct (build_dfun_input (N := NumQ) (x_sqrt X) (x_round X) (map n_coord the_nodes) pre true w) as (d & E & _ & DF & _).
        { split; [rewrite map_length, nodes_size; now apply HW|]. exact (proj1 (se_weights _ _ _ SE w EW)). }
        rewrite map_length, nodes_size in DF. exists d. eexists. split; [exact E|]. split; [exact DF|]. intros a b _ _. cbv beta.
        destruct (a =? b); reflexivity.
      - destruct pre.
        + destruct (build_dfun_pre (N := NumQ) (x_sqrt X) (x_round X) (map n_coord the_nodes) true) as (d & E & _ & DF & _).
          rewrite map_length, nodes_size in DF. exists d. eexists. split; [exact E|]. split; [exact DF|]. intros a b _ _. cbv beta.
          destruct (a =? b) eqn:EB; [reflexivity|]. unfold pre_dist, maybe_round. apply (fo_round X FO).
          etransitivity; [|exact (euclid a b (coord_nth a))].
          destruct (Nat.min_spec a b) as [[L1 ->]|[L1 ->]], (Nat.max_spec a b) as [[L2 ->]|[L2 ->]]; try lia; [reflexivity| apply euclid_sym].
        + destruct (build_dfun_lazy (N := NumQ) (x_sqrt X) (x_round X) (map n_coord the_nodes) true) as (d & E & _ & DF & _).
          rewrite map_length, nodes_size in DF. exists d. eexists. split; [exact E|]. split; [exact DF|]. intros a b _ _.
          unfold lazy_dist, maybe_round. destruct (a =? b) eqn:EB.
          * apply Nat.eqb_eq in EB. subst b. rewrite (fo_round X FO _ _ (euclid_self _)). apply (fo_round_zero X FO).
          * apply (fo_round X FO). exact (euclid a b (coord_nth a)). }
    destruct D as (d & g & E & DF & DG). rewrite E. cbn [rbind].
    destruct (correlation_spec (x_sort X) (x_sqrt X) (x_round X) d size g DF sort_ok (nan_free _ _) S2) as (cm & EC & _). rewrite EC. cbn [rbind].
    exists d, cm. split; [reflexivity|]. split; [exact (proj1 DF)|].
    assert (CR : forall p : @problem NumQ, p_dim p = size -> rows_distinct p (cm_store cm) /\ m_cols (cm_store cm) = Nat.min 200 (size - 2)).
    { intros p HP. rewrite <- HP in DF, S2.
      destruct (correlation_rows p (x_sqrt X) (x_round X) (x_sort X) d g sort_ok S2 DF (nan_free _ _)) as (cm' & EC' & R1 & _ & R2 & _).
      rewrite EC in EC'. injection EC' as <-. split; [exact R1|]. now rewrite <- HP. }
    split; [|split; [|split; [exists g; exact DF|split; [intros p HP; now apply CR|]]]].
    - intros a b HA HB. exists (g a b). split; [now apply (dfun_get _ _ d size g)|now apply DG].
    - intros p c HP HG. rewrite <- HP in DF, HG, S2.
      destruct (C01_matrix_applicable NumQ p c (x_sqrt X) (x_round X) (x_sort X) d g sort_ok S2 DF (nan_free _ _) HG) as (cm' & EC' & R).
      rewrite EC in EC'. injection EC' as <-. exact R.
    - apply (CR (@mkProblem NumQ size (fun _ _ => 0%Q) (fun _ => 0%Q) (fun _ => (0, 0)%Q) 0%Q (fun _ => []) (fun _ _ => 0%Q) (fun _ => 0%Q) (fun _ => 0%Q) (fun _ => 0%Z))).
      reflexivity.
  Qed.

  Variable f : @fields NumQ.
  Hypothesis HC : configuration f.
  Hypothesis HR : has f (txt "round_distances") (VBool true).
  Hypothesis ST : settings_ok f size.

  Record started (x : @context NumQ) : Prop := {
    sd_dim : p_dim (x_problem x) = size;
    sd_dist : forall a b, a < size -> b < size -> (p_dist (x_problem x) a b == dist a b)%Q;
    sd_demand : forall a, p_demand (x_problem x) a = instance_demand i a;
    sd_cap : p_cap (x_problem x) = in_cap i;
    sd_ok : instance_ok (x_problem x) (x_config x);
    sd_set : set_up (x_problem x) (dm_max (x_dist x)) (x_world x);
    sd_near : neighbours_ok (x_problem x) (x_config x) (cm_store (x_corr x));
    sd_rows : rows_ok (x_problem x) (cm_store (x_corr x));
    sd_config : exists nv, config_of f nv = Ok (x_config x);
    sd_matrix : exists g, dfun (x_sqrt X) (x_round X) (x_dist x) size g;
    sd_distinct : rows_distinct (x_problem x) (cm_store (x_corr x));
    sd_cols : m_cols (cm_store (x_corr x)) = Nat.min 200 (size - 2)
  }.

  Lemma context_ok :
    match context_new X the_parsed f with
    | Ok x => started x
    | Err e => exists name, name <> txt "bks" /\ has f name (VFloat None)
    end.
  Proof.
    unfold context_new. destruct (bool_ok f HC "deterministic" eq_refl) as (det & ->). cbn [rbind].
    destruct (u64_ok f HC "seed" eq_refl) as (seed & ->). cbn [rbind].
    destruct (u64_ok f HC "precompute_distance_size_limit" eq_refl) as (limit & ->). cbn [rbind].
    rewrite (bool_has f HC "round_distances" true HR). cbn [rbind the_parsed pa_nodes pa_matrix].
    destruct (matrices_ok limit) as (d & cm & -> & DS & DD & NB & DF & RD & MC). cbn [rbind].
    set (p := problem_of X the_parsed d).
    assert (FIN : forall name, declared (txt name) KF64 = true -> (exists x, get_f64 f name = Ok x) \/ (get_f64 f name = Err EPanic /\ has f (txt name) (VFloat None))).
    { intros name D. destruct (conf_has f HC _ _ D) as (v & E & HH & H). unfold get_f64. rewrite E. inversion H; subst; eauto.
      destruct x as [x|]; [left; eauto|right; split; [reflexivity|exact HH]]. }
    assert (PD : p_dim p = size) by exact nodes_size.
    assert (PDI : forall a b, a < size -> b < size -> (p_dist p a b == dist a b)%Q).
    { intros a b HA HB. destruct (DD a b HA HB) as (v & E & EQ).
      assert (EP : p_dist p a b = v) by (change (p_dist p a b) with (match dm_get (x_sqrt X) (x_round X) d a b with Ok v => v | Err _ => @f0 NumQ end); rewrite E; reflexivity).
      rewrite EP. exact EQ. }
    assert (PDE : forall a, p_demand p a = instance_demand i a).
    { intro a. change (p_demand p a) with (n_demand (nth a the_nodes (@mkNode NumQ (0, 0)%Q 0%Q))). rewrite nodes_nth. reflexivity. }
    assert (PC : p_cap p = in_cap i) by reflexivity.
    destruct (config_of f (initial_num_vehicles p)) as [c|e] eqn:EC; cbn [rbind].
    2: { unfold config_of in EC.
      repeat match type of EC with
      | rbind (get_u64 f ?n) _ = _ => destruct (u64_ok f HC n eq_refl) as (? & HX); rewrite HX in EC; clear HX; cbn [rbind] in EC
      | rbind (get_opt_u64 f ?n) _ = _ => destruct (opt_u64_ok f HC n eq_refl) as (? & HX); rewrite HX in EC; clear HX; cbn [rbind] in EC
      | rbind (get_bool f ?n) _ = _ => destruct (bool_ok f HC n eq_refl) as (? & HX); rewrite HX in EC; clear HX; cbn [rbind] in EC
      | rbind (get_f64 f ?n) _ = _ => destruct (FIN n eq_refl) as [(? & HX)|[_ HX]]; [rewrite HX in EC; clear HX; cbn [rbind] in EC|exists (txt n); split; [discriminate|exact HX]]
      end. discriminate EC. }
    destruct (FIN "penalty_capacity"%string eq_refl) as [(pen & EPEN)|[EPEN HX]]; rewrite EPEN; cbn [rbind]; [|exists (txt "penalty_capacity"); split; [discriminate|exact HX]].
    destruct (config_of_fields f _ c EC) as (CV & CG & CI & CD & _).
    destruct (so_granularity _ _ ST) as (zg & HG & BG). rewrite (u64_has f HC _ _ HG) in CG. injection CG as CG.
    destruct (so_increase _ _ ST) as (xi & HI & BI). rewrite (f64_has f HC _ _ HI) in CI. injection CI as CI.
    destruct (so_decrease _ _ ST) as (xd & HD & BD). rewrite (f64_has f HC _ _ HD) in CD. injection CD as CD.
    pose proof (se_nodes _ _ _ SE) as S2.
    assert (DEM : forall a, a < p_dim p -> (0 <= p_demand p a)%Q).
    { intros a HA. rewrite PDE. apply (se_demand _ _ _ SE). now rewrite <- PD. }
    assert (CAP : (0 < p_cap p)%Q) by (rewrite PC; exact (se_cap _ _ _ SE)).
    assert (IO : instance_ok p c).
    { constructor.
      - now rewrite PD.
      - rewrite CV. destruct (C32_lower_bound p CAP DEM) as (_ & L1 & L2). split; [lia|exact L1].
      - exact CAP.
      - exact DEM.
      - intros a b HA HB. rewrite PD in HA, HB. rewrite (PDI a b HA HB). now apply dist_pos.
      - intros a HA. rewrite PD in HA. rewrite !PDI by lia. apply dist_sym.
      - rewrite PDI by lia. reflexivity.
      - destruct (se_small _ _ _ SE) as (top & T1 & T2). exists top. split.
        + intros a b HA HB. rewrite PD in HA, HB. rewrite (PDI a b HA HB). now apply T1.
        + rewrite PD. assert (EL : route_load (p_demand p) (seq 1 (size - 1)) = route_load (instance_demand i) (seq 1 (size - 1))).
          { unfold route_load. f_equal. apply map_ext. exact PDE. }
          rewrite EL. exact T2.
      - exact (fo_real X FO).
      - rewrite <- CG. lia.
      - split; [rewrite <- CI; exact BI|rewrite <- CD; exact BD]. }
    unfold reset_penalty. destruct (@max_demand NumQ p) as [md|e] eqn:EM; cbn [rbind].
    2: { exfalso. unfold max_demand in EM. destruct (map (p_demand p) (seq 0 (p_dim p))) as [|x xs]; [discriminate EM|].
         assert (NN : existsb (@fisnan NumQ) (x :: xs) = false).
         { apply not_true_is_false. intro HN. apply existsb_exists in HN as (y & _ & HY). rewrite nan_Q in HY. discriminate HY. }
         rewrite NN, andb_false_r in EM. discriminate EM. }
    destruct (NB p c PD) as [N1 N2]; [rewrite <- CG; lia|].
    constructor; auto.
    - split; [|split]; [exists md; split; [exact EM|reflexivity]| reflexivity|reflexivity].
    - exists (initial_num_vehicles p). exact EC.
  Qed.
End Start.

(** ** Lengths with other distances *)
Lemma walk_ext (d d' : nat -> nat -> Q) n l : (forall a b, a < n -> b < n -> (d a b == d' a b)%Q) ->
  (forall a, In a l -> a < n) -> (walk_length d l == walk_length d' l)%Q.
Proof.
  intros H. induction l as [|a [|b l] IH]; intros HL; try reflexivity.
  change (d a b + walk_length d (b :: l) == d' a b + walk_length d' (b :: l))%Q.
  rewrite IH by (intros c HC; apply HL; now right). rewrite H by (apply HL; cbn [In]; auto). reflexivity.
Qed.
Lemma total_ext (d d' : nat -> nat -> Q) n rs : 1 <= n -> (forall a b, a < n -> b < n -> (d a b == d' a b)%Q) ->
  serves_all_once n rs -> (total_length d rs == total_length d' rs)%Q.
Proof.
  intros H1 H HS.
  assert (HA : forall r a, In r rs -> In a r -> a < n).
  { intros r a HR HA. assert (I : In a (concat rs)) by (apply in_concat; eauto). eapply Permutation_in in I; [|exact HS]. apply in_seq in I. lia. }
  clear HS. unfold total_length. induction rs as [|r rs IH]; [reflexivity|]. cbn [map Qsum]. rewrite IH by (intros; eapply HA; eauto; now right).
  unfold route_length. rewrite (walk_ext d d' n); [reflexivity|exact H|]. intros a [<-|I]; [lia|]. apply in_app_or in I as [I|[<-|[]]]; [|lia].
  apply (HA r); [now left|exact I].
Qed.
Lemma used_concat rs : concat (used_routes rs) = concat rs.
Proof. unfold used_routes. induction rs as [|[|a r] rs IH]; cbn; auto. now rewrite IH. Qed.
Lemma used_in rs r : In r (used_routes rs) -> In r rs /\ r <> [].
Proof. unfold used_routes. intro H. apply filter_In in H as [H1 H2]. split; auto. destruct r; discriminate. Qed.
Lemma used_length (d : nat -> nat -> Q) rs : (d 0%nat 0%nat == 0)%Q -> (total_length d (used_routes rs) == total_length d rs)%Q.
Proof.
  intros H0. unfold total_length, used_routes. induction rs as [|[|a r] rs IH]; [reflexivity| |]; cbn [filter map Qsum].
  - rewrite IH. change (route_length d []) with (d 0%nat 0%nat + 0)%Q. rewrite H0. ring.
  - now rewrite IH.
Qed.
