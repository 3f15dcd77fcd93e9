(** The genetic algorithm keeps its invariant: every part of [iterate], for every arithmetic. *)
From Coq Require Import List Arith NArith ZArith Bool Lia Permutation.
From Verif.Model Require Import Num Prelude Evaluate Individual Config Crossover Split Matrix Population
  LocalSearch World Schedule RuinRecreate Genetic.
From Verif.Spec Require Import Solution Split Library Population LocalSearch RuinRecreate Genetic Decomposition.
From Verif.Proofs Require Import Lists EvalFacts EvalThms CrossoverFacts SplitStruct SplitPart MatrixFacts PopFacts PopAdd PopThms
  PopRun PopQ PopMain LsState LsSearch LsRun RrRuin RrRuinRun RrRecreate RrRun RrMachine.
Import ListNotations.
Local Open Scope nat_scope.

(** ** Small facts *)

Lemma tournament_member {N : Num} (P : population) num r : 0 < pop_size P -> 0 < num ->
  exists w r', tournament num P r = Ok (w, r').
Proof.
  intros Hs Hn. unfold tournament. destruct (draw_indices_spec num (pop_size P) r Hs) as (r' & E & _ & Hp).
  rewrite E. cbn [rbind]. set (f := fun j : nat => N.to_nat (rdraw r (rpos r + j) mod N.of_nat (pop_size P))).
  assert (Hf : Forall (fun j => j < pop_size P) (map f (seq 0 num))).
  { apply Forall_forall. intros j Hj. apply in_map_iff in Hj as (k & <- & _). unfold f.
    assert (Hm : (rdraw r (rpos r + k) mod N.of_nat (pop_size P) < N.of_nat (pop_size P))%N) by (apply N.mod_lt; lia).
    revert Hm. generalize (rdraw r (rpos r + k) mod N.of_nat (pop_size P))%N. intros. lia. }
  destruct num as [|num]; [lia|]. cbn [seq map] in *. inversion Hf as [|? ? H1 H2]; subst.
  cbn [foldm]. unfold winner_step at 1. rewrite pop_member_eq.
  destruct (nth_error (members P) (f 0)) as [x|] eqn:EN.
  2:{ apply nth_error_None in EN. unfold members in EN. rewrite app_length in EN. unfold pop_size in H1. lia. }
  rewrite (geti_some _ _ _ EN). cbn [rbind].
  assert (G : forall idxs w, Forall (fun j => j < pop_size P) idxs ->
    exists w', foldm (winner_step P) idxs (Some w) = Ok (Some w')).
  { induction idxs as [|j idxs IH]; intros w HF; cbn [foldm]; [eauto|]. inversion HF as [|? ? G1 G2]; subst.
    unfold winner_step at 1. rewrite pop_member_eq. destruct (nth_error (members P) j) as [y|] eqn:EJ.
    - rewrite (geti_some _ _ _ EJ). cbn [rbind]. destruct (olt _ _); auto.
    - apply nth_error_None in EJ. unfold members in EJ. rewrite app_length in EJ. unfold pop_size in G1. lia. }
  destruct (G _ x H2) as (w' & ->). cbn [rbind]. eauto.
Qed.

Lemma winner_in {N : Num} (P : population) idxs : forall w w',
  foldm (winner_step P) idxs w = Ok w' -> (forall i, w = Some i -> In i (members P)) ->
  forall i, w' = Some i -> In i (members P).
Proof.
  induction idxs as [|j idxs IH]; intros w w' H Hw i Hi; cbn [foldm] in H.
  - injection H as <-. auto.
  - unfold winner_step at 1 in H. rewrite pop_member_eq in H. destruct (geti (members P) j) as [x|e] eqn:G; [|discriminate].
    assert (HX : In x (members P)).
    { unfold geti in G. destruct (nth_error (members P) j) eqn:EN; [|discriminate]. injection G as <-. eapply nth_error_In; eauto. }
    cbn [rbind] in H. destruct w as [cw|].
    + destruct (olt _ _); eapply IH; eauto. intros k Hk. injection Hk as <-. exact HX.
    + eapply IH; eauto. intros k Hk. injection Hk as <-. exact HX.
Qed.

Lemma tournament_in {N : Num} (P : population) num r w r' : tournament num P r = Ok (w, r') -> In w (members P).
Proof.
  unfold tournament. destruct (draw_indices _ _ _) as [[idxs r1]|]; [|discriminate]. cbn [rbind].
  destruct (foldm _ _ _) as [o|] eqn:G; [|discriminate]. cbn [rbind]. destruct o as [i|]; [|discriminate].
  intro H. injection H as <- <-. eapply winner_in; [exact G|discriminate|reflexivity].
Qed.

Lemma shuffle_perm_random {N : Num} (p : problem) nv k r i r' : ind_random p nv k r = (i, r') ->
  Permutation (i_geno i) (seq 1 (p_dim p - 1)) /\ i_pheno i = repeat [] nv /\ i_number i = k.
Proof.
  unfold ind_random. destruct (shuffle (seq 1 (p_dim p - 1)) r) as [g r1] eqn:ES. intro H. injection H as <- _.
  cbn. split; auto. eapply shuffle_perm; eauto.
Qed.

(** ** The invariant *)
(** Ruin and recreate runs inside the genetic algorithm. *)
Definition rr_used {N : Num} (c : config) : Prop := c_rr_mutation c = true \/ c_elite_education c = true.

Lemma same_rows_refl m : same_rows m m.
Proof. split; [reflexivity|]. split; [reflexivity|]. intros u. apply Permutation_refl. Qed.
Lemma same_rows_trans a b d : same_rows a b -> same_rows b d -> same_rows a d.
Proof.
  intros (A1 & A2 & A3) (B1 & B2 & B3). split; [congruence|]. split; [congruence|]. intros u.
  eapply Permutation_trans; [apply B3|apply A3].
Qed.

(** The sizes the algorithm relies on. *)
Record sizes {N : Num} (c : config) : Prop := {
  f_closest : 1 <= c_num_diversity_closest c;
  f_min : 1 <= c_min_population_size c;
  f_init : 1 <= c_initial_individuals c;
  f_tour : 1 <= c_tournament_size c
}.

Section Ga.
  Context {N : Num}.
  Variable L : lib.
  Hypothesis LOK : lib_ok L.
  Variable p : problem.
  Variable c : config.
  Variable E : env.
  Variable log_interval : nat.
  Variable max_distance : option F.
  Variable fuel : nat.
  Notation dim := (p_dim p).
  Notation nv := (c_num_vehicles c).

  (** What is known of the routes inside ruin and recreate. *)
  Variable good : rroute -> Prop.
  Hypothesis good_remove : forall ro i n ro', good ro -> ro_remove p ro i = Ok (n, ro') -> good ro'.
  Hypothesis good_add : forall ro i n ro', good ro -> ro_add p ro i n = Ok ro' -> proper p (ro_nodes ro') -> good ro'.
  Hypothesis good_eval : forall nodes, proper p nodes -> good (mkRoute nodes (gdist p f0 0 nodes) (gover p nodes)).
  Hypothesis below : reals_below_one p.
  Hypothesis dim2 : 2 <= dim.
  Hypothesis nv_pos : 0 < nv.
  Hypothesis zero_not_lt : approx_lt f0 f0 = false.
  Hypothesis gran_pos : 0 < c_granularity c.
  Hypothesis enough : vehicle_lower_bound p <= nv.

  (** The penalties outside elite education, and all penalties. *)
  Variable usual allowed : F -> Prop.
  Hypothesis usual_initial : forall d, usual (initial_penalty max_distance d).
  Hypothesis usual_clamp : forall x, usual (clamp_penalty x).
  Hypothesis usual_allowed : forall x, usual x -> allowed x.
  Definition split_fits : Prop :=
    if c_linear_split c
    then forall pen g, usual pen -> Permutation g (seq 1 (dim - 1)) -> big_enough p pen g
    else flit (10 ^ 29)%Z 1 <:? fbig = true.
  Hypothesis split_big : split_fits.

  (** Complete and evaluated under [pen]. *)
  Definition evaluated (pen : F) (i : individual) : Prop :=
    serves_all_once dim (i_pheno i) /\ i_geno i = concat (i_pheno i) /\
    exists e, i_eval i = geval p pen e (i_pheno i).

  (** A finished child: moreover with one entry per vehicle. *)
  Definition child_at (pen : F) (i : individual) : Prop :=
    serves_all_once dim (i_pheno i) /\ length (i_pheno i) = nv /\ i_geno i = concat (i_pheno i) /\
    exists e, i_eval i = geval p pen e (i_pheno i).

  (** What is known of the best solution of the algorithm and the history of best solutions. *)
  Variable H : option individual -> history -> Prop.
  Hypothesis H_ga : forall pen b h i, allowed pen -> H b h -> evaluated pen i -> is_feasible i = true ->
    oapprox_lt (penalized_cost i) (h_best h) = true -> H (Some i) (hist_add h i).
  (** [used]: ruin and recreate runs at all; [upd]: it changes the penalty. *)
  Variable used upd : Prop.
  Hypothesis used_mutation : c_rr_mutation c = true -> used.
  Hypothesis used_elite : c_elite_education c = true -> used.
  Hypothesis upd_elite : c_elite_education c = true -> upd.
  (** [level n]: the penalties after [n] changes in elite education; a search of at most 1000 moves makes at most one. *)
  Definition elite_moves : nat := fround (c_elite_education_gamma c *: fnat (p_dim p - 1)).
  Variable level : nat -> F -> Prop.
  Hypothesis level_start : upd -> forall x, usual x -> level 0 x.
  Hypothesis level_allowed : upd -> forall n x, level n x -> allowed x.
  Hypothesis level_step : upd -> forall n x, c_elite_education_time_based c = true \/ 1000 * S n <= elite_moves -> level n x ->
    level (S n) (x *: c_penalty_dec_multiplier c) /\ level (S n) (x *: c_penalty_inc_multiplier c).
  Hypothesis H_rr : used -> forall pen b h cand h', allowed pen -> H b h -> sound p c good cand -> priced pen cand ->
    rr_recorded p c pen h cand h' -> H b h'.

  (** Under these conditions nothing panics. *)
  Record fine : Prop := {
    f_ratios : ratios_defined c;
    f_angles : angles_ok p;
    f_keys : keys_ok p;
    f_room : forall pen, allowed pen -> room p good pen;
    f_cmp : forall pa pb a b, allowed pa -> allowed pb -> evaluated pa a -> evaluated pb b -> comparable a b = true;
    f_sizes : sizes c
  }.

  (** [short]: one of the bounds on the loops is too short. *)
  Variable short : Prop.
  Definition safe {A} (m : res A) (P : A -> Prop) : Prop :=
    match m with Ok a => P a | Err e => fine -> e = EFuel /\ short end.

  Lemma safe_bind {A B} (m : res A) (f : A -> res B) (P : A -> Prop) (R : B -> Prop) :
    safe m P -> (forall a, P a -> safe (f a) R) -> safe (rbind m f) R.
  Proof. destruct m; cbn; auto. Qed.
  Lemma safe_ok {A} (m : res A) a (P : A -> Prop) : m = Ok a -> P a -> safe m P.
  Proof. intros ->. auto. Qed.
  Lemma safe_weaken {A} (m : res A) (P R : A -> Prop) : safe m P -> (forall a, P a -> R a) -> safe m R.
  Proof. destruct m; cbn; auto. Qed.

  Lemma child_evaluated pen i : child_at pen i -> evaluated pen i.
  Proof. intros (S & HL & G & X). split; auto. Qed.

  Lemma evaluated_finished pen i : evaluated pen i -> finished p i.
  Proof.
    intros (S & G & e & Ev). split; [exact S|]. split; [exact G|]. exists pen, e. rewrite Ev.
    apply evaluate_eq; [|lia]. intros n Hn. eapply Permutation_in in Hn; [|exact S]. apply in_seq in Hn. lia.
  Qed.

  Lemma child_finished pen i : child_at pen i -> finished p i.
  Proof. intros C. eapply evaluated_finished, child_evaluated, C. Qed.

  (** *** The population *)
  Definition fits (i : individual) : Prop := num_nonempty_routes i <= nv.
  Definition evaluated_ok (i : individual) : Prop := exists pen, allowed pen /\ evaluated pen i.
  Definition kind (i : individual) : Prop := fits i /\ evaluated_ok i.
  Definition full (P : population) : Prop := Forall kind (members P).

  Lemma num_nonempty_length i : num_nonempty_routes i <= length (i_pheno i).
  Proof.
    unfold num_nonempty_routes. induction (i_pheno i) as [|a l IH]; cbn [filter length]; auto.
    destruct (0 <? length a); cbn [length]; lia.
  Qed.
  Lemma child_kind pen i : allowed pen -> child_at pen i -> kind i.
  Proof.
    intros A C. split; [|exists pen; split; [exact A|now apply child_evaluated]].
    destruct C as (_ & HL & _). unfold fits. pose proof (num_nonempty_length i). lia.
  Qed.
  Lemma child_fits pen i : child_at pen i -> fits i.
  Proof. intros (_ & HL & _). unfold fits. pose proof (num_nonempty_length i). lia. Qed.

  Lemma full_new : full (pop_new c).
  Proof. constructor. Qed.

  Lemma core_kind (a b : individual) : core a = core b -> kind a -> kind b.
  Proof.
    intros G [K (pen & A & S & GE & e & EV)]. pose proof (f_equal i_pheno G) as G1. pose proof (f_equal i_geno G) as G2.
    pose proof (f_equal i_eval G) as G3. cbn in G1, G2, G3. split.
    - revert K. unfold fits, num_nonempty_routes. now rewrite G1.
    - exists pen. split; [exact A|]. unfold evaluated. rewrite <- G1, <- G2, <- G3. eauto.
  Qed.

  Lemma sub_add_full s i s' : sub_add L c s i = Ok s' -> kind i ->
    Forall kind (sp_pop s) -> Forall kind (sp_pop s').
  Proof.
    intros G HL HF. apply (sub_add_members L LOK c) in G. apply Forall_forall. intros m Hm.
    destruct (in_core _ _ _ G Hm) as (m' & Hm' & Ec). apply (core_kind _ _ Ec).
    destruct Hm' as [<-|Hm']; auto. rewrite Forall_forall in HF. auto.
  Qed.

  Lemma pop_add_full P i b P' : pop_add L c P i b = Ok P' -> kind i -> full P -> full P'.
  Proof.
    intros G HL HF. unfold pop_add in G. unfold full, members in *. apply Forall_app in HF. destruct HF as [F1 F2].
    change (is_feasible (set_number i (po_count P))) with (is_feasible i) in G. destruct (is_feasible i).
    - destruct (sub_add _ _ _ _) as [s|e] eqn:Es; [|discriminate]. injection G as <-. cbn [po_feas po_infeas].
      apply Forall_app. split; auto. eapply sub_add_full; [exact Es| |]; auto.
    - destruct (sub_add _ _ _ _) as [s|e] eqn:Es; [|discriminate]. injection G as <-. cbn [po_feas po_infeas].
      apply Forall_app. split; auto. eapply sub_add_full; [exact Es| |]; auto.
  Qed.

  Lemma reevaluate_full pen P P' : allowed pen -> pop_reevaluate L p pen P = Ok P' -> full P -> full P'.
  Proof.
    intros AL G HF. unfold pop_reevaluate in G. unfold full, members in *. apply Forall_app in HF. destruct HF as [F1 F2].
    destruct (mapm _ _) as [l|e] eqn:El; [|discriminate]. cbn [rbind] in G.
    destruct (negb _); [discriminate|]. injection G as <-. cbn [po_feas po_infeas sp_pop set_pop].
    apply Forall_app. split; auto.
    apply Forall_forall. intros m Hm.
    eapply Permutation_in in Hm; [|apply (sort_perm L LOK)].
    apply mapm_spec in El. rewrite Forall_forall in F2.
    revert Hm. induction El as [|a b la lb Hab _ IH]; intros Hm; [destruct Hm|]. destruct Hm as [<-|Hm].
    - unfold ind_evaluate in Hab. destruct (F2 a (or_introl eq_refl)) as (K1 & pa & A1 & A2 & A3 & _).
      rewrite evaluate_eq in Hab; [|intros n Hn; eapply Permutation_in in Hn; [|exact A2]; apply in_seq in Hn; lia|lia].
      injection Hab as <-. split; [exact K1|]. exists pen. split; [exact AL|]. split; [exact A2|]. split; [exact A3|]. eexists. reflexivity.
    - apply IH; auto. intros; apply F2; now right.
  Qed.

  Lemma pop_add_safe P i b : pop_history L p c P -> full P -> kind i ->
    safe (pop_add L c P i b) (fun P' => pop_history L p c P' /\ full P' /\ (fine -> 0 < pop_size P')).
  Proof.
    intros HP HF KI. pose proof KI as [FT (pen & AL & HC)]. destruct (pop_add L c P i b) as [P'|e] eqn:G; cbn.
    - split; [eapply ph_add; eauto; eapply evaluated_finished; eauto|].
      split; [eapply pop_add_full; eauto|].
      intros FI. apply (pop_add_sizes L LOK c) in G; [|apply (f_min _ (f_sizes FI))]. destruct G as (_ & _ & G).
      unfold pop_size. destruct (is_feasible i); [destruct (sp_pop (po_feas P'))|destruct (sp_pop (po_infeas P'))];
        cbn in *; try lia; now elim G.
    - intros FI. exfalso. assert (D : 0 < dim) by lia.
      destruct (pop_add_total L LOK p c D P i b) as (P' & G'); auto; try congruence.
      + eapply evaluated_finished; eauto.
      + apply (f_ratios FI).
      + apply (f_closest _ (f_sizes FI)).
      + apply (f_min _ (f_sizes FI)).
      + intros m Hm. unfold full in HF. rewrite Forall_forall in HF.
        destruct (HF m) as (_ & pm & AM & EM); [apply in_or_app; exact Hm|]. exact (f_cmp FI _ _ _ _ AM AL EM HC).
  Qed.

  Lemma reevaluate_safe P pen : allowed pen -> pop_history L p c P -> full P ->
    safe (pop_reevaluate L p pen P) (fun P' => pop_history L p c P' /\ full P' /\ (fine -> pop_size P' = pop_size P)).
  Proof.
    intros AL HP HF. assert (D : 0 < dim) by lia.
    pose proof (history_feasibility L LOK p c D P HP) as (_ & _ & HX). rewrite Forall_forall in HX.
    destruct (pop_reevaluate L p pen P) as [P'|e] eqn:G; cbn.
    - split; [eapply ph_penalty; eauto|]. split; [eapply reevaluate_full; eauto|]. intros _.
      unfold pop_reevaluate in G. destruct (mapm _ _) as [l|e] eqn:El; [|discriminate]. cbn [rbind] in G.
      destruct (negb _); [discriminate|]. injection G as <-. unfold pop_size. cbn [po_feas po_infeas sp_pop set_pop].
      apply mapm_spec in El. apply Forall2_length in El.
      rewrite (Permutation_length (sort_perm L LOK _ (fun a b => cmp_or_eq (ind_cmp a b)) l)). lia.
    - intros FI. exfalso. unfold pop_reevaluate in G.
      assert (EM : exists l, mapm (ind_evaluate p pen) (sp_pop (po_infeas P)) = Ok l /\ Forall (evaluated pen) l).
      { assert (HY : forall i, In i (sp_pop (po_infeas P)) -> finished p i) by (intros; apply HX, in_or_app; auto).
        clear -HY dim2. induction (sp_pop (po_infeas P)) as [|a l IH]; cbn [mapm]; [eexists; split; [reflexivity|constructor]|].
        destruct IH as (l' & E1 & F1); [intros; apply HY; now right|].
        destruct (HY a) as (S & G & pen0 & e0 & Ev); [now left|].
        assert (EV : evaluate p pen (i_eval a) (i_pheno a) = Ok (geval p pen (i_eval a) (i_pheno a))).
        { apply evaluate_eq; [|lia]. intros n Hn. eapply Permutation_in in Hn; [|exact S]. apply in_seq in Hn. lia. }
        unfold ind_evaluate at 1. rewrite EV. cbn [rbind]. rewrite E1. cbn [rbind]. eexists. split; [reflexivity|].
        constructor; auto. split; [exact S|]. split; [exact G|]. eexists. reflexivity. }
      destruct EM as (l & EM & FL). rewrite EM in G. cbn [rbind] in G.
      destruct (negb _) eqn:EN; [|discriminate]. apply negb_true_iff in EN.
      rewrite Forall_forall in FL.
      assert (EN' : forallb (fun a => forallb (comparable a) l) l = true); [|congruence].
      apply forallb_forall. intros a Ha. apply forallb_forall. intros b Hb. apply (f_cmp FI pen pen); auto.
  Qed.

  (** *** The invariant between and inside the parts of [iterate] *)
  Definition split_ready (st : split_state) : Prop := if c_linear_split c then sp_wf st else sp_bwf st.

  Record base (g : ga) (w : world) : Prop := {
    gb_ls : ls_ready p c (ga_ls g);
    gb_rows : rows_ok p (s_corr (ga_ls g));
    gb_rr : rr_inv p c good (ga_rr g);
    gb_pop : pop_history L p c (ga_pop g);
    gb_full : full (ga_pop g);
    gb_split : split_ready (ga_split g);
    gb_pen : allowed (w_pen w);
    gb_hist : H (ga_best_sol g) (w_hist w);
    gb_iter : ga_best_iter g <= ga_iterations g;
    gb_some : fine -> 0 < ga_num_init g -> 0 < pop_size (ga_pop g)
  }.

  (** The annealing schedule counts moves, up to [rr_top]. *)
  Variable rr_top : nat.
  Hypothesis quick_mutation : short \/ fround (c_rr_gamma c *: fnat (dim - 1)) <= rr_top.
  Hypothesis short_rr : fuel < rr_top -> short.
  Definition quick (st : rrstate) : Prop := short \/ exists s, rr_acc st = AIter s /\ is_total s <= rr_top.
  Lemma quick_setup st : quick (setup_mutation p c st).
  Proof. destruct quick_mutation; [now left|right; eexists; split; [reflexivity|assumption]]. Qed.

  (** What education leaves alone. *)
  Record kept (g : ga) (w : world) (g' : ga) (w' : world) : Prop := {
    kp_st : ga_st g' = ga_st g;
    kp_iterations : ga_iterations g' = ga_iterations g;
    kp_next_penalty : ga_next_penalty g' = ga_next_penalty g;
    kp_next_log : ga_next_log g' = ga_next_log g;
    kp_num_init : ga_num_init g' = ga_num_init g;
    kp_up : rr_update_penalty (ga_rr g') = rr_update_penalty (ga_rr g);
    kp_pen : w_pen w' = w_pen w;
    kp_witer : w_iter w' = w_iter w;
    kp_corr : same_rows (s_corr (ga_ls g)) (s_corr (ga_ls g'));
    kp_quick : quick (ga_rr g) -> quick (ga_rr g')
  }.
  Lemma kept_refl g w : kept g w g w.
  Proof. constructor; auto using same_rows_refl. Qed.
  Lemma kept_trans g1 w1 g2 w2 g3 w3 : kept g1 w1 g2 w2 -> kept g2 w2 g3 w3 -> kept g1 w1 g3 w3.
  Proof.
    intros [A1 A2 A3 A4 A5 A6 A7 A8 A9 A10] [B1 B2 B3 B4 B5 B6 B7 B8 B9 B10].
    constructor; [..|eapply same_rows_trans; eassumption|auto]; eapply eq_trans; eassumption.
  Qed.

  Ltac keep := constructor; cbn in *; first [congruence | assumption | apply same_rows_refl | eapply same_rows_trans; eassumption | solve [auto]].

  Lemma base_world g w w' : base g w -> w_pen w' = w_pen w -> w_hist w' = w_hist w -> base g w'.
  Proof. intros [A1 A2 A3 A4 A5 A6 A7 A8 A9 A10] E1 E2. constructor; auto; now rewrite ?E1, ?E2. Qed.

  Lemma base_child g w i : base g w -> base (set_child g i) w.
  Proof. intros [A1 A2 A3 A4 A5 A6 A7 A8 A9 A10]. constructor; auto. Qed.

  Definition done (g : ga) (w : world) (gw : ga * world) : Prop :=
    base (fst gw) (snd gw) /\ kept g w (fst gw) (snd gw) /\ child_at (w_pen w) (ga_child (fst gw)).

  (** *** Recording *)
  Lemma update_best_ok g w g' w' : base g w -> evaluated (w_pen w) (ga_child g) -> update_best g w = (g', w') ->
    base g' w' /\ kept g w g' w' /\ ga_child g' = ga_child g /\ ga_pop g' = ga_pop g.
  Proof.
    intros B C. pose proof B as [A1 A2 A3 A4 A5 A6 A7 A8 A9 A10]. unfold update_best.
    destruct (is_feasible (ga_child g) && _) eqn:EC.
    - apply andb_true_iff in EC as [EF _]. cbn [set_current ga_cur_best].
      destruct (oapprox_lt (penalized_cost (ga_child g)) (h_best (w_hist w))) eqn:EH; intro G; injection G as <- <-.
      + split; [|split; [keep|split; reflexivity]]. constructor; auto. cbn. eapply H_ga; eauto.
      + split; [|split; [keep|split; reflexivity]]. constructor; auto.
    - intro G. injection G as <- <-. split; auto. split; [apply kept_refl|auto].
  Qed.

  (** *** Local search *)
  Lemma rows_kept s s' : same_near c s s' -> rows_ok p (s_corr s) -> rows_ok p (s_corr s').
  Proof.
    intros [S1 S2 S3 S4] [R1 R2]. split; [now rewrite S2, S3|]. intros u v Hu Hv. apply (R2 u v Hu).
    eapply Permutation_in; [apply (S4 u)|exact Hv].
  Qed.

  (** [tame]: the penalties with which the local search is known to end. *)
  Section Tame.
  Variable tame : F -> Prop.
  Hypothesis short_ls : forall mult g w pen0, base g w -> tame (w_pen w) -> mult = f1 \/ mult = flit 10 1 ->
    child_at pen0 (ga_child g) -> fine -> run_ls p c fuel mult g w = Err EFuel -> short.

  Lemma run_ls_safe mult g w pen0 : base g w -> tame (w_pen w) -> mult = f1 \/ mult = flit 10 1 -> child_at pen0 (ga_child g) ->
    safe (run_ls p c fuel mult g w) (done g w).
  Proof.
    intros B U MU C0. pose proof C0 as (SV & HL & _). pose proof (short_ls mult g w pen0 B U MU C0) as SL. pose proof B as [A1 A2 A3 A4 A5 A6 A7 A8 A9 A10]. unfold run_ls in *.
    assert (D : 0 < dim) by lia.
    apply safe_bind with (P := fun '(s', i', r') => outcome p c (w_pen w *: mult) (w_pen w) (ga_ls g) (ga_child g) s' i').
    - destruct (ls_run p c _ fuel (w_pen w) (ga_ls g) (ga_child g) (w_rng w)) as [[[s' i'] r']|e] eqn:G; cbn.
      + eapply (ls_run_partial_ok p c (w_pen w *: mult) zero_not_lt gran_pos D); eauto.
      + intros FI. pose proof (f_angles FI) as AO.
        destruct (ls_run_ok p c (w_pen w *: mult) zero_not_lt gran_pos D fuel (w_pen w) _ _ (w_rng w) A1 HL SV AO)
          as [(s' & i' & r' & G' & _)|(G' & _)]; [congruence|].
        rewrite G in G'. injection G' as ->. split; [reflexivity|]. apply SL; [exact FI|]. reflexivity.
    - intros [[s' i'] r'] (R & SN & rs & n & lc & _ & _ & RB & _). cbn.
      destruct RB as (_ & L1 & S1 & G1 & E1 & _).
      split; [|split; [constructor; auto; cbn; split; [apply (sn_cols _ _ _ SN)|split; [apply (sn_size _ _ _ SN)|apply (sn_row _ _ _ SN)]]|]].
      + constructor; auto. cbn. eapply rows_kept; eauto.
      + cbn. repeat split; auto. eauto.
  Qed.

  (** *** Ruin and recreate *)
  Definition searching (b : option individual) (pen0 : F) (k : nat) (st : rrstate) (w : world) : Prop :=
    H b (w_hist w) /\ allowed (w_pen w) /\ w_iter w = k /\ rr_update_penalty st = false /\ w_pen w = pen0.

  Lemma rr_search_safe b corr pen0 k st w : used -> rows_ok p corr -> ready p c good st -> searching b pen0 k st w ->
    safe (rr_search p c E corr st w) (fun '(st', w') => ready p c good st' /\ searching b pen0 k st' w').
  Proof.
    intros RU RO R I. unfold rr_search.
    destruct (rr_loop_ok p c E good good_remove good_add below dim2 nv_pos (searching b pen0 k) corr) with (k := 1000) (st := st) (w := w)
      as [(st' & w' & G & R' & I')|(e & G & NO)]; auto.
    - intros s1 w1 s2 w2 cand R1 (I1 & I2 & I3 & I4 & I5) R2 S.
      pose proof (st_pen _ _ _ _ _ _ _ _ _ _ S) as P1. pose proof (st_iter _ _ _ _ _ _ _ _ _ _ S) as P2.
      pose proof (st_up _ _ _ _ _ _ _ _ _ _ S) as P3.
      unfold searching. rewrite P1, P2, P3. split; [|auto].
      destruct (st_cases _ _ _ _ _ _ _ _ _ _ S) as (r0 & [(_ & _ & _ & ->)|(_ & _ & [(b' & _ & _ & _ & ->)|(_ & _ & [(-> & _)|HR])])]); auto.
      eapply H_rr; eauto; apply S.
    - intros s1 w1 s2 w2 R1 (I1 & I2 & I3 & I4 & I5) G.
      pose proof (rr_penalty_world _ _ _ _ _ G) as (P1 & P2 & P3). unfold searching. rewrite P1, P2, P3.
      unfold rr_penalty in G. rewrite I4 in *. injection G as _ <-. auto.
    - rewrite G. cbn. auto.
    - rewrite G. cbn. intros FI. exfalso. apply NO. split; [apply (f_angles FI)|]. split; [apply (f_keys FI)|].
      intros s1 w1 (_ & I2 & _). now apply (f_room FI).
  Qed.

  (** A search of elite education, with [k] of its 1000 moves left, after [n] changes of the penalty before it. *)
  Definition scheduled (n k : nat) (a : acceptance) : Prop :=
    match a with
    | AIter s => is_total s = elite_moves /\ is_iteration s + k = 1000 * S n
    | ATime _ => c_elite_education_time_based c = true
    end.
  Definition educating (b : option individual) (i n m k : nat) (st : rrstate) (w : world) : Prop :=
    H b (w_hist w) /\ w_iter w = i /\ rr_update_penalty st = true /\ scheduled n k (rr_acc st) /\ level m (w_pen w).

  Lemma scheduled_update n k a w a' w' : scheduled n (S k) a -> acc_update E a w = (a', w') -> scheduled n k a'.
  Proof.
    unfold acc_update, ts_update, now. destruct a as [s|s]; cbn [scheduled].
    - intros [T I] G. injection G as <- _. cbn [scheduled is_update is_total is_iteration]. split; [exact T|lia].
    - intros T G. destruct (_ =? _) in G; injection G as <- _; exact T.
  Qed.

  Lemma rr_penalty_acc st w : rr_acc (fst (rr_penalty c st w)) = rr_acc st.
  Proof. unfold rr_penalty. destruct (rr_update_penalty st); reflexivity. Qed.

  Lemma rr_educate_safe b corr i n st w : used -> upd -> rows_ok p corr -> ready p c good st -> rr_complete st = false ->
    educating b i n n 1000 st w ->
    safe (rr_search p c E corr st w) (fun '(st', w') => ready p c good st' /\
      exists m k, educating b i n m k st' w' /\ ((k = 0 /\ m = S n) \/ (rr_complete st' = true))).
  Proof.
    intros RU UP RO R EC I. unfold rr_search.
    destruct (rr_loop_left p c E good good_remove good_add below dim2 nv_pos
      (fun k => educating b i n (match k with O => S n | S _ => n end) k)
      (fun k => educating b i n (match k with O => S n | S _ => n end) (S k)) corr) with (k := 1000) (st := st) (w := w)
      as [(k & st' & w' & G & R' & I' & D)|(e & G & NO)]; auto.
    - intros k s1 w1 s2 w2 cand R1 (I1 & I2 & I3 & I4 & I5) R2 S.
      pose proof (st_pen _ _ _ _ _ _ _ _ _ _ S) as P1. pose proof (st_iter _ _ _ _ _ _ _ _ _ _ S) as P2.
      pose proof (st_up _ _ _ _ _ _ _ _ _ _ S) as P3. destruct (st_acc _ _ _ _ _ _ _ _ _ _ S) as (w3 & P4).
      unfold educating. rewrite P1, P2, P3. split; [|split; [auto|split; [auto|split; [eapply scheduled_update; eauto|auto]]]].
      assert (AL : allowed (w_pen w1)) by (eapply level_allowed; eauto).
      destruct (st_cases _ _ _ _ _ _ _ _ _ _ S) as (r0 & [(_ & _ & _ & ->)|(_ & _ & [(b' & _ & _ & _ & ->)|(_ & _ & [(-> & _)|HR])])]); auto.
      eapply H_rr; eauto; apply S.
    - intros s1 w1 s2 w2 R1 C1 (I1 & I2 & I3 & I4 & I5) G.
      pose proof (rr_penalty_world _ _ _ _ _ G) as (P1 & P2 & P3).
      pose proof (rr_penalty_acc s1 w1) as P4. rewrite G in P4. cbn [fst] in P4.
      unfold educating. rewrite P1, P2, P3, P4. split; [auto|]. split; [auto|]. split; [auto|]. split; [auto|].
      unfold rr_penalty in G. rewrite I3 in G. injection G as _ <-. cbn [w_pen set_w_pen].
      destruct (level_step UP n (w_pen w1)) as [X Y]; [|exact I5|destruct (so_feasible _); auto].
      destruct (rr_acc s1) as [s|s]; cbn [scheduled] in I4; [right|left; exact I4]. destruct I4 as [T1 T2].
      cbn [acc_completed] in C1. unfold is_completed in C1. apply Nat.leb_gt in C1. lia.
    - rewrite G. cbn [safe]. split; [exact R'|]. exists (match k with O => S n | S _ => n end), k. split; [exact I'|].
      destruct D as [->|D]; [left; auto|right; exact D].
    - rewrite G. cbn [safe]. intros FI. exfalso. apply NO. split; [apply (f_angles FI)|]. split; [apply (f_keys FI)|].
      intros k s1 w1 (_ & _ & _ & _ & I2). apply (f_room FI). eapply level_allowed; eauto.
  Qed.

  (** Every move counts. *)
  Lemma rr_move_counts corr st w st' w' s : rr_move p c E corr st w = Ok (st', w') -> rr_acc st = AIter s -> rr_acc st' = AIter (is_update E s).
  Proof.
    unfold rr_move. intros G ES. rewrite ES in G.
    destruct (ruin_run _ _ _ _ _) as [[cur r]|]; [|discriminate]. cbn [rbind] in G.
    destruct (recreate_run _ _ _ _ _) as [[[cur2 r2] h]|]; [|discriminate]. cbn [rbind] in G.
    destruct (accepts _ _ _ _ _) as [ok r3]. destruct (if ok then _ else _) as [[[sol best] w1]|]; [|discriminate]. cbn [rbind] in G.
    destruct (so_from cur2 sol) as [cur3|]; [|discriminate]. cbn [rbind acc_update] in G. injection G as <- _. reflexivity.
  Qed.
  Lemma rr_loop_counts corr k : forall st w st' w' s, rr_loop p c E corr k st w = Ok (st', w') -> rr_acc st = AIter s ->
    exists s', rr_acc st' = AIter s' /\ is_total s' = is_total s /\ is_iteration s + Nat.min k 1 <= is_iteration s'.
  Proof.
    induction k as [|k IH]; intros st w st' w' s G ES; cbn [rr_loop] in G.
    - injection G as <- <-. exists s. split; [exact ES|]. split; [reflexivity|]. cbn. lia.
    - assert (X : forall st0 w0, rr_acc st0 = AIter s ->
        rbind (rr_move p c E corr st0 w0) (fun '(st, w) => if acc_completed (rr_acc st) then Ok (st, w) else rr_loop p c E corr k st w)
          = Ok (st', w') ->
        exists s', rr_acc st' = AIter s' /\ is_total s' = is_total s /\ is_iteration s + Nat.min (S k) 1 <= is_iteration s').
      { intros st0 w0 E0 G0. destruct (rr_move p c E corr st0 w0) as [[st1 w1]|] eqn:EM; [|discriminate]. cbn [rbind] in G0.
        apply (rr_move_counts _ _ _ _ _ _ EM) in E0. destruct (acc_completed (rr_acc st1)).
        - injection G0 as <- <-. exists (is_update E s). split; [exact E0|]. split; [reflexivity|]. cbn. lia.
        - destruct (IH _ _ _ _ _ G0 E0) as (s' & F1 & F2 & F3). exists s'. split; [exact F1|]. split; [exact F2|]. cbn in F3 |- *. lia. }
      destruct k as [|k].
      + destruct (rr_penalty c st w) as [st0 w0] eqn:EP. apply (X st0 w0); [|exact G].
        pose proof (rr_penalty_acc st w) as Y. rewrite EP in Y. cbn [fst] in Y. now rewrite Y.
      + now apply (X st w).
  Qed.

  Lemma rr_until_safe b corr pen0 k : used -> rows_ok p corr -> forall n st w, ready p c good st -> searching b pen0 k st w ->
    (short \/ exists s, rr_acc st = AIter s /\ is_total s <= rr_top /\ is_total s <= is_iteration s + n) ->
    safe (rr_until p c E n corr st w) (fun '(st', w') => ready p c good st' /\ searching b pen0 k st' w' /\ quick st').
  Proof.
    intros RU RO. induction n as [|n IH]; intros st w R I QK; cbn [rr_until]; destruct (rr_complete st) eqn:EC.
    - cbn. split; [exact R|]. split; [exact I|]. destruct QK as [QK|(s & ES & T & _)]; [now left|right; eauto].
    - cbn. intros _. split; [reflexivity|]. destruct QK as [QK|(s & ES & T & T')]; [exact QK|].
      unfold rr_complete in EC. rewrite ES in EC. cbn [acc_completed] in EC. unfold is_completed in EC. apply Nat.leb_gt in EC. lia.
    - cbn. split; [exact R|]. split; [exact I|]. destruct QK as [QK|(s & ES & T & _)]; [now left|right; eauto].
    - pose proof (rr_search_safe b corr pen0 k st w RU RO R I) as SA.
      destruct (rr_search p c E corr st w) as [[st' w']|e] eqn:ER; cbn [rbind]; [|exact SA]. destruct SA as [R' I'].
      apply IH; auto. destruct QK as [QK|(s & ES & T & T')]; [now left|right]. unfold rr_search in ER.
      destruct (rr_loop_counts corr 1000 _ _ _ _ _ ER ES) as (s' & X1 & X2 & X3). exists s'. split; [exact X1|].
      assert (Nat.min 1000 1 = 1) as Y by reflexivity. rewrite Y in X3. lia.
  Qed.

  Lemma quick_fuel st w w' a : quick st -> acc_reset E (rr_acc st) w = (a, w') ->
    short \/ exists s, a = AIter s /\ is_total s <= rr_top /\ is_total s <= is_iteration s + fuel.
  Proof.
    intros [Q|(s & ES & T)] EA; [now left|]. rewrite ES in EA. cbn [acc_reset] in EA. injection EA as <- _.
    destruct (le_lt_dec rr_top fuel); [right|left; auto]. exists (is_reset s). split; [reflexivity|]. cbn. lia.
  Qed.

  Lemma get_best_safe pen st i : ready p c good st -> length (i_pheno i) = nv ->
    safe (rr_get_best_solution p pen st i) (child_at pen).
  Proof.
    intros (_ & _ & b & EB & SB) HL. unfold rr_get_best_solution. rewrite EB.
    destruct (rr_update_individual p pen b i) as [i'|e] eqn:G; cbn.
    - apply (rr_update_individual_ok p c good dim2 nv_pos) in G; auto. destruct G as (_ & L1 & S1 & G1 & E1 & _).
      repeat split; eauto.
    - intros FI. destruct (rr_update_individual_total p c good dim2 nv_pos pen b i) as (i' & G'); auto; [apply (f_angles FI)|congruence].
  Qed.

  Lemma run_rr_safe g w pen0 : used -> base g w -> rr_update_penalty (ga_rr g) = false -> quick (ga_rr g) -> child_at pen0 (ga_child g) ->
    safe (run_rr p c E fuel g w) (done g w).
  Proof.
    intros RU B UP QK C. pose proof B as [A1 A2 A3 A4 A5 A6 A7 A8 A9 A10]. unfold run_rr.
    destruct (rr_load_ok p c E good good_eval dim2 nv_pos (ga_rr g) (ga_child g) w (proj1 A3) (child_finished _ _ C)) as (st & w1 & G & LO);
      [apply C|].
    rewrite G. cbn [rbind].
    eapply safe_bind; [apply (rr_until_safe (ga_best_sol g) _ (w_pen w) (w_iter w)); eauto|].
    { eapply lo_ready; eauto. }
    { unfold searching. rewrite (lo_hist _ _ _ _ _ _ _ _ _ LO), (lo_pen _ _ _ _ _ _ _ _ _ LO), (lo_iter _ _ _ _ _ _ _ _ _ LO),
        (lo_up _ _ _ _ _ _ _ _ _ LO). repeat split; auto. }
    { destruct (lo_acc _ _ _ _ _ _ _ _ _ LO) as (w2 & EA & _). exact (quick_fuel _ _ _ _ QK EA). }
    intros [st' w'] (R' & (I1 & I2 & I3 & I4 & I5) & QK'). cbn beta iota.
    eapply safe_bind; [apply get_best_safe; [exact R'|apply C]|]. intros i' C'. cbn.
    split; [|split].
    - constructor; auto. cbn. now apply ready_inv.
    - constructor; cbn; auto using same_rows_refl. now rewrite UP.
    - cbn. now rewrite <- I5.
  Qed.

  (** *** Education *)
  Lemma base_pop g w po : base g w -> pop_history L p c po -> full po -> (fine -> 0 < pop_size po) -> base (set_gpop g po) w.
  Proof. intros [A1 A2 A3 A4 A5 A6 A7 A8 A9 A10] X Y Z. constructor; auto. Qed.

  Lemma ls_if_safe mult g w : base g w -> tame (w_pen w) -> mult = f1 \/ mult = flit 10 1 -> child_at (w_pen w) (ga_child g) ->
    safe (if c_ls_enabled c then run_ls p c fuel mult g w else Ok (g, w)) (done g w).
  Proof.
    intros B U MU C. destruct (c_ls_enabled c); [eapply run_ls_safe; eauto|]. cbn. split; auto. split; [apply kept_refl|auto].
  Qed.

  Lemma repair_safe g w : base g w -> tame (w_pen w) -> child_at (w_pen w) (ga_child g) -> safe (repair L p c fuel g w) (done g w).
  Proof.
    intros B U C. unfold repair.
    eapply safe_bind; [apply ls_if_safe; eauto|]. intros [g1 w1] (B1 & K1 & C1). cbn [fst snd] in *.
    eapply safe_bind with (P := fun gw => base (fst gw) (snd gw) /\ kept g w (fst gw) (snd gw)).
    - destruct (is_feasible (ga_child g1)); [|cbn; auto].
      destruct (update_best g1 w1) as [g2 w2] eqn:EU.
      rewrite <- (kp_pen _ _ _ _ K1) in C1.
      destruct (update_best_ok _ _ _ _ B1 (child_evaluated _ _ C1) EU) as (B2 & K2 & E2 & _).
      eapply safe_bind; [apply pop_add_safe|].
      + apply (gb_pop _ _ B2).
      + apply (gb_full _ _ B2).
      + rewrite E2. eapply child_kind; [|exact C1]. apply (gb_pen _ _ B1).
      + intros po (X & Y & Z). cbn. split; [now apply base_pop|].
        destruct (kept_trans _ _ _ _ _ _ K1 K2). keep.
    - intros [g2 w2] [B2 K2]. cbn in *. split; [now apply base_child|]. split; [|exact C].
      destruct K2. keep.
  Qed.

  Lemma educate_tame g w : base g w -> tame (w_pen w) -> rr_update_penalty (ga_rr g) = false -> quick (ga_rr g) ->
    child_at (w_pen w) (ga_child g) -> safe (educate L p c E fuel g w) (done g w).
  Proof.
    intros B U UP QK C. unfold educate.
    eapply safe_bind; [apply ls_if_safe; eauto|]. intros [g1 w1] (B1 & K1 & C1). cbn [fst snd] in *.
    destruct (real p (w_rng w1)) as [rnd r1].
    apply safe_bind with (P := done g w).
    - destruct (c_rr_mutation c && _) eqn:RM; [apply andb_true_iff in RM as [RM _]|].
      + assert (B1' : base g1 (set_w_rng w1 r1)) by (eapply base_world; eauto).
        eapply safe_weaken; [eapply run_rr_safe; eauto; [now rewrite (kp_up _ _ _ _ K1)|exact (kp_quick _ _ _ _ K1 QK)]|].
        intros [g2 w2] (B2 & K2 & C2). cbn [fst snd] in *. split; auto. cbn [w_pen set_w_rng] in C2.
        rewrite (kp_pen _ _ _ _ K1) in C2. split; [|exact C2]. destruct K1, K2. cbn in *. keep.
      + cbn. split; [eapply base_world; eauto|]. split; [|exact C1]. destruct K1. keep.
    - intros [g2 w2] (B2 & K2 & C2). cbn [fst snd] in *.
      apply safe_bind with (P := done g w).
      + destruct (negb (is_feasible (ga_child g2))); [|cbn; split; auto].
        destruct (real p (w_rng w2)) as [x r2]. destruct (x <:? c_repair_probability c).
        * assert (B2' : base g2 (set_w_rng w2 r2)) by (eapply base_world; eauto).
          eapply safe_weaken; [apply repair_safe; auto; cbn; now rewrite (kp_pen _ _ _ _ K2)|].
          intros [g3 w3] (B3 & K3 & C3). cbn [fst snd] in *. split; auto. cbn [w_pen set_w_rng] in C3.
          rewrite (kp_pen _ _ _ _ K2) in C3. split; [|exact C3]. destruct K2, K3. cbn in *. keep.
        * cbn. split; [eapply base_world; eauto|]. split; [|exact C2]. destruct K2. keep.
      + intros [g3 w3] (B3 & K3 & C3). cbn [fst snd] in *. cbn [safe].
        destruct (update_best g3 w3) as [g4 w4] eqn:EU. rewrite <- (kp_pen _ _ _ _ K3) in C3.
        destruct (update_best_ok _ _ _ _ B3 (child_evaluated _ _ C3) EU) as (B4 & K4 & E4 & _). split; [exact B4|].
        split; [eapply kept_trans; eauto|]. cbn [fst snd]. rewrite E4, <- (kp_pen _ _ _ _ K3). exact C3.
  Qed.

  (** *** Splitting *)
  Definition whole (i : individual) : Prop := Permutation (i_geno i) (seq 1 (dim - 1)).
  Lemma child_whole pen i : child_at pen i -> whole i.
  Proof. intros (S & _ & G & _). unfold whole. rewrite G. exact S. Qed.

  Lemma run_split_safe g w mv : base g w -> usual (w_pen w) -> whole (ga_child g) -> 1 <= mv <= nv ->
    safe (run_split p c g w mv)
      (fun g' => base g' w /\ kept g w g' w /\ child_at (w_pen w) (ga_child g') /\ ga_pop g' = ga_pop g).
  Proof.
    intros B U W MV. pose proof B as [A1 A2 A3 A4 A5 A6 A7 A8 A9 A10]. unfold run_split.
    assert (D : 0 < dim) by lia. assert (M : Nat.max mv (vehicle_lower_bound p) <= nv) by lia.
    assert (SC : split_core p (w_pen w) split_ready c (ga_split g) (ga_child g) mv).
    { unfold split_ready, split_fits in *. destruct (c_linear_split c) eqn:EL.
      - apply split_run_core_linear; auto; lia.
      - apply split_run_core_bellman; auto; lia. }
    eapply safe_bind with (P := fun '(st, i) => split_ready st /\ child_at (w_pen w) i).
    - destruct (split_run p c (w_pen w) (ga_split g) (ga_child g) mv) as [[st' i']|e] eqn:G; cbn.
      + apply (split_run_finish p (w_pen w) split_ready) in G; auto.
        destruct G as (G1 & _ & G2 & G3 & G4 & G5 & _). split; auto. repeat split; eauto.
      + intros FI. destruct (split_run_total p (w_pen w) split_ready c (ga_split g) (ga_child g) mv) as (st' & i' & G'); auto; [apply (f_angles FI)|congruence].
    - intros [st i] [X Y]. cbn. split; [constructor; auto|]. split; [now constructor|]. auto.
  Qed.

  (** *** Log and penalty *)
  Lemma log_safe g w : base g w ->
    safe (ga_log c E log_interval g w) (fun '(g', w') => g' = set_next_log g (ga_next_log g + log_interval) /\ w' = snd (now E w)).
  Proof.
    intros B. pose proof B as [A1 A2 A3 A4 A5 A6 A7 A8 A9 A10]. unfold ga_log, now. cbn [ga_iterations ga_best_iter set_next_log ga_pop].
    destruct (Nat.ltb_spec (ga_iterations g) (ga_best_iter g)); [lia|].
    assert (D : 0 < dim) by lia.
    assert (G : forall s, s = po_feas (ga_pop g) \/ s = po_infeas (ga_pop g) -> exists x, sub_diversity c s = Ok x).
    { intros s Hs. unfold sub_diversity. set (size := Nat.min _ _).
      assert (X : forall l t, incl l (sp_pop s) -> exists y, foldm (fun t i => rbind (average_bpd s i size) (fun d => Ok (t +: d))) l t = Ok y).
      { induction l as [|a l IH]; intros t HI; cbn [foldm]; [eauto|].
        assert (Y : exists q, average_bpd s a size = Ok q).
        { destruct (le_lt_dec 2 (length (sp_pop s))) as [T|T].
          - eapply history_reads; eauto. apply HI. now left.
          - assert (IN : In a (sp_pop s)) by (apply HI; now left).
            destruct (sp_pop s) as [|x [|]] eqn:ES; cbn in T; try lia; [destruct IN|].
            unfold average_bpd. rewrite ES. cbn [length Nat.eqb].
            destruct (sp_div s (i_number a)) as [v|]; [|eauto].
            replace (Nat.min size (1 - 1)) with 0 by lia. cbn. eauto. }
        destruct Y as (q & ->). cbn [rbind]. apply IH. intros z Hz. apply HI. now right. }
      destruct (X (firstn size (sp_pop s)) f0) as (y & ->); [|cbn; eauto].
      intros z Hz. eapply in_firstn. exact Hz. }
    destruct (G _ (or_introl eq_refl)) as (x & ->). destruct (G _ (or_intror eq_refl)) as (y & ->). cbn. auto.
  Qed.

  Lemma update_penalty_safe g w : base g w ->
    safe (update_penalty L p c g w) (fun '(g', w') => base g' w' /\ usual (w_pen w') /\ w_iter w' = w_iter w /\
      ga_st g' = ga_st g /\ ga_iterations g' = ga_iterations g /\ ga_num_init g' = ga_num_init g /\
      ga_child g' = ga_child g /\ ga_rr g' = ga_rr g /\ (fine -> pop_size (ga_pop g') = pop_size (ga_pop g))).
  Proof.
    intros B. pose proof B as [A1 A2 A3 A4 A5 A6 A7 A8 A9 A10]. unfold update_penalty. cbn [ga_pop set_next_penalty].
    set (pen := next_penalty_value _ _ _).
    assert (U : usual pen) by (unfold pen, next_penalty_value; apply usual_clamp).
    eapply safe_bind; [apply (reevaluate_safe _ pen (usual_allowed _ U)); eauto|]. intros po (X & Y & Z). cbn.
    split; [|repeat split; auto]. constructor; auto. cbn. intros FI Hn. rewrite (Z FI). auto.
  Qed.

  Lemma reset_penalty_safe w : safe (reset_penalty p max_distance w)
    (fun w' => usual (w_pen w') /\ w_hist w' = w_hist w /\ w_iter w' = w_iter w).
  Proof.
    unfold reset_penalty. apply safe_bind with (P := fun _ => True).
    - unfold max_demand. destruct (map _ _) as [|d ds] eqn:EM; cbn [safe]; auto.
      destruct ((1 <=? length ds) && _) eqn:EN; cbn [safe]; auto.
      intros FI. exfalso. apply andb_true_iff in EN as [_ EN]. apply existsb_exists in EN as (x & IN & EN).
      rewrite <- EM in IN. apply in_map_iff in IN as (n & <- & Hn). apply in_seq in Hn.
      rewrite (proj1 (f_keys FI n ltac:(lia))) in EN. discriminate.
    - intros d _. cbn. auto.
  Qed.

  (** *** Between two calls of [iterate] *)
  Record inv (g : ga) (w : world) : Prop := {
    in_base : base g w;
    in_whole : whole (ga_child g);
    in_elite : ga_st g = EliteEducation ->
      ready p c good (ga_rr g) /\ length (i_pheno (ga_child g)) = nv /\ c_elite_education c = true /\
      rr_update_penalty (ga_rr g) = true /\
      exists n, level n (w_pen w) /\ (rr_complete (ga_rr g) = true \/ scheduled n 1000 (rr_acc (ga_rr g)));
    in_usual : ga_st g <> EliteEducation -> ga_st g <> Terminated ->
      usual (w_pen w) /\ rr_update_penalty (ga_rr g) = false /\ quick (ga_rr g);
    in_cycle : ga_st g = Cycle -> c_initial_individuals c <= ga_num_init g
  }.

  (** One call counts at most one iteration, and only in [Cycle]. *)
  Definition counted (g : ga) (w : world) (g' : ga) (w' : world) : Prop :=
    (w_iter w' = w_iter w /\ ga_iterations g' = ga_iterations g) \/
    (ga_st g = Cycle /\ w_iter w' = w_iter w + 1 /\ ga_iterations g' = ga_iterations g + 1).

  Definition stepped (g : ga) (w : world) (gw : ga * world) : Prop :=
    inv (fst gw) (snd gw) /\ counted g w (fst gw) (snd gw) /\ ga_st (fst gw) <> Terminated.

  Lemma inv_world g w w' : inv g w -> w_pen w' = w_pen w -> w_hist w' = w_hist w -> inv g w'.
  Proof.
    intros [B1 B2 B3 B4 B5] E1 E2. constructor; auto; [eapply base_world; eauto| |]; rewrite E1; auto.
  Qed.

  Lemma base_st g w x : base g w -> base (set_st g x) w.
  Proof. intros [A1 A2 A3 A4 A5 A6 A7 A8 A9 A10]. constructor; auto. Qed.

  Lemma it_created_safe g w : inv g w -> (usual (w_pen w) -> tame (w_pen w)) -> ga_st g = Created -> safe (it_created L p c E fuel g w) (stepped g w).
  Proof.
    intros [B W I1 I2 I3] TM ST. unfold it_created. destruct (I2) as (U & UP & QK); try (rewrite ST; discriminate). specialize (TM U).
    destruct (bool_dec (c_elite_education c) true) as [EE|EE]; [|apply not_true_is_false in EE]; rewrite EE; cbn [andb].
    2:{ cbn. split; [|split; [left; auto|discriminate]]. constructor; cbn; auto; try discriminate. now apply base_st. }
    destruct (_ <? _).
    2:{ cbn. split; [|split; [left; auto|discriminate]]. constructor; cbn; auto; try discriminate. now apply base_st. }
    eapply safe_bind; [apply run_split_safe; auto; now apply base_st|].
    intros g1 (B1 & K1 & C1 & _).
    eapply safe_bind; [apply educate_tame; auto; [now rewrite (kp_up _ _ _ _ K1)|exact (kp_quick _ _ _ _ K1 QK)]|].
    intros [g2 w2] (B2 & K2 & C2). cbn [fst snd] in *.
    destruct (setup_elite_education p c E (ga_rr g2) w2) as [st w3] eqn:ES.
    assert (X : rr_sol st = rr_sol (ga_rr g2) /\ w_pen w3 = w_pen w2 /\ w_hist w3 = w_hist w2 /\ w_iter w3 = w_iter w2 /\
      rr_update_penalty st = true /\ match rr_acc st with AIter s => is_total s = elite_moves | ATime _ => c_elite_education_time_based c = true end).
    { unfold setup_elite_education, ts_new, now in ES. destruct (c_elite_education_time_based c); injection ES as <- <-; repeat split; auto. }
    destruct X as (X1 & X2 & X3 & X4 & X5 & X6).
    destruct (rr_load_ok p c E good good_eval dim2 nv_pos st (ga_child g2) w3) as (st' & w4 & G & LO).
    { rewrite X1. apply (gb_rr _ _ B2). }
    { eapply child_finished; eauto. }
    { apply C2. }
    rewrite G. cbn [rbind safe]. pose proof (lo_pen _ _ _ _ _ _ _ _ _ LO) as Y1. pose proof (lo_iter _ _ _ _ _ _ _ _ _ LO) as Y2.
    pose proof (lo_hist _ _ _ _ _ _ _ _ _ LO) as Y3. pose proof (lo_ready _ _ _ _ _ _ _ _ _ LO) as Y4.
    split.
    - constructor; cbn [fst snd ga_child set_rr ga_rr ga_st].
      + assert (B4 : base g2 w4) by (eapply base_world; [exact B2| |]; congruence).
        destruct B4 as [A1 A2 A3 A4 A5 A6 A7 A8 A9 A10]. constructor; auto. now apply ready_inv.
      + eapply child_whole; eauto.
      + intros _. split; auto. split; [apply C2|]. split; auto. split; [rewrite (lo_up _ _ _ _ _ _ _ _ _ LO); exact X5|].
        exists 0. split.
        * apply level_start; [auto|]. rewrite Y1, X2, (kp_pen _ _ _ _ K2). exact U.
        * right. destruct (lo_acc _ _ _ _ _ _ _ _ _ LO) as (w5 & EA & _). unfold acc_reset, ts_reset, now in EA.
          destruct (rr_acc st) as [s|s]; injection EA as <- _; cbn [scheduled is_reset is_total is_iteration]; [|exact X6].
          split; [exact X6|reflexivity].
      + rewrite (kp_st _ _ _ _ K2), (kp_st _ _ _ _ K1). cbn. congruence.
      + rewrite (kp_st _ _ _ _ K2), (kp_st _ _ _ _ K1). discriminate.
    - cbn [fst snd set_rr ga_iterations ga_st]. split; [left; split|].
      + rewrite Y2, X4, (kp_witer _ _ _ _ K2). reflexivity.
      + cbn. rewrite (kp_iterations _ _ _ _ K2), (kp_iterations _ _ _ _ K1). reflexivity.
      + rewrite (kp_st _ _ _ _ K2), (kp_st _ _ _ _ K1). discriminate.
  Qed.

  Lemma it_elite_safe g w : inv g w -> ga_st g = EliteEducation ->
    safe (it_elite L p c E log_interval max_distance g w) (stepped g w).
  Proof.
    intros [B W I1 I2 I3] ST. destruct (I1 ST) as (R & HL & EE & UP & n & LV & SC). unfold it_elite.
    pose proof B as [A1 A2 A3 A4 A5 A6 A7 A8 A9 A10].
    destruct (rr_complete (ga_rr g)) eqn:EC; cbn [negb].
    2:{ destruct SC as [SC|SC]; [discriminate|].
      eapply safe_bind; [apply (rr_educate_safe (ga_best_sol g) _ (w_iter w) n); auto|].
      { unfold educating. auto. }
      intros [st w'] (R' & m & k & (J1 & J2 & J3 & J4 & J5) & DN). cbn [safe]. split.
      + constructor; cbn [fst snd ga_child set_rr ga_rr ga_st]; auto; try congruence.
        * constructor; auto; [now apply ready_inv|]. eapply level_allowed; eauto.
        * intros _. split; [exact R'|]. split; [exact HL|]. split; [exact EE|]. split; [exact J3|]. exists m. split; [exact J5|].
          destruct DN as [[-> ->]|DN]; [right|left; exact DN]. destruct (rr_acc st) as [s|s]; cbn [scheduled] in *; [|exact J4].
          destruct J4 as [J4 J6]. split; [exact J4|]. lia.
      + split; [left; auto|]. cbn. rewrite ST. discriminate. }
    - eapply safe_bind; [apply get_best_safe; auto|]. cbn [set_st ga_child]. intros i C.
      destruct (update_best _ w) as [g1 w1] eqn:EU.
      assert (B0 : base (set_child (set_st g Initialization) i) w) by (apply base_child, base_st; exact B).
      destruct (update_best_ok _ _ _ _ B0 (child_evaluated _ _ C) EU) as (B1 & K1 & E1 & _). cbn [ga_child set_child] in E1.
      unfold add_individual. eapply safe_bind with (P := fun g2 => base g2 w1 /\ ga_st g2 = ga_st g1 /\ ga_child g2 = ga_child g1 /\
        ga_rr g2 = ga_rr g1 /\ ga_iterations g2 = ga_iterations g1).
      { eapply safe_bind; [apply pop_add_safe; [apply (gb_pop _ _ B1)|apply (gb_full _ _ B1)|rewrite E1; eapply child_kind; [exact A7|exact C]]|].
        intros po (X & Y & Z). cbn [safe]. split; [now apply base_pop|]. auto. }
      intros g2 (B2 & S2 & C2 & R2 & T2).
      eapply safe_bind; [apply reset_penalty_safe|]. intros w2 (U2 & H2 & T2').
      assert (B3 : base (set_rr g2 (setup_mutation p c (ga_rr g2))) w2).
      { destruct B2 as [D1 D2 D3 D4 D5 D6 D7 D8 D9 D10]. constructor; auto. now rewrite H2. }
      eapply safe_weaken; [apply log_safe; exact B3|]. intros [g3 w3] (-> & ->). split.
      + constructor; cbn [fst snd ga_child set_rr ga_rr ga_st set_next_log now w_pen].
        * destruct B3 as [D1 D2 D3 D4 D5 D6 D7 D8 D9 D10]. constructor; auto.
        * rewrite C2, E1. eapply child_whole; eauto.
        * rewrite S2, (kp_st _ _ _ _ K1). discriminate.
        * intros _ _. split; [auto|]. split; [reflexivity|apply quick_setup].
        * rewrite S2, (kp_st _ _ _ _ K1). discriminate.
      + unfold counted. cbn. rewrite T2', (kp_witer _ _ _ _ K1), T2, (kp_iterations _ _ _ _ K1), S2, (kp_st _ _ _ _ K1).
        split; [left; auto|discriminate].
  Qed.

  Lemma it_init_safe g w : inv g w -> (usual (w_pen w) -> tame (w_pen w)) -> ga_st g = Initialization -> safe (it_init L p c E fuel g w) (stepped g w).
  Proof.
    intros [B W I1 I2 I3] TM ST. unfold it_init. destruct (I2) as (U & UP & QK); try (rewrite ST; discriminate). specialize (TM U).
    destruct (Nat.ltb_spec (ga_num_init g) (c_initial_individuals c)).
    2:{ cbn. split; [|split; [left; auto|discriminate]]. constructor; cbn; auto; try discriminate. now apply base_st. }
    unfold create_initial_individual. destruct (ind_random p nv (ga_num_init g) (w_rng w)) as [i r] eqn:ER.
    apply shuffle_perm_random in ER as (P1 & P2 & _).
    apply safe_bind with (P := fun '(i', g', w') => base g' w' /\ kept g w g' w' /\ child_at (w_pen w) i' /\ ga_child g' = ga_child g).
    - eapply safe_bind; [apply run_split_safe|].
      + eapply base_world; [apply base_child; exact B| |]; reflexivity.
      + exact U.
      + exact P1.
      + lia.
      + intros g1 (B1 & K1 & C1 & _).
        eapply safe_bind; [apply educate_tame; auto; [now rewrite (kp_up _ _ _ _ K1)|exact (kp_quick _ _ _ _ K1 QK)]|].
        intros [g2 w2] (B2 & K2 & C2). cbn [fst snd safe] in *. split; [now apply base_child|].
        split; [|split; [exact C2|reflexivity]]. destruct K1, K2. cbn in *. keep.
    - intros [[i' g'] w'] (B1 & K1 & C1 & EC).
      eapply safe_bind; [apply pop_add_safe; [apply (gb_pop _ _ B1)|apply (gb_full _ _ B1)|eapply child_kind; [|exact C1]; apply (gb_pen _ _ B)]|].
      intros po (X & Y & Z). cbn [safe]. split.
      + constructor; cbn [fst snd ga_child set_num_init set_gpop ga_rr ga_st].
        * destruct B1 as [D1 D2 D3 D4 D5 D6 D7 D8 D9 D10]. constructor; auto.
        * now rewrite EC.
        * rewrite (kp_st _ _ _ _ K1), ST. discriminate.
        * rewrite (kp_pen _ _ _ _ K1), (kp_up _ _ _ _ K1). intros _ _. split; [exact U|]. split; [exact UP|exact (kp_quick _ _ _ _ K1 QK)].
        * rewrite (kp_st _ _ _ _ K1), ST. discriminate.
      + split; [left; split; apply K1|]. cbn. rewrite (kp_st _ _ _ _ K1), ST. discriminate.
  Qed.

  Lemma num_nonempty_pos i : finished p i -> 1 <= num_nonempty_routes i.
  Proof.
    intros (S & _). unfold num_nonempty_routes.
    assert (X : exists r, In r (i_pheno i) /\ r <> []).
    { assert (IN : In 1 (concat (i_pheno i))).
      { eapply Permutation_in; [symmetry; exact S|]. apply in_seq. lia. }
      apply in_concat in IN as (r & Hr & H1). exists r. split; auto. intros ->. destruct H1. }
    destruct X as (r & Hr & Hne).
    assert (IN : In r (filter (fun r => 0 <? length r) (i_pheno i))).
    { apply filter_In. split; auto. destruct r; [now elim Hne|reflexivity]. }
    destruct (filter _ _); [destruct IN|cbn; lia].
  Qed.

  Lemma members_known g w i : base g w -> In i (members (ga_pop g)) -> finished p i /\ fits i.
  Proof.
    intros B Hi. assert (D : 0 < dim) by lia.
    pose proof (history_feasibility L LOK p c D _ (gb_pop _ _ B)) as (_ & _ & X). rewrite Forall_forall in X.
    pose proof (gb_full _ _ B) as Y. unfold full in Y. rewrite Forall_forall in Y. split; [auto|]. apply (Y i Hi).
  Qed.

  Lemma tournament_safe g w r : base g w -> (fine -> 0 < pop_size (ga_pop g)) ->
    safe (tournament (c_tournament_size c) (ga_pop g) r) (fun '(i, _) => finished p i /\ fits i).
  Proof.
    intros B HP. destruct (tournament _ _ r) as [[i r']|e] eqn:G; cbn.
    - apply tournament_in in G. eapply members_known; eauto.
    - intros FI. destruct (tournament_member (ga_pop g) (c_tournament_size c) r (HP FI) (f_tour _ (f_sizes FI))) as (? & ? & G'). congruence.
  Qed.

  (** Streams in which the two ends of a zone differ soon enough. *)
  Variable lively : (nat -> BinNums.N) -> Prop.
  Hypothesis short_draw : forall g one two r, finished p one -> finished p two -> lively (rdraw r) ->
    make_child fuel g one two r = Err EFuel -> short.

  Lemma tournament_stream P num r i r' : tournament num P r = Ok (i, r') -> rdraw r' = rdraw r.
  Proof.
    unfold tournament. destruct (draw_indices num (pop_size P) r) as [[l r1]|] eqn:ED; [|discriminate]. cbn [rbind].
    destruct (foldm _ _ _) as [o|]; [|discriminate]. cbn [rbind]. destruct o as [j|]; [|discriminate]. intro G. injection G as _ <-.
    revert l r r1 ED. generalize (pop_size P) as size. intros size. induction num as [|num IH]; intros l r r1 ED; cbn [draw_indices] in ED; [injection ED as _ <-; reflexivity|].
    unfold range_usize in ED. destruct (_ <? _); [|discriminate]. cbn [rbind draw] in ED.
    destruct (draw_indices num _ _) as [[l2 r2]|] eqn:E2; [|discriminate]. cbn [rbind] in ED. injection ED as _ <-.
    apply IH in E2. exact E2.
  Qed.

  Lemma make_child_safe g one two r : finished p one -> finished p two -> lively (rdraw r) ->
    safe (make_child fuel g one two r) (fun '(i, _) => whole i).
  Proof.
    intros F1 F2 LV. pose proof (short_draw g one two r F1 F2 LV) as SD.
    destruct F1 as (S1 & G1 & _), F2 as (S2 & G2 & _). unfold make_child in *.
    assert (P1 : Permutation (i_geno one) (seq 1 (dim - 1))) by (rewrite G1; exact S1).
    assert (P2 : Permutation (i_geno two) (i_geno one)) by (rewrite G1, G2, S1, S2; reflexivity).
    assert (ND : NoDup (i_geno one)) by (eapply Permutation_NoDup; [symmetry; exact P1|apply seq_NoDup]).
    assert (HL : length (i_geno one) = dim - 1) by (rewrite (Permutation_length P1); apply seq_length).
    apply safe_bind with (P := fun '(g, _) => Permutation g (seq 1 (dim - 1))); [|intros [x r'] X; exact X].
    destruct (crossover fuel (i_geno one) (i_geno two) r) as [[x r']|e] eqn:G; cbn.
    - apply crossover_perm in G; auto. now rewrite G.
    - intros _. assert (e = EFuel); [|subst e; split; [reflexivity|]; apply SD; reflexivity]. clear SD. unfold crossover in G.
      destruct (range_usize_ok 0 (length (i_geno one)) r) as (k & r1 & E1); [lia|]. rewrite E1 in G. cbn [rbind] in G.
      apply range_usize_spec in E1.
      destruct (draw_end fuel (length (i_geno one)) k r1) as [[e2 r2]|e2] eqn:ED; cbn [rbind] in G.
      + apply draw_end_spec in ED. destruct (crossover_ox_spec (i_geno one) (i_geno two) k e2 ND P2) as (x & EX & _); try lia.
        rewrite EX in G. discriminate.
      + injection G as <-. clear -ED HL dim2. revert r1 ED. induction fuel as [|n IH]; intros r1 ED; cbn in ED; [congruence|].
        destruct (range_usize_ok 0 (length (i_geno one)) r1) as (k' & r2 & E1); [lia|]. rewrite E1 in ED. cbn [rbind] in ED.
        destruct (k =? k'); [eauto|discriminate].
  Qed.

  Lemma it_cycle_safe g w : inv g w -> (usual (w_pen w) -> tame (w_pen w)) -> lively (rdraw (w_rng w)) -> ga_st g = Cycle -> safe (it_cycle L p c E log_interval fuel g w) (stepped g w).
  Proof.
    intros [B W I1 I2 I3] TM LV ST. unfold it_cycle. destruct (I2) as (U & UP & QK); try (rewrite ST; discriminate). specialize (TM U).
    assert (PS : fine -> 0 < pop_size (ga_pop g)).
    { intros FI. apply (gb_some _ _ B FI). specialize (I3 ST). pose proof (f_init _ (f_sizes FI)). lia. }
    set (w0 := next_iteration w).
    pose proof (tournament_safe g w (w_rng w0) B PS) as T1.
    destruct (tournament (c_tournament_size c) (ga_pop g) (w_rng w0)) as [[one r1]|e] eqn:ET1; [|exact T1].
    cbn [rbind]. destruct T1 as (F1 & L1).
    pose proof (tournament_safe g w r1 B PS) as T2.
    destruct (tournament (c_tournament_size c) (ga_pop g) r1) as [[two r2]|e] eqn:ET2; [|exact T2].
    cbn [rbind]. destruct T2 as (F2 & L2).
    assert (LV2 : lively (rdraw r2)).
    { rewrite (tournament_stream _ _ _ _ _ ET2), (tournament_stream _ _ _ _ _ ET1). exact LV. }
    eapply safe_bind; [apply make_child_safe; eauto|]. intros [ch r3] W3. cbn beta iota zeta.
    eapply safe_bind; [apply run_split_safe|].
    { eapply base_world; [apply base_child; exact B| |]; reflexivity. }
    { exact U. }
    { exact W3. }
    { split; [now apply num_nonempty_pos|exact L1]. }
    intros g1 (B1 & K1 & C1 & _).
    eapply safe_bind; [apply educate_tame; auto; [now rewrite (kp_up _ _ _ _ K1)|exact (kp_quick _ _ _ _ K1 QK)]|].
    intros [g2 w2] (B2 & K2 & C2). cbn [fst snd] in *.
    eapply safe_bind; [apply pop_add_safe; [apply (gb_pop _ _ B2)|apply (gb_full _ _ B2)|eapply child_kind; [|exact C2]; apply (gb_pen _ _ B1)]|].
    intros po (X & Y & Z). cbn beta iota zeta.
    assert (K : kept (set_child g ch) (set_w_rng w0 r3) g2 w2) by (eapply kept_trans; eauto).
    clear K1 K2.
    pose (frame := fun (gw : ga * world) => base (fst gw) (snd gw) /\ usual (w_pen (snd gw)) /\ w_iter (snd gw) = w_iter w + 1 /\
      ga_st (fst gw) = Cycle /\ ga_iterations (fst gw) = ga_iterations g /\ ga_num_init (fst gw) = ga_num_init g /\
      rr_update_penalty (ga_rr (fst gw)) = false /\ quick (ga_rr (fst gw)) /\ whole (ga_child (fst gw))).
    eapply safe_bind with (P := frame).
    { assert (B3 : base (set_gpop g2 po) w2) by (now apply base_pop).
      assert (FR : frame (set_gpop g2 po, w2)).
      { unfold frame. cbn [fst snd]. split; [exact B3|]. rewrite (kp_pen _ _ _ _ K). split; [exact U|].
        split; [rewrite (kp_witer _ _ _ _ K); reflexivity|].
        split; [cbn; rewrite (kp_st _ _ _ _ K); exact ST|].
        split; [cbn; rewrite (kp_iterations _ _ _ _ K); reflexivity|].
        split; [cbn; rewrite (kp_num_init _ _ _ _ K); reflexivity|].
        split; [cbn; rewrite (kp_up _ _ _ _ K); exact UP|].
        split; [exact (kp_quick _ _ _ _ K QK)|]. eapply child_whole; exact C2. }
      destruct (_ <=? _); [|exact FR].
      destruct FR as (_ & _ & R3 & R4 & R5 & R6 & R7 & R9 & R8). cbn [fst snd] in *.
      eapply safe_weaken; [apply update_penalty_safe; exact B3|]. intros [g4 w4] (D1 & D2 & D3 & D4 & D5 & D6 & D7 & D8 & _).
      unfold frame. cbn [fst snd]. rewrite D3, D4, D5, D6, D7, D8. do 8 (split; [assumption|]). assumption. }
    intros [g3 w3] F3.
    eapply safe_bind with (P := frame).
    { destruct (_ <=? _); [|exact F3]. destruct F3 as (B3 & R2 & R3 & R4 & R5 & R6 & R7 & R9 & R8). cbn [fst snd] in *.
      eapply safe_weaken; [apply log_safe; exact B3|]. intros [g4 w4] (-> & ->). unfold frame. cbn [fst snd].
      split; [|do 7 (split; [assumption|]); assumption]. destruct B3 as [D1 D2 D3 D4 D5 D6 D7 D8 D9 D10]. constructor; auto. }
    intros [g4 w4] (B4 & R2 & R3 & R4 & R5 & R6 & R7 & R9 & R8). cbn [fst snd] in *.
    destruct (Nat.ltb_spec (ga_iterations g4) (ga_best_iter g4)) as [LT|LE]; [pose proof (gb_iter _ _ B4); lia|].
    cbn [rbind safe]. split; [|split; [right; cbn [fst snd]; split; [exact ST|]; split; [exact R3|];
      destruct (_ <? _); cbn; rewrite R5; reflexivity|destruct (_ <? _); cbn; congruence]].
    destruct B4 as [D1 D2 D3 D4 D5 D6 D7 D8 D9 D10].
    destruct (_ <? _).
    - constructor; cbn [fst snd ga_reset set_iterations ga_st ga_child ga_rr ga_num_init]; auto; try discriminate.
      constructor; cbn; auto; try lia; [apply ph_new|apply full_new].
    - constructor; cbn [fst snd set_iterations ga_st ga_child ga_rr ga_num_init]; auto; try congruence.
      + constructor; cbn; auto; lia.
      + intros _. rewrite R6. auto.
  Qed.

  Theorem iterate_tame g w : inv g w -> (ga_st g <> EliteEducation -> ga_st g <> Terminated -> usual (w_pen w) -> tame (w_pen w)) -> lively (rdraw (w_rng w)) -> safe (ga_iterate L p c E log_interval max_distance fuel g w)
    (fun gw => inv (fst gw) (snd gw) /\
       (counted g w (fst gw) (snd gw)) /\
       (w_iter w < w_iter (snd gw) -> fst (terminate c E w) = false) /\
       (fst (terminate c E w) = true -> fst gw = set_st g Terminated) /\
       (fst (terminate c E w) = false -> ga_st g = Terminated -> fst gw = g) /\
       (ga_st (fst gw) = Terminated -> ga_st g = Terminated \/ fst (terminate c E w) = true)).
  Proof.
    intros I TM LV. unfold ga_iterate. destruct (terminate c E w) as [stop w0] eqn:ET.
    assert (EW : w_pen w0 = w_pen w /\ w_hist w0 = w_hist w /\ w_iter w0 = w_iter w /\ w_rng w0 = w_rng w).
    { unfold terminate, now in ET. injection ET as _ <-. auto. }
    destruct EW as (W1 & W2 & W3 & W4). rewrite <- W4 in LV. rewrite <- W1 in TM. assert (I0 : inv g w0) by (eapply inv_world; eauto).
    cbn [fst]. destruct stop.
    - cbn [set_st ga_st safe fst snd].
      split; [destruct I0 as [B W J1 J2 J3]; constructor; cbn; auto; try congruence; now apply base_st|].
      split; [left; auto|]. split; [rewrite W3; intros; lia|]. split; [auto|]. split; [discriminate|auto].
    - assert (CONV : ga_st g <> Terminated -> forall gw, stepped g w0 gw ->
        inv (fst gw) (snd gw) /\ (counted g w (fst gw) (snd gw)) /\ (w_iter w < w_iter (snd gw) -> false = false) /\
        (false = true -> fst gw = set_st g Terminated) /\ (false = false -> ga_st g = Terminated -> fst gw = g) /\
        (ga_st (fst gw) = Terminated -> ga_st g = Terminated \/ false = true)).
      { intros HN [g' w'] (I' & C' & HT). cbn [fst snd] in *. split; auto.
        split; [|split; [auto|]; split; [discriminate|]; split; intros; contradiction].
        unfold counted in *. rewrite <- W3. exact C'. }
      destruct (ga_st g) eqn:ST.
      + eapply safe_weaken; [apply it_created_safe; auto; apply TM; discriminate|apply CONV; discriminate].
      + eapply safe_weaken; [now apply it_elite_safe|apply CONV; discriminate].
      + eapply safe_weaken; [apply it_init_safe; auto; apply TM; discriminate|apply CONV; discriminate].
      + eapply safe_weaken; [apply it_cycle_safe; auto; apply TM; discriminate|apply CONV; discriminate].
      + cbn [safe fst snd]. split; auto. split; [left; auto|]. split; [auto|]. split; [discriminate|auto].
  Qed.

  End Tame.

  Hypothesis short_ls : forall mult g w pen0, base g w -> usual (w_pen w) -> mult = f1 \/ mult = flit 10 1 ->
    child_at pen0 (ga_child g) -> fine -> run_ls p c fuel mult g w = Err EFuel -> short.
  Lemma educate_safe g w : base g w -> usual (w_pen w) -> rr_update_penalty (ga_rr g) = false -> quick (ga_rr g) ->
    child_at (w_pen w) (ga_child g) -> safe (educate L p c E fuel g w) (done g w).
  Proof. exact (educate_tame usual short_ls g w). Qed.

  Variable lively : (nat -> BinNums.N) -> Prop.
  Hypothesis short_draw : forall g one two r, finished p one -> finished p two -> lively (rdraw r) ->
    make_child fuel g one two r = Err EFuel -> short.
  Theorem iterate_safe g w : inv g w -> lively (rdraw (w_rng w)) -> safe (ga_iterate L p c E log_interval max_distance fuel g w)
    (fun gw => inv (fst gw) (snd gw) /\
       (counted g w (fst gw) (snd gw)) /\
       (w_iter w < w_iter (snd gw) -> fst (terminate c E w) = false) /\
       (fst (terminate c E w) = true -> fst gw = set_st g Terminated) /\
       (fst (terminate c E w) = false -> ga_st g = Terminated -> fst gw = g) /\
       (ga_st (fst gw) = Terminated -> ga_st g = Terminated \/ fst (terminate c E w) = true)).
  Proof. intros I. exact (iterate_tame usual short_ls lively short_draw g w I (fun _ _ U => U)). Qed.

  (** *** The first state, and all that follow *)
  Lemma new_inv corr lh rh w0 g w : neighbours_ok p c corr -> rows_ok p corr -> usual (w_pen w0) -> H None (w_hist w0) ->
    ga_new p c corr lh rh w0 = (g, w) -> inv g w /\ w_hist w = w_hist w0 /\ w_iter w = w_iter w0 /\ ga_iterations g = 0.
  Proof.
    intros NB RO U HH G. unfold ga_new in G. destruct (ind_random p nv 0 (w_rng w0)) as [i r] eqn:ER.
    apply shuffle_perm_random in ER as (P1 & _). injection G as <- <-. split; [|auto].
    assert (QN : quick (rr_new p c rh)) by apply quick_setup.
    constructor; cbn; auto; try discriminate. constructor; cbn; auto.
    - now apply ls_new_ready.
    - split; [apply shaped_new|now left].
    - apply ph_new.
    - apply full_new.
    - unfold split_ready. destruct (c_linear_split c); [apply split_new_wf|apply split_new_bwf].
  Qed.

  Lemma initial_safe g w i : inv g w -> ga_st g = Created -> evaluated (w_pen w) i -> fits i ->
    safe (add_initial L c g i w) (fun gw => inv (fst gw) (snd gw) /\ ga_st (fst gw) = Created /\
      w_iter (snd gw) = w_iter w /\ ga_iterations (fst gw) = ga_iterations g).
  Proof.
    intros [B W I1 I2 I3] ST EV FT. unfold add_initial, add_individual.
    pose proof B as [A1 A2 A3 A4 A5 A6 A7 A8 A9 A10].
    apply safe_bind with (P := fun g1 => base g1 w /\ ga_st g1 = ga_st g /\ ga_rr g1 = ga_rr g /\ ga_iterations g1 = ga_iterations g).
    - eapply safe_bind; [apply pop_add_safe; eauto|]. { split; [exact FT|]. exists (w_pen w). auto. } intros po (X & Y & Z). cbn. split; auto. now apply base_pop.
    - intros g1 (B1 & S1 & R1 & T1). cbn [safe]. destruct (update_best (set_child g1 i) w) as [g2 w2] eqn:EU.
      assert (B1' : base (set_child g1 i) w) by now apply base_child.
      destruct (update_best_ok _ _ _ _ B1' EV EU) as (B2 & K2 & E2 & _). cbn [fst snd].
      destruct K2 as [K1 K2 K3 K4 K5 K6 K7 K8 _ K9]. cbn in *.
      split; [|rewrite K1, K2, K8, S1, T1; auto].
      constructor; auto; try (rewrite K1, S1, ST; discriminate).
      + rewrite E2. destruct EV as (S & G & _). unfold whole. rewrite G. exact S.
      + rewrite K1, K6, K7, S1, R1. intros X Y. destruct (I2 X Y) as (Z1 & Z2 & Z3). split; [exact Z1|]. split; [exact Z2|].
        apply K9. now rewrite R1.
  Qed.

  Theorem reached_inv w0 g w : usual (w_pen w0) -> H None (w_hist w0) ->
    (forall g w, ga_reached L p c E log_interval max_distance fuel w0 g w -> lively (rdraw (w_rng w))) ->
    ga_reached L p c E log_interval max_distance fuel w0 g w ->
    inv g w /\ w_iter w = w_iter w0 + ga_iterations g.
  Proof.
    intros U HH LV. induction 1 as [corr lh rh g w NB RO G|g w i g' w' R IH ST S1 S2 (e & S3) S4 G|g w g' w' R IH G].
    - destruct (new_inv _ _ _ _ _ _ NB RO U HH G) as (I & _ & W & T). split; auto. lia.
    - destruct IH as [I W].
      assert (EV : evaluated (w_pen w) i).
      { split; [exact S1|]. split; [exact S2|]. exists e. rewrite evaluate_eq in S3; [congruence| |lia].
        intros n Hn. eapply Permutation_in in Hn; [|exact S1]. apply in_seq in Hn. lia. }
      pose proof (initial_safe g w i I ST EV S4) as X. rewrite G in X. destruct X as (X1 & _ & X2 & X3).
      split; auto. cbn [fst snd] in *. lia.
    - destruct IH as [I W]. pose proof (iterate_safe g w I (LV g w R)) as X. rewrite G in X. destruct X as (X1 & X2 & _).
      split; auto. cbn [fst snd] in *. destruct X2 as [[]|(_ & ? & ?)]; lia.
  Qed.
End Ga.
