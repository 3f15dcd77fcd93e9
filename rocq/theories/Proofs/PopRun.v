(** Populations over whole executions; survivor selection, elites and tournaments in exact
    arithmetic. *)
From Coq Require Import List Arith NArith ZArith QArith Bool Lia Lqa Permutation Sorted.
From Verif.Model Require Import Num Prelude Evaluate Individual Config Population.
From Verif.Spec Require Import Solution Library.
From Verif.Proofs Require Import Lists QNum EvalFacts EvalThms MatrixFacts PopFacts PopAdd PopThms.
Import ListNotations.
Open Scope nat_scope.

Section Run.
  Context {N : Num}.
  Variable L : lib.
  Hypothesis LOK : lib_ok L.
  Variable p : problem.
  Variable c : config.

  (** What the solver does to a population: start empty, add finished individuals, re-evaluate
      under a new penalty. *)
  Inductive pop_run : population -> Prop :=
  | run_new : pop_run (pop_new c)
  | run_add P i b P' : pop_run P -> settled p i -> pop_add L c P i b = Ok P' -> pop_run P'
  | run_penalty P pen P' : pop_run P -> pop_reevaluate L p pen P = Ok P' -> pop_run P'.

  Record sub_inv (feas : bool) (count : nat) (s : subpop) : Prop := {
    si_table : Table (sp_div s) (sp_pop s);
    si_settled : forall m, In m (sp_pop s) -> settled p m;
    si_number : forall m, In m (sp_pop s) -> i_number m < count;
    si_feas : forall m, In m (sp_pop s) -> is_feasible m = feas;
    si_max : sp_max s = c_min_population_size c + c_population_lambda c;
    si_len : 1 <= c_population_lambda c -> length (sp_pop s) < sp_max s
  }.

  Lemma sub_inv_mono feas k s : sub_inv feas k s -> sub_inv feas (S k) s.
  Proof. intros [H1 H2 H3 H4 H5 H6]. split; auto. intros m Hm. specialize (H3 m Hm). lia. Qed.

  Lemma in_core (l l' : list individual) m : incl (map core l) (map core l') -> In m l ->
    exists m', In m' l' /\ core m' = core m.
  Proof.
    intros Hi Hm. apply (in_map core) in Hm. apply Hi in Hm. apply in_map_iff in Hm as (m' & E & H). eauto.
  Qed.
  Lemma core_number (a b : individual) : core a = core b -> i_number a = i_number b.
  Proof. intros H. apply (f_equal i_number) in H. exact H. Qed.
  Lemma core_feasible (a b : individual) : core a = core b -> is_feasible a = is_feasible b.
  Proof. intros H. apply (f_equal is_feasible) in H. exact H. Qed.
  Lemma core_cost (a b : individual) : core a = core b -> penalized_cost a = penalized_cost b.
  Proof. intros H. apply (f_equal penalized_cost) in H. exact H. Qed.

  Lemma sublist_length {A} (l l' : list A) : sublist l l' -> length l <= length l'.
  Proof. induction 1; cbn; lia. Qed.

  (** members after an addition come from the old members and the new individual *)
  Lemma sub_add_members s i s' : sub_add L c s i = Ok s' ->
    incl (map core (sp_pop s')) (map core (i :: sp_pop s)).
  Proof.
    intros H. apply (sub_add_spec L LOK) in H as (cl & s1 & _ & H1 & _ & _ & _ & H).
    assert (H2 : incl (map core (sp_pop s1)) (map core (i :: sp_pop s))).
    { rewrite H1. destruct cl; [intros x Hx; now right|]. intros x Hx.
      eapply Permutation_in in Hx; [|apply insert_nth_perm]. exact Hx. }
    destruct (sp_max s <=? length (sp_pop s1)).
    - apply selection_loop_spec in H as (_ & _ & Hs & _). intros x Hx. apply H2. eapply sublist_in; eauto.
    - injection H as <-. auto.
  Qed.

  Lemma sub_add_max s i s' : sub_add L c s i = Ok s' -> sp_max s' = sp_max s.
  Proof.
    intros H. apply (sub_add_spec L LOK) in H as (cl & s1 & _ & _ & Hm & _ & _ & H).
    destruct (_ <=? _); [apply selection_loop_spec in H as (_ & _ & _ & H & _); congruence|congruence].
  Qed.

  Lemma sub_add_bound s i s' : sub_add L c s i = Ok s' ->
    length (sp_pop s') < sp_max s \/ length (sp_pop s') <= c_min_population_size c.
  Proof.
    intros H. apply (sub_add_spec L LOK) in H as (cl & s1 & _ & H1 & _ & _ & _ & H).
    destruct (Nat.leb_spec (sp_max s) (length (sp_pop s1))).
    - apply selection_loop_spec in H as (H & _). right. lia.
    - injection H as <-. now left.
  Qed.

  Lemma sub_add_nonempty s i s' : 1 <= c_min_population_size c -> sub_add L c s i = Ok s' -> sp_pop s' <> [].
  Proof.
    intros Hmin H. apply (sub_add_spec L LOK) in H as (cl & s1 & H0 & H1 & _ & _ & _ & H).
    assert (H2 : length (sp_pop s1) <> 0).
    { apply (f_equal (@length _)) in H1. rewrite map_length in H1. destruct cl.
      - rewrite map_length in H1. destruct (sp_pop s); [exfalso; now apply H0|]. cbn in H1. lia.
      - rewrite insert_nth_length in H1. lia. }
    destruct (_ <=? _).
    - apply selection_loop_spec in H as (H & _). intros E. rewrite E in H. cbn in H. lia.
    - injection H as <-. intros E. rewrite E in H2. now apply H2.
  Qed.

  Lemma sub_add_table s i s' : sub_add L c s i = Ok s' -> Table (sp_div s) (sp_pop s) ->
    (forall m, In m (sp_pop s) -> i_number m < i_number i) -> Table (sp_div s') (sp_pop s').
  Proof.
    intros H HT Hlt. apply (sub_add_spec L LOK) in H as (cl & s1 & _ & _ & _ & _ & HT1 & H).
    destruct (HT1 HT Hlt) as [HT2 _]. destruct (_ <=? _).
    - apply selection_loop_spec in H as (_ & _ & _ & _ & _ & H). auto.
    - injection H as <-. auto.
  Qed.

  Lemma sub_add_inv feas count s i s' : sub_inv feas count s -> settled p i -> i_number i = count ->
    is_feasible i = feas -> sub_add L c s i = Ok s' -> sub_inv feas (S count) s'.
  Proof.
    intros [H1 H2 H3 H4 H5 H6] Hi Hn Hf E.
    pose proof (sub_add_members _ _ _ E) as Hm.
    assert (Hcase : forall m, In m (sp_pop s') -> exists m', (m' = i \/ In m' (sp_pop s)) /\ core m' = core m).
    { intros m Hin. destruct (in_core _ _ _ Hm Hin) as (m' & [<-|Hin'] & Ec); eauto. }
    split.
    - eapply sub_add_table; eauto. intros m Hin. rewrite Hn. auto.
    - intros m Hin. destruct (Hcase m Hin) as (m' & [->|Hin'] & Ec); eapply settled_core; eauto.
    - intros m Hin. destruct (Hcase m Hin) as (m' & Hin' & Ec). rewrite <- (core_number _ _ Ec).
      destruct Hin' as [->|Hin']; [lia|]. specialize (H3 _ Hin'). lia.
    - intros m Hin. destruct (Hcase m Hin) as (m' & Hin' & Ec). rewrite <- (core_feasible _ _ Ec).
      destruct Hin' as [->|Hin']; auto.
    - rewrite (sub_add_max _ _ _ E). auto.
    - intros Hl. rewrite (sub_add_max _ _ _ E). destruct (sub_add_bound _ _ _ E); lia.
  Qed.

  (** re-evaluation *)
  Hypothesis Hdim : 0 < p_dim p.

  Lemma geval_feasible pen e rs : se_feasible (geval p pen e rs) = gfeasible p rs.
  Proof. reflexivity. Qed.

  Lemma reevaluate_inv feas count s pen pop : sub_inv feas count s ->
    mapm (ind_evaluate p pen) (sp_pop s) = Ok pop ->
    forall pop', Permutation pop' pop -> sub_inv feas count (set_pop s pop').
  Proof.
    intros [H1 H2 H3 H4 H5 H6] Em pop' Hp.
    assert (G : map bview pop = map bview (sp_pop s) /\
      Forall (fun m => settled p m /\ i_number m < count /\ is_feasible m = feas) pop).
    { clear H1 H5 H6 Hp. revert pop Em. induction (sp_pop s) as [|a l IH]; intros pop Em; cbn in Em.
      - injection Em as <-. split; [reflexivity|constructor].
      - destruct (reevaluate_settled p pen a Hdim (H2 a (or_introl eq_refl))) as (a' & Ea & Sa & Va & _ & _ & Eev).
        rewrite Ea in Em. destruct (mapm (ind_evaluate p pen) l) as [l'|e] eqn:El; [|discriminate]. injection Em as <-.
        destruct (IH ltac:(intros; apply H2; now right) ltac:(intros; apply H3; now right)
          ltac:(intros; apply H4; now right) l' eq_refl) as [G1 G2].
        split; [cbn [map]; now rewrite Va, G1|]. constructor; auto. split; [auto|].
        split; [rewrite (number_view _ _ Va); apply H3; now left|].
        rewrite <- (H4 a (or_introl eq_refl)). unfold is_feasible. rewrite Eev.
        destruct (H2 a (or_introl eq_refl)) as (_ & _ & pen' & e & E). rewrite E. reflexivity. }
    destruct G as [G1 G2]. rewrite Forall_forall in G2.
    assert (Hlen : length pop' = length (sp_pop s)).
    { rewrite (Permutation_length Hp). apply (f_equal (@length _)) in G1. now rewrite !map_length in G1. }
    split; cbn [sp_pop sp_div sp_max set_pop]; auto.
    - apply (Table_perm _ pop); [now symmetry|]. apply (Table_view _ (sp_pop s)); auto.
    - intros m Hm. apply G2. eapply Permutation_in; eauto.
    - intros m Hm. apply G2. eapply Permutation_in; eauto.
    - intros m Hm. apply G2. eapply Permutation_in; eauto.
    - rewrite Hlen. auto.
  Qed.

  Record pop_inv (P : population) : Prop := {
    pi_feas : sub_inv true (po_count P) (po_feas P);
    pi_infeas : sub_inv false (po_count P) (po_infeas P);
    pi_hist : length (po_hist P) = 100
  }.

  Lemma pop_new_inv : pop_inv (pop_new c).
  Proof.
    assert (Hs : forall b, sub_inv b 0 (subpop_new c)).
    { intros b. split; cbn; try (intros ? []); auto; try lia.
      split; [constructor|split; [auto|]]. intros [|? ?] ? ? H; discriminate. }
    split; cbn [pop_new po_count po_feas po_infeas po_hist]; auto.
  Qed.

  Lemma pop_add_inv P i b P' : pop_inv P -> settled p i -> pop_add L c P i b = Ok P' -> pop_inv P'.
  Proof.
    intros [H1 H2 H3] Hi E. unfold pop_add in E. set (j := set_number i (po_count P)) in *.
    set (h := if b then tl (po_hist P ++ [is_feasible j]) else po_hist P) in *.
    assert (Hh : length h = 100).
    { unfold h. destruct b; auto. destruct (po_hist P) as [|x l]; cbn [tl app length] in *; [lia|].
      rewrite app_length. cbn [length]. lia. }
    destruct (is_feasible j) eqn:Ef.
    - destruct (sub_add L c (po_feas P) j) as [s|e] eqn:Es; [|discriminate]. injection E as <-.
      split; cbn [po_count po_feas po_infeas po_hist]; auto.
      + apply (sub_add_inv true (po_count P) (po_feas P) j s); auto.
      + now apply sub_inv_mono.
    - destruct (sub_add L c (po_infeas P) j) as [s|e] eqn:Es; [|discriminate]. injection E as <-.
      split; cbn [po_count po_feas po_infeas po_hist]; auto.
      + now apply sub_inv_mono.
      + apply (sub_add_inv false (po_count P) (po_infeas P) j s); auto.
  Qed.

  Lemma pop_reevaluate_inv P pen P' : pop_inv P -> pop_reevaluate L p pen P = Ok P' -> pop_inv P'.
  Proof.
    intros [H1 H2 H3] E. unfold pop_reevaluate in E.
    destruct (mapm (ind_evaluate p pen) (sp_pop (po_infeas P))) as [l|e] eqn:El; [|discriminate]. cbn [rbind] in E.
    destruct (negb _); [discriminate|]. injection E as <-.
    split; cbn [po_count po_feas po_infeas po_hist]; auto.
    eapply reevaluate_inv; eauto. apply (sort_perm L LOK).
  Qed.

  Lemma pop_run_inv P : pop_run P -> pop_inv P.
  Proof.
    induction 1 as [|P i b P' _ IH Hi E|P pen P' _ IH E].
    - apply pop_new_inv.
    - eapply pop_add_inv; eauto.
    - eapply pop_reevaluate_inv; eauto.
  Qed.

  Lemma pop_add_sizes P i b P' : 1 <= c_min_population_size c -> pop_add L c P i b = Ok P' ->
    (sp_pop (po_feas P) <> [] -> sp_pop (po_feas P') <> []) /\
    (sp_pop (po_infeas P) <> [] -> sp_pop (po_infeas P') <> []) /\
    (if is_feasible i then sp_pop (po_feas P') <> [] else sp_pop (po_infeas P') <> []).
  Proof.
    intros Hmin E. unfold pop_add in E. change (is_feasible (set_number i (po_count P))) with (is_feasible i) in E.
    destruct (is_feasible i).
    - destruct (sub_add _ _ _ _) as [s|e] eqn:Es; [|discriminate]. injection E as <-.
      cbn [po_feas po_infeas]. apply sub_add_nonempty in Es; auto.
    - destruct (sub_add _ _ _ _) as [s|e] eqn:Es; [|discriminate]. injection E as <-.
      cbn [po_feas po_infeas]. apply sub_add_nonempty in Es; auto.
  Qed.

  Lemma pop_add_ok P i b : pop_inv P -> settled p i -> ratios_defined c ->
    1 <= c_num_diversity_closest c -> 1 <= c_min_population_size c ->
    (forall m, In m (sp_pop (po_feas P)) \/ In m (sp_pop (po_infeas P)) -> comparable m i = true) ->
    exists P', pop_add L c P i b = Ok P'.
  Proof.
    intros [H1 H2 H3] Hi HR Hc Hm Hcmp. unfold pop_add. change (is_feasible (set_number i (po_count P))) with (is_feasible i).
    destruct (is_feasible i).
    - destruct (sub_add_ok L LOK p c Hdim HR Hc Hm (po_feas P) (set_number i (po_count P))) as (s & ->);
        [apply H1|apply H1|apply H1|exact Hi|intros m Hin; apply (Hcmp m); now left|]. cbn [rbind]. eauto.
    - destruct (sub_add_ok L LOK p c Hdim HR Hc Hm (po_infeas P) (set_number i (po_count P))) as (s & ->);
        [apply H2|apply H2|apply H2|exact Hi|intros m Hin; apply (Hcmp m); now right|]. cbn [rbind]. eauto.
  Qed.

  (** ** A strictly better individual without clones is kept at the front (any arithmetic) *)
  Lemma sub_add_better s i s' : sub_add L c s i = Ok s' -> 1 <= c_min_population_size c ->
    Table (sp_div s) (sp_pop s) -> (forall m, In m (sp_pop s) -> i_number m < i_number i) ->
    (forall m, In m (sp_pop s) -> ind_cmp m i = Some Gt) ->
    (forall m, In m (sp_pop s) -> broken_pairs_distance m i <> Ok 0) ->
    exists m rest, sp_pop s' = m :: rest /\ core m = core i.
  Proof.
    intros H Hmin HT Hlt Hgt Hd. apply (sub_add_spec L LOK) in H as (cl & s1 & _ & H1 & _ & _ & HT1 & H).
    destruct (HT1 HT Hlt) as (_ & Hb & Hcl).
    assert (cl = false) as ->.
    { destruct cl; auto. destruct (proj1 Hcl eq_refl) as (m & Hm & E). exfalso. apply (Hd m Hm). rewrite Hb, E; auto. }
    assert (Hix : insert_index L s i = 0).
    { unfold insert_index.
      pose proof (bs_part L LOK _ (fun m => cmp_or_eq (ind_cmp m i)) [] [] (sp_pop s)) as Hbs.
      cbn [app length Nat.add] in Hbs. assert (0 <= l_bsearch L individual (fun m => cmp_or_eq (ind_cmp m i)) (sp_pop s) <= 0); [|lia].
      apply Hbs; auto. apply Forall_forall. intros m Hm. now rewrite Hgt. }
    rewrite Hix in H1. change (insert_nth (map core (sp_pop s)) 0 (core i)) with (core i :: map core (sp_pop s)) in H1.
    assert (Hhd : hd_error (map core (sp_pop s')) = Some (core i)).
    { destruct (_ <=? _).
      - apply selection_loop_spec in H as (_ & H & _). rewrite H, H1. reflexivity.
      - injection H as <-. now rewrite H1. }
    destruct (sp_pop s') as [|m rest]; [discriminate|]. cbn in Hhd. injection Hhd as E1 E2 E3 E4. exists m, rest. split; auto.
    unfold core, set_fitness. congruence.
  Qed.
End Run.
