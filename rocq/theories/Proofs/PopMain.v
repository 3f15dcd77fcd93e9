(** The population theorems in terms of the specification. *)
From Coq Require Import List Arith NArith ZArith QArith Qabs Bool Lia Lqa Permutation Sorted.
From Verif.Model Require Import Num Prelude Evaluate Individual Config Population.
From Verif.Spec Require Import Solution Library Population.
From Verif.Proofs Require Import Lists QNum EvalFacts EvalThms MatrixFacts PopFacts PopAdd PopThms PopRun PopQ BpdFacts.
Import ListNotations.
Open Scope nat_scope.

Section Main.
  Context {N : Num}.
  Variable L : lib.
  Hypothesis LOK : lib_ok L.
  Variable p : problem.
  Variable c : config.
  Hypothesis Hdim : 0 < p_dim p.

  Lemma finished_settled i : finished p i <-> settled p i.
  Proof.
    unfold finished, settled. split; intros (H1 & H2 & pen & e & E); (split; [exact H1|split; [exact H2|]]);
      exists pen, e.
    - rewrite evaluate_eq in E; [congruence| |auto]. intros n Hn. apply (serves_In _ _ _ H1) in Hn. lia.
    - rewrite evaluate_eq; [congruence| |auto]. intros n Hn. apply (serves_In _ _ _ H1) in Hn. lia.
  Qed.

  Lemma history_run P : pop_history L p c P -> pop_run L p c P.
  Proof.
    induction 1 as [|P i b P' _ IH Hi E|P pen P' _ IH E].
    - constructor.
    - apply finished_settled in Hi. eapply run_add; eauto.
    - eapply run_penalty; eauto.
  Qed.
  Lemma history_inv P : pop_history L p c P -> pop_inv p c P.
  Proof. intros H. eapply pop_run_inv; eauto. now apply history_run. Qed.

  Lemma pop_sizes P : pop_history L p c P -> 1 <= c_population_lambda c ->
    length (sp_pop (po_feas P)) < c_min_population_size c + c_population_lambda c /\
    length (sp_pop (po_infeas P)) < c_min_population_size c + c_population_lambda c.
  Proof.
    intros H Hl. destruct (history_inv P H) as [[_ _ _ _ H5 H6] [_ _ _ _ H5' H6'] _].
    rewrite H5 in H6. rewrite H5' in H6'. auto.
  Qed.

  Lemma pop_never_emptied P P' : pop_history L p c P -> 1 <= c_min_population_size c ->
    (exists i b, pop_add L c P i b = Ok P') \/ (exists pen, pop_reevaluate L p pen P = Ok P') ->
    (sp_pop (po_feas P) <> [] -> sp_pop (po_feas P') <> []) /\
    (sp_pop (po_infeas P) <> [] -> sp_pop (po_infeas P') <> []).
  Proof using LOK.
    clear Hdim. intros _ Hmin [(i & b & E)|(pen & E)].
    - apply (pop_add_sizes L LOK c) in E as (H1 & H2 & _); auto.
    - unfold pop_reevaluate in E. destruct (mapm _ _) as [l|e] eqn:El; [|discriminate]. cbn [rbind] in E.
      destruct (negb _); [discriminate|]. injection E as <-. cbn [po_feas po_infeas sp_pop set_pop]. split; auto.
      intros H Hn. apply H. apply mapm_spec in El. apply Forall2_length in El.
      pose proof (Permutation_length (sort_perm L LOK _ (fun a b => cmp_or_eq (ind_cmp a b)) l)) as Hl.
      rewrite Hn in Hl. cbn in Hl. destruct (sp_pop (po_infeas P)); auto. cbn in El. lia.
  Qed.

  Lemma table_spec s : (forall m, In m (sp_pop s) -> settled p m) -> Table (sp_div s) (sp_pop s) -> table_exact s.
  Proof.
    intros Hms HT. pose proof HT as (H1 & H2 & H3). split; [auto|]. split; [auto|].
    intros l1 a l2 E Hne.
    assert (Hl : 2 <= length (sp_pop s)).
    { rewrite E, app_length. cbn. destruct l1, l2; cbn; try lia. now destruct Hne. }
    destruct (entry_some _ _ _ _ _ HT E Hl) as (v & Ev & _ & Hs & Hp).
    exists v, (map (D a) (l1 ++ l2)). split; [exact Ev|]. split; [exact Hs|].
    assert (Ha : settled p a) by (apply Hms; rewrite E; apply in_or_app; right; now left).
    assert (Hb : forall b, In b (l1 ++ l2) -> settled p b).
    { intros b Hb. apply Hms. rewrite E. apply in_app_or in Hb. apply in_or_app. cbn. tauto. }
    split.
    - clear -Ha Hb Hdim. induction (l1 ++ l2) as [|b l IH]; cbn; constructor.
      + change (older_to_newer a b) with (pair_distance a b).
        assert (Sb : settled p b) by (apply Hb; now left).
        unfold D, pair_distance. destruct (bpd_ok p a b Ha Sb) as (d1 & E1 & _), (bpd_ok p b a Sb Ha) as (d2 & E2 & _).
        destruct (i_number a <? i_number b); rewrite ?E1, ?E2; reflexivity.
      + apply IH. intros; apply Hb; now right.
    - replace (combine (map (D a) (l1 ++ l2)) (map i_number (l1 ++ l2))) with (map (ent a) (l1 ++ l2)); [exact Hp|].
      clear. induction (l1 ++ l2) as [|b l IH]; cbn; [reflexivity|]. rewrite IH. reflexivity.
  Qed.

  Lemma history_tables P : pop_history L p c P -> table_exact (po_feas P) /\ table_exact (po_infeas P).
  Proof.
    intros H. destruct (history_inv P H) as [[H1 H2 _ _ _ _] [H1' H2' _ _ _ _] _]. split; now apply table_spec.
  Qed.

  (** clone checks and diversity averages never index out of range *)
  Lemma history_reads P s i : pop_history L p c P -> s = po_feas P \/ s = po_infeas P -> In i (sp_pop s) ->
    2 <= length (sp_pop s) ->
    (exists b, individual_is_clone s i = Ok b) /\ (forall n, exists q, average_bpd s i n = Ok q).
  Proof.
    intros H Hs Hi Hl. destruct (history_inv P H) as [[H1 H2 _ _ _ _] [H1' H2' _ _ _ _] _].
    assert (HT : Table (sp_div s) (sp_pop s)) by (destruct Hs; subst; auto).
    split; [now apply clone_ok|]. intros n.
    apply in_split in Hi as (l1 & l2 & E). destruct (entry_some _ _ _ _ _ HT E Hl) as (v & Ev & Hv & _).
    unfold average_bpd. rewrite Ev. destruct (Nat.eqb_spec (length (sp_pop s)) 0); [lia|].
    destruct (foldm_ok (fun total index => rbind (geti v index) (fun d => Ok (total + fst d))) (fun _ => True)
      (seq 0 (Nat.min n (length (sp_pop s) - 1))) 0) as (t & Et & _); auto.
    { intros t k Hk _. apply in_seq in Hk. rewrite (@geti_ok diversity v k (0, 0)) by lia. cbn. eauto. }
    rewrite Et. cbn [rbind]. eauto.
  Qed.

  Lemma history_feasibility P : pop_history L p c P ->
    Forall (fun i => is_feasible i = true) (sp_pop (po_feas P)) /\
    Forall (fun i => is_feasible i = false) (sp_pop (po_infeas P)) /\
    Forall (finished p) (sp_pop (po_feas P) ++ sp_pop (po_infeas P)).
  Proof.
    intros H. destruct (history_inv P H) as [[_ H2 _ H4 _ _] [_ H2' _ H4' _ _] _].
    rewrite !Forall_forall. split; [auto|]. split; [auto|]. intros i Hi. apply finished_settled.
    apply in_app_or in Hi as [Hi|Hi]; auto.
  Qed.

  Lemma pop_add_total P i b : pop_history L p c P -> finished p i ->
    ratios_defined c ->
    1 <= c_num_diversity_closest c -> 1 <= c_min_population_size c ->
    (forall m, In m (sp_pop (po_feas P)) \/ In m (sp_pop (po_infeas P)) -> comparable m i = true) ->
    exists P', pop_add L c P i b = Ok P'.
  Proof.
    intros H Hi HR Hc Hm Hcmp. apply (pop_add_ok L LOK p c Hdim); auto.
    - now apply history_inv.
    - now apply finished_settled.
  Qed.

  (** a strictly cheaper individual at positive distance from all members becomes the first *)
  Lemma better_kept P i b P' : pop_history L p c P -> finished p i -> 1 <= c_min_population_size c ->
    pop_add L c P i b = Ok P' ->
    let old := if is_feasible i then po_feas P else po_infeas P in
    let new := if is_feasible i then po_feas P' else po_infeas P' in
    (forall m, In m (sp_pop old) -> ind_cmp m i = Some Gt) ->
    (forall m, In m (sp_pop old) -> broken_pairs_distance m i <> Ok 0) ->
    exists m rest, sp_pop new = m :: rest /\ same_individual m (set_number i (po_count P)).
  Proof.
    intros H Hi Hmin E. destruct (history_inv P H) as [[H1 H2 H3 _ _ _] [H1' H2' H3' _ _ _] _].
    unfold pop_add in E. change (is_feasible (set_number i (po_count P))) with (is_feasible i) in E.
    destruct (is_feasible i); cbn zeta; intros Hgt Hd.
    - destruct (sub_add L c (po_feas P) (set_number i (po_count P))) as [s|e] eqn:Es; [|discriminate].
      injection E as <-. cbn [po_feas]. eapply sub_add_better; eauto.
    - destruct (sub_add L c (po_infeas P) (set_number i (po_count P))) as [s|e] eqn:Es; [|discriminate].
      injection E as <-. cbn [po_infeas]. eapply sub_add_better; eauto.
  Qed.
End Main.

Lemma ratios_Q : forall a d, @fisnan NumQ (fdiv (@fnat NumQ a) (@fnat NumQ d)) = false.
Proof.
  intros a d. unfold fisnan. cbn [feqb NumQ fdiv fnat]. apply negb_false_iff. apply Qeq_bool_iff. reflexivity.
Qed.

Lemma pop_add_total_Q L (p : @problem NumQ) (c : @config NumQ) P i b : lib_ok L -> 0 < p_dim p ->
  pop_history L p c P -> finished p i -> 1 <= c_num_diversity_closest c -> 1 <= c_min_population_size c ->
  exists P', pop_add L c P i b = Ok P'.
Proof.
  intros LOK Hdim H Hi Hc Hm. apply (pop_add_total L LOK p c Hdim); auto.
  - intros a d _. apply ratios_Q.
  - pose proof (history_feasibility L LOK p c Hdim P H) as (_ & _ & Hf). rewrite Forall_forall in Hf.
    intros m Hin. apply (comparable_Q p); apply finished_settled; auto. apply Hf. apply in_or_app. exact Hin.
Qed.

(** population sorted by cost when costs are equal or at least a tolerance apart *)
Section Sorted.
  Variable L : lib.
  Hypothesis LOK : lib_ok L.
  Variable p : @problem NumQ.
  Variable c : @config NumQ.
  Hypothesis Hdim : 0 < p_dim p.

  Lemma pop_add_by_cost P i b P' : pop_history L p c P -> finished p i -> pop_add L c P i b = Ok P' ->
    let old := if is_feasible i then po_feas P else po_infeas P in
    let new := if is_feasible i then po_feas P' else po_infeas P' in
    separated (i :: sp_pop old) -> by_cost (sp_pop old) -> by_cost (sp_pop new).
  Proof.
    intros H Hi E. destruct (history_inv L LOK p c Hdim P H) as [[H1 H2 H3 _ _ _] [H1' H2' H3' _ _ _] _].
    apply (finished_settled p Hdim) in Hi.
    unfold pop_add in E. change (is_feasible (set_number i (po_count P))) with (is_feasible i) in E.
    assert (Hsep : forall l, separated (i :: l) -> separated (set_number i (po_count P) :: l)).
    { intros l Hs x y Hx Hy.
      assert (G : forall z, In z (set_number i (po_count P) :: l) -> exists z', In z' (i :: l) /\ cost_of z' = cost_of z).
      { intros z [<-|Hz]; [exists i; split; [now left|reflexivity]|exists z; split; [now right|reflexivity]]. }
      destruct (G x Hx) as (x' & Hx' & Ex), (G y Hy) as (y' & Hy' & Ey). rewrite <- Ex, <- Ey. auto. }
    destruct (is_feasible i); cbn zeta; intros Hs Hb.
    - destruct (sub_add L c (po_feas P) (set_number i (po_count P))) as [s|e] eqn:Es; [|discriminate].
      injection E as <-. cbn [po_feas]. eapply (sub_add_by_cost L LOK p c (po_feas P) s (set_number i (po_count P))); eauto; exact Hi.
    - destruct (sub_add L c (po_infeas P) (set_number i (po_count P))) as [s|e] eqn:Es; [|discriminate].
      injection E as <-. cbn [po_infeas]. eapply (sub_add_by_cost L LOK p c (po_infeas P) s (set_number i (po_count P))); eauto; exact Hi.
  Qed.

  Lemma pop_reevaluate_by_cost P pen P' : pop_history L p c P -> pop_reevaluate L p pen P = Ok P' ->
    separated (sp_pop (po_infeas P')) -> by_cost (sp_pop (po_infeas P')).
  Proof.
    intros H E Hs. destruct (history_inv L LOK p c Hdim P' ltac:(eapply ph_penalty; eauto)) as [_ [_ H2 _ _ _ _] _].
    unfold pop_reevaluate in E.
    destruct (mapm (ind_evaluate p pen) (sp_pop (po_infeas P))) as [l|e] eqn:El; [|discriminate]. cbn [rbind] in E.
    destruct (negb _); [discriminate|]. injection E as <-. cbn [po_infeas sp_pop set_pop] in *.
    pose proof (sort_perm L LOK _ (fun a b => cmp_or_eq (ind_cmp a b)) l) as Hp.
    apply (sort_by_cost L LOK p).
    - intros m Hm. apply H2. eapply Permutation_in; [symmetry; exact Hp|exact Hm].
    - intros a b Ha Hb. apply Hs; (eapply Permutation_in; [symmetry; exact Hp|auto]).
  Qed.

  Lemma by_cost_head (l : list indQ) a : by_cost (a :: l) -> forall m, In m (a :: l) -> (cost_of a <= cost_of m)%Q.
  Proof.
    intros H m [<-|Hm]; [lra|]. inversion H as [|? ? _ Hf]. subst. rewrite Forall_forall in Hf. auto.
  Qed.
End Sorted.

Section Twins.
  Context {N : Num}.
  Variable L : lib.
  Hypothesis LOK : lib_ok L.
  Variable p : problem.
  Variable c : config.
  Hypothesis Hdim : 0 < p_dim p.

  Lemma older_view (a b a' b' : individual) : bview a = bview a' -> bview b = bview b' ->
    older_to_newer a b = older_to_newer a' b'.
  Proof.
    intros Ha Hb. unfold older_to_newer. rewrite (number_view _ _ Ha), (number_view _ _ Hb).
    now rewrite (bpd_view a b a' b' Ha Hb), (bpd_view b a b' a' Hb Ha).
  Qed.
  Lemma no_twins_incl (l l' : list individual) : incl (map bview l') (map bview l) -> no_twins l -> no_twins l'.
  Proof.
    intros Hi Hn a b Ha Hb Hne.
    apply (in_map bview) in Ha, Hb. apply Hi in Ha, Hb.
    apply in_map_iff in Ha as (a' & Ea & Ha), Hb as (b' & Eb & Hb).
    rewrite (older_view a b a' b') by auto. apply Hn; auto.
    rewrite (number_view _ _ Ea), (number_view _ _ Eb). auto.
  Qed.

  Lemma sub_add_twins feas count s i s' : sub_inv p c feas count s -> settled p i -> i_number i = count ->
    sub_add L c s i = Ok s' -> no_twins (sp_pop s) -> no_twins (sp_pop s').
  Proof.
    intros [H1 H2 H3 _ _ _] Hi Hnum H Hn.
    apply (sub_add_spec L LOK) in H as (cl & s1 & _ & E1 & _ & _ & HT & H).
    assert (Hlt : forall m, In m (sp_pop s) -> i_number m < i_number i) by (intros m Hm; rewrite Hnum; auto).
    destruct (HT H1 Hlt) as (_ & Hb & Hcl).
    assert (N1 : no_twins (sp_pop s1)).
    { destruct cl.
      - eapply no_twins_incl; [|exact Hn]. apply map_core_bview in E1. rewrite E1. apply incl_refl.
      - assert (Hni : no_twins (i :: sp_pop s)).
        { assert (Hd : forall m, In m (sp_pop s) -> broken_pairs_distance m i <> Ok 0).
          { intros m Hm E. rewrite (Hb m Hm) in E. assert (false = true) by (apply Hcl; exists m; split; [auto|congruence]).
            discriminate. }
          intros a b Ha Hb' Hne.
          destruct Ha as [<-|Ha], Hb' as [<-|Hb']; [now destruct Hne| | |auto]; unfold older_to_newer.
          - pose proof (Hlt b Hb'). destruct (Nat.ltb_spec (i_number i) (i_number b)); [lia|]. auto.
          - pose proof (Hlt a Ha). destruct (Nat.ltb_spec (i_number a) (i_number i)); [|lia]. auto. }
        eapply no_twins_incl; [|exact Hni].
        assert (G : forall l : list individual, map bview l = map bview (map core l)).
        { intros l. rewrite map_map. reflexivity. }
        rewrite (G (sp_pop s1)), E1. intros x Hx. apply in_map_iff in Hx as (y & <- & Hy).
        eapply Permutation_in in Hy; [|apply insert_nth_perm]. cbn [map].
        destruct Hy as [<-|Hy]; [now left|]. right. rewrite G. now apply in_map. }
    destruct (_ <=? _); [|injection H as <-; exact N1].
    apply selection_loop_spec in H as (_ & _ & Hsub & _).
    eapply no_twins_incl; [|exact N1].
    assert (G : forall l : list individual, map bview l = map bview (map core l)).
    { intros l. rewrite map_map. reflexivity. }
    rewrite (G (sp_pop s')), (G (sp_pop s1)). apply incl_map. intros x Hx. eapply sublist_in; eauto.
  Qed.

  Lemma history_no_twins P : pop_history L p c P -> no_twins (sp_pop (po_feas P)) /\ no_twins (sp_pop (po_infeas P)).
  Proof.
    induction 1 as [|P i b P' H IH Hi E|P pen P' H IH E].
    - split; intros a b Ha; destruct Ha.
    - destruct (history_inv L LOK p c Hdim P H) as [F1 F2 _]. apply (finished_settled p Hdim) in Hi.
      destruct IH as [I1 I2]. unfold pop_add in E.
      destruct (is_feasible (set_number i (po_count P))).
      + destruct (sub_add L c (po_feas P) (set_number i (po_count P))) as [s|e] eqn:Es; [|discriminate].
        injection E as <-. cbn [po_feas po_infeas]. split; [|exact I2].
        eapply (sub_add_twins true (po_count P) (po_feas P) (set_number i (po_count P))); eauto.
      + destruct (sub_add L c (po_infeas P) (set_number i (po_count P))) as [s|e] eqn:Es; [|discriminate].
        injection E as <-. cbn [po_feas po_infeas]. split; [exact I1|].
        eapply (sub_add_twins false (po_count P) (po_infeas P) (set_number i (po_count P))); eauto.
    - destruct IH as [I1 I2]. destruct (history_inv L LOK p c Hdim P H) as [_ F2 _].
      unfold pop_reevaluate in E.
      destruct (mapm (ind_evaluate p pen) (sp_pop (po_infeas P))) as [l|e] eqn:El; [|discriminate]. cbn [rbind] in E.
      destruct (negb _); [discriminate|]. injection E as <-. cbn [po_feas po_infeas sp_pop set_pop]. split; [exact I1|].
      eapply no_twins_incl; [|exact I2].
      intros x Hx. apply in_map_iff in Hx as (y & <- & Hy).
      eapply Permutation_in in Hy; [|apply (sort_perm L LOK)].
      apply mapm_spec in El. pose proof (si_settled _ _ _ _ _ F2) as Hs. revert Hs Hy. clear -El Hdim.
      induction El as [|a b l l' Hab El IH]; intros Hs Hy; [destruct Hy|]. destruct Hy as [<-|Hy].
      + destruct (reevaluate_settled p pen a Hdim (Hs a (or_introl eq_refl))) as (a' & Ea & _ & Va & _).
        assert (a' = b) as <- by congruence. left. now rewrite Va.
      + right. apply IH; auto. intros; apply Hs; now right.
  Qed.
End Twins.

Section Elites.
  Variable L : lib.
  Hypothesis LOK : lib_ok L.
  Variable p : @problem NumQ.
  Variable c : @config NumQ.
  Hypothesis Hdim : 0 < p_dim p.

  Lemma no_twins_clones (l : list indQ) : no_twins l -> no_clones l.
  Proof. intros H a Ha (b & Hb & Hne & E). apply (H a b Ha Hb); auto. Qed.

  (** One addition: at most an insertion followed by survivor selection, which keeps the first
      [num_elites] members. *)
  Lemma pop_add_elites P i b P' : pop_history L p c P -> finished p i ->
    1 <= c_min_population_size c -> c_num_elites c <= c_min_population_size c ->
    pop_add L c P i b = Ok P' ->
    let old := if is_feasible i then po_feas P else po_infeas P in
    let new := if is_feasible i then po_feas P' else po_infeas P' in
    exists before, (Forall2 same_individual before (sp_pop old) \/
                    exists l1 l2, sp_pop old = l1 ++ l2 /\
                      Forall2 same_individual before (l1 ++ set_number i (po_count P) :: l2)) /\
      Forall2 same_individual (firstn (c_num_elites c) (sp_pop new)) (firstn (c_num_elites c) before) /\
      (forall m, In m (sp_pop new) -> exists m', In m' before /\ same_individual m m').
  Proof.
    intros H Hi Hmin Hel E. cbn zeta.
    destruct (history_inv L LOK p c Hdim P H) as [F1 F2 _].
    pose proof (history_no_twins L LOK p c Hdim P H) as [T1 T2].
    apply (finished_settled p Hdim) in Hi. apply (f_equal (fun x => x)) in E.
    assert (Gs : forall l l' : list indQ, map core l = map core l' -> Forall2 same_individual l l').
    { induction l as [|a l IH]; intros [|a' l'] Em; try discriminate; constructor.
      - cbn [map] in Em. apply (f_equal (hd (core a))) in Em. exact Em.
      - apply IH. cbn [map] in Em. now apply (f_equal (@tl _)) in Em. }
    assert (G : forall feas s s', sub_inv p c feas (po_count P) s -> no_twins (sp_pop s) ->
      sub_add L c s (set_number i (po_count P)) = Ok s' ->
      exists before, (Forall2 same_individual before (sp_pop s) \/
                    exists l1 l2, sp_pop s = l1 ++ l2 /\
                      Forall2 same_individual before (l1 ++ set_number i (po_count P) :: l2)) /\
      Forall2 same_individual (firstn (c_num_elites c) (sp_pop s')) (firstn (c_num_elites c) before) /\
      (forall m, In m (sp_pop s') -> exists m', In m' before /\ same_individual m m')).
    { intros feas s s' F T Es. pose proof Es as Es0.
      apply (sub_add_spec L LOK) in Es as (cl & s1 & _ & E1 & _ & Hf & HT & Hsel).
      destruct F as [A1 A2 A3 _ _ _].
      assert (Hlt : forall m, In m (sp_pop s) -> i_number m < i_number (set_number i (po_count P))) by (intros m Hm; apply A3; auto).
      destruct (HT A1 Hlt) as (HT1 & Hb & Hcl).
      exists (sp_pop s1). split.
      - destruct cl; [left; now apply Gs|]. right.
        exists (firstn (insert_index L s (set_number i (po_count P))) (sp_pop s)),
               (skipn (insert_index L s (set_number i (po_count P))) (sp_pop s)).
        split; [symmetry; apply firstn_skipn|]. apply Gs. rewrite E1. unfold insert_nth. rewrite map_app.
        cbn [map]. now rewrite <- firstn_map, <- skipn_map.
      - assert (S1 : forall m, In m (sp_pop s1) -> settled p m).
        { intros m Hm. apply (in_map core) in Hm. rewrite E1 in Hm. destruct cl.
          - apply in_map_iff in Hm as (m' & Em & Hm). eapply settled_core; [exact Em|auto].
          - eapply Permutation_in in Hm; [|apply insert_nth_perm]. destruct Hm as [Em|Hm].
            + eapply settled_core; [exact Em|exact Hi].
            + apply in_map_iff in Hm as (m' & Em & Hm). eapply settled_core; [exact Em|auto]. }
        assert (N1 : no_clones (sp_pop s1)).
        { assert (Hn : no_twins (set_number i (po_count P) :: sp_pop s) \/ cl = true).
          { destruct cl; [now right|left].
            assert (Hd : forall m, In m (sp_pop s) -> broken_pairs_distance m (set_number i (po_count P)) <> Ok 0).
            { intros m Hm E0. rewrite (Hb m Hm) in E0. assert (false = true) by (apply Hcl; exists m; split; [auto|congruence]).
              discriminate. }
            intros x y Hx Hy Hne. destruct Hx as [<-|Hx], Hy as [<-|Hy]; [now destruct Hne| | |auto]; unfold older_to_newer.
            - pose proof (Hlt y Hy). destruct (Nat.ltb_spec (i_number (set_number i (po_count P))) (i_number y)); [lia|]. auto.
            - pose proof (Hlt x Hx). destruct (Nat.ltb_spec (i_number x) (i_number (set_number i (po_count P)))); [|lia]. auto. }
          destruct cl.
          - eapply no_clones_sub; [|apply no_twins_clones; exact T]. rewrite E1. apply incl_refl.
          - destruct Hn as [Hn|]; [|discriminate]. eapply no_clones_sub; [|apply no_twins_clones; exact Hn].
            rewrite E1. intros x Hx. eapply Permutation_in in Hx; [|apply insert_nth_perm]. exact Hx. }
        destruct (_ <=? _) in Hsel.
        + split.
          * apply Gs. rewrite <- !firstn_map. eapply (selection_elites p c Hdim); eauto.
          * apply selection_loop_spec in Hsel as (_ & _ & Hsub & _). intros m Hm. apply (in_map core) in Hm.
            eapply sublist_in in Hm; [|exact Hsub]. apply in_map_iff in Hm as (m' & Em & Hm). exists m'. split; [auto|].
            symmetry. exact Em.
        + injection Hsel as <-. split; [now apply Gs|]. intros m Hm. exists m. split; [auto|reflexivity]. }
    unfold pop_add in E. change (is_feasible (set_number i (po_count P))) with (is_feasible i) in E.
    destruct (is_feasible i).
    - destruct (sub_add L c (po_feas P) (set_number i (po_count P))) as [s|e] eqn:Es; [|discriminate].
      injection E as <-. cbn [po_feas]. eapply G; eauto.
    - destruct (sub_add L c (po_infeas P) (set_number i (po_count P))) as [s|e] eqn:Es; [|discriminate].
      injection E as <-. cbn [po_infeas]. eapply G; eauto.
  Qed.

  Lemma table_of_exact (s : @subpop NumQ) : (forall m, In m (sp_pop s) -> settled p m) -> table_exact s ->
    2 <= length (sp_pop s) -> Table (sp_div s) (sp_pop s).
  Proof.
    intros Hms (H1 & H2 & H3) Hl. split; [auto|]. split; [auto|]. intros l1 a l2 E. unfold entry_ok.
    assert (Hne : l1 ++ l2 <> []).
    { intros E0. apply app_eq_nil in E0 as [-> ->]. rewrite E in Hl. cbn in Hl. lia. }
    destruct (H3 l1 a l2 E Hne) as (v & ds & Ev & Hs & Hf & Hp). rewrite Ev. split; [exact Hs|].
    replace (map (ent a) (l1 ++ l2)) with (combine ds (map i_number (l1 ++ l2))); [exact Hp|].
    clear -Hf. induction Hf as [|b d l ds Hd Hf IH]; [reflexivity|]. cbn [map combine]. rewrite IH. f_equal.
    unfold ent, D. change (pair_distance a b) with (older_to_newer a b). now rewrite Hd.
  Qed.

  (** What one round of survivor selection removes. *)
  Lemma natural_selection_removes (s0 s s' : @subpop NumQ) : update_fitness c s0 = Ok s ->
    (forall m, In m (sp_pop s) -> finished p m) -> table_exact s -> 2 <= length (sp_pop s) ->
    natural_selection c s = Ok s' ->
    exists l1 x l2, sp_pop s = l1 ++ x :: l2 /\ l1 <> [] /\
      Forall2 same_individual (sp_pop s') (l1 ++ l2) /\
      let clone a := exists b, In b (sp_pop s) /\ i_number b <> i_number a /\ older_to_newer a b = Ok 0 in
      (clone x \/
       (~ clone x /\ (forall y, In y (tl (sp_pop s)) -> ~ clone y /\ (fitness_of y <= fitness_of x)%Q) /\
        (c_num_elites c < length (sp_pop s) -> c_num_elites c <= length l1))).
  Proof.
    intros Hf Hms HT Hl H.
    assert (Hms' : forall m, In m (sp_pop s) -> settled p m) by (intros m Hm; apply (finished_settled p Hdim); auto).
    apply update_fitness_spec in Hf as (_ & _ & _ & Hf).
    destruct (natural_selection_worst p c Hdim s s' (table_of_exact s Hms' HT Hl) Hms' Hf Hl H)
      as (w & x & Hw & Hx & Hm & Hc).
    apply nth_error_split_eq in Hx as Hx'.
    exists (firstn w (sp_pop s)), x, (skipn (S w) (sp_pop s)). 
    assert (El : length (firstn w (sp_pop s)) = w) by (rewrite firstn_length; lia).
    split; [exact Hx'|]. split; [intros E0; rewrite E0 in El; cbn in El; lia|]. split.
    - unfold remove_nth in Hm. revert Hm. generalize (firstn w (sp_pop s) ++ skipn (S w) (sp_pop s)). clear.
      induction (sp_pop s') as [|a l IH]; intros [|a' l'] Em; try discriminate; constructor.
      + cbn [map] in Em. apply (f_equal (hd (core a))) in Em. exact Em.
      + apply IH. cbn [map] in Em. now apply (f_equal (@tl _)) in Em.
    - cbn zeta. destruct Hc as [Hc|(C1 & C2 & C3)]; [left; exact Hc|right]. split; [exact C1|]. split.
      + intros y Hy. destruct (sp_pop s) as [|a l] eqn:Es; [destruct Hy|]. cbn [tl] in Hy.
        apply In_nth_error in Hy as (j & Hj). apply (C2 (S j) y); [lia|exact Hj].
      + rewrite El. exact C3.
  Qed.
End Elites.

(** The recorded successor of the depot is the first customer of the last route. *)
Lemma last_used {N : Num} (p : problem) i : 0 < p_dim p -> settled p i -> last (i_pheno i) [] <> [] -> su i 0 <> 0.
Proof.
  intros Hd (Hs & _ & pen & e & E) Hl. unfold su. rewrite E. cbn [geval se_succ].
  destruct (exists_last (l := i_pheno i)) as (rs & r & Er); [intros E0; rewrite E0 in Hl; now apply Hl|].
  rewrite Er in *. rewrite last_last in Hl. destruct r as [|n r]; [congruence|].
  unfold gsuccs. rewrite fold_left_app. cbn [fold_left]. fold (gsuccs rs (resize (se_succ e) (p_dim p) 0)).
  rewrite ssucc_first.
  - cbn. intros ->. assert (H : 0 < 0 < p_dim p); [|lia]. apply (serves_In _ _ _ Hs). rewrite concat_app. apply in_or_app. right. now left.
  - intros H0. assert (H : 0 < 0 < p_dim p); [|lia]. apply (serves_In _ _ _ Hs). rewrite concat_app. apply in_or_app. right.
    cbn [concat]. rewrite app_nil_r. exact H0.
  - rewrite gsuccs_length, resize_length. exact Hd.
Qed.
