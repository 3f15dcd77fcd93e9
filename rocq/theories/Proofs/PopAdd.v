(** Subpopulations: fitness, removal, selection, addition. *)
From Coq Require Import List Arith NArith ZArith QArith Bool Lia Lqa Permutation Sorted.
From Verif.Model Require Import Num Prelude Evaluate Individual Config Population.
From Verif.Spec Require Import Library.
From Verif.Proofs Require Import Lists QNum MatrixFacts PopFacts.
Import ListNotations.
Open Scope nat_scope.

Lemma remove_nth_map {A B} (f : A -> B) l i : map f (remove_nth l i) = remove_nth (map f l) i.
Proof. unfold remove_nth. now rewrite map_app, firstn_map, skipn_map. Qed.
Lemma insert_nth_map {A B} (f : A -> B) l i a : map f (insert_nth l i a) = insert_nth (map f l) i (f a).
Proof. unfold insert_nth. rewrite map_app, firstn_map. cbn. now rewrite skipn_map. Qed.
Lemma upd_map {A B} (f : A -> B) l i a : map f (upd l i a) = upd (map f l) i (f a).
Proof. revert i. induction l as [|b l IH]; intros [|i]; cbn; auto. now rewrite IH. Qed.

Ltac sall := repeat match goal with |- _ /\ _ => split end.

Section Pop.
  Context {N : Num}.
  Variable L : lib.
  Hypothesis LOK : lib_ok L.

  (** what the diversity table depends on *)
  Definition bview (i : individual) := (i_number i, i_geno i, se_pred (i_eval i), se_succ (i_eval i)).

  Lemma bpd_view a b a' b' : bview a = bview a' -> bview b = bview b' ->
    broken_pairs_distance a b = broken_pairs_distance a' b'.
  Proof.
    destruct a as [na ga pa fa ea], b as [nb gb pb fb eb], a' as [na' ga' pa' fa' ea'], b' as [nb' gb' pb' fb' eb'].
    unfold bview. cbn. intros H1 H2. injection H1 as <- <- E1 E2. injection H2 as <- <- E3 E4.
    unfold broken_pairs_distance. apply foldm_ext. intros s x _. unfold bpd_step. cbn. now rewrite E1, E2, E3, E4.
  Qed.
  Lemma number_view a a' : bview a = bview a' -> i_number a = i_number a'.
  Proof. intros H. now injection H. Qed.
  Lemma D_view a b a' b' : bview a = bview a' -> bview b = bview b' -> D a b = D a' b'.
  Proof.
    intros H1 H2. unfold D, pair_distance.
    rewrite (number_view _ _ H1), (number_view _ _ H2), (bpd_view _ _ _ _ H1 H2), (bpd_view _ _ _ _ H2 H1). reflexivity.
  Qed.

  Lemma map_view_app {A B} (f : A -> B) : forall (l : list A) l1 a l2, map f (l1 ++ a :: l2) = map f l ->
    exists m1 b m2, l = m1 ++ b :: m2 /\ map f m1 = map f l1 /\ f b = f a /\ map f m2 = map f l2.
  Proof.
    intros l l1. revert l. induction l1 as [|x l1 IH]; intros l a l2 H.
    - destruct l as [|b l]; [discriminate|]. injection H as H1 H2. exists [], b, l. auto.
    - destruct l as [|b l]; [discriminate|]. injection H as H1 H2.
      destruct (IH _ _ _ H2) as (m1 & b' & m2 & -> & ? & ? & ?). exists (b :: m1), b', m2. cbn. repeat split; auto. congruence.
  Qed.

  Lemma Table_view div ms ms' : map bview ms = map bview ms' -> Table div ms -> Table div ms'.
  Proof.
    intros E (Hnd & Hnone & Hok).
    assert (En : map i_number ms = map i_number ms').
    { apply (f_equal (map (fun v : nat * list nat * list nat * list nat => fst (fst (fst v))))) in E.
      rewrite !map_map in E. exact E. }
    split; [now rewrite <- En|split; [now rewrite <- En|]].
    intros l1 a l2 ->. symmetry in E. apply map_view_app in E as (m1 & b & m2 & -> & E1 & E2 & E3).
    specialize (Hok _ _ _ eq_refl). unfold entry_ok in *. rewrite <- (number_view _ _ E2).
    assert (Ee : map (ent b) (m1 ++ m2) = map (ent a) (l1 ++ l2)).
    { assert (Em : map bview (m1 ++ m2) = map bview (l1 ++ l2)) by (rewrite !map_app; congruence).
      clear -E2 Em. revert Em. generalize (l1 ++ l2). induction (m1 ++ m2) as [|x l IH]; intros [|y l'] Em; cbn in *; try discriminate; auto.
      assert (H1 : bview x = bview y) by (unfold bview; injection Em as -> -> -> -> _; reflexivity).
      assert (H2 : map bview l = map bview l') by (injection Em; auto).
      f_equal; [|now apply IH].
      unfold ent. rewrite (number_view _ _ H1). f_equal. now apply D_view. }
    destruct (div (i_number b)); [now rewrite <- Ee|].
    destruct m1, m2; try discriminate. destruct l1, l2; try discriminate. reflexivity.
  Qed.

  Lemma Table_perm div ms ms' : Permutation ms ms' -> Table div ms -> Table div ms'.
  Proof.
    intros P (Hnd & Hnone & Hok).
    assert (Pn : Permutation (map i_number ms) (map i_number ms')) by now apply Permutation_map.
    split; [eapply Permutation_NoDup; eauto|split].
    - intros k Hk. apply Hnone. intros Hi. apply Hk. eapply Permutation_in; eauto.
    - intros l1 a l2 ->. assert (Ha : In a ms) by (eapply Permutation_in; [symmetry; exact P|]; apply in_or_app; right; now left).
      apply in_split in Ha as (m1 & m2 & ->). eapply entry_ok_perm; [|now apply Hok].
      apply (Permutation_cons_inv (a := a)). now rewrite !Permutation_middle.
  Qed.

  Lemma core_bview i : bview (core i) = bview i.
  Proof. reflexivity. Qed.
  Lemma map_core_bview l l' : map core l = map core l' -> map bview l = map bview l'.
  Proof. intros E. apply (f_equal (map bview)) in E. rewrite !map_map in E. exact E. Qed.

  (** ** Fitness *)
  Definition assign_step (E : nat) (pop : list individual) (di : nat * nat) : res (list individual) :=
    let '(diversity_index, index) := di in
    rbind (geti pop index) (fun i =>
      seti pop index (set_fitness i (Some (biased_fitness (length pop) E index diversity_index)))).

  Lemma assign_loop E order : forall k pop pop',
    foldm (assign_step E) (combine (seq k (length order)) order) pop = Ok pop' ->
    map core pop' = map core pop /\
    (forall idx, ~ In idx order -> nth_error pop' idx = nth_error pop idx) /\
    (NoDup order -> forall d idx, nth_error order d = Some idx ->
       exists x, nth_error pop' idx = Some x /\ i_fitness x = Some (biased_fitness (length pop) E idx (k + d))).
  Proof.
    induction order as [|j order IH]; intros k pop pop' H.
    - injection H as <-. repeat split; auto. intros _ [|d] idx Hd; discriminate.
    - cbn [length seq combine foldm] in H.
      destruct (assign_step E pop (k, j)) as [pop1|e] eqn:E1; [|discriminate].
      unfold assign_step in E1. destruct (geti pop j) as [x|e] eqn:Ej; [|discriminate]. cbn [rbind] in E1.
      apply geti_inv in Ej. unfold seti in E1.
      assert (Hj : j < length pop) by (apply nth_error_Some; congruence).
      rewrite (proj2 (Nat.ltb_lt _ _) Hj) in E1. injection E1 as <-.
      apply IH in H as (H1 & H2 & H3).
      rewrite upd_map in H1. cbn in H1. rewrite upd_length in H3.
      split; [|split].
      + rewrite H1. apply upd_same_nth. rewrite nth_error_map, Ej. reflexivity.
      + intros idx Hn. rewrite H2 by (intros ?; apply Hn; now right).
        rewrite nth_error_upd. destruct (Nat.eqb_spec j idx); auto. exfalso. apply Hn. now left.
      + intros Hnd. inversion Hnd as [|? ? Hn Hnd']. subst. intros [|d] idx Hd.
        * cbn in Hd. injection Hd as ->. rewrite H2 by auto. rewrite nth_error_upd, Nat.eqb_refl.
          rewrite (proj2 (Nat.ltb_lt _ _) Hj). eexists. split; [reflexivity|]. cbn. now rewrite Nat.add_0_r.
        * cbn in Hd. rewrite Nat.add_succ_r, <- Nat.add_succ_l. now apply H3.
  Qed.

  Lemma assign_ok E order : forall k pop, Forall (fun j => j < length pop) order ->
    exists pop', foldm (assign_step E) (combine (seq k (length order)) order) pop = Ok pop'.
  Proof.
    induction order as [|j order IH]; intros k pop Hf; cbn [length seq combine foldm]; eauto.
    inversion Hf as [|? ? Hj Hf']. subst. unfold assign_step at 1.
    destruct (nth_error pop j) as [x|] eqn:Ej; [|apply nth_error_Some in Hj; congruence].
    rewrite (geti_some _ _ _ Ej). cbn [rbind]. rewrite seti_ok by auto. apply IH. now rewrite upd_length.
  Qed.

  (** the order in which the members are ranked by diversity: most distant first *)
  Definition ranking (avgs : list F) : list nat :=
    map snd (isort (fun a b : F * nat => fle (fst b) (fst a)) (combine avgs (seq 0 (length avgs)))).

  Lemma combine_seq_snd {A} (l : list A) : forall k, map snd (combine l (seq k (length l))) = seq k (length l).
  Proof. induction l as [|a l IH]; intros k; cbn; auto. now rewrite IH. Qed.

  Lemma ranking_perm avgs : Permutation (ranking avgs) (seq 0 (length avgs)).
  Proof.
    unfold ranking. rewrite (Permutation_map snd (isort_perm _ _)). now rewrite combine_seq_snd.
  Qed.

  (** every member carries the biased fitness of its two ranks *)
  Definition fitted (c : config) (s : subpop) : Prop :=
    match sp_pop s with
    | [] => True
    | [i] => i_fitness i = Some f0
    | _ =>
        exists avgs, mapm (fun i => average_bpd s i (c_num_diversity_closest c)) (sp_pop s) = Ok avgs /\
        forall d idx, nth_error (ranking avgs) d = Some idx ->
          exists x, nth_error (sp_pop s) idx = Some x /\
            i_fitness x = Some (biased_fitness (length (sp_pop s)) (c_num_elites c) idx d)
    end.

  Lemma average_bpd_core s s' i i' n : sp_div s' = sp_div s -> length (sp_pop s') = length (sp_pop s) ->
    i_number i = i_number i' -> average_bpd s' i' n = average_bpd s i n.
  Proof. intros H1 H2 H3. unfold average_bpd. now rewrite H1, H2, H3. Qed.

  Lemma mapm_average_core c s s' : sp_div s' = sp_div s -> length (sp_pop s') = length (sp_pop s) ->
    forall l l', map core l' = map core l ->
    mapm (fun i => average_bpd s' i (c_num_diversity_closest c)) l' = mapm (fun i => average_bpd s i (c_num_diversity_closest c)) l.
  Proof.
    intros H1 H2 l. induction l as [|a l IH]; intros [|a' l'] E; cbn in *; try discriminate; auto.
    injection E as E1 E2 E3 E4 E5. rewrite (average_bpd_core s s' a a') by (auto; congruence). rewrite (IH l') by auto. reflexivity.
  Qed.

  Lemma update_fitness_spec c s s' : update_fitness c s = Ok s' ->
    map core (sp_pop s') = map core (sp_pop s) /\ sp_div s' = sp_div s /\ sp_max s' = sp_max s /\ fitted c s'.
  Proof.
    unfold update_fitness. intros H.
    destruct (sp_pop s) as [|a [|b pop]] eqn:Ep.
    - cbn in H. injection H as <-. cbn. repeat split; auto. 
    - injection H as <-. cbn. repeat split; auto.
    - cbn [rbind] in H.
      destruct (mapm (fun i => average_bpd s i (c_num_diversity_closest c)) (a :: b :: pop)) as [avgs|e] eqn:Ea; [|discriminate].
      cbn [rbind] in H. destruct ((2 <=? length avgs) && existsb fisnan avgs); [discriminate|].
      fold (ranking avgs) in H.
      destruct (assign_fitness (c_num_elites c) (a :: b :: pop) (ranking avgs)) as [pop'|e] eqn:E1; [|discriminate].
      cbn [rbind] in H. injection H as <-. cbn [sp_pop sp_div sp_max set_pop].
      pose proof (assign_loop (c_num_elites c) (ranking avgs) 0 _ _ E1) as (H1 & H2 & H3).
      repeat split; auto. unfold fitted. cbn [sp_pop set_pop].
      pose proof (f_equal (@length _) H1) as Hlen. rewrite !map_length in Hlen.
      destruct pop' as [|x [|y pop']]; try discriminate Hlen.
      exists avgs. split.
      + rewrite <- Ea. apply mapm_average_core; auto. cbn [sp_pop set_pop]. now rewrite Ep, Hlen.
      + intros d idx Hd. rewrite Hlen. apply H3; auto.
        eapply Permutation_NoDup; [symmetry; apply ranking_perm|apply seq_NoDup].
  Qed.

  (** ** Removal *)
  Lemma remove_individual_spec c s idx s' : remove_individual c s idx = Ok s' ->
    exists x, nth_error (sp_pop s) idx = Some x /\
      map core (sp_pop s') = map core (remove_nth (sp_pop s) idx) /\
      sp_max s' = sp_max s /\ fitted c s' /\
      (Table (sp_div s) (sp_pop s) -> Table (sp_div s') (sp_pop s')).
  Proof.
    unfold remove_individual. intros H. destruct (geti (sp_pop s) idx) as [x|e] eqn:Ex; [|discriminate].
    cbn [rbind] in H. apply geti_inv in Ex. apply update_fitness_spec in H as (H1 & H2 & H3 & H4).
    exists x. split; [exact Ex|]. split; [exact H1|]. split; [exact H3|]. split; [exact H4|]. intros HT.
    cbn [remove_diversity sp_pop set_div set_pop] in H1.
    rewrite H2. apply (Table_view _ (remove_nth (sp_pop s) idx)); [now apply map_core_bview|].
    rewrite (nth_error_split_eq _ _ _ Ex) in HT.
    apply (Table_remove (mkSub (sp_pop s) (sp_div s) (sp_max s))) in HT. exact HT.
  Qed.

  (** ** Survivor selection *)
  Lemma worst_range s len : forall k n w w', 1 <= k -> k + n = len ->
    foldm (worst_step s) (seq k n) w = Ok w' -> 1 <= fst (fst w) < Nat.max 2 len -> 1 <= fst (fst w') < Nat.max 2 len.
  Proof.
    intros k n. revert k. induction n as [|n IH]; intros k w w' Hk Hl H Hw.
    - injection H as <-. auto.
    - cbn [seq foldm] in H. destruct (worst_step s w k) as [w1|e] eqn:E; [|discriminate].
      apply (IH (S k) w1); auto; try lia.
      unfold worst_step in E. destruct w as [[wi wc] wf].
      destruct (geti (sp_pop s) k) as [i|e]; [|discriminate]. cbn [rbind] in E.
      destruct (individual_is_clone s i) as [cl|e]; [|discriminate]. cbn [rbind] in E.
      destruct (_ || _); injection E as <-; cbn [fst] in *; lia.
  Qed.

  Lemma natural_selection_spec c s s' : natural_selection c s = Ok s' ->
    exists w, 1 <= w < length (sp_pop s) /\ map core (sp_pop s') = map core (remove_nth (sp_pop s) w) /\
      sp_max s' = sp_max s /\ fitted c s' /\
      (Table (sp_div s) (sp_pop s) -> Table (sp_div s') (sp_pop s')).
  Proof.
    unfold natural_selection. intros H.
    destruct (foldm (worst_step s) (seq 1 (length (sp_pop s) - 1)) (1, false, Some (flit (-1) 1))) as [[[w cl] f]|e] eqn:E;
      [|discriminate].
    cbn [rbind] in H. apply remove_individual_spec in H as (x & Hx & H1 & H2 & H3 & H4).
    exists w. split; auto.
    assert (Hw : w < length (sp_pop s)) by (apply nth_error_Some; congruence).
    assert (H0 : 1 <= fst (fst (w, cl, f)) < Nat.max 2 (Nat.max 1 (length (sp_pop s)))).
    { apply (worst_range s (Nat.max 1 (length (sp_pop s))) 1 (length (sp_pop s) - 1) (1, false, Some (flit (-1) 1))); auto; cbn [fst]; lia. }
    cbn in H0. lia.
  Qed.

  Lemma head_remove {A} (l : list A) w : 1 <= w -> hd_error (remove_nth l w) = hd_error l.
  Proof. destruct w; [lia|]. destruct l; reflexivity. Qed.

  Lemma hd_error_map {A B} (f : A -> B) l : hd_error (map f l) = option_map f (hd_error l).
  Proof. destruct l; reflexivity. Qed.

  (** order preserving sub-list *)
  Inductive sublist {A} : list A -> list A -> Prop :=
  | sub_nil : sublist [] []
  | sub_keep a l l' : sublist l l' -> sublist (a :: l) (a :: l')
  | sub_drop a l l' : sublist l l' -> sublist l (a :: l').

  Lemma sublist_refl {A} (l : list A) : sublist l l.
  Proof. induction l; constructor; auto. Qed.
  Lemma sublist_trans {A} (l2 l3 : list A) : sublist l2 l3 -> forall l1, sublist l1 l2 -> sublist l1 l3.
  Proof.
    induction 1 as [|a l l' H IH|a l l' H IH]; intros l1 H1; auto.
    - inversion H1; subst; constructor; auto.
    - constructor; auto.
  Qed.
  Lemma sublist_remove {A} (l : list A) i : sublist (remove_nth l i) l.
  Proof.
    revert i. induction l as [|a l IH]; intros i; [destruct i; constructor|].
    destruct i as [|i]; [constructor; apply sublist_refl|]. apply (sub_keep a _ _ (IH i)).
  Qed.
  Lemma sublist_in {A} (l l' : list A) a : sublist l l' -> In a l -> In a l'.
  Proof. induction 1 as [|b l l' H IH|b l l' H IH]; cbn; [auto|intros [?|?]; auto|auto]. Qed.
  Lemma sublist_map {A B} (f : A -> B) l l' : sublist l l' -> sublist (map f l) (map f l').
  Proof. induction 1; cbn; constructor; auto. Qed.
  Lemma sublist_sorted {A} (R : A -> A -> Prop) l l' : sublist l l' -> StronglySorted R l' -> StronglySorted R l.
  Proof.
    induction 1 as [|a l l' H IH|a l l' H IH]; intros Hs; auto; inversion Hs as [|? ? Hs' Hf]; subst; auto.
    constructor; auto. rewrite Forall_forall in *. intros x Hx. apply Hf. eapply sublist_in; eauto.
  Qed.

  Lemma selection_loop_spec c fuel : forall s s', selection_loop c fuel s = Ok s' ->
    length (sp_pop s') = Nat.min (length (sp_pop s)) (c_min_population_size c) /\
    hd_error (map core (sp_pop s')) = hd_error (map core (sp_pop s)) /\
    sublist (map core (sp_pop s')) (map core (sp_pop s)) /\
    sp_max s' = sp_max s /\ (fitted c s -> fitted c s') /\
    (Table (sp_div s) (sp_pop s) -> Table (sp_div s') (sp_pop s')).
  Proof.
    induction fuel as [|fuel IH]; intros s s' H; cbn [selection_loop] in H;
      destruct (Nat.ltb_spec (c_min_population_size c) (length (sp_pop s))); try discriminate.
    - injection H as <-. sall; auto; [lia|apply sublist_refl].
    - destruct (natural_selection c s) as [s1|e] eqn:E; [|discriminate]. cbn [rbind] in H.
      apply natural_selection_spec in E as (w & Hw & H1 & H2 & H3 & H4).
      apply IH in H as (G1 & G2 & G3 & G4 & G5 & G6).
      pose proof (f_equal (@length _) H1) as Hlen. rewrite !map_length in Hlen.
      rewrite remove_nth_length in Hlen by lia.
      sall; auto; try lia.
      + rewrite G2, H1, !hd_error_map, head_remove by lia. reflexivity.
      + eapply sublist_trans; [|exact G3]. rewrite H1, remove_nth_map. apply sublist_remove.
    - injection H as <-. sall; auto; [lia|apply sublist_refl].
  Qed.

  (** ** Addition *)
  Lemma update_diversity_pop s idx s' : update_diversity L s idx = Ok s' ->
    sp_pop s' = sp_pop s /\ sp_max s' = sp_max s.
  Proof.
    unfold update_diversity. intros H. split.
    - revert H. apply (foldm_inv _ (fun s' => sp_pop s' = sp_pop s)); auto.
      intros s1 a s2 _ H1 H. unfold update_diversity_step in H. destruct (idx =? a); [congruence|]. rb H.
      injection H as <-. exact H1.
    - revert H. apply (foldm_inv _ (fun s' => sp_max s' = sp_max s)); auto.
      intros s1 a s2 _ H1 H. unfold update_diversity_step in H. destruct (idx =? a); [congruence|]. rb H.
      injection H as <-. exact H1.
  Qed.

  (** the index at which an individual is inserted *)
  Definition insert_index (s : subpop) (i : individual) : nat :=
    l_bsearch L _ (fun m => cmp_or_eq (ind_cmp m i)) (sp_pop s).

  (** the members before survivor selection: the old ones and, unless it is a clone, the new one *)
  Lemma sub_add_spec c s i s' : sub_add L c s i = Ok s' ->
    exists (clone : bool) s1,
      (clone = true -> sp_pop s <> []) /\
      map core (sp_pop s1) = (if clone then map core (sp_pop s)
                              else insert_nth (map core (sp_pop s)) (insert_index s i) (core i)) /\
      sp_max s1 = sp_max s /\ fitted c s1 /\
      (Table (sp_div s) (sp_pop s) -> (forall m, In m (sp_pop s) -> i_number m < i_number i) ->
       Table (sp_div s1) (sp_pop s1) /\
       (forall m, In m (sp_pop s) -> broken_pairs_distance m i = Ok (D m i)) /\
       (clone = true <-> exists m, In m (sp_pop s) /\ D m i = 0)) /\
      (if sp_max s <=? length (sp_pop s1) then selection_loop c (length (sp_pop s1)) s1 else Ok s1) = Ok s'.
  Proof.
    unfold sub_add. intros H. destruct (negb _); [discriminate|].
    fold (insert_index s i) in H. set (ix := insert_index s i) in *.
    assert (Hix : ix <= length (sp_pop s)) by apply (bs_le L LOK).
    destruct (update_diversity L (set_pop s (insert_nth (sp_pop s) ix i)) ix) as [s0|e] eqn:E0; [|discriminate].
    cbn [rbind] in H. pose proof (update_diversity_pop _ _ _ E0) as [Hp0 Hm0]. cbn [sp_pop set_pop sp_max] in Hp0, Hm0.
    assert (Hi : nth_error (sp_pop s0) ix = Some i).
    { rewrite Hp0. unfold insert_nth. rewrite nth_error_app2; rewrite firstn_length, Nat.min_l by auto; [|lia]. now rewrite Nat.sub_diag. }
    rewrite (geti_some _ _ _ Hi) in H. cbn [rbind] in H.
    assert (Hlen0 : length (sp_pop s0) = S (length (sp_pop s))) by (rewrite Hp0; apply insert_nth_length).
    assert (HT0 : Table (sp_div s) (sp_pop s) -> (forall m, In m (sp_pop s) -> i_number m < i_number i) ->
      Table (sp_div s0) (sp_pop s0) /\ forall m, In m (sp_pop s) -> broken_pairs_distance m i = Ok (D m i)).
    { intros HT Hlt. rewrite Hp0. unfold insert_nth.
      assert (E1 : update_diversity L (set_pop s (insert_nth (sp_pop s) ix i)) (length (firstn ix (sp_pop s))) = Ok s0)
        by (rewrite firstn_length, Nat.min_l; auto).
      rewrite (update_diversity_eq L (set_pop s (insert_nth (sp_pop s) ix i)) (firstn ix (sp_pop s)) i (skipn ix (sp_pop s)) eq_refl) in E1.
      apply Table_insert in E1; auto; rewrite firstn_skipn in *; auto. }
    destruct (Nat.ltb_spec 1 (length (sp_pop s0))) as [Hl|Hl].
    - destruct (individual_is_clone s0 i) as [cl|e] eqn:Ec; [|discriminate]. cbn [rbind] in H.
      assert (Hcl : Table (sp_div s) (sp_pop s) -> (forall m, In m (sp_pop s) -> i_number m < i_number i) ->
        (cl = true <-> exists m, In m (sp_pop s) /\ D m i = 0)).
      { intros HT Hlt. destruct (HT0 HT Hlt) as [(Hnd & Hnone & Hok) Hbpd].
        specialize (Hok (firstn ix (sp_pop s)) i (skipn ix (sp_pop s)) Hp0). unfold entry_ok in Hok.
        unfold individual_is_clone in Ec. destruct (sp_div s0 (i_number i)) as [v|]; [|discriminate].
        destruct Hok as [Hs Hperm]. rewrite firstn_skipn in Hperm.
        destruct v as [|d0 v]; [discriminate|]. cbn in Ec. injection Ec as <-.
        assert (Hsym : forall m, In m (sp_pop s) -> D i m = D m i).
        { intros m Hm. apply D_sym. specialize (Hlt m Hm). lia. }
        rewrite Nat.eqb_eq. split.
        - intros Hd. assert (Hin : In d0 (map (ent i) (sp_pop s))) by (eapply Permutation_in; [exact Hperm|now left]).
          apply in_map_iff in Hin as (m & <- & Hm). exists m. split; auto. rewrite <- Hsym; auto.
        - intros (m & Hm & Hd). assert (Hin : In (ent i m) (d0 :: v)).
          { eapply Permutation_in; [symmetry; exact Hperm|]. now apply in_map. }
          inversion Hs as [|? ? _ Hf]. subst. destruct Hin as [->|Hin].
          + cbn. rewrite Hsym; auto.
          + pose proof (proj1 (Forall_forall _ _) Hf _ Hin) as Hle. cbn in Hle. rewrite Hsym in Hle by auto. lia. }
      destruct cl.
      + destruct (remove_individual c s0 ix) as [s1|e] eqn:E1; [|discriminate]. cbn [rbind] in H.
        apply remove_individual_spec in E1 as (x & Hx & G1 & G2 & G3 & G4).
        exists true, s1.
        assert (Er : remove_nth (sp_pop s0) ix = sp_pop s).
        { rewrite Hp0. unfold remove_nth, insert_nth.
          rewrite firstn_app, firstn_firstn, Nat.min_id, firstn_length, Nat.min_l, Nat.sub_diag by auto. cbn [firstn].
          rewrite app_nil_r, skipn_app, skipn_all2 by (rewrite firstn_length; lia).
          rewrite firstn_length, Nat.min_l by auto. replace (S ix - ix) with 1 by lia. cbn. apply firstn_skipn. }
        rewrite Er in G1. split; [|split; [exact G1|split; [congruence|split; [exact G3|split]]]].
        * intros _ E. rewrite E in Hlen0. cbn in Hlen0. lia.
        * intros HT Hlt. split; [apply G4, HT0; auto|]. split; [apply HT0; auto|auto].
        * rewrite <- H. rewrite G2, Hm0. reflexivity.
      + destruct (update_fitness c s0) as [s1|e] eqn:E1; [|discriminate]. cbn [rbind] in H.
        apply update_fitness_spec in E1 as (G1 & G2 & G3 & G4).
        exists false, s1. split; [discriminate|]. split; [|split; [congruence|split; [exact G4|split]]].
        * rewrite G1, Hp0. apply insert_nth_map.
        * intros HT Hlt. split; [|split; [apply HT0; auto|auto]].
          rewrite G2. apply (Table_view _ (sp_pop s0)); [|apply HT0; auto]. symmetry. now apply map_core_bview.
        * rewrite <- H. rewrite G3, Hm0. reflexivity.
    - cbn [rbind] in H. destruct (update_fitness c s0) as [s1|e] eqn:E1; [|discriminate]. cbn [rbind] in H.
      apply update_fitness_spec in E1 as (G1 & G2 & G3 & G4).
      exists false, s1. split; [discriminate|]. split; [|split; [congruence|split; [exact G4|split]]].
      + rewrite G1, Hp0. apply insert_nth_map.
      + intros HT Hlt. split; [|split; [apply HT0; auto|]].
        * rewrite G2. apply (Table_view _ (sp_pop s0)); [|apply HT0; auto]. symmetry. now apply map_core_bview.
        * split; [discriminate|]. intros (m & Hm & _). destruct (sp_pop s); [destruct Hm|]. cbn in Hlen0. lia.
      + rewrite <- H. rewrite G3, Hm0. reflexivity.
  Qed.
End Pop.
