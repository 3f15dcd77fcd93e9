(** Population theorems: invariants over executions, absence of panics, elites, tournaments. *)
From Coq Require Import List Arith NArith ZArith QArith Bool Lia Lqa Permutation Sorted.
From Verif.Model Require Import Num Prelude Evaluate Individual Config Population.
From Verif.Spec Require Import Solution Library.
From Verif.Proofs Require Import Lists QNum EvalFacts EvalThms MatrixFacts PopFacts PopAdd.
Import ListNotations.
Open Scope nat_scope.

(** ** Re-evaluation does not change the adjacency vectors *)
Definition writes (ws : list (nat * nat)) (l : list nat) : list nat :=
  fold_left (fun l w => upd l (fst w) (snd w)) ws l.
Lemma writes_length ws : forall l, length (writes ws l) = length l.
Proof. induction ws as [|w ws IH]; intros l; cbn; auto. unfold writes in IH. now rewrite IH, upd_length. Qed.
Lemma writes_app w1 w2 l : writes (w1 ++ w2) l = writes w2 (writes w1 l).
Proof. unfold writes. apply fold_left_app. Qed.
Lemma writes_in ws : forall l l' j, length l = length l' -> In j (map fst ws) ->
  nth_error (writes ws l) j = nth_error (writes ws l') j.
Proof.
  induction ws as [|[i v] ws IH]; intros l l' j Hl Hj; [destruct Hj|].
  change (writes ((i, v) :: ws) l) with (writes ws (upd l i v)).
  change (writes ((i, v) :: ws) l') with (writes ws (upd l' i v)).
  assert (Hout : forall ws l j, ~ In j (map fst ws) -> nth_error (writes ws l) j = nth_error l j).
  { clear. induction ws as [|[i v] ws IH]; intros l j Hj; [reflexivity|].
    change (writes ((i, v) :: ws) l) with (writes ws (upd l i v)). rewrite IH by (intros ?; apply Hj; now right).
    rewrite nth_error_upd. destruct (Nat.eqb_spec i j); auto. exfalso. apply Hj. now left. }
  destruct (in_dec Nat.eq_dec j (map fst ws)) as [Hin|Hn].
  - apply IH; auto. now rewrite !upd_length.
  - rewrite !Hout by auto. destruct Hj as [Hj|Hj]; [|contradiction]. cbn in Hj. subst.
    rewrite !nth_error_upd, Nat.eqb_refl. now rewrite Hl.
Qed.
Lemma writes_out ws : forall l j, ~ In j (map fst ws) -> nth_error (writes ws l) j = nth_error l j.
Proof.
  induction ws as [|[i v] ws IH]; intros l j Hj; [reflexivity|].
  change (writes ((i, v) :: ws) l) with (writes ws (upd l i v)). rewrite IH by (intros ?; apply Hj; now right).
  rewrite nth_error_upd. destruct (Nat.eqb_spec i j); auto. exfalso. apply Hj. now left.
Qed.
Lemma writes_idem ws l : writes ws (writes ws l) = writes ws l.
Proof.
  apply nth_error_ext. intros j. destruct (in_dec Nat.eq_dec j (map fst ws)) as [Hj|Hj].
  - apply writes_in; auto. apply writes_length.
  - now rewrite writes_out.
Qed.

Lemma spred_writes r : forall last, exists ws, forall ps, spred last r ps = writes ws ps.
Proof.
  induction r as [|n r IH]; intros last; [now exists []|].
  destruct (IH n) as [ws H]. exists ((n, last) :: ws). intros ps. cbn. apply H.
Qed.
Lemma ssucc_writes r : forall last, exists ws, forall ps, ssucc last r ps = writes ws ps.
Proof.
  induction r as [|n r IH]; intros last; [exists [(last, 0)]; reflexivity|].
  destruct (IH n) as [ws H]. exists ((last, n) :: ws). intros ps. cbn. apply H.
Qed.
Lemma gpreds_writes rs : exists ws, forall ps, gpreds rs ps = writes ws ps.
Proof.
  induction rs as [|r rs [ws IH]]; [now exists []|]. destruct (spred_writes r 0) as [w1 H1].
  exists (w1 ++ ws). intros ps. rewrite writes_app, <- H1, <- IH. reflexivity.
Qed.
Lemma gsuccs_writes rs : exists ws, forall ps, gsuccs rs ps = writes ws ps.
Proof.
  induction rs as [|r rs [ws IH]]; [now exists []|]. destruct (ssucc_writes r 0) as [w1 H1].
  exists (w1 ++ ws). intros ps. rewrite writes_app, <- H1, <- IH. reflexivity.
Qed.

Lemma resize_id {A} (l : list A) n d : length l = n -> resize l n d = l.
Proof. intros <-. apply resize_same. Qed.

Section Generic.
  Context {N : Num}.
  Variable L : lib.
  Hypothesis LOK : lib_ok L.
  Variable p : problem.
  Variable c : config.

  (** A finished individual: a complete solution, evaluated, with its giant tour. *)
  Definition settled (i : individual) : Prop :=
    serves_all_once (p_dim p) (i_pheno i) /\ i_geno i = concat (i_pheno i) /\
    exists pen e, i_eval i = geval p pen e (i_pheno i).

  Lemma geval_again pen e pen' rs :
    se_pred (geval p pen (geval p pen' e rs) rs) = se_pred (geval p pen' e rs) /\
    se_succ (geval p pen (geval p pen' e rs) rs) = se_succ (geval p pen' e rs).
  Proof.
    unfold geval. cbn [se_pred se_succ].
    destruct (gpreds_writes rs) as [w1 H1]. destruct (gsuccs_writes rs) as [w2 H2].
    split.
    - rewrite !H1. rewrite resize_id by (rewrite writes_length; apply resize_length). apply writes_idem.
    - rewrite !H2. rewrite resize_id by (rewrite writes_length; apply resize_length). apply writes_idem.
  Qed.

  Lemma settled_nodes i : settled i -> forall n, In n (concat (i_pheno i)) -> n < p_dim p.
  Proof. intros (H & _) n Hn. apply (serves_In _ _ _ H) in Hn. lia. Qed.

  Lemma reevaluate_settled pen i : 0 < p_dim p -> settled i ->
    exists i', ind_evaluate p pen i = Ok i' /\ settled i' /\ bview i' = bview i /\
      i_pheno i' = i_pheno i /\ i_fitness i' = i_fitness i /\ i_eval i' = geval p pen (i_eval i) (i_pheno i).
  Proof.
    intros H0 Hs. unfold ind_evaluate. rewrite evaluate_eq by (auto; now apply settled_nodes). cbn [rbind].
    eexists. split; [reflexivity|]. destruct Hs as (H1 & H2 & pen' & e & E).
    split; [|split; [|auto]].
    - split; [exact H1|split; [exact H2|]]. cbn. exists pen, (i_eval i). reflexivity.
    - unfold bview. cbn [i_number i_geno i_eval set_eval]. rewrite E.
      destruct (geval_again pen e pen' (i_pheno i)) as [-> ->]. reflexivity.
  Qed.

  Lemma settled_core i j : core i = core j -> settled i -> settled j.
  Proof.
    destruct i as [n g ph f e], j as [n' g' ph' f' e']. unfold core, settled. cbn.
    intros H. injection H as -> -> -> ->. auto.
  Qed.

  Lemma settled_number i k : settled i -> settled (set_number i k).
  Proof. exact (fun H => H). Qed.

  (** distances between settled individuals are defined *)
  Lemma settled_lengths i : settled i -> length (i_geno i) = p_dim p - 1 /\
    length (se_pred (i_eval i)) = p_dim p /\ length (se_succ (i_eval i)) = p_dim p.
  Proof.
    intros (H1 & H2 & pen & e & E). rewrite E, H2. cbn [geval se_pred se_succ].
    rewrite gpreds_length, gsuccs_length, !resize_length.
    apply Permutation_length in H1. rewrite seq_length in H1. auto.
  Qed.
  Lemma bpd_ok a b : settled a -> settled b -> exists d, broken_pairs_distance a b = Ok d /\ d <= 2 * (p_dim p - 1).
  Proof.
    intros Ha Hb. apply settled_lengths in Ha as (A1 & A2 & A3), Hb as (B1 & B2 & B3).
    unfold broken_pairs_distance. rewrite A1.
    assert (G : forall n k d, 1 <= k -> k + n <= p_dim p ->
      exists d', foldm (bpd_step a b) (seq k n) d = Ok d' /\ d' <= d + 2 * n).
    { induction n as [|n IH]; intros k d Hk Hn; cbn [seq foldm]; [exists d; split; [auto|lia]|].
      unfold bpd_step at 1. rewrite !(geti_ok _ _ 0) by lia. cbn [rbind].
      match goal with |- exists d', foldm _ _ ?x = _ /\ _ => destruct (IH (S k) x) as (d' & E & H); try lia; exists d'; split; [exact E|] end.
      destruct (_ && _), (_ && _); lia. }
    destruct (p_dim p) as [|dim]; [exists 0; split; [reflexivity|lia]|].
    destruct (G (S dim - 1) 1 0) as (d & E & H); try lia. exists d. split; [exact E|lia].
  Qed.

  (** ** Absence of panics *)
  Hypothesis Hdim : 0 < p_dim p.
  (** quotients of counts by the number of neighbours looked at are numbers *)
  Definition ratios_defined : Prop := forall a b, 0 < b <= c_num_diversity_closest c -> fisnan (fnat a /: fnat b) = false.

  Lemma entry_some div ms l1 a l2 : Table div ms -> ms = l1 ++ a :: l2 -> 2 <= length ms ->
    exists v, div (i_number a) = Some v /\ length v = length ms - 1 /\ asc v /\ Permutation v (map (ent a) (l1 ++ l2)).
  Proof using Type. clear Hdim.
    intros (_ & _ & H) E Hl. specialize (H _ _ _ E). unfold entry_ok in H.
    assert (Hlen : length ms = S (length (l1 ++ l2))) by (rewrite E, !app_length; cbn; lia).
    destruct (div (i_number a)) as [v|].
    - destruct H as [Hs Hp]. exists v. repeat split; auto. apply Permutation_length in Hp. rewrite map_length in Hp. lia.
    - rewrite H in Hlen. cbn in Hlen. lia.
  Qed.

  Lemma clone_ok s a : Table (sp_div s) (sp_pop s) -> In a (sp_pop s) -> 2 <= length (sp_pop s) ->
    exists b, individual_is_clone s a = Ok b.
  Proof using Type. clear Hdim.
    intros HT Hin Hl. apply in_split in Hin as (l1 & l2 & E).
    destruct (entry_some _ _ _ _ _ HT E Hl) as (v & Ev & Hv & _). unfold individual_is_clone. rewrite Ev.
    destruct v as [|d v]; [cbn in Hv; lia|]. cbn. eauto.
  Qed.

  Lemma average_ok s a n : n <= c_num_diversity_closest c -> Table (sp_div s) (sp_pop s) -> In a (sp_pop s) -> 2 <= length (sp_pop s) ->
    ratios_defined -> 1 <= n ->
    exists q, average_bpd s a n = Ok q /\ fisnan q = false.
  Proof using Type. clear Hdim.
    intros Hc HT Hin Hl HR Hn. apply in_split in Hin as (l1 & l2 & E).
    destruct (entry_some _ _ _ _ _ HT E Hl) as (v & Ev & Hv & _). unfold average_bpd. rewrite Ev.
    destruct (Nat.eqb_spec (length (sp_pop s)) 0); [lia|].
    set (m := Nat.min n (length (sp_pop s) - 1)).
    assert (Hm : 1 <= m <= length v) by lia.
    destruct (foldm_ok (fun total index => rbind (geti v index) (fun d => Ok (total + fst d))) (fun _ => True) (seq 0 m) 0) as (t & Et & _); auto.
    { intros t k Hk _. apply in_seq in Hk. rewrite (@geti_ok diversity v k (0, 0)) by lia. cbn. eauto. }
    rewrite Et. cbn [rbind]. eexists. split; [reflexivity|]. apply HR. lia.
  Qed.

  Hypothesis Hratio : ratios_defined.
  Hypothesis Hclosest : 1 <= c_num_diversity_closest c.
  Hypothesis Hmin : 1 <= c_min_population_size c.

  Lemma update_fitness_ok s : Table (sp_div s) (sp_pop s) -> exists s', update_fitness c s = Ok s'.
  Proof.
    intros HT. unfold update_fitness. destruct (sp_pop s) as [|a [|b pop]] eqn:Ep; [cbn; eauto|eauto|].
    rewrite <- Ep in *. assert (Hl : 2 <= length (sp_pop s)) by (rewrite Ep; cbn; lia).
    assert (Havg : exists avgs, mapm (fun i => average_bpd s i (c_num_diversity_closest c)) (sp_pop s) = Ok avgs /\
       length avgs = length (sp_pop s) /\ existsb fisnan avgs = false).
    { assert (G : forall l, incl l (sp_pop s) -> exists avgs,
        mapm (fun i => average_bpd s i (c_num_diversity_closest c)) l = Ok avgs /\
        length avgs = length l /\ existsb fisnan avgs = false).
      { induction l as [|x l IH]; intros Hi; [exists []; auto|]. cbn [mapm].
        destruct (average_ok s x _ (le_n _) HT (Hi x (or_introl eq_refl)) Hl Hratio Hclosest) as (q & -> & Hq).
        destruct IH as (avgs & -> & H1 & H2); [intros y Hy; apply Hi; now right|].
        exists (q :: avgs). cbn. rewrite Hq, H1, H2. auto. }
      apply G. intros x; auto. }
    destruct Havg as (avgs & -> & Hlen & Hnan). cbn [rbind]. rewrite Hnan, andb_false_r. fold (ranking avgs).
    destruct (assign_ok (c_num_elites c) (ranking avgs) 0 (sp_pop s)) as (pop' & E).
    { apply Forall_forall. intros j Hj. eapply Permutation_in in Hj; [|apply ranking_perm].
      apply in_seq in Hj. lia. }
    unfold assign_fitness. unfold assign_step in E. rewrite E. cbn [rbind]. eauto.
  Qed.

  Lemma remove_individual_ok s idx : Table (sp_div s) (sp_pop s) -> idx < length (sp_pop s) ->
    exists s', remove_individual c s idx = Ok s'.
  Proof.
    intros HT Hi. unfold remove_individual. destruct (nth_error (sp_pop s) idx) as [x|] eqn:Ex;
      [|apply nth_error_None in Ex; lia].
    rewrite (geti_some _ _ _ Ex). cbn [rbind]. apply update_fitness_ok.
    rewrite (nth_error_split_eq _ _ _ Ex) in HT.
    apply (Table_remove (mkSub (sp_pop s) (sp_div s) (sp_max s))) in HT. exact HT.
  Qed.

  Lemma natural_selection_ok s : Table (sp_div s) (sp_pop s) -> 2 <= length (sp_pop s) ->
    exists s', natural_selection c s = Ok s'.
  Proof.
    intros HT Hl. unfold natural_selection.
    destruct (foldm_ok (worst_step s) (fun w => fst (fst w) < length (sp_pop s)) (seq 1 (length (sp_pop s) - 1))
      (1, false, Some (flit (-1) 1))) as ([[w cl] f] & -> & Hw).
    - intros [[wi wc] wf] k Hk Hw. apply in_seq in Hk. unfold worst_step.
      destruct (nth_error (sp_pop s) k) as [x|] eqn:Ex; [|apply nth_error_None in Ex; lia].
      rewrite (geti_some _ _ _ Ex). cbn [rbind].
      destruct (clone_ok s x HT (nth_error_In _ _ Ex) Hl) as (b & ->). cbn [rbind].
      destruct (_ || _); eexists; (split; [reflexivity|]); cbn [fst] in *; lia.
    - cbn [fst]. lia.
    - cbn [rbind]. apply remove_individual_ok; auto.
  Qed.

  Lemma selection_loop_ok fuel : forall s, Table (sp_div s) (sp_pop s) -> length (sp_pop s) <= fuel ->
    exists s', selection_loop c fuel s = Ok s'.
  Proof.
    induction fuel as [|fuel IH]; intros s HT Hf; cbn [selection_loop];
      destruct (Nat.ltb_spec (c_min_population_size c) (length (sp_pop s))); eauto; [lia|].
    destruct (natural_selection_ok s HT ltac:(lia)) as (s1 & E). rewrite E. cbn [rbind].
    apply natural_selection_spec in E as (w & Hw & H1 & _ & _ & H4).
    apply (f_equal (@length _)) in H1. rewrite !map_length, remove_nth_length in H1 by lia.
    apply IH; [auto|lia].
  Qed.

  Lemma sub_add_ok s i : Table (sp_div s) (sp_pop s) -> (forall m, In m (sp_pop s) -> i_number m < i_number i) ->
    (forall m, In m (sp_pop s) -> settled m) -> settled i ->
    (forall m, In m (sp_pop s) -> comparable m i = true) ->
    exists s', sub_add L c s i = Ok s'.
  Proof.
    intros HT Hlt Hms Hi Hc. unfold sub_add.
    rewrite (proj2 (forallb_forall _ _)) by auto. cbn [negb].
    fold (insert_index L s i). set (ix := insert_index L s i).
    assert (Hix : ix <= length (sp_pop s)) by apply (bs_le L LOK).
    set (s0 := set_pop s (insert_nth (sp_pop s) ix i)).
    assert (E0 : exists s1, update_diversity L s0 ix = Ok s1).
    { replace ix with (length (firstn ix (sp_pop s))) by (rewrite firstn_length; lia).
      rewrite (update_diversity_eq L s0 (firstn ix (sp_pop s)) i (skipn ix (sp_pop s)))
        by reflexivity.
      rewrite firstn_skipn.
      destruct (foldm_ok (ud_step L i) (fun _ => True) (sp_pop s) s0) as (s1 & E & _); eauto.
      intros s1 o Ho _. unfold ud_step. destruct (bpd_ok o i (Hms o Ho) Hi) as (d & -> & _). cbn [rbind]. eauto. }
    destruct E0 as (s1 & E0). rewrite E0. cbn [rbind].
    pose proof (update_diversity_pop L _ _ _ E0) as [Hp1 Hm1]. cbn [sp_pop set_pop sp_max s0] in Hp1, Hm1.
    assert (HT1 : Table (sp_div s1) (sp_pop s1)).
    { rewrite Hp1. unfold insert_nth.
      assert (E1 : update_diversity L s0 (length (firstn ix (sp_pop s))) = Ok s1)
        by (rewrite firstn_length, Nat.min_l; auto).
      rewrite (update_diversity_eq L s0 (firstn ix (sp_pop s)) i (skipn ix (sp_pop s)) eq_refl) in E1.
      apply (Table_insert L LOK) in E1; [apply E1| |]; rewrite firstn_skipn; auto. }
    assert (Hn : nth_error (sp_pop s1) ix = Some i).
    { rewrite Hp1. unfold insert_nth. rewrite nth_error_app2; rewrite firstn_length, Nat.min_l by auto; [|lia]. now rewrite Nat.sub_diag. }
    assert (Hcl : exists cl : bool, (if 1 <? length (sp_pop s1)
       then rbind (geti (sp_pop s1) ix) (fun m => individual_is_clone s1 m) else Ok false) = Ok cl).
    { destruct (Nat.ltb_spec 1 (length (sp_pop s1))); eauto. rewrite (geti_some _ _ _ Hn). cbn [rbind].
      apply clone_ok; auto. eapply nth_error_In; eauto. }
    destruct Hcl as (cl & ->). cbn [rbind].
    assert (Hs2 : exists s2, (if cl then remove_individual c s1 ix else update_fitness c s1) = Ok s2 /\ Table (sp_div s2) (sp_pop s2)).
    { destruct cl.
      - destruct (remove_individual_ok s1 ix HT1) as (s2 & E2); [rewrite Hp1, insert_nth_length; lia|].
        exists s2. split; auto. apply remove_individual_spec in E2 as (x & _ & _ & _ & _ & H). auto.
      - destruct (update_fitness_ok s1 HT1) as (s2 & E2). exists s2. split; auto.
        apply update_fitness_spec in E2 as (H1 & H2 & _ & _). rewrite H2.
        apply (Table_view _ (sp_pop s1)); auto. symmetry. now apply map_core_bview. }
    destruct Hs2 as (s2 & -> & HT2). cbn [rbind].
    destruct (sp_max s2 <=? length (sp_pop s2)); eauto. apply selection_loop_ok; auto.
  Qed.
End Generic.
