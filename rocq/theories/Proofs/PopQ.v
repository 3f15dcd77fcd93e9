(** Survivor selection, ordering and tournaments in exact arithmetic. *)
From Coq Require Import List Arith NArith ZArith QArith Qabs Bool Lia Lqa Permutation Sorted.
From Verif.Model Require Import Num Prelude Evaluate Individual Config Population.
From Verif.Spec Require Import Solution Library.
From Verif.Proofs Require Import Lists QNum EvalFacts EvalThms MatrixFacts PopFacts PopAdd PopThms PopRun.
Import ListNotations.
Open Scope nat_scope.

Definition Qn (n : nat) : Q := inject_Z (Z.of_nat n).

Lemma Qn_le a b : a <= b -> (Qn a <= Qn b)%Q.
Proof. intros H. unfold Qn. rewrite <- Zle_Qle. lia. Qed.
Lemma Qn_lt a b : a < b -> (Qn a < Qn b)%Q.
Proof. intros H. unfold Qn. rewrite <- Zlt_Qlt. lia. Qed.
Lemma Qn_0 a : (0 <= Qn a)%Q.
Proof. apply (Qn_le 0 a). lia. Qed.

(** ** Biased fitness *)
Section Fitness.
  Variables (n E : nat).
  Hypothesis Hn : 2 <= n.

  Lemma pop_factor : (Qn n - 1 == Qn (n - 1))%Q.
  Proof. unfold Qn. rewrite Nat2Z.inj_sub by lia. unfold Z.sub. rewrite inject_Z_plus, inject_Z_opp. reflexivity. Qed.

  Definition fit (idx d : nat) : Q := @biased_fitness NumQ n E idx d.

  Lemma fit_le idx d : n <= E -> (fit idx d == Qn idx / Qn (n - 1))%Q.
  Proof.
    intros H. unfold fit, biased_fitness. rewrite (proj2 (Nat.leb_le _ _) H).
    cbn [fdiv fsub f1 fnat NumQ]. fold (Qn n) (Qn idx). rewrite pop_factor. reflexivity.
  Qed.
  Lemma fit_gt idx d : E < n -> (fit idx d == Qn idx / Qn (n - 1) + (1 - Qn E / Qn n) * (Qn d / Qn (n - 1)))%Q.
  Proof.
    intros H. unfold fit, biased_fitness. rewrite (proj2 (Nat.leb_gt _ _)) by lia.
    cbn [fdiv fsub f1 fnat fmul fadd NumQ]. fold (Qn n) (Qn idx) (Qn E) (Qn d). rewrite pop_factor. reflexivity.
  Qed.

  Lemma frac_pos a b : 0 < b -> (0 <= Qn a / Qn b)%Q.
  Proof.
    intros Hb. apply Qle_shift_div_l; [apply (Qn_lt 0 b Hb)|]. rewrite Qmult_0_l. apply Qn_0.
  Qed.
  Lemma frac_le1 a b : 0 < b -> a <= b -> (Qn a / Qn b <= 1)%Q.
  Proof.
    intros Hb H. apply Qle_shift_div_r; [apply (Qn_lt 0 b Hb)|]. rewrite Qmult_1_l. now apply Qn_le.
  Qed.

  Lemma fit_nonneg idx d : (0 <= fit idx d)%Q.
  Proof.
    destruct (Nat.le_gt_cases n E) as [H|H].
    - rewrite fit_le by auto. apply frac_pos. lia.
    - rewrite fit_gt by auto. pose proof (frac_pos idx (n - 1) ltac:(lia)).
      assert (0 <= (1 - Qn E / Qn n) * (Qn d / Qn (n - 1)))%Q; [|lra].
      apply Qmult_le_0_compat; [|apply frac_pos; lia].
      pose proof (frac_le1 E n ltac:(lia) ltac:(lia)). lra.
  Qed.

  (** an elite is fitter than the last member *)
  Lemma fit_elite idx d d' : E < n -> idx < E -> d <= n - 1 -> (fit idx d < fit (n - 1) d')%Q.
  Proof.
    intros H1 H2 H3. rewrite !fit_gt by auto.
    assert (Hp : (0 < Qn (n - 1))%Q) by (apply (Qn_lt 0); lia).
    assert (Hq : (0 < Qn n)%Q) by (apply (Qn_lt 0); lia).
    assert (HE : (0 <= 1 - Qn E / Qn n)%Q) by (pose proof (frac_le1 E n ltac:(lia) ltac:(lia)); lra).
    assert (Hd : (Qn d / Qn (n - 1) <= 1)%Q) by (apply frac_le1; lia).
    assert (Hd' : (0 <= Qn d' / Qn (n - 1))%Q) by (apply frac_pos; lia).
    assert (H4 : (Qn (n - 1) / Qn (n - 1) == 1)%Q) by (field; lra). rewrite H4.
    assert (H5 : ((1 - Qn E / Qn n) * (Qn d / Qn (n - 1)) <= 1 - Qn E / Qn n)%Q).
    { setoid_replace (1 - Qn E / Qn n)%Q with ((1 - Qn E / Qn n) * 1)%Q at 2 by ring.
      rewrite !(Qmult_comm (1 - Qn E / Qn n)). apply Qmult_le_compat_r; auto. }
    assert (H6 : (0 <= (1 - Qn E / Qn n) * (Qn d' / Qn (n - 1)))%Q) by (apply Qmult_le_0_compat; auto).
    assert (H7 : (Qn idx / Qn (n - 1) < Qn E / Qn n)%Q).
    { apply Qlt_shift_div_l; auto. unfold Qdiv. rewrite <- Qmult_assoc, (Qmult_comm (/ Qn (n - 1))), Qmult_assoc.
      apply Qlt_shift_div_r; auto. unfold Qn. rewrite <- !inject_Z_mult, <- Zlt_Qlt.
      rewrite <- !Nat2Z.inj_mul. apply inj_lt. nia. }
    lra.
  Qed.
End Fitness.

(** ** Survivor selection: the scan finds the worst member *)
Notation indQ := (@individual NumQ).
Notation subQ := (@subpop NumQ).

Definition fitness_of (i : indQ) : Q := match i_fitness i with Some q => q | None => 0%Q end.

Lemma worst_scan (s : subQ) : forall k n w cl (f : Q) w' cl' f',
  (forall i x, nth_error (sp_pop s) i = Some x -> exists q : Q, i_fitness x = Some q) ->
  foldm (@worst_step NumQ s) (seq k n) (w, cl, Some f) = Ok (w', cl', f') ->
  exists q' : Q, f' = Some q' /\
   (* not smaller than the start *)
   ((cl = true -> cl' = true) /\ (cl = cl' -> (f <= q')%Q)) /\
   (* not smaller than anything scanned *)
   (forall j, k <= j < k + n -> exists x b, nth_error (sp_pop s) j = Some x /\ individual_is_clone s x = Ok b /\
      (b = true -> cl' = true) /\ (b = cl' -> (fitness_of x <= q')%Q)) /\
   (* unchanged or scanned *)
   ((w' = w /\ cl' = cl /\ f' = Some f) \/
    (k <= w' < k + n /\ exists x, nth_error (sp_pop s) w' = Some x /\ individual_is_clone s x = Ok cl' /\ i_fitness x = f')).
Proof.
  intros k n. revert k. induction n as [|n IH]; intros k w cl f w' cl' f' HF H.
  - injection H as <- <- <-. exists f. repeat split; auto; try lra; try lia.
  - cbn [seq foldm] in H. destruct (worst_step s (w, cl, Some f) k) as [[[w1 cl1] f1]|e] eqn:E1; [|discriminate].
    unfold worst_step in E1. destruct (geti (sp_pop s) k) as [x|e] eqn:Ex; [|discriminate]. cbn [rbind] in E1.
    apply geti_inv in Ex. destruct (individual_is_clone s x) as [b|e] eqn:Eb; [|discriminate]. cbn [rbind] in E1.
    destruct (HF _ _ Ex) as (fx & Efx).
    assert (Hfx : fitness_of x = fx) by (unfold fitness_of; now rewrite Efx).
    rewrite Efx in E1. cbn [ofge fle NumQ] in E1.
    destruct (b && negb cl || eqb cl b && Qle_bool f fx) eqn:Eu; injection E1 as <- <- <-.
    + destruct (IH _ _ _ _ _ _ _ HF H) as (q' & -> & [G1 G2] & G3 & G4). exists q'. split; auto.
      assert (Hs : (cl = true -> cl' = true) /\ (cl = cl' -> (f <= q')%Q)).
      { apply orb_true_iff in Eu as [Eu|Eu].
        - apply andb_true_iff in Eu as [-> Eu]. destruct cl; [discriminate|]. split; [discriminate|].
          intros <-. specialize (G1 eq_refl). discriminate.
        - apply andb_true_iff in Eu as [Eu1 Eu2]. apply eqb_prop in Eu1 as <-. apply Qle_bool_iff in Eu2.
          split; auto. intros Hc. specialize (G2 Hc). lra. }
      split; [exact Hs|split].
      * intros j Hj. destruct (Nat.eq_dec j k) as [->|Hne]; [|apply G3; lia].
        exists x, b. rewrite Hfx. auto.
      * destruct G4 as [(-> & -> & Eq)|(Hr & y & Hy)].
        -- right. split; [lia|]. exists x. rewrite Efx. auto.
        -- right. split; [lia|]. eauto.
    + destruct (IH _ _ _ _ _ _ _ HF H) as (q' & -> & [G1 G2] & G3 & G4). exists q'. split; auto.
      split; [auto|split].
      * intros j Hj. destruct (Nat.eq_dec j k) as [->|Hne]; [|apply G3; lia].
        exists x, b. rewrite Hfx. repeat split; auto.
        -- intros ->. destruct cl; [auto|discriminate].
        -- intros ->. apply orb_false_iff in Eu as [Eu1 Eu2].
           destruct cl, cl'; cbn in Eu1, Eu2; try discriminate; try (specialize (G1 eq_refl); discriminate);
             apply Qleb_gt in Eu2; specialize (G2 eq_refl); lra.
      * destruct G4 as [(-> & -> & Eq)|(Hr & y & Hy)]; [left; auto|]. right. split; [lia|]. eauto.
Qed.

(** a member is a clone when some other member is at distance zero *)
Definition clone_in (pop : list indQ) (a : indQ) : Prop :=
  exists b, In b pop /\ i_number b <> i_number a /\ pair_distance a b = Ok 0.

Section Select.
  Variable L : lib.
  Hypothesis LOK : lib_ok L.
  Variable p : @problem NumQ.
  Variable c : @config NumQ.
  Hypothesis Hdim : 0 < p_dim p.

  Lemma pair_ok (a b : indQ) : settled p a -> settled p b -> pair_distance a b = Ok (D a b).
  Proof.
    intros Ha Hb. unfold D, pair_distance.
    destruct (bpd_ok p a b Ha Hb) as (d1 & E1 & _), (bpd_ok p b a Hb Ha) as (d2 & E2 & _).
    destruct (i_number a <? i_number b); rewrite ?E1, ?E2; reflexivity.
  Qed.

  Lemma others_number (l1 l2 : list indQ) a b : NoDup (map i_number (l1 ++ a :: l2)) ->
    (In b (l1 ++ l2) <-> In b (l1 ++ a :: l2) /\ i_number b <> i_number a).
  Proof.
    intros Hnd. assert (Hnd2 : NoDup (i_number a :: map i_number (l1 ++ l2))).
    { change (NoDup (map i_number (a :: l1 ++ l2))). eapply Permutation_NoDup; [|exact Hnd].
      apply Permutation_map. symmetry. apply Permutation_middle. }
    inversion Hnd2 as [|? ? Hn _]. subst. split.
    - intros Hb. split; [apply in_app_or in Hb; apply in_or_app; cbn; tauto|].
      intros E. apply Hn. rewrite <- E. now apply in_map.
    - intros [Hb Hne]. apply in_app_or in Hb. apply in_or_app. destruct Hb as [?|[?|?]]; auto. congruence.
  Qed.

  Lemma clone_spec (s : subQ) x b : Table (sp_div s) (sp_pop s) ->
    (forall m, In m (sp_pop s) -> settled p m) -> 2 <= length (sp_pop s) ->
    In x (sp_pop s) -> individual_is_clone s x = Ok b -> (b = true <-> clone_in (sp_pop s) x).
  Proof.
    intros HT Hms Hl Hx Hb. pose proof Hx as Hx0.
    apply in_split in Hx as (l1 & l2 & Esp).
    destruct (entry_some _ _ _ _ _ HT Esp Hl) as (v & Ev & Hlen & Hs & Hp).
    unfold individual_is_clone in Hb. rewrite Ev in Hb. destruct v as [|d0 v]; [discriminate|]. cbn in Hb.
    injection Hb as <-. rewrite Nat.eqb_eq.
    destruct HT as (Hnd & _). rewrite Esp in Hnd. pose proof (fun y => others_number l1 l2 x y Hnd) as Ho.
    rewrite <- Esp in Ho. split.
    - intros Hd. assert (Hin : In d0 (map (ent x) (l1 ++ l2))) by (eapply Permutation_in; [exact Hp|now left]).
      apply in_map_iff in Hin as (y & <- & Hy). apply Ho in Hy as [Hy Hne]. exists y. repeat split; auto.
      rewrite pair_ok by auto. cbn in Hd. now rewrite Hd.
    - intros (y & Hy & Hne & Ed). rewrite pair_ok in Ed by auto. injection Ed as Ed.
      assert (Hin : In (ent x y) (d0 :: v)).
      { eapply Permutation_in; [symmetry; exact Hp|]. apply in_map. now apply Ho. }
      inversion Hs as [|? ? _ Hf]. subst. destruct Hin as [->|Hin]; [exact Ed|].
      pose proof (proj1 (Forall_forall _ _) Hf _ Hin) as Hle. cbn in Hle. lia.
  Qed.

  Lemma fitted_rank (s : subQ) : fitted c s -> 2 <= length (sp_pop s) ->
    forall j x, nth_error (sp_pop s) j = Some x ->
    exists d, d <= length (sp_pop s) - 1 /\ i_fitness x = Some (fit (length (sp_pop s)) (c_num_elites c) j d).
  Proof.
    intros Hf Hl j x Hx. unfold fitted in Hf.
    assert (Hf' : exists avgs, mapm (fun i => average_bpd s i (c_num_diversity_closest c)) (sp_pop s) = Ok avgs /\
        forall d idx, nth_error (ranking avgs) d = Some idx ->
          exists x, nth_error (sp_pop s) idx = Some x /\
            i_fitness x = Some (biased_fitness (length (sp_pop s)) (c_num_elites c) idx d)).
    { destruct (sp_pop s) as [|a [|b l]] eqn:Ep; cbn in Hl; try lia. exact Hf. }
    clear Hf. destruct Hf' as (avgs & Ha & Hr).
    assert (Hlen : length avgs = length (sp_pop s)) by (apply mapm_spec in Ha; apply Forall2_length in Ha; auto).
    assert (Hj : In j (ranking avgs)).
    { eapply Permutation_in; [symmetry; apply ranking_perm|]. apply in_seq. rewrite Hlen.
      assert (j < length (sp_pop s)) by (apply nth_error_Some; congruence). lia. }
    apply In_nth_error in Hj as (d & Hd). destruct (Hr _ _ Hd) as (x' & Hx' & Hfx).
    exists d. split.
    - assert (d < length (ranking avgs)) by (apply nth_error_Some; congruence).
      rewrite (Permutation_length (ranking_perm avgs)), seq_length in H. lia.
    - rewrite Hx in Hx'. injection Hx' as <-. exact Hfx.
  Qed.

  (** Which member survivor selection removes. *)
  Lemma natural_selection_worst (s s' : subQ) : Table (sp_div s) (sp_pop s) ->
    (forall m, In m (sp_pop s) -> settled p m) -> fitted c s -> 2 <= length (sp_pop s) ->
    natural_selection c s = Ok s' ->
    exists w x, 1 <= w < length (sp_pop s) /\ nth_error (sp_pop s) w = Some x /\
      map core (sp_pop s') = map core (remove_nth (sp_pop s) w) /\
      (clone_in (sp_pop s) x \/
       (~ clone_in (sp_pop s) x /\
        (forall j y, 1 <= j -> nth_error (sp_pop s) j = Some y ->
           ~ clone_in (sp_pop s) y /\ (fitness_of y <= fitness_of x)%Q) /\
        (c_num_elites c < length (sp_pop s) -> c_num_elites c <= w))).
  Proof.
    intros HT Hms Hf Hl H. unfold natural_selection in H.
    destruct (foldm (worst_step s) (seq 1 (length (sp_pop s) - 1)) (1, false, Some (flit (-1) 1))) as [[[w cl] f]|e] eqn:E;
      [|discriminate].
    cbn [rbind] in H. apply remove_individual_spec in H as (x & Hx & H1 & _).
    assert (HF : forall i y, nth_error (sp_pop s) i = Some y -> exists q : Q, i_fitness y = Some q).
    { intros i y Hy. destruct (fitted_rank s Hf Hl i y Hy) as (d & _ & ->). eauto. }
    assert (HF0 : forall i y, nth_error (sp_pop s) i = Some y -> (0 <= fitness_of y)%Q).
    { intros i y Hy. destruct (fitted_rank s Hf Hl i y Hy) as (d & _ & Ey). unfold fitness_of. rewrite Ey.
      apply fit_nonneg. auto. }
    pose proof (worst_scan s 1 (length (sp_pop s) - 1) 1 false (-1 # 1)%Q w cl f HF E) as (q & -> & _ & Hall & Hcase).
    replace (1 + (length (sp_pop s) - 1)) with (length (sp_pop s)) in * by lia.
    assert (Hw : 1 <= w < length (sp_pop s) /\ individual_is_clone s x = Ok cl /\ i_fitness x = Some q).
    { destruct Hcase as [(-> & -> & Eq)|(Hr & y & Hy & Hc & Hfy)].
      - exfalso. injection Eq as ->. destruct (Hall 1 ltac:(lia)) as (y & b & Hy & Hb & Hb1 & Hb2).
        destruct b; [specialize (Hb1 eq_refl); discriminate|]. specialize (Hb2 eq_refl).
        specialize (HF0 _ _ Hy). lra.
      - rewrite Hx in Hy. injection Hy as <-. auto. }
    destruct Hw as (Hw & Hc & Hfx).
    assert (Hfq : fitness_of x = q) by (unfold fitness_of; now rewrite Hfx).
    exists w, x. split; [auto|]. split; [auto|]. split; [auto|].
    pose proof (clone_spec s x cl HT Hms Hl (nth_error_In _ _ Hx) Hc) as Hcl.
    destruct cl; [left; now apply Hcl|right].
    assert (Hno : forall j y, 1 <= j -> nth_error (sp_pop s) j = Some y ->
           ~ clone_in (sp_pop s) y /\ (fitness_of y <= fitness_of x)%Q).
    { intros j y Hj Hy. assert (j < length (sp_pop s)) by (apply nth_error_Some; congruence).
      destruct (Hall j ltac:(lia)) as (y' & b & Hy' & Hb & Hb1 & Hb2). rewrite Hy in Hy'. injection Hy' as <-.
      destruct b; [specialize (Hb1 eq_refl); discriminate|]. split.
      - rewrite <- (clone_spec s y false HT Hms Hl (nth_error_In _ _ Hy) Hb). discriminate.
      - rewrite Hfq. auto. }
    split; [intros Hn; apply Hcl in Hn; discriminate|]. split; [exact Hno|].
    intros HE. apply Nat.nlt_ge. intros Hlt.
    destruct (fitted_rank s Hf Hl w x Hx) as (d & Hd & Efx). rewrite Hfx in Efx. injection Efx as Eq.
    destruct (nth_error (sp_pop s) (length (sp_pop s) - 1)) as [y|] eqn:Ey; [|apply nth_error_None in Ey; lia].
    destruct (Hno (length (sp_pop s) - 1) y ltac:(lia) Ey) as [_ Hle].
    destruct (fitted_rank s Hf Hl _ y Ey) as (d' & Hd' & Efy).
    pose proof (fit_elite (length (sp_pop s)) (c_num_elites c) Hl w d d' HE Hlt Hd) as Hfit.
    unfold fitness_of in Hle. rewrite Efy, Hfx, Eq in Hle. lra.
  Qed.

  Lemma firstn_remove {A} (l : list A) n w : n <= w -> firstn n (remove_nth l w) = firstn n l.
  Proof.
    intros H. unfold remove_nth. destruct (Nat.le_gt_cases (length l) w) as [Hl|Hl].
    - rewrite (firstn_all2 l) by auto. rewrite skipn_all2 by lia. now rewrite app_nil_r.
    - rewrite firstn_app, firstn_length, Nat.min_l by lia. replace (n - w) with 0 by lia. cbn.
      rewrite app_nil_r, firstn_firstn, Nat.min_l; auto.
  Qed.

  Definition no_clones (pop : list indQ) : Prop := forall a, In a pop -> ~ clone_in pop a.

  Lemma pair_distance_core (a b a' b' : indQ) : core a = core a' -> core b = core b' -> pair_distance a b = pair_distance a' b'.
  Proof.
    intros Ha Hb. change (pair_distance a b) with (pair_distance (core a) (core b)). rewrite Ha, Hb. reflexivity.
  Qed.

  Lemma no_clones_sub (pop pop' : list indQ) : incl (map core pop') (map core pop) -> no_clones pop -> no_clones pop'.
  Proof.
    intros Hi Hn a Ha (b & Hb & Hne & Hd).
    destruct (in_core _ _ _ Hi Ha) as (a' & Ha' & Ea), (in_core _ _ _ Hi Hb) as (b' & Hb' & Eb).
    apply (Hn a' Ha'). exists b'. split; [auto|]. split.
    - rewrite (core_number _ _ Ea), (core_number _ _ Eb). auto.
    - rewrite (pair_distance_core a' b' a b); auto.
  Qed.

  Lemma selection_elites fuel : forall s s' : subQ, Table (sp_div s) (sp_pop s) ->
    (forall m, In m (sp_pop s) -> settled p m) -> fitted c s -> no_clones (sp_pop s) ->
    1 <= c_min_population_size c -> c_num_elites c <= c_min_population_size c ->
    selection_loop c fuel s = Ok s' ->
    firstn (c_num_elites c) (map core (sp_pop s')) = firstn (c_num_elites c) (map core (sp_pop s)).
  Proof.
    induction fuel as [|fuel IH]; intros s s' HT Hms Hf Hn Hmin HE H; cbn [selection_loop] in H;
      destruct (Nat.ltb_spec (c_min_population_size c) (length (sp_pop s))) as [Hl|Hl]; try discriminate; try congruence.
    destruct (natural_selection c s) as [s1|e] eqn:E; [|discriminate]. cbn [rbind] in H.
    pose proof (natural_selection_spec c s s1 E) as (w' & _ & _ & _ & Hf1 & HT1).
    destruct (natural_selection_worst s s1 HT Hms Hf ltac:(lia) E) as (w & x & Hw & Hx & Hm & Hc).
    assert (Hi : incl (map core (sp_pop s1)) (map core (sp_pop s))).
    { rewrite Hm, remove_nth_map. intros y Hy. eapply sublist_in; [apply sublist_remove|eauto]. }
    rewrite (IH s1 s'); auto.
    - rewrite Hm, remove_nth_map. apply firstn_remove. destruct Hc as [Hc|(_ & _ & Hc)].
      + exfalso. apply (Hn x); auto. eapply nth_error_In; eauto.
      + apply Hc. lia.
    - intros m Hin. destruct (in_core _ _ _ Hi Hin) as (m' & Hin' & Em). eapply settled_core; eauto.
    - eapply no_clones_sub; eauto.
  Qed.

  (** ** Order by cost *)
  Definition cost_of (i : indQ) : Q := match penalized_cost i with Some q => q | None => 0%Q end.

  Lemma settled_cost (i : indQ) : settled p i -> exists q : Q, penalized_cost i = Some q /\ cost_of i = q.
  Proof. intros (_ & _ & pen & e & E). unfold cost_of, penalized_cost. rewrite E. cbn. eauto. Qed.

  (** costs are equal or differ by at least the tolerance *)
  Definition separated (l : list indQ) : Prop := forall a b, In a l -> In b l ->
    cost_of a == cost_of b \/ (1 # 1000000 <= Qabs (cost_of a - cost_of b))%Q.
  Definition by_cost (l : list indQ) : Prop := StronglySorted (fun a b => (cost_of a <= cost_of b)%Q) l.

  Lemma ind_cmp_Q (a b : indQ) : settled p a -> settled p b ->
    (cost_of a == cost_of b \/ (1 # 1000000 <= Qabs (cost_of a - cost_of b))%Q) ->
    exists o, ind_cmp a b = Some o /\ match o with
      | Lt => (cost_of a < cost_of b)%Q | Eq => cost_of a == cost_of b | Gt => (cost_of b < cost_of a)%Q end.
  Proof.
    intros Ha Hb Hs. destruct (settled_cost a Ha) as (qa & Ea & Ca), (settled_cost b Hb) as (qb & Eb & Cb).
    unfold ind_cmp, cost_cmp. rewrite Ea, Eb, Ca, Cb in *.
    destruct (@approx_eq NumQ qa qb) eqn:E1.
    - exists Eq. split; auto. apply approx_eq_Q in E1. destruct Hs as [Hs|Hs]; auto.
      exfalso. apply Qle_not_lt in Hs. apply Hs. apply Qabs_lt_iff. lra.
    - cbn [flt NumQ]. destruct (Qltb qa qb) eqn:E2; qdec; [exists Lt; auto|].
      destruct (Qltb qb qa) eqn:E3; qdec; [exists Gt; auto|].
      cbn [feqb NumQ]. assert (Heq : qa == qb) by lra. apply Qeq_bool_iff in Heq. rewrite Heq.
      exists Eq. split; auto. now apply Qeq_bool_iff.
  Qed.

  Lemma comparable_Q (a b : indQ) : settled p a -> settled p b -> comparable a b = true.
  Proof.
    intros Ha Hb. destruct (settled_cost a Ha) as (qa & Ea & _), (settled_cost b Hb) as (qb & Eb & _).
    unfold comparable, ind_cmp, cost_cmp. rewrite Ea, Eb.
    destruct (@approx_eq NumQ qa qb); auto. cbn [flt feqb NumQ]. destruct (Qltb qa qb) eqn:E2; qdec; auto.
    destruct (Qltb qb qa) eqn:E3; qdec; auto.
    assert (Heq : qa == qb) by lra. apply Qeq_bool_iff in Heq. now rewrite Heq.
  Qed.

  Lemma by_cost_partition (i : indQ) l : settled p i -> (forall m, In m l -> settled p m) ->
    separated (i :: l) -> by_cost l ->
    exists a b d, l = a ++ b ++ d /\
      Forall (fun m => cmp_or_eq (ind_cmp m i) = Lt /\ (cost_of m < cost_of i)%Q) a /\
      Forall (fun m => cmp_or_eq (ind_cmp m i) = Eq /\ cost_of m == cost_of i) b /\
      Forall (fun m => cmp_or_eq (ind_cmp m i) = Gt /\ (cost_of i < cost_of m)%Q) d.
  Proof.
    intros Hi Hms Hsep Hs. induction Hs as [|m l Hs IH Hf].
    - exists [], [], []. repeat split; constructor.
    - destruct IH as (a & b & d & -> & Ha & Hb & Hd).
      + intros; apply Hms; now right.
      + intros x y Hx Hy. apply Hsep; cbn in *; tauto.
      + destruct (ind_cmp_Q m i) as (o & Eo & Ho); auto; [apply Hms; now left|apply Hsep; cbn; auto|].
        assert (Hco : cmp_or_eq (ind_cmp m i) = o) by (now rewrite Eo).
        assert (Hfa : forall x, In x (a ++ b ++ d) -> (cost_of m <= cost_of x)%Q) by (apply Forall_forall; exact Hf).
        destruct o.
        * assert (a = []) as ->.
          { destruct a as [|y a]; auto. inversion Ha as [|? ? [_ Hy] _]. subst. specialize (Hfa y ltac:(now left)). lra. }
          exists [], (m :: b), d. repeat split; auto.
        * exists (m :: a), b, d. repeat split; auto.
        * assert (a = []) as ->.
          { destruct a as [|y a]; auto. inversion Ha as [|? ? [_ Hy] _]. subst. specialize (Hfa y ltac:(now left)). lra. }
          assert (b = []) as ->.
          { destruct b as [|y b]; auto. inversion Hb as [|? ? [_ Hy] _]. subst. specialize (Hfa y ltac:(now left)). lra. }
          exists [], [], (m :: d). repeat split; auto.
  Qed.

  Lemma insert_by_cost (s : subQ) (i : indQ) : settled p i -> (forall m, In m (sp_pop s) -> settled p m) ->
    separated (i :: sp_pop s) -> by_cost (sp_pop s) ->
    by_cost (insert_nth (sp_pop s) (insert_index L s i) i).
  Proof.
    intros Hi Hms Hsep Hs.
    destruct (by_cost_partition i _ Hi Hms Hsep Hs) as (a & b & d & E & Ha & Hb & Hd).
    pose proof (bs_part L LOK _ (fun m => cmp_or_eq (ind_cmp m i)) a b d
      (Forall_impl _ (fun _ H => proj1 H) Ha) (Forall_impl _ (fun _ H => proj1 H) Hb) (Forall_impl _ (fun _ H => proj1 H) Hd)) as Hix.
    rewrite <- E in Hix. fold (insert_index L s i) in Hix. set (ix := insert_index L s i) in *.
    unfold insert_nth, by_cost in *. rewrite Forall_forall in Ha, Hb, Hd.
    rewrite <- (firstn_skipn ix (sp_pop s)) in Hs.
    apply StronglySorted_app in Hs as (H1 & H2 & H3). apply StronglySorted_app.
    assert (Hle : forall x, In x (firstn ix (sp_pop s)) -> (cost_of x <= cost_of i)%Q).
    { intros x Hx. rewrite E, app_assoc, firstn_app in Hx. apply in_app_or in Hx as [Hx|Hx].
      - apply in_firstn in Hx. apply in_app_or in Hx as [Hx|Hx].
        + apply Ha in Hx. lra.
        + apply Hb in Hx. lra.
      - rewrite app_length in Hx. rewrite (proj2 (Nat.sub_0_le _ _)) in Hx by exact (proj2 Hix). destruct Hx. }
    assert (Hge : forall x, In x (skipn ix (sp_pop s)) -> (cost_of i <= cost_of x)%Q).
    { intros x Hx. rewrite E, skipn_app in Hx. apply in_app_or in Hx as [Hx|Hx].
      - rewrite skipn_all2 in Hx by exact (proj1 Hix). destruct Hx.
      - assert (Hx' : In x (b ++ d)).
        { rewrite <- (firstn_skipn (ix - length a) (b ++ d)). apply in_or_app. now right. }
        apply in_app_or in Hx' as [Hx'|Hx'].
        + apply Hb in Hx'. lra.
        + apply Hd in Hx'. lra. }
    split; [auto|]. split.
    - constructor; auto. apply Forall_forall. auto.
    - intros x y Hx [<-|Hy]; auto.
  Qed.

  Lemma by_cost_core (l : list indQ) : by_cost l <-> by_cost (map core l).
  Proof.
    unfold by_cost. induction l as [|a l IH]; [split; constructor|]. cbn [map]. split; intros H; inversion H as [|? ? Hs Hf]; subst; constructor.
    - now apply IH.
    - rewrite Forall_forall in *. intros x Hx. apply in_map_iff in Hx as (y & <- & Hy). exact (Hf y Hy).
    - now apply IH.
    - rewrite Forall_forall in *. intros x Hx. exact (Hf _ (in_map core _ _ Hx)).
  Qed.

  Lemma sub_add_by_cost (s s' : subQ) (i : indQ) : settled p i -> (forall m, In m (sp_pop s) -> settled p m) ->
    separated (i :: sp_pop s) -> by_cost (sp_pop s) -> sub_add L c s i = Ok s' -> by_cost (sp_pop s').
  Proof.
    intros Hi Hms Hsep Hs H. apply (sub_add_spec L LOK) in H as (cl & s1 & _ & H1 & _ & _ & _ & H).
    assert (Hs1 : by_cost (map core (sp_pop s1))).
    { rewrite H1. destruct cl; [now apply -> by_cost_core|]. rewrite <- insert_nth_map. apply -> by_cost_core.
      now apply insert_by_cost. }
    apply by_cost_core. destruct (_ <=? _).
    - apply selection_loop_spec in H as (_ & _ & H & _). unfold by_cost in *. eapply sublist_sorted; eauto.
    - injection H as <-. exact Hs1.
  Qed.

  Lemma sort_by_cost (l : list indQ) : (forall m, In m l -> settled p m) -> separated l ->
    by_cost (l_sort L _ (fun a b => cmp_or_eq (ind_cmp a b)) l).
  Proof.
    intros Hms Hsep.
    assert (Hc : forall a b, In a l -> In b l -> cmp_or_eq (ind_cmp a b) <> Gt <-> (cost_of a <= cost_of b)%Q).
    { intros a b Ha Hb. destruct (ind_cmp_Q a b) as (o & Eo & Ho); auto. rewrite Eo. cbn.
      destruct o; split; intros; try lra; try discriminate. exfalso. now apply H. }
    pose proof (sort_sorted L LOK _ (fun a b => cmp_or_eq (ind_cmp a b)) l) as Hs.
    assert (Hs' : StronglySorted (fun a b => cmp_or_eq (ind_cmp a b) <> Gt) (l_sort L _ (fun a b => cmp_or_eq (ind_cmp a b)) l)).
    { apply Hs.
      - intros x y Hx Hy. rewrite !Hc by auto. destruct (Qlt_le_dec (cost_of x) (cost_of y)); [left|right]; lra.
      - intros x y z Hx Hy Hz. rewrite !Hc by auto. lra. }
    pose proof (sort_perm L LOK _ (fun a b => cmp_or_eq (ind_cmp a b)) l) as Hp.
    unfold by_cost. clear Hs. revert Hs' Hp. generalize (l_sort L indQ (fun a b => cmp_or_eq (ind_cmp a b)) l). intros l' Hs' Hp.
    assert (Hin : forall x, In x l' -> In x l) by (intros; eapply Permutation_in; eauto). clear Hp.
    induction Hs' as [|x l' Hs IH Hf]; constructor; [apply IH; intros; apply Hin; now right|].
    rewrite Forall_forall in *. intros y Hy. apply Hc; auto; apply Hin; [now left|now right].
  Qed.
End Select.

(** ** Tournament *)
Section Tournament.
  (** the index of the [k]-th contestant *)
  Definition contestant {N : Num} (P : population) (r : rng) (k : nat) : nat :=
    N.to_nat (N.modulo (rdraw r (rpos r + k)) (N.of_nat (pop_size P))).

  Lemma draw_indices_spec k size : forall r, 0 < size ->
    exists r', draw_indices k size r =
      Ok (map (fun j => N.to_nat (N.modulo (rdraw r (rpos r + j)) (N.of_nat size))) (seq 0 k), r')
      /\ rdraw r' = rdraw r /\ rpos r' = rpos r + k.
  Proof.
    induction k as [|k IH]; intros r Hs; cbn [draw_indices].
    - exists r. rewrite Nat.add_0_r. auto.
    - unfold range_usize. rewrite (proj2 (Nat.ltb_lt _ _) Hs). unfold draw. cbn [rbind].
      destruct (IH (mkRng (rdraw r) (S (rpos r))) Hs) as (r' & E & H1 & H2). rewrite E. cbn [rbind].
      exists r'. split; [|split; [exact H1|rewrite H2; cbn; lia]].
      do 2 f_equal. cbn [seq map]. rewrite Nat.sub_0_r, Nat.add_0_r. f_equal.
      rewrite <- seq_shift, map_map. apply map_ext. intros a. cbn [rdraw rpos]. now rewrite <- Nat.add_succ_comm.
  Qed.

  Definition members {N : Num} (P : population) := sp_pop (po_feas P) ++ sp_pop (po_infeas P).
  Lemma pop_member_eq {N : Num} P k : pop_member P k = geti (members P) k.
  Proof.
    unfold pop_member, members, geti. destruct (Nat.ltb_spec k (length (sp_pop (po_feas P)))).
    - now rewrite nth_error_app1.
    - now rewrite nth_error_app2.
  Qed.

  Lemma olt_trans_Q (a b d : option Q) : @olt NumQ a b = false -> @olt NumQ d b = true -> @olt NumQ a d = false.
  Proof.
    destruct a as [a|], b as [b|], d as [d|]; cbn; try discriminate; auto; intros; qdec.
    apply Qltb_ge. lra.
  Qed.

  Lemma winner_loop (P : @population NumQ) idxs : forall w w',
    foldm (@winner_step NumQ P) idxs w = Ok w' ->
    (w' = None -> w = None /\ idxs = []) /\
    (forall i, w' = Some i ->
      (w = Some i \/ exists j, In j idxs /\ nth_error (members P) j = Some i) /\
      (forall i0, w = Some i0 -> @olt NumQ (i_fitness i0) (i_fitness i) = false) /\
      (forall j, In j idxs -> exists x, nth_error (members P) j = Some x /\ @olt NumQ (i_fitness x) (i_fitness i) = false)).
  Proof.
    assert (Hirr : forall a : option Q, @olt NumQ a a = false).
    { intros [a|]; auto. cbn. apply Qltb_ge. lra. }
    assert (Htr : forall a b d : option Q, @olt NumQ a b = false -> @olt NumQ b d = false -> @olt NumQ a d = false).
    { intros [a|] [b|] [d|]; cbn; try discriminate; auto. intros. qdec. apply Qltb_ge. lra. }
    assert (Has : forall a b : option Q, @olt NumQ a b = true -> @olt NumQ b a = false).
    { intros [a|] [b|]; cbn; try discriminate; auto. intros. qdec. apply Qltb_ge. lra. }
    induction idxs as [|j idxs IH]; intros w w' H.
    - injection H as <-. split; [auto|]. intros i ->. split; [auto|]. split; [|intros j []].
      intros i0 E. injection E as ->. apply Hirr.
    - cbn [foldm] in H. unfold winner_step in H at 1. rewrite pop_member_eq in H.
      destruct (geti (members P) j) as [x|e] eqn:Ex; [|discriminate]. cbn [rbind] in H. apply geti_inv in Ex.
      destruct w as [cw|].
      + destruct (@olt NumQ (i_fitness x) (i_fitness cw)) eqn:E; apply IH in H as [H1 H2].
        * split; [intros E'; destruct (H1 E'); discriminate|]. intros i Hi. destruct (H2 i Hi) as (G1 & G2 & G3).
          specialize (G2 x eq_refl). split; [|split].
          -- right. destruct G1 as [G1|(k & Hk & Ek)]; [injection G1 as <-; exists j; cbn; auto|exists k; cbn; auto].
          -- intros i0 E0. injection E0 as <-. eapply Htr; [|exact G2]. now apply Has.
          -- intros k [<-|Hk]; [exists x; auto|auto].
        * split; [intros E'; destruct (H1 E'); discriminate|]. intros i Hi. destruct (H2 i Hi) as (G1 & G2 & G3).
          split; [|split].
          -- destruct G1 as [G1|(k & Hk & Ek)]; [auto|right; exists k; cbn; auto].
          -- intros i0 E0. now apply G2.
          -- intros k [<-|Hk]; [|auto]. exists x. split; auto. eapply Htr; [exact E|]. now apply G2.
      + apply IH in H as [H1 H2]. split; [intros E'; destruct (H1 E'); discriminate|].
        intros i Hi. destruct (H2 i Hi) as (G1 & G2 & G3). specialize (G2 x eq_refl). split; [|split].
        * right. destruct G1 as [G1|(k & Hk & Ek)]; [injection G1 as <-; exists j; cbn; auto|exists k; cbn; auto].
        * discriminate.
        * intros k [<-|Hk]; [exists x; auto|auto].
  Qed.

  Lemma winner_ok {N : Num} (P : population) idxs : Forall (fun j => j < pop_size P) idxs ->
    forall w, exists w', foldm (winner_step P) idxs w = Ok w'.
  Proof.
    induction 1 as [|j idxs Hj _ IH]; intros w; cbn [foldm]; eauto.
    unfold winner_step at 1. rewrite pop_member_eq.
    destruct (nth_error (members P) j) as [x|] eqn:E.
    - rewrite (geti_some _ _ _ E). cbn [rbind]. destruct w as [cw|]; [destruct (olt _ _)|]; apply IH.
    - apply nth_error_None in E. unfold members in E. rewrite app_length in E. unfold pop_size in Hj. lia.
  Qed.

  Lemma tournament_spec (P : @population NumQ) num r : 0 < pop_size P -> 0 < num ->
    exists w r', tournament num P r = Ok (w, r') /\
      (exists k, k < num /\ nth_error (members P) (contestant P r k) = Some w) /\
      (forall k, k < num -> exists x, nth_error (members P) (contestant P r k) = Some x /\
         @olt NumQ (i_fitness x) (i_fitness w) = false) /\
      rpos r' = rpos r + num.
  Proof.
    intros Hs Hn. unfold tournament. destruct (draw_indices_spec num (pop_size P) r Hs) as (r' & E & _ & Hp).
    rewrite E. cbn [rbind]. fold (contestant P r) in *.
    change (fun j => N.to_nat (rdraw r (rpos r + j) mod N.of_nat (pop_size P))) with (contestant P r) in *.
    assert (Hf : Forall (fun j => j < pop_size P) (map (contestant P r) (seq 0 num))).
    { apply Forall_forall. intros j Hj. apply in_map_iff in Hj as (k & <- & _). unfold contestant.
      assert (Hm : (rdraw r (rpos r + k) mod N.of_nat (pop_size P) < N.of_nat (pop_size P))%N) by (apply N.mod_lt; lia).
      revert Hm. generalize (rdraw r (rpos r + k) mod N.of_nat (pop_size P))%N. intros. lia. }
    destruct (winner_ok P _ Hf None) as (w' & Ew). rewrite Ew. cbn [rbind].
    apply winner_loop in Ew as [H1 H2]. destruct w' as [w|].
    - destruct (H2 w eq_refl) as (G1 & _ & G3). exists w, r'. split; [reflexivity|]. split; [|split; [|exact Hp]].
      + destruct G1 as [G1|(j & Hj & Ej)]; [discriminate|]. apply in_map_iff in Hj as (k & <- & Hk). apply in_seq in Hk.
        exists k. split; [lia|exact Ej].
      + intros k Hk. apply G3. apply in_map. apply in_seq. lia.
    - destruct (H1 eq_refl) as [_ H]. destruct num; [lia|discriminate].
  Qed.
End Tournament.
