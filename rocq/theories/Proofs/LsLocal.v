(** The cost change of a move is determined by the routes of its two nodes, and the outcome of
    SWAP* by the solution. *)
From Coq Require Import List Arith ZArith Bool Lia Permutation.
From Verif.Model Require Import Num Prelude Evaluate Config Sector Matrix LinkedList LocalSearch.
From Verif.Spec Require Import Solution LocalSearch.
From Verif.Proofs Require Import Lists LinkFacts EvalThms LsState LsMoves LsStar.
Import ListNotations.
Open Scope nat_scope.

Section Local.
  Context {N : Num}.
  Variable p : problem.
  Variable c : config.
  Variable pen : F.
  Notation nv := (c_num_vehicles c).
  Notation holds := (holds p c pen).

  Section Two.
    Variables s s' : lsearch.
    Variables rs rs' : nat -> list nat.
    Hypothesis H : holds s rs.
    Hypothesis H' : holds s' rs'.

    Lemma agree_routes r : r < nv -> rs' r = rs r ->
      r_ncust (s_routes s' r) = r_ncust (s_routes s r) /\ r_dist (s_routes s' r) = r_dist (s_routes s r) /\
      r_load (s_routes s' r) = r_load (s_routes s r) /\ r_over (s_routes s' r) = r_over (s_routes s r) /\
      r_cost (s_routes s' r) = r_cost (s_routes s r) /\ r_sector (s_routes s' r) = r_sector (s_routes s r).
    Proof using H H'.
      intros Hr E. destruct (h_cached _ _ _ _ _ H r Hr) as [_ (A1 & A2 & A3 & A4 & A5 & A6)].
      destruct (h_cached _ _ _ _ _ H' r Hr) as [_ (B1 & B2 & B3 & B4 & B5 & B6)]. rewrite E in *.
      rewrite B1, B2, B3, B6, B5, B4, B2, B3, A1, A6, A5, A4, A2, A3. auto 10.
    Qed.

    Lemma agree_stop r a : r < nv -> rs' r = rs r -> In a (stops r (rs r)) ->
      succ_ s' a = succ_ s a /\ pred_ s' a = pred_ s a /\ route_ s' a = route_ s a /\
      n_route (s_info s' a) = n_route (s_info s a) /\ n_pos (s_info s' a) = n_pos (s_info s a) /\
      n_cumd (s_info s' a) = n_cumd (s_info s a) /\ n_cuml (s_info s' a) = n_cuml (s_info s a) /\
      route_ s a = Ok r /\ (forall b, succ_ s a = Ok b -> In b (stops r (rs r))).
    Proof using H H'.
      intros Hr E I. apply in_split in I. destruct I as (A & B & ES).
      assert (ES' : stops r (rs' r) = A ++ a :: B) by (rewrite E; auto).
      destruct (h_runs _ _ _ _ _ H r Hr) as (R1 & R2 & R3).
      destruct (h_runs _ _ _ _ _ H' r Hr) as (R1' & R2' & R3'). rewrite E in R1'.
      destruct (h_cached _ _ _ _ _ H r Hr) as [C _]. destruct (C _ _ _ ES) as (C1 & C2 & C3 & C4).
      destruct (h_cached _ _ _ _ _ H' r Hr) as [C' _]. destruct (C' _ _ _ ES') as (C1' & C2' & C3' & C4').
      assert (SS : l_succ (s_links s') a = l_succ (s_links s) a /\
                   forall b, l_succ (s_links s) a = Some b -> In b (stops r (rs r))).
      { destruct B as [|b B].
        - assert (a = PE r) as ->.
          { apply (f_equal (fun l => last l d0)) in ES. unfold stops in ES.
            rewrite app_comm_cons, !last_last in ES. auto. }
          rewrite R3, R3'. split; auto. intros b Q. discriminate.
        - destruct (R1 _ _ _ _ ES) as [-> _]. destruct (R1' _ _ _ _ ES) as [-> _].
          split; auto. intros b' Q. injection Q as <-. rewrite ES. auto with datatypes. }
      assert (SP : l_pred (s_links s') a = l_pred (s_links s) a).
      { destruct A as [|z A0] using rev_ind.
        - injection ES as <- _. rewrite R2, R2'. auto.
        - clear IHA0. rewrite <- app_assoc in ES. cbn [app] in ES.
          destruct (R1 _ _ _ _ ES) as [_ ->]. destruct (R1' _ _ _ _ ES) as [_ ->]. auto. }
      destruct SS as [SS1 SS2]. unfold succ_, pred_, route_. rewrite SS1, SP, C1, C1', C2, C2', C3, C3', C4, C4'.
      do 8 (split; [auto|]). intros b Q. apply SS2.
      destruct (l_succ (s_links s) a); cbn [deref] in Q; congruence.
    Qed.

    Lemma delta_local m u v r1 r2 : r1 < nv -> r2 < nv -> rs' r1 = rs r1 -> rs' r2 = rs r2 ->
      In u (stops r1 (rs r1)) -> In v (stops r2 (rs r2)) ->
      delta p pen m s' u v = delta p pen m s u v.
    Proof using H H'.
      intros H1 H2 E1 E2 I1 I2.
      destruct (agree_stop r1 u H1 E1 I1) as (SU & PU & RU & _ & NU & DU & LU & QU & CU).
      destruct (agree_stop r2 v H2 E2 I2) as (SV & PV & RV & _ & NV & DV & LV & QV & CV).
      destruct (agree_routes r1 H1 E1) as (_ & A2 & A3 & A4 & A5 & _).
      destruct (agree_routes r2 H2 E2) as (_ & B2 & B3 & B4 & B5 & _).
      assert (XX : forall b, succ_ s u = Ok b -> succ_ s' b = succ_ s b /\
                 n_cumd (s_info s' b) = n_cumd (s_info s b)).
      { intros b Q. destruct (agree_stop r1 b H1 E1 (CU b Q)) as (? & _ & _ & _ & _ & ? & _). auto. }
      assert (YY : forall b, succ_ s v = Ok b -> succ_ s' b = succ_ s b /\
                 n_cumd (s_info s' b) = n_cumd (s_info s b)).
      { intros b Q. destruct (agree_stop r2 b H2 E2 (CV b Q)) as (? & _ & _ & _ & _ & ? & _). auto. }
      destruct m; cbn [delta];
        unfold delta_relocate_single, delta_relocate_double, delta_relocate_double_reverse, delta_swap_one_one,
          delta_swap_two_one, delta_swap_two_two, delta_two_opt_intra, delta_two_opt_inter_reverse,
          delta_two_opt_inter, cost_change;
        rewrite ?SU, ?SV, ?PU, ?PV, ?RU, ?RV, ?QU, ?QV, ?NU, ?NV, ?DU, ?DV, ?LU, ?LV;
        destruct (succ_ s u) as [x|] eqn:EX, (succ_ s v) as [y|] eqn:EY;
        try (destruct (XX _ eq_refl) as [X1 X2]); try (destruct (YY _ eq_refl) as [Y1 Y2]);
        cbn [rbind]; rewrite ?X1, ?Y1, ?X2, ?Y2, ?A2, ?A3, ?A4, ?A5, ?B2, ?B3, ?B4, ?B5; reflexivity.
    Qed.
  End Two.

  (** ** SWAP* *)
  Section Same.
    Variables s s' : lsearch.
    Variable rs : nat -> list nat.
    Hypothesis H : holds s rs.
    Hypothesis H' : holds s' rs.
    Variables r1 r2 : nat.
    Hypothesis H1 : r1 < nv.
    Hypothesis H2 : r2 < nv.

    Lemma fresh_same r l n k k' :
      t_one (fresh p r l n k') = t_one (fresh p r l n k) /\ t_two (fresh p r l n k') = t_two (fresh p r l n k) /\
      t_three (fresh p r l n k') = t_three (fresh p r l n k).
    Proof using.
      unfold fresh.
      assert (G : forall L (t t' : tbi), t_one t' = t_one t -> t_two t' = t_two t -> t_three t' = t_three t ->
                  t_one (fold_left offer L t') = t_one (fold_left offer L t) /\
                  t_two (fold_left offer L t') = t_two (fold_left offer L t) /\
                  t_three (fold_left offer L t') = t_three (fold_left offer L t)).
      { induction L as [|[x a] L IH]; intros [a1 a2 a3 k1] [b1 b2 b3 k2] T1 T2 T3; cbn in T1, T2, T3; subst; auto.
        cbn [fold_left]. apply IH; unfold offer, tbi_add; cbn [t_one t_two t_three fst snd];
          repeat match goal with |- context [if ?x then _ else _] => destruct x end; auto. }
      apply G; reflexivity.
    Qed.

    Lemma cheapest_same u v r (Hr : r < nv) : In v (rs r) ->
      (exists k, s_best s r u = fresh p r (rs r) u k) -> (exists k, s_best s' r u = fresh p r (rs r) u k) ->
      cheapest_insert_and_removal p s' (PN u) (PN v) = cheapest_insert_and_removal p s (PN u) (PN v).
    Proof using H H'.
      intros I (k & K) (k' & K'). unfold cheapest_insert_and_removal.
      assert (IV : In (PN v) (stops r (rs r))) by (apply in_stops; right; right; eauto).
      destruct (agree_stop s s' rs rs H H' r (PN v) Hr eq_refl IV) as (SV & PV & RV & _ & _ & _ & _ & QV & _).
      rewrite RV, QV. cbn [rbind num]. rewrite K, K'.
      destruct (fresh_same r (rs r) u k k') as (T1 & T2 & T3). rewrite T1, T2, T3, SV, PV.
      destruct (offers_stored (positions p r (rs r) (PN u)) (tbi_reset k) []) as (sl & rest & S & P & L & _);
        [apply stored_reset|apply Nat.le_0_l|].
      fold (fresh p r (rs r) u k) in S.
      assert (AW : forall x a, In (x, a) sl -> away_from s' a (PN v) = away_from s a (PN v)).
      { intros x a J. unfold away_from. destruct (num a =? num (PN v)); auto.
        destruct (positions_In p r (rs r) (PN u) x a) as (X & Y & E & -> & _).
        { apply (Permutation_in _ P). apply in_or_app. auto. }
        rewrite (read_cut p c pen s rs H r X Y), (read_cut p c pen s' rs H' r X Y) by auto. auto. }
      destruct S as (S1 & S2 & S3). rewrite S1, S2, S3.
      destruct sl as [|[x1 a1] [|[x2 a2] [|[x3 a3] sl]]]; cbn [slots nth_error nth map fst snd deref rbind] in *;
        cbn [deref rbind]; rewrite ?(AW x1 a1) by (left; auto);
        rewrite ?(AW x2 a2) by (right; left; auto); reflexivity.
    Qed.

    Hypothesis R12 : ready p s rs r1 r2.
    Hypothesis R21 : ready p s rs r2 r1.
    Hypothesis R12' : ready p s' rs r1 r2.
    Hypothesis R21' : ready p s' rs r2 r1.

    Lemma drem_same r q u : ready p s rs r q -> ready p s' rs r q -> In u (rs r) ->
      n_drem (s_info s' (PN u)) = n_drem (s_info s (PN u)).
    Proof using.
      intros [D _] [D' _] I. apply in_split in I. destruct I as (A & B & E).
      rewrite (D _ _ _ E), (D' _ _ _ E). auto.
    Qed.

    Lemma swap_pair_same u v b : In u (rs r1) -> In v (rs r2) ->
      swap_pair p pen r1 r2 s' (PN u) b (PN v) = swap_pair p pen r1 r2 s (PN u) b (PN v).
    Proof using H H' H1 H2 R12 R21 R12' R21'.
      intros IU IV. unfold swap_pair.
      destruct (agree_routes s s' rs rs H H' r1 H1 eq_refl) as (_ & _ & _ & -> & _).
      destruct (agree_routes s s' rs rs H H' r2 H2 eq_refl) as (_ & _ & _ & -> & _).
      rewrite (drem_same r1 r2 u), (drem_same r2 r1 v) by auto.
      rewrite (cheapest_same u v r2 H2), (cheapest_same v u r1 H1); auto;
        try (apply R12; auto); try (apply R12'; auto); try (apply R21; auto); try (apply R21'; auto).
    Qed.

    Lemma swap_relocate_u_same u b : In u (rs r1) ->
      swap_relocate_u p pen r1 r2 s' b (PN u) = swap_relocate_u p pen r1 r2 s b (PN u).
    Proof using H H' H1 H2 R12 R12'.
      intros IU. unfold swap_relocate_u.
      destruct (agree_routes s s' rs rs H H' r1 H1 eq_refl) as (_ & _ & _ & -> & _).
      destruct (agree_routes s s' rs rs H H' r2 H2 eq_refl) as (_ & _ & _ & -> & _).
      rewrite (drem_same r1 r2 u) by auto.
      destruct R12 as [_ B], R12' as [_ B']. destruct (B u IU) as (k & K), (B' u IU) as (k' & K').
      cbn [num]. rewrite K, K'. destruct (fresh_same r2 (rs r2) u k k') as (-> & _). auto.
    Qed.

    Lemma swap_relocate_v_same v b : In v (rs r2) ->
      swap_relocate_v p pen r1 r2 s' b (PN v) = swap_relocate_v p pen r1 r2 s b (PN v).
    Proof using H H' H1 H2 R21 R21'.
      intros IV. unfold swap_relocate_v.
      destruct (agree_routes s s' rs rs H H' r1 H1 eq_refl) as (_ & _ & _ & -> & _).
      destruct (agree_routes s s' rs rs H H' r2 H2 eq_refl) as (_ & _ & _ & -> & _).
      rewrite (drem_same r2 r1 v) by auto.
      destruct R21 as [_ B], R21' as [_ B']. destruct (B v IV) as (k & K), (B' v IV) as (k' & K').
      cbn [num]. rewrite K, K'. destruct (fresh_same r1 (rs r1) v k k') as (-> & _). auto.
    Qed.
  End Same.

  Lemma foldm_same {A S} (f g : S -> A -> res S) l : forall s,
    (forall s a, In a l -> f s a = g s a) -> foldm f l s = foldm g l s.
  Proof.
    induction l as [|a l IH]; intros s E; cbn [foldm]; auto.
    rewrite E by (left; auto). destruct (g s a); auto. apply IH. intros; apply E; right; auto.
  Qed.

  (** The state in which the candidates are compared *)
  Lemma star_ready s rs r1 r2 : holds s rs -> caches p c s rs -> r1 < nv -> r2 < nv -> r1 <> r2 ->
    exists s1 s2, preprocess_insertions p s r1 r2 = Ok s1 /\ preprocess_insertions p s1 r2 r1 = Ok s2 /\
      holds s2 rs /\ ready p s2 rs r1 r2 /\ ready p s2 rs r2 r1.
  Proof.
    intros H C H1 H2 NE.
    destruct (preprocess_ok p c pen s rs r1 r2) as (s1 & E1 & P1 & C1 & R1 & _ & _); auto.
    assert (HH1 : holds s1 rs) by (eapply holds_view; [apply prepared_view|]; eauto).
    destruct (preprocess_ok p c pen s1 rs r2 r1) as (s2 & E2 & P2 & C2 & R2 & I2 & B2); auto.
    assert (HH2 : holds s2 rs) by (eapply holds_view; [apply prepared_view|]; eauto).
    exists s1, s2. do 3 (split; [auto|]). split; auto.
    destruct R1 as [Q1 Q2]. split.
    - intros A u B E. rewrite I2; [auto|]. rewrite in_map_iff. intros (k & K & I). injection K as ->.
      revert I. apply (serves_apart p c rs (h_serves _ _ _ _ _ H) r1 r2); auto. rewrite E. auto with datatypes.
    - intros u I. rewrite B2 by auto. auto.
  Qed.

  Lemma swap_star_same s s' rs r1 r2 :
    holds s rs -> caches p c s rs -> holds s' rs -> caches p c s' rs ->
    r1 < nv -> r2 < nv -> r1 <> r2 ->
    exists q q' b, swap_star_best p pen s r1 r2 = Ok (q, b) /\ swap_star_best p pen s' r1 r2 = Ok (q', b).
  Proof.
    intros H C H' C' H1 H2 NE.
    destruct (swap_star_best_ok p c pen s rs r1 r2) as (q & b & Q & _); auto.
    destruct (swap_star_best_ok p c pen s' rs r1 r2) as (q' & b' & Q' & _); auto.
    exists q, q', b. split; auto. rewrite Q'. f_equal. f_equal. revert Q Q'. unfold swap_star_best.
    destruct (star_ready s rs r1 r2) as (s1 & s2 & -> & E2 & HS & R12 & R21); auto.
    destruct (star_ready s' rs r1 r2) as (s1' & s2' & -> & E2' & HS' & R12' & R21'); auto.
    cbn [rbind]. rewrite E2, E2'. cbn [rbind].
    rewrite (customers_of_ok p c pen s2 rs HS r1), (customers_of_ok p c pen s2 rs HS r2) by auto.
    rewrite (customers_of_ok p c pen s2' rs HS' r1), (customers_of_ok p c pen s2' rs HS' r2) by auto. cbn [rbind].
    rewrite (foldm_same (fun best u => foldm (swap_pair p pen r1 r2 s2' u) (map PN (rs r2)) best)
                        (fun best u => foldm (swap_pair p pen r1 r2 s2 u) (map PN (rs r2)) best)).
    2:{ intros x a I. apply in_map_iff in I. destruct I as (u & <- & IU). apply foldm_same.
        intros y a' I. apply in_map_iff in I. destruct I as (v & <- & IV).
        apply (swap_pair_same s2 s2' rs); auto. }
    destruct (foldm _ _ bss_new) as [b1|]; cbn [rbind]; [|discriminate].
    rewrite (foldm_same (swap_relocate_u p pen r1 r2 s2') (swap_relocate_u p pen r1 r2 s2)).
    2:{ intros x a I. apply in_map_iff in I. destruct I as (u & <- & IU).
        apply (swap_relocate_u_same s2 s2' rs); auto. }
    destruct (foldm _ _ b1) as [b2|]; cbn [rbind]; [|discriminate].
    rewrite (foldm_same (swap_relocate_v p pen r1 r2 s2') (swap_relocate_v p pen r1 r2 s2)).
    2:{ intros x a I. apply in_map_iff in I. destruct I as (v & <- & IV).
        apply (swap_relocate_v_same s2 s2' rs); auto. }
    destruct (foldm _ _ b2) as [b3|]; cbn [rbind]; congruence.
  Qed.

  (** Whether SWAP* performs an exchange depends on the solution only. *)
  Lemma swap_star_quiet s s' rs r1 r2 q :
    holds s rs -> caches p c s rs -> holds s' rs -> caches p c s' rs ->
    r1 < nv -> r2 < nv -> r1 <> r2 ->
    swap_star_run p pen s r1 r2 = Ok (q, false) -> exists q', swap_star_run p pen s' r1 r2 = Ok (q', false).
  Proof.
    intros H C H' C' H1 H2 NE. unfold swap_star_run.
    destruct (swap_star_same s s' rs r1 r2) as (x & x' & b & -> & ->); auto. cbn [rbind].
    destruct (not_improving (b_cost b)); [eauto|].
    destruct (move_to _ (b_u b) (b_pos_u b)); cbn [rbind]; [|discriminate].
    destruct (move_to _ _ _); cbn [rbind]; [|discriminate].
    destruct (update_route _ _ _ _); cbn [rbind]; [|discriminate].
    destruct (update_route _ _ _ _); cbn [rbind]; discriminate.
  Qed.
End Local.
