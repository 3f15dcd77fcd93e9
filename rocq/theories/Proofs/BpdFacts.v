(** The broken-pairs distance. *)
From Coq Require Import List Arith Bool Lia Permutation.
From Verif.Model Require Import Num Prelude Evaluate Individual Config Population.
From Verif.Spec Require Import Solution.
From Verif.Proofs Require Import Lists EvalFacts EvalThms PopThms.
Import ListNotations.

Lemma concat_same_route {A} (rs : list (list A)) r1 r2 x : NoDup (concat rs) -> In r1 rs -> In r2 rs ->
  In x r1 -> In x r2 -> r1 = r2.
Proof.
  induction rs as [|r rs IH]; intros Hnd H1 H2 X1 X2; [destruct H1|]. cbn in Hnd.
  apply NoDup_app_inv in Hnd as (N1 & N2 & N3).
  destruct H1 as [->|H1], H2 as [->|H2]; auto.
  - exfalso. apply (N3 x X1). apply in_concat. eauto.
  - exfalso. apply (N3 x X2). apply in_concat. eauto.
Qed.

Lemma NoDup_concat_in {A} (rs : list (list A)) r : NoDup (concat rs) -> In r rs -> NoDup r.
Proof.
  intros Hnd Hr. apply in_split in Hr as (l1 & l2 & ->). rewrite concat_app in Hnd. cbn in Hnd.
  apply NoDup_app_inv in Hnd as (_ & Hnd & _). now apply NoDup_app_inv in Hnd.
Qed.

Lemma NoDup_split_unique {A} (l1 l2 m1 m2 : list A) x : NoDup (l1 ++ x :: l2) ->
  l1 ++ x :: l2 = m1 ++ x :: m2 -> l1 = m1 /\ l2 = m2.
Proof.
  revert m1. induction l1 as [|y l1 IH]; intros m1 Hnd E.
  - destruct m1 as [|z m1]; cbn in E; [injection E as ->; auto|]. injection E as -> ->.
    inversion Hnd as [|? ? Hn _]. exfalso. apply Hn. apply in_or_app. right. now left.
  - destruct m1 as [|z m1]; cbn in E.
    + injection E as -> <-. inversion Hnd as [|? ? Hn _]. exfalso. apply Hn. apply in_or_app. right. now left.
    + injection E as -> E. inversion Hnd. destruct (IH m1) as [-> ->]; auto.
Qed.

(** Two complete solutions in which every customer has the same predecessor have the same
    non-empty routes. *)
Section Routes.
  Variables (dim : nat) (ra rb : list (list nat)).
  Hypothesis (Ha : serves_all_once dim ra) (Hb : serves_all_once dim rb).
  Hypothesis Hpred : forall c x, 0 < c < dim ->
    (exists r, In r ra /\ consecutive r x c) -> (exists r, In r rb /\ consecutive r x c).

  Lemma unique_pred rs r1 r2 x y c : serves_all_once dim rs -> In r1 rs -> In r2 rs -> c <> 0 ->
    consecutive r1 x c -> consecutive r2 y c -> x = y.
  Proof.
    intros Hs H1 H2 Hc C1 C2. pose proof (serves_NoDup _ _ Hs) as Hnd.
    apply consecutive_cases in C1 as [C1 _], C2 as [C2 _].
    destruct (C1 Hc) as (u1 & v1 & E1 & ->), (C2 Hc) as (u2 & v2 & E2 & ->).
    assert (E12 : r1 = r2).
    { apply (concat_same_route rs r1 r2 c); auto; rewrite ?E1, ?E2; apply in_or_app; right; now left. }
    rewrite <- E12, E1 in E2. apply NoDup_split_unique in E2 as [-> ->]; auto.
    rewrite <- E1. eapply NoDup_concat_in; eauto.
  Qed.

  Lemma route_nodes rs r x : serves_all_once dim rs -> In r rs -> In x r -> 0 < x < dim.
  Proof. intros Hs Hr Hx. apply (serves_In _ _ _ Hs). apply in_concat. eauto. Qed.

  Lemma consecutive_start r c : r = c :: tl r -> consecutive r 0 c.
  Proof. intros ->. exists [], (tl r ++ [0]). reflexivity. Qed.
  Lemma consecutive_mid u x c v : consecutive (u ++ x :: c :: v) x c.
  Proof. exists (0 :: u), (v ++ [0]). cbn. rewrite <- app_assoc. reflexivity. Qed.

  Lemma prefix_in r : In r ra -> forall l t, l <> [] -> r = l ++ t -> exists t', In (l ++ t') rb.
  Proof.
    intros Hr l. induction l as [|x l IH] using rev_ind; intros t Hl E; [congruence|]. clear Hl.
    assert (Hx : 0 < x < dim).
    { apply (route_nodes ra r); auto. rewrite E. apply in_or_app. left. apply in_or_app. right. now left. }
    destruct l as [|y l'] eqn:El.
    - cbn in E. destruct (Hpred x 0 Hx) as (r' & Hr' & C).
      { exists r. split; auto. apply consecutive_start. now rewrite E. }
      apply consecutive_cases in C as [C _]. destruct (C ltac:(lia)) as (u & v & -> & E0).
      destruct u as [|z u] using rev_ind; [exists v; exact Hr'|]. clear IHu.
      exfalso. rewrite last_last in E0. subst z.
      assert (H0 : 0 < 0 < dim); [|lia]. apply (route_nodes rb ((u ++ [0]) ++ x :: v)); auto.
      apply in_or_app. left. apply in_or_app. right. now left.
    - rewrite <- El in *. destruct (exists_last (l := l)) as (u & z & Eu); [rewrite El; discriminate|].
      destruct (IH ([x] ++ t)) as (t' & Ht'); [rewrite El; discriminate|rewrite E, <- app_assoc; reflexivity|].
      destruct (Hpred x z Hx) as (r' & Hr' & C).
      { exists r. split; auto. rewrite E, Eu, <- !app_assoc. apply consecutive_mid. }
      assert (Hz : z <> 0).
      { assert (0 < z < dim); [|lia]. apply (route_nodes ra r); auto. rewrite E, Eu.
        apply in_or_app. left. apply in_or_app. left. apply in_or_app. right. now left. }
      apply consecutive_cases in C as [_ C]. destruct (C Hz) as (u2 & v2 & -> & E0).
      destruct v2 as [|x2 v2]; [cbn in E0; lia|]. cbn in E0. subst x2.
      assert (Es : l ++ t' = u2 ++ z :: x :: v2).
      { apply (concat_same_route rb _ _ z (serves_NoDup _ _ Hb)); auto; rewrite ?Eu; apply in_or_app.
        - left. apply in_or_app. right. now left.
        - right. now left. }
      pose proof (NoDup_concat_in rb _ (serves_NoDup _ _ Hb) Ht') as Hnd.
      rewrite Eu, <- app_assoc in Es, Hnd. cbn [app] in Es, Hnd.
      apply NoDup_split_unique in Es as [<- ->]; auto.
      exists v2. rewrite Eu, <- !app_assoc. exact Hr'.
  Qed.

  Lemma same_pred_back : forall c x, 0 < c < dim ->
    (exists r, In r rb /\ consecutive r x c) -> (exists r, In r ra /\ consecutive r x c).
  Proof.
    intros c x Hc (r & Hr & C). destruct (serves_consecutive dim ra c Ha Hc) as (r' & y & _ & Hr' & Cy & _).
    destruct (Hpred c y Hc) as (r2 & Hr2 & C2); [eauto|].
    rewrite (unique_pred rb r r2 x y c Hb Hr Hr2 ltac:(lia) C C2). eauto.
  Qed.

  Lemma route_in r : r <> [] -> In r ra -> In r rb.
  Proof.
    intros Hne Hr. destruct (prefix_in r Hr r [] Hne) as (t & Ht); [now rewrite app_nil_r|].
    destruct t as [|d t]; [now rewrite app_nil_r in Ht|]. exfalso.
    destruct (exists_last Hne) as (u & z & Eu).
    assert (Hd : 0 < d < dim) by (apply (route_nodes rb (r ++ d :: t)); auto; apply in_or_app; right; now left).
    destruct (same_pred_back d z Hd) as (r' & Hr' & C).
    { exists (r ++ d :: t). split; auto. rewrite Eu, <- app_assoc. apply consecutive_mid. }
    assert (Hz : z <> 0).
    { assert (0 < z < dim); [|lia]. apply (route_nodes ra r); auto. rewrite Eu. apply in_or_app. right. now left. }
    apply consecutive_cases in C as [_ C]. destruct (C Hz) as (u2 & v2 & -> & E0).
    destruct v2 as [|x2 v2]; [cbn in E0; lia|].
    assert (Es : r = u2 ++ z :: x2 :: v2).
    { apply (concat_same_route ra _ _ z (serves_NoDup _ _ Ha)); auto; rewrite ?Eu; apply in_or_app; right; now left. }
    pose proof (NoDup_concat_in ra _ (serves_NoDup _ _ Ha) Hr) as Hnd. rewrite Eu in Es, Hnd.
    apply NoDup_split_unique in Es as [_ Es]; auto. discriminate.
  Qed.
End Routes.

Section Bpd.
  Context {N : Num}.
  Variable p : problem.
  Hypothesis Hdim : 0 < p_dim p.

  Definition pr (i : individual) c := nth c (se_pred (i_eval i)) 0.
  Definition su (i : individual) c := nth c (se_succ (i_eval i)) 0.

  Lemma settled_adjacent i r x y : settled p i -> In r (i_pheno i) -> consecutive r x y ->
    (y <> 0 -> pr i y = x) /\ (x <> 0 -> su i x = y).
  Proof.
    intros (Hs & _ & pen & e & E) Hr C. unfold pr, su. rewrite E.
    destruct (geval_adjacent p pen e (i_pheno i) r x y Hdim Hs Hr C) as [G1 G2].
    split; intros Hz; [specialize (G1 Hz)|specialize (G2 Hz)]; eapply nth_error_nth; eauto.
  Qed.

  Lemma bpd_zero a b : settled p a -> settled p b ->
    (broken_pairs_distance a b = Ok 0 <->
     forall c, 0 < c < p_dim p ->
       (su a c = su b c \/ su a c = pr b c) /\ (pr a c = 0 -> pr b c = 0 \/ su b 0 = 0)).
  Proof.
    intros Ha Hb. destruct (settled_lengths p a Ha) as (A1 & A2 & A3), (settled_lengths p b Hb) as (B1 & B2 & B3).
    unfold broken_pairs_distance. rewrite A1.
    assert (G : forall n k d, 1 <= k -> k + n <= p_dim p ->
      exists d', foldm (bpd_step a b) (seq k n) d = Ok d' /\ d <= d' /\
        (d' = d <-> forall c, k <= c < k + n ->
           (su a c = su b c \/ su a c = pr b c) /\ (pr a c = 0 -> pr b c = 0 \/ su b 0 = 0))).
    { induction n as [|n IH]; intros k d Hk Hn; cbn [seq foldm].
      - exists d. split; [auto|]. split; [lia|]. split; [intros _ c Hc; lia|auto].
      - unfold bpd_step at 1. rewrite !(geti_ok _ _ 0) by lia. cbn [rbind].
        fold (su a k) (su b k) (pr a k) (pr b k) (su b 0).
        assert (Hb1 : negb (su a k =? su b k) && negb (su a k =? pr b k) = false <-> (su a k = su b k \/ su a k = pr b k)).
        { rewrite andb_false_iff, !negb_false_iff, !Nat.eqb_eq. tauto. }
        assert (Hb2 : (pr a k =? 0) && negb (pr b k =? 0) && negb (su b 0 =? 0) = false <->
           (pr a k = 0 -> pr b k = 0 \/ su b 0 = 0)).
        { rewrite !andb_false_iff, !negb_false_iff, Nat.eqb_neq, !Nat.eqb_eq.
          destruct (Nat.eq_dec (pr a k) 0); tauto. }
        destruct (negb (su a k =? su b k) && negb (su a k =? pr b k)),
                 ((pr a k =? 0) && negb (pr b k =? 0) && negb (su b 0 =? 0));
        match goal with |- exists d', foldm _ _ ?x = _ /\ _ => destruct (IH (S k) x) as (d' & E & H & Hi); try lia; exists d'; split; [exact E|split; [lia|]] end.
        + split; [lia|]. intros Hall. assert (true = false); [|discriminate]. apply Hb1, Hall; lia.
        + split; [lia|]. intros Hall. assert (true = false); [|discriminate]. apply Hb1, Hall; lia.
        + split; [lia|]. intros Hall. assert (true = false); [|discriminate]. apply Hb2, Hall; lia.
        + rewrite Hi. split; intros Hall c Hc.
          * destruct (Nat.eq_dec c k) as [->|]; [split; [now apply Hb1|now apply Hb2]|apply Hall; lia].
          * apply Hall. lia. }
    destruct (G (p_dim p - 1) 1 0) as (d & E & _ & Hi); try lia. rewrite E.
    replace (1 + (p_dim p - 1)) with (p_dim p) in Hi by lia.
    split; intros H.
    - injection H as ->. intros c Hc. apply Hi; auto; lia.
    - f_equal. apply Hi. intros c Hc. apply H. lia.
  Qed.

  Lemma bpd_self a : settled p a -> broken_pairs_distance a a = Ok 0.
  Proof. intros Ha. apply bpd_zero; auto. Qed.

  (** Distance zero towards a solution whose last route is not empty: same routes. *)
  Lemma bpd_zero_pred a b : settled p a -> settled p b -> su b 0 <> 0 ->
    broken_pairs_distance a b = Ok 0 -> forall c, 0 < c < p_dim p -> pr a c = pr b c.
  Proof.
    intros Ha Hb Hl Hd. rewrite (bpd_zero a b Ha Hb) in Hd.
    assert (G : forall r l c t, In r (i_pheno a) -> r = l ++ c :: t -> pr a c = pr b c).
    { intros r l. induction l as [|x l IH] using rev_ind; intros c t Hr E.
      - assert (Hc : 0 < c < p_dim p).
        { apply (route_nodes (p_dim p) (i_pheno a) r); [apply Ha|auto|rewrite E; now left]. }
        destruct (settled_adjacent a r 0 c Ha Hr) as [G1 _]; [apply consecutive_start; now rewrite E|].
        rewrite G1 by lia. destruct (proj2 (Hd c Hc)) as [H|H]; [apply G1; lia|congruence|contradiction].
      - assert (Hc : 0 < c < p_dim p).
        { apply (route_nodes (p_dim p) (i_pheno a) r); [apply Ha|auto|rewrite E; apply in_or_app; right; now left]. }
        assert (Hx : 0 < x < p_dim p).
        { apply (route_nodes (p_dim p) (i_pheno a) r); [apply Ha|auto|rewrite E; apply in_or_app; left; apply in_or_app; right; now left]. }
        rewrite <- app_assoc in E. cbn [app] in E.
        assert (Hpx : pr a x = pr b x) by (eapply IH; eauto).
        destruct (settled_adjacent a r x c Ha Hr) as [G1 G2]; [rewrite E; apply consecutive_mid|].
        rewrite G1 by lia. specialize (G2 ltac:(lia)).
        destruct (proj1 (Hd x Hx)) as [H|H]; rewrite G2 in H.
        + (* the same successor: find x in b *)
          destruct (serves_consecutive _ _ x (proj1 Hb) Hx) as (r' & y1 & y2 & Hr' & _ & C2).
          destruct (settled_adjacent b r' x y2 Hb Hr' C2) as [G3 G4].
          rewrite G4 in H by lia. subst y2. symmetry. apply G3. lia.
        + (* the successor of x would be its predecessor *)
          exfalso. rewrite <- Hpx in H.
          assert (Hcx : exists u, l = u ++ [c]).
          { destruct l as [|y l'] using rev_ind.
            - destruct (settled_adjacent a r 0 x Ha Hr) as [G5 _]; [apply consecutive_start; now rewrite E|].
              rewrite G5 in H by lia. lia.
            - rewrite <- app_assoc in E. destruct (settled_adjacent a r y x Ha Hr) as [G5 _];
                [rewrite E; apply consecutive_mid|]. rewrite G5 in H by lia. subst y. eauto. }
          destruct Hcx as (u & ->).
          pose proof (NoDup_concat_in _ _ (serves_NoDup _ _ (proj1 Ha)) Hr) as Hnd. rewrite E in Hnd.
          rewrite <- app_assoc in Hnd. cbn [app] in Hnd. apply NoDup_remove_2 in Hnd. apply Hnd.
          apply in_or_app. right. right. now left. }
    intros c Hc. destruct (serves_consecutive _ _ c (proj1 Ha) Hc) as (r & x & y & Hr & C1 & _).
    apply consecutive_cases in C1 as [C1 _]. destruct (C1 ltac:(lia)) as (u & v & E & _).
    eapply G; eauto.
  Qed.

  Lemma bpd_separates a b : settled p a -> settled p b -> su b 0 <> 0 ->
    broken_pairs_distance a b = Ok 0 -> forall r, r <> [] -> (In r (i_pheno a) <-> In r (i_pheno b)).
  Proof.
    intros Ha Hb Hl Hd. pose proof (bpd_zero_pred a b Ha Hb Hl Hd) as Hp.
    assert (H1 : forall a b, settled p a -> settled p b -> (forall c, 0 < c < p_dim p -> pr a c = pr b c) ->
      forall c x, 0 < c < p_dim p -> (exists r, In r (i_pheno a) /\ consecutive r x c) ->
        exists r, In r (i_pheno b) /\ consecutive r x c).
    { clear - Hdim. intros a b Ha Hb Hp c x Hc (r & Hr & C).
      destruct (settled_adjacent a r x c Ha Hr C) as [G1 _]. specialize (G1 ltac:(lia)).
      destruct (serves_consecutive _ _ c (proj1 Hb) Hc) as (r' & y & _ & Hr' & C1 & _).
      destruct (settled_adjacent b r' y c Hb Hr' C1) as [G2 _]. specialize (G2 ltac:(lia)).
      rewrite <- Hp in G2 by auto. exists r'. split; auto. congruence. }
    intros r Hne. split; intros Hr.
    - apply (route_in (p_dim p) (i_pheno a) (i_pheno b)); auto; try apply Ha; try apply Hb. now apply H1.
    - apply (route_in (p_dim p) (i_pheno b) (i_pheno a)); auto; try apply Ha; try apply Hb. apply H1; auto.
      intros c Hc. symmetry. auto.
  Qed.
End Bpd.
