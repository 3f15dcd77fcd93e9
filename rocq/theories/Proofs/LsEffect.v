(** The rebuilt routes are those the move is meant to produce. *)
From Coq Require Import List Arith ZArith Bool Lia Permutation.
From Verif.Model Require Import Num Prelude Evaluate Config Sector Matrix LinkedList LocalSearch.
From Verif.Spec Require Import Solution LocalSearch.
From Verif.Proofs Require Import Lists LinkFacts EvalThms LsState LsMoves.
Import ListNotations.
Open Scope nat_scope.

Ltac nepos := auto 6 with ne.

Lemma flat_map_id {A} (f : A -> list A) l : (forall a, In a l -> f a = [a]) -> flat_map f l = l.
Proof.
  induction l as [|a l IH]; intros H; cbn; auto. rewrite H by (left; auto).
  cbn. f_equal. apply IH. intros b I. apply H. right; auto.
Qed.
Lemma flat_map_nil {A} (f : A -> list A) l : (forall a, In a l -> f a = []) -> flat_map f l = [].
Proof.
  induction l as [|a l IH]; intros H; cbn; auto. rewrite H by (left; auto).
  cbn. apply IH. intros b I. apply H. right; auto.
Qed.

Section Effect.
  Context {N : Num}.
  Variable p : problem.
  Variable c : config.
  Variable pen : F.
  Notation nv := (c_num_vehicles c).
  Notation holds := (holds p c pen).
  Variable rs : nat -> list nat.
  Hypothesis S : serves_all_once (p_dim p) (all_routes c rs).

  Lemma reloc_flat blk ins v r1 r2 l1 l2 up xn y (f : ptr -> list ptr) :
    reloc c rs blk ins v r1 r2 l1 l2 up xn y ->
    (forall a, In a (map PN blk) -> f a = []) -> f v = v :: map PN ins ->
    (forall a, ~ In a (map PN blk) -> a <> v -> f a = [a]) ->
    forall r, r < nv ->
      stops r (nupd (nupd rs r1 l1) r2 l2 r) = flat_map f (stops r (rs r)).
  Proof using S.
    intros R F1 F2 F3 r Hr.
    assert (ID : forall L, (forall a, In a (map PN blk) -> ~ In a L) -> ~ In v L -> flat_map f L = L).
    { intros L D1 D2. apply flat_map_id. intros a I. apply F3.
      - intros J. apply (D1 a); auto.
      - intros ->. tauto. }
    assert (OTHER : forall r1 r2, r1 < nv -> r2 < nv -> r <> r1 -> r <> r2 ->
              (forall a, In a (map PN blk) -> In a (stops r1 (rs r1))) ->
              In v (stops r2 (rs r2)) -> flat_map f (stops r (rs r)) = stops r (rs r)).
    { intros k1 k2 H1 H2 N1 N2 I1 I2. apply ID.
      - intros a I J. apply I1 in I. revert J I. apply (serves_stops_apart p c rs S r k1); auto.
      - intros J. revert J I2. apply (serves_stops_apart p c rs S r k2); auto. }
    destruct R as [r1 r2 A B C D H1 H2 NE E1 E2 EV|k A M D H1 NM E EV|k C M B H1 NM E EV].
    - assert (S1 : stops r1 (rs r1) = pre r1 A ++ map PN blk ++ suf r1 B)
        by (rewrite E1, stops_app, suf_app; auto).
      destruct (snoc_last0 (pre r2 C)) as (C' & EC); [nepos|]. rewrite EV in EC.
      assert (S2 : stops r2 (rs r2) = (C' ++ [v]) ++ suf r2 D) by (rewrite E2, stops_app, EC; auto).
      pose proof (serves_stops_nodup2 p c rs S r1 r2 H1 H2 NE) as ND.
      rewrite S1, S2 in ND.
      assert (Hc : forall w, cnt w ((pre r1 A ++ map PN blk ++ suf r1 B) ++ (C' ++ [v]) ++ suf r2 D) <= 1)
        by (apply NoDup_cnt; auto).
      destruct (Nat.eq_dec r r2) as [->|N2]; [|destruct (Nat.eq_dec r r1) as [->|N1]].
      + rewrite nupd_same, S2, stops_app, EC, suf_app, !flat_map_app.
        rewrite (ID C'), (ID (suf r2 D)).
        * cbn [flat_map]. rewrite F2, app_nil_r. rewrite <- ?app_assoc. cbn [app]. rewrite <- ?app_assoc. reflexivity.
        * intros a I. apply in_cnt in I. notinc.
        * notinc.
        * intros a I. apply in_cnt in I. notinc.
        * notinc.
      + rewrite nupd_other, nupd_same, S1, stops_app, !flat_map_app by auto.
        rewrite (flat_map_nil f (map PN blk)) by auto.
        rewrite (ID (pre r1 A)), (ID (suf r1 B)); auto.
        * intros a I. apply in_cnt in I. notinc.
        * notinc.
        * intros a I. apply in_cnt in I. notinc.
        * notinc.
      + rewrite !nupd_other by auto. symmetry. apply (OTHER r1 r2); auto.
        * intros a I. rewrite S1, !in_app_iff. auto.
        * rewrite S2, !in_app_iff. cbn. auto.
    - destruct (snoc_last0 (map PN M)) as (M' & EM); [nepos|]. rewrite EV in EM.
      assert (S1 : stops k (rs k) = pre k A ++ map PN blk ++ (M' ++ [v]) ++ suf k D)
        by (rewrite E, stops_app, !suf_app, EM; auto).
      pose proof (serves_stops_nodup p c rs S k H1) as ND. rewrite S1 in ND.
      assert (Hc : forall w, cnt w (pre k A ++ map PN blk ++ (M' ++ [v]) ++ suf k D) <= 1)
        by (apply NoDup_cnt; auto).
      destruct (Nat.eq_dec r k) as [->|N2].
      + rewrite nupd_same, S1, stops_app, !suf_app, EM, !flat_map_app.
        rewrite (flat_map_nil f (map PN blk)) by auto.
        rewrite (ID (pre k A)), (ID M'), (ID (suf k D)).
        * cbn [flat_map]. rewrite F2, app_nil_r. rewrite <- ?app_assoc. cbn [app]. rewrite <- ?app_assoc. reflexivity.
        * intros a I. apply in_cnt in I. notinc.
        * notinc.
        * intros a I. apply in_cnt in I. notinc.
        * notinc.
        * intros a I. apply in_cnt in I. notinc.
        * notinc.
      + rewrite !nupd_other by auto. symmetry. apply (OTHER k k); auto.
        * intros a I. rewrite S1, !in_app_iff. auto.
        * rewrite S1, !in_app_iff. cbn. auto 6.
    - destruct (snoc_last0 (pre k C)) as (C' & EC); [nepos|]. rewrite EV in EC.
      assert (S1 : stops k (rs k) = (C' ++ [v]) ++ map PN M ++ map PN blk ++ suf k B)
        by (rewrite E, stops_app, !suf_app, EC; auto).
      pose proof (serves_stops_nodup p c rs S k H1) as ND. rewrite S1 in ND.
      assert (Hc : forall w, cnt w ((C' ++ [v]) ++ map PN M ++ map PN blk ++ suf k B) <= 1)
        by (apply NoDup_cnt; auto).
      destruct (Nat.eq_dec r k) as [->|N2].
      + rewrite nupd_same, S1, stops_app, !suf_app, EC, !flat_map_app.
        rewrite (flat_map_nil f (map PN blk)) by auto.
        rewrite (ID C'), (ID (map PN M)), (ID (suf k B)).
        * cbn [flat_map]. rewrite F2, app_nil_r. rewrite <- ?app_assoc. cbn [app]. rewrite <- ?app_assoc. reflexivity.
        * intros a I. apply in_cnt in I. notinc.
        * notinc.
        * intros a I. apply in_cnt in I. notinc.
        * notinc.
        * intros a I. apply in_cnt in I. notinc.
        * notinc.
      + rewrite !nupd_other by auto. symmetry. apply (OTHER k k); auto.
        * intros a I. rewrite S1, !in_app_iff. auto.
        * rewrite S1, !in_app_iff. cbn. auto 6.
  Qed.

  Lemma swp_flat ub vb r1 r2 l1 l2 up xn vp yn (f : ptr -> list ptr) :
    swp c rs ub vb r1 r2 l1 l2 up xn vp yn ->
    flat_map f (map PN ub) = map PN vb -> flat_map f (map PN vb) = map PN ub ->
    (forall a, ~ In a (map PN ub) -> ~ In a (map PN vb) -> f a = [a]) ->
    forall r, r < nv ->
      stops r (nupd (nupd rs r1 l1) r2 l2 r) = flat_map f (stops r (rs r)).
  Proof using S.
    intros R F1 F2 F3 r Hr.
    assert (ID : forall L, (forall a, In a (map PN ub) -> ~ In a L) ->
                           (forall a, In a (map PN vb) -> ~ In a L) -> flat_map f L = L).
    { intros L D1 D2. apply flat_map_id. intros a I. apply F3.
      - intros J. apply (D1 a); auto.
      - intros J. apply (D2 a); auto. }
    assert (OTHER : forall r1 r2, r1 < nv -> r2 < nv -> r <> r1 -> r <> r2 ->
              (forall a, In a (map PN ub) -> In a (stops r1 (rs r1))) ->
              (forall a, In a (map PN vb) -> In a (stops r2 (rs r2))) ->
              flat_map f (stops r (rs r)) = stops r (rs r)).
    { intros k1 k2 H1 H2 N1 N2 I1 I2. apply ID.
      - intros a I J. apply I1 in I. revert J I. apply (serves_stops_apart p c rs S r k1); auto.
      - intros a I J. apply I2 in I. revert J I. apply (serves_stops_apart p c rs S r k2); auto. }
    destruct R as [r1 r2 A B C D H1 H2 NE E1 E2|k A M D H1 NM E|k A M D H1 NM E].
    - assert (S1 : stops r1 (rs r1) = pre r1 A ++ map PN ub ++ suf r1 B)
        by (rewrite E1, stops_app, suf_app; auto).
      assert (S2 : stops r2 (rs r2) = pre r2 C ++ map PN vb ++ suf r2 D)
        by (rewrite E2, stops_app, suf_app; auto).
      pose proof (serves_stops_nodup2 p c rs S r1 r2 H1 H2 NE) as ND.
      rewrite S1, S2 in ND.
      assert (Hc : forall w, cnt w ((pre r1 A ++ map PN ub ++ suf r1 B) ++ pre r2 C ++ map PN vb ++ suf r2 D) <= 1)
        by (apply NoDup_cnt; auto).
      destruct (Nat.eq_dec r r2) as [->|N2]; [|destruct (Nat.eq_dec r r1) as [->|N1]].
      + rewrite nupd_same, S2, stops_app, suf_app, !flat_map_app, F2.
        rewrite (ID (pre r2 C)), (ID (suf r2 D)); auto;
          intros a I; apply in_cnt in I; notinc.
      + rewrite nupd_other, nupd_same, S1, stops_app, suf_app, !flat_map_app, F1 by auto.
        rewrite (ID (pre r1 A)), (ID (suf r1 B)); auto;
          intros a I; apply in_cnt in I; notinc.
      + rewrite !nupd_other by auto. symmetry. apply (OTHER r1 r2); auto.
        * intros a I. rewrite S1, !in_app_iff. auto.
        * intros a I. rewrite S2, !in_app_iff. auto.
    - assert (S1 : stops k (rs k) = pre k A ++ map PN ub ++ map PN M ++ map PN vb ++ suf k D)
        by (rewrite E, stops_app, !suf_app; auto).
      pose proof (serves_stops_nodup p c rs S k H1) as ND. rewrite S1 in ND.
      assert (Hc : forall w, cnt w (pre k A ++ map PN ub ++ map PN M ++ map PN vb ++ suf k D) <= 1)
        by (apply NoDup_cnt; auto).
      destruct (Nat.eq_dec r k) as [->|N2].
      + rewrite nupd_same, S1, stops_app, !suf_app, !flat_map_app, F1, F2.
        rewrite (ID (pre k A)), (ID (map PN M)), (ID (suf k D)); auto;
          intros a I; apply in_cnt in I; notinc.
      + rewrite !nupd_other by auto. symmetry. apply (OTHER k k); auto;
          intros a I; rewrite S1, !in_app_iff; auto 6.
    - assert (S1 : stops k (rs k) = pre k A ++ map PN vb ++ map PN M ++ map PN ub ++ suf k D)
        by (rewrite E, stops_app, !suf_app; auto).
      pose proof (serves_stops_nodup p c rs S k H1) as ND. rewrite S1 in ND.
      assert (Hc : forall w, cnt w (pre k A ++ map PN vb ++ map PN M ++ map PN ub ++ suf k D) <= 1)
        by (apply NoDup_cnt; auto).
      destruct (Nat.eq_dec r k) as [->|N2].
      + rewrite nupd_same, S1, stops_app, !suf_app, !flat_map_app, F1, F2.
        rewrite (ID (pre k A)), (ID (map PN M)), (ID (suf k D)); auto;
          intros a I; apply in_cnt in I; notinc.
      + rewrite !nupd_other by auto. symmetry. apply (OTHER k k); auto;
          intros a I; rewrite S1, !in_app_iff; auto 6.
  Qed.

  (** The blocks are apart. *)
  Lemma reloc_apart blk ins v r1 r2 l1 l2 up xn y : reloc c rs blk ins v r1 r2 l1 l2 up xn y ->
    ~ In v (map PN blk) /\ NoDup blk /\
    exists C D, stops r2 (rs r2) = C ++ v :: y :: D.
  Proof using S.
    intros R.
    destruct R as [r1 r2 A B C D H1 H2 NE E1 E2 EV|k A M D H1 NM E EV|k C M B H1 NM E EV].
    - destruct (snoc_last0 (pre r2 C)) as (C' & EC); [nepos|]. rewrite EV in EC.
      assert (S2 : stops r2 (rs r2) = (C' ++ [v]) ++ suf r2 D) by (rewrite E2, stops_app, EC; auto).
      split; [|split].
      + intros I. apply (serves_stops_apart p c rs S r1 r2 v); auto.
        * rewrite E1, stops_app, suf_app, !in_app_iff. auto.
        * rewrite S2, !in_app_iff. cbn. auto.
      + pose proof (serves_nodup p c rs S r1 H1) as ND. rewrite E1 in ND.
        apply NoDup_app_inv in ND. destruct ND as (_ & ND & _). apply NoDup_app_inv in ND. tauto.
      + destruct (suf_head r2 D) as (z & L & ED). rewrite ED in *. cbn [hd]. exists C', L.
        rewrite S2, <- app_assoc. auto.
    - destruct (snoc_last0 (map PN M)) as (M' & EM); [nepos|]. rewrite EV in EM.
      assert (S1 : stops k (rs k) = pre k A ++ map PN blk ++ (M' ++ [v]) ++ suf k D)
        by (rewrite E, stops_app, !suf_app, EM; auto).
      pose proof (serves_stops_nodup p c rs S k H1) as ND. rewrite S1 in ND.
      assert (Hc : forall w, cnt w (pre k A ++ map PN blk ++ (M' ++ [v]) ++ suf k D) <= 1)
        by (apply NoDup_cnt; auto).
      split; [notinc|split].
      + pose proof (serves_nodup p c rs S k H1) as ND'. rewrite E in ND'.
        apply NoDup_app_inv in ND'. destruct ND' as (_ & ND' & _). apply NoDup_app_inv in ND'. tauto.
      + destruct (suf_head k D) as (z & L & ED). rewrite ED in *. cbn [hd].
        exists (pre k A ++ map PN blk ++ M'), L. rewrite S1, <- !app_assoc. auto.
    - destruct (snoc_last0 (pre k C)) as (C' & EC); [nepos|]. rewrite EV in EC.
      assert (S1 : stops k (rs k) = (C' ++ [v]) ++ map PN M ++ map PN blk ++ suf k B)
        by (rewrite E, stops_app, !suf_app, EC; auto).
      pose proof (serves_stops_nodup p c rs S k H1) as ND. rewrite S1 in ND.
      assert (Hc : forall w, cnt w ((C' ++ [v]) ++ map PN M ++ map PN blk ++ suf k B) <= 1)
        by (apply NoDup_cnt; auto).
      split; [notinc|split].
      + pose proof (serves_nodup p c rs S k H1) as ND'. rewrite E in ND'.
        apply NoDup_app_inv in ND'. destruct ND' as (_ & ND' & _). apply NoDup_app_inv in ND'.
        destruct ND' as (_ & ND' & _). apply NoDup_app_inv in ND'. tauto.
      + destruct M as [|m M]; [congruence|]. cbn [map hd].
        exists C', (map PN M ++ map PN blk ++ suf k B). rewrite S1, <- app_assoc. auto.
  Qed.

  Lemma swp_apart ub vb r1 r2 l1 l2 up xn vp yn : swp c rs ub vb r1 r2 l1 l2 up xn vp yn ->
    NoDup (ub ++ vb) /\
    (exists A B, stops r1 (rs r1) = A ++ map PN ub ++ xn :: B) /\
    (exists A B, stops r2 (rs r2) = A ++ map PN vb ++ yn :: B).
  Proof using S.
    intros R.
    destruct R as [r1 r2 A B C D H1 H2 NE E1 E2|k A M D H1 NM E|k A M D H1 NM E].
    - split; [|split].
      + pose proof (serves_nodup2 p c rs S r1 r2 H1 H2 NE) as ND. rewrite E1, E2 in ND.
        apply (Permutation_NoDup (l' := (ub ++ vb) ++ A ++ B ++ C ++ D)) in ND.
        * apply NoDup_app_inv in ND. tauto.
        * rewrite <- !app_assoc.
          transitivity (ub ++ A ++ B ++ C ++ vb ++ D).
          { rewrite !app_assoc. do 4 apply Permutation_app_tail. apply Permutation_app_comm. }
          apply Permutation_app_head.
          transitivity (vb ++ (A ++ B ++ C) ++ D); [|rewrite <- !app_assoc; auto].
          replace (A ++ B ++ C ++ vb ++ D) with ((A ++ B ++ C) ++ vb ++ D) by (rewrite <- !app_assoc; auto).
          rewrite !(app_assoc _ _ D). apply Permutation_app_tail. apply Permutation_app_comm.
      + destruct (suf_head r1 B) as (z & L & ED). exists (pre r1 A), L.
        rewrite E1, stops_app, suf_app, ED. auto.
      + destruct (suf_head r2 D) as (z & L & ED). exists (pre r2 C), L.
        rewrite E2, stops_app, suf_app, ED. auto.
    - split; [|split].
      + pose proof (serves_nodup p c rs S k H1) as ND. rewrite E in ND.
        apply NoDup_app_inv in ND. destruct ND as (_ & ND & _).
        apply NoDup_app_inv in ND. destruct ND as (N1 & ND & D1).
        apply NoDup_app_inv in ND. destruct ND as (_ & ND & _).
        apply NoDup_app_inv in ND. destruct ND as (N2 & _ & _).
        apply NoDup_app_intro; auto. intros a I J. apply (D1 a); auto. rewrite !in_app_iff. auto.
      + destruct M as [|m M]; [congruence|].
        exists (pre k A), (map PN M ++ map PN vb ++ suf k D).
        rewrite E, stops_app, !suf_app. auto.
      + destruct (suf_head k D) as (z & L & ED).
        exists (pre k A ++ map PN ub ++ map PN M), L. rewrite E, stops_app, !suf_app, ED, <- !app_assoc. auto.
    - split; [|split].
      + pose proof (serves_nodup p c rs S k H1) as ND. rewrite E in ND.
        apply NoDup_app_inv in ND. destruct ND as (_ & ND & _).
        apply NoDup_app_inv in ND. destruct ND as (N1 & ND & D1).
        apply NoDup_app_inv in ND. destruct ND as (_ & ND & _).
        apply NoDup_app_inv in ND. destruct ND as (N2 & _ & _).
        apply NoDup_app_intro; auto. intros a I J. apply (D1 a); auto. rewrite !in_app_iff. auto.
      + destruct (suf_head k D) as (z & L & ED).
        exists (pre k A ++ map PN vb ++ map PN M), L. rewrite E, stops_app, !suf_app, ED, <- !app_assoc. auto.
      + destruct M as [|m M]; [congruence|].
        exists (pre k A), (map PN M ++ map PN ub ++ suf k D).
        rewrite E, stops_app, !suf_app. auto.
  Qed.

  Lemma reloc_head blk ins v r1 r2 l1 l2 up xn y : reloc c rs blk ins v r1 r2 l1 l2 up xn y ->
    exists A B, stops r1 (rs r1) = A ++ map PN blk ++ xn :: B.
  Proof using.
    intros R.
    destruct R as [r1 r2 A B C D H1 H2 NE E1 E2 EV|k A M D H1 NM E EV|k C M B H1 NM E EV].
    - destruct (suf_head r1 B) as (z & L & ED). exists (pre r1 A), L.
      rewrite E1, stops_app, suf_app, ED. auto.
    - destruct M as [|m M]; [congruence|]. exists (pre k A), (map PN M ++ suf k D).
      rewrite E, stops_app, !suf_app. auto.
    - destruct (suf_head k B) as (z & L & ED). exists (pre k C ++ map PN M), L.
      rewrite E, stops_app, !suf_app, ED, <- !app_assoc. auto.
  Qed.

  Ltac eqb_simpl :=
    repeat (rewrite ?ptr_eqb_refl; rewrite ?(proj2 (ptr_eqb_neq _ _)) by congruence; cbn [orb]).

  Lemma effect_moved s m u v r1 r2 l1 l2 d :
    effect p c pen s rs m u v r1 r2 l1 l2 d ->
    moved c rs (nupd (nupd rs r1 l1) r2 l2) m (PN u) v.
  Proof using S.
    intros EF.
    destruct EF as [u v r1 r2 l1 l2 up x y R|u v r1 r2 l1 l2 up x xn y R|u v r1 r2 l1 l2 up x xn y R
                   |u v r1 r2 l1 l2 up x vp y R|u v r1 r2 l1 l2 up x xn vp y R|u v r1 r2 l1 l2 up x xn vp y yn R
                   |u v r A M x M' D Hr EM NM EV E|u v r1 r2 A B C D x y H1 H2 NE E1 E2 EX EY
                   |u v r1 r2 A B C D x y H1 H2 NE E1 E2 EV EX EY].
    - destruct (reloc_apart _ _ _ _ _ _ _ _ _ _ R) as (NV & ND & C & D & ES2).
      destruct (reloc_head _ _ _ _ _ _ _ _ _ _ R) as (A & B & ES1).
      eapply moved_subst; [cbn; auto 10|exact ES1|exact ES2|].
      apply (reloc_flat _ _ _ _ _ _ _ _ _ _ _ R).
      + intros a [<-|[]]. unfold substitution. rewrite ptr_eqb_refl. auto.
      + cbn in *. rewrite (proj2 (ptr_eqb_neq v (PN u))), ptr_eqb_refl by (intros ->; tauto). auto.
      + intros a N1 N2. cbn in *.
        rewrite !(proj2 (ptr_eqb_neq _ _)) by (intros ->; tauto). auto.
    - destruct (reloc_apart _ _ _ _ _ _ _ _ _ _ R) as (NV & ND & C & D & ES2).
      destruct (reloc_head _ _ _ _ _ _ _ _ _ _ R) as (A & B & ES1).
      eapply moved_subst; [cbn; auto 10|exact ES1|exact ES2|].
      apply (reloc_flat _ _ _ _ _ _ _ _ _ _ _ R).
      + intros a [<-|[<-|[]]]; unfold substitution; rewrite ptr_eqb_refl, ?orb_true_r; auto.
      + cbn in *. rewrite (proj2 (ptr_eqb_neq v (PN u))), (proj2 (ptr_eqb_neq v (PN x))), ptr_eqb_refl
          by (intros ->; tauto). auto.
      + intros a N1 N2. cbn in *.
        rewrite (proj2 (ptr_eqb_neq a (PN u))), (proj2 (ptr_eqb_neq a (PN x))), (proj2 (ptr_eqb_neq a v)) by (intros ->; tauto). auto.
    - destruct (reloc_apart _ _ _ _ _ _ _ _ _ _ R) as (NV & ND & C & D & ES2).
      destruct (reloc_head _ _ _ _ _ _ _ _ _ _ R) as (A & B & ES1).
      eapply moved_subst; [cbn; auto 10|exact ES1|exact ES2|].
      apply (reloc_flat _ _ _ _ _ _ _ _ _ _ _ R).
      + intros a [<-|[<-|[]]]; unfold substitution; rewrite ptr_eqb_refl, ?orb_true_r; auto.
      + cbn in *. rewrite (proj2 (ptr_eqb_neq v (PN u))), (proj2 (ptr_eqb_neq v (PN x))), ptr_eqb_refl
          by (intros ->; tauto). auto.
      + intros a N1 N2. cbn in *.
        rewrite (proj2 (ptr_eqb_neq a (PN u))), (proj2 (ptr_eqb_neq a (PN x))), (proj2 (ptr_eqb_neq a v)) by (intros ->; tauto). auto.
    - destruct (swp_apart _ _ _ _ _ _ _ _ _ _ R) as (ND & (A & B & ES1) & (C & D & ES2)).
      eapply moved_subst; [cbn; auto 10|exact ES1|exact ES2|].
      apply (swp_flat _ _ _ _ _ _ _ _ _ _ _ R).
      + cbn. rewrite Nat.eqb_refl. auto.
      + cbn in *. inversion ND as [|? ? N1 N2]; subst. cbn in N1.
        rewrite (proj2 (Nat.eqb_neq v u)), Nat.eqb_refl by (intros ->; tauto). auto.
      + intros a N1 N2. cbn in *.
        rewrite (proj2 (ptr_eqb_neq a (PN u))), (proj2 (ptr_eqb_neq a (PN v))) by (intros ->; tauto). auto.
    - destruct (swp_apart _ _ _ _ _ _ _ _ _ _ R) as (ND & (A & B & ES1) & (C & D & ES2)).
      eapply moved_subst; [cbn; auto 10|exact ES1|exact ES2|].
      inversion ND as [|? ? N1 N2]; subst. inversion N2 as [|? ? N3 N4]; subst. cbn in N1, N3.
      apply (swp_flat _ _ _ _ _ _ _ _ _ _ _ R).
      + cbn. rewrite !Nat.eqb_refl. rewrite (proj2 (Nat.eqb_neq x u)) by (intros ->; tauto). auto.
      + cbn. rewrite (proj2 (Nat.eqb_neq v u)), (proj2 (Nat.eqb_neq v x)), Nat.eqb_refl by (intros ->; tauto). auto.
      + intros a M1 M2. cbn in *.
        rewrite (proj2 (ptr_eqb_neq a (PN u))), (proj2 (ptr_eqb_neq a (PN x))), (proj2 (ptr_eqb_neq a (PN v))) by (intros ->; tauto). auto.
    - destruct (swp_apart _ _ _ _ _ _ _ _ _ _ R) as (ND & (A & B & ES1) & (C & D & ES2)).
      eapply moved_subst; [cbn; auto 10|exact ES1|exact ES2|].
      inversion ND as [|? ? N1 N2]; subst. inversion N2 as [|? ? N3 N4]; subst.
      inversion N4 as [|? ? N5 N6]; subst. cbn in N1, N3, N5.
      apply (swp_flat _ _ _ _ _ _ _ _ _ _ _ R).
      + cbn. rewrite !Nat.eqb_refl. rewrite (proj2 (Nat.eqb_neq x u)) by (intros ->; tauto). auto.
      + cbn. rewrite (proj2 (Nat.eqb_neq v u)), (proj2 (Nat.eqb_neq v x)), (proj2 (Nat.eqb_neq y u)),
                 (proj2 (Nat.eqb_neq y x)), (proj2 (Nat.eqb_neq y v)), !Nat.eqb_refl by (intros ->; tauto). auto.
      + intros a M1 M2. cbn in *.
        rewrite (proj2 (ptr_eqb_neq a (PN u))), (proj2 (ptr_eqb_neq a (PN x))), (proj2 (ptr_eqb_neq a (PN v))), (proj2 (ptr_eqb_neq a (PN y))) by (intros ->; tauto). auto.
    - destruct (exists_last NM) as (M0 & z & ->). rewrite last_last in EV. subst z M.
      apply (moved_two_opt_intra c rs _ u v r A (x :: M0) D).
      + rewrite E. cbn. rewrite <- app_assoc. auto.
      + discriminate.
      + rewrite nupd_same. cbn [rev]. rewrite rev_app_distr. cbn. auto.
      + intros k _ Hk. rewrite !nupd_other; auto.
    - apply (moved_two_opt_inter_reverse c rs _ u v r1 r2 A B C D); auto.
      + rewrite nupd_other, nupd_same; auto.
      + rewrite nupd_same; auto.
      + intros k _ K1 K2. rewrite !nupd_other; auto.
    - apply (moved_two_opt_inter c rs _ u v r1 r2 A B C D); auto.
      + subst v. destruct C as [|n C] using rev_ind; [cbn; auto|].
        rewrite last0_pre_snoc. eauto.
      + rewrite nupd_other, nupd_same; auto.
      + rewrite nupd_same; auto.
      + intros k _ K1 K2. rewrite !nupd_other; auto.
  Qed.
End Effect.
