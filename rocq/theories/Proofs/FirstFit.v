(** First fit: customers that need at most a fifth of a vehicle fill all vehicles but two to five
    sixths. *)
From Coq Require Import List Arith ZArith Bool Lia Permutation QArith Lqa.
From Verif.Spec Require Import Solution.
From Verif.Proofs Require Import Fleet.
Import ListNotations.
Open Scope Q_scope.

Section FirstFit.
  Variable dem : nat -> Q.
  Variable cap : Q.
  Hypothesis cap_pos : 0 < cap.
  Local Notation load := (route_load dem).

  Fixpoint place (a : nat) (bins : list (list nat)) : list (list nat) :=
    match bins with
    | [] => [[a]]
    | b :: bs => if Qle_bool (dem a + load b) cap then (a :: b) :: bs else b :: place a bs
    end.
  Definition first_fit (l : list nat) : list (list nat) := fold_left (fun bins a => place a bins) l [].

  Lemma place_perm a bins : Permutation (concat (place a bins)) (a :: concat bins).
  Proof.
    induction bins as [|b bs IH]; cbn [place concat]; [apply Permutation_refl|].
    destruct (Qle_bool (dem a + load b) cap); cbn [concat app]; [apply Permutation_refl|].
    rewrite IH. symmetry. apply Permutation_middle.
  Qed.
  Lemma first_fit_perm l : Permutation (concat (first_fit l)) l.
  Proof.
    assert (X : forall bins, Permutation (concat (fold_left (fun bins a => place a bins) l bins)) (l ++ concat bins)).
    { induction l as [|a l IH]; intros bins; cbn [fold_left app]; [apply Permutation_refl|].
      rewrite IH, place_perm. symmetry. apply Permutation_middle. }
    specialize (X []). cbn [concat] in X. rewrite app_nil_r in X. exact X.
  Qed.

  Definition item (a : nat) : Prop := 0 <= dem a <= (1 # 5) * cap.
  Definition no_room (b1 b2 : list nat) : Prop := forall a, In a b2 -> cap < dem a + load b1.
  Definition good (bins : list (list nat)) : Prop :=
    (forall b, In b bins -> b <> [] /\ load b <= cap /\ forall a, In a b -> item a) /\ ForallOrdPairs no_room bins.

  Lemma in_place a bins b : In b (place a bins) -> In b bins \/ b = [a] \/ exists b', In b' bins /\ b = a :: b' /\ dem a + load b' <= cap.
  Proof.
    induction bins as [|x bs IH]; cbn [place]; [cbn [In]; intuition auto|].
    destruct (Qle_bool (dem a + load x) cap) eqn:E; cbn [In].
    - apply Qle_bool_iff in E. intros [<-|H]; [right; right; exists x; auto|auto].
    - intros [<-|H]; [auto|]. destruct (IH H) as [H1|[H1|(b' & H1 & H2)]]; auto. right. right. exists b'. auto.
  Qed.
  Lemma load_cons a b : load (a :: b) == dem a + load b.
  Proof. reflexivity. Qed.
  Lemma place_good a bins : item a -> good bins -> good (place a bins).
  Proof.
    intros IA [G1 G2]. split.
    - intros b Hb. apply in_place in Hb as [H|[->|(b' & H & -> & LE)]]; [auto| |].
      + split; [discriminate|]. split; [unfold route_load; cbn [map Qsum]; destruct IA; lra|]. intros x [<-|[]]. exact IA.
      + destruct (G1 b' H) as (_ & _ & I). split; [discriminate|]. split; [rewrite load_cons; exact LE|]. intros x [<-|Hx]; auto.
    - clear G1. revert G2. induction bins as [|b bs IH]; intros G2; cbn [place]; [repeat constructor|].
      inversion G2 as [|? ? F G]; subst. destruct (Qle_bool (dem a + load b) cap) eqn:E.
      + constructor; [|exact G]. rewrite Forall_forall in *. intros b2 H2 x Hx. specialize (F b2 H2 x Hx). rewrite load_cons. destruct IA. lra.
      + constructor; [|auto]. rewrite Forall_forall in *. intros b2 H2 x Hx.
        assert (NA : cap < dem a + load b) by (apply Qnot_le_lt; intro X; apply Qle_bool_iff in X; congruence).
        apply in_place in H2 as [H|[->|(b' & H & -> & _)]]; [exact (F b2 H x Hx)| |].
        * destruct Hx as [<-|[]]. exact NA.
        * destruct Hx as [<-|Hx]; [exact NA|exact (F b' H x Hx)].
  Qed.
  Lemma first_fit_good l : (forall a, In a l -> item a) -> good (first_fit l).
  Proof.
    unfold first_fit. assert (G : good []) by (split; [intros b []|constructor]). revert G. generalize (@nil (list nat)).
    induction l as [|a l IH]; intros bins G I; cbn [fold_left]; [exact G|]. apply IH; [|intros; apply I; now right].
    apply place_good; [apply I; now left|exact G].
  Qed.

  Lemma load_low (r : list nat) k : (forall a, In a r -> k <= dem a) -> inject_Z (Z.of_nat (length r)) * k <= load r.
  Proof.
    induction r as [|a r IH]; intros H; [change (load []) with 0; change (inject_Z (Z.of_nat (@length nat []))) with 0; lra|]. rewrite load_cons. cbn [length]. rewrite Nat2Z.inj_succ. unfold Z.succ. rewrite inject_Z_plus.
    assert (k <= dem a) by (apply H; now left). assert (inject_Z (Z.of_nat (length r)) * k <= load r) by (apply IH; intros; apply H; now right).
    change (inject_Z 1) with 1. lra.
  Qed.
  Lemma load_high (r : list nat) k : (forall a, In a r -> dem a <= k) -> load r <= inject_Z (Z.of_nat (length r)) * k.
  Proof.
    induction r as [|a r IH]; intros H; [change (load []) with 0; change (inject_Z (Z.of_nat (@length nat []))) with 0; lra|]. rewrite load_cons. cbn [length]. rewrite Nat2Z.inj_succ. unfold Z.succ. rewrite inject_Z_plus.
    assert (dem a <= k) by (apply H; now left). assert (load r <= inject_Z (Z.of_nat (length r)) * k) by (apply IH; intros; apply H; now right).
    change (inject_Z 1) with 1. lra.
  Qed.

  Definition filled (k : nat) (bins : list (list nat)) : Prop :=
    inject_Z (Z.of_nat (length bins) - Z.of_nat k) * ((5 # 6) * cap) <= load (concat bins).
  Lemma bin_nonneg bins : good bins -> 0 <= load (concat bins).
  Proof.
    intros [G _]. induction bins as [|b bs IH]; [change (load (concat [])) with 0; lra|]. cbn [concat]. rewrite load_app.
    assert (0 <= load (concat bs)) by (apply IH; intros; apply G; now right). destruct (G b (or_introl eq_refl)) as (_ & _ & I).
    pose proof (load_low b 0 (fun a H => proj1 (I a H))). lra.
  Qed.
  Lemma good_tail b bs : good (b :: bs) -> good bs.
  Proof. intros [G1 G2]. inversion G2; subst. split; [intros; apply G1; now right|assumption]. Qed.

  (** Only large customers: all bins but the last hold five. *)
  Lemma large_filled bins : good bins -> (forall b a, In b bins -> In a b -> (1 # 6) * cap < dem a) -> filled 1 bins.
  Proof.
    induction bins as [|b bs IH]; intros G LG; [unfold filled; change (load (concat [])) with 0; change (inject_Z (Z.of_nat (@length (list nat) []) - Z.of_nat 1)) with (-1); lra|].
    pose proof (IH (good_tail b bs G) (fun x a H => LG x a (or_intror H))) as F. unfold filled in *. cbn [concat length]. rewrite load_app.
    destruct bs as [|b2 bs].
    - pose proof (bin_nonneg [b] G) as X. cbn [concat] in X. rewrite app_nil_r in X. change (load (concat [])) with 0.
      change (inject_Z (Z.of_nat (S (@length (list nat) [])) - Z.of_nat 1)) with 0. lra.
    - destruct G as [G1 G2]. inversion G2 as [|? ? FO _]; subst. inversion FO as [|? ? NR _]; subst.
      destruct (G1 b2 (or_intror (or_introl eq_refl))) as (NE & _ & I2). destruct b2 as [|a b2]; [now contradict NE|].
      pose proof (NR a (or_introl eq_refl)) as NA. destruct (I2 a (or_introl eq_refl)) as [_ A5].
      destruct (G1 b (or_introl eq_refl)) as (_ & _ & I).
      assert (FIVE : (5 <= length b)%nat).
      { destruct (le_lt_dec 5 (length b)) as [H|H]; [exact H|exfalso]. pose proof (load_high b ((1 # 5) * cap) (fun x H => proj2 (I x H))) as X.
        assert (Y : inject_Z (Z.of_nat (length b)) <= inject_Z 4) by (rewrite <- Zle_Qle; lia).
        assert (Z : inject_Z (Z.of_nat (length b)) * ((1 # 5) * cap) <= inject_Z 4 * ((1 # 5) * cap)) by (apply Qmult_le_compat_r; [exact Y|lra]).
        change (inject_Z 4) with 4 in Z. lra. }
      assert (LB : (5 # 6) * cap <= load b).
      { pose proof (load_low b ((1 # 6) * cap) (fun x H => Qlt_le_weak _ _ (LG b x (or_introl eq_refl) H))) as X.
        assert (Y : inject_Z 5 <= inject_Z (Z.of_nat (length b))) by (rewrite <- Zle_Qle; lia).
        assert (Z : inject_Z 5 * ((1 # 6) * cap) <= inject_Z (Z.of_nat (length b)) * ((1 # 6) * cap)) by (apply Qmult_le_compat_r; [exact Y|lra]).
        change (inject_Z 5) with 5 in Z. lra. }
      cbn [length] in *. set (m := Z.of_nat (S (length bs))) in *. replace (Z.of_nat (S (S (length bs))) - Z.of_nat 1)%Z with (m - Z.of_nat 1 + 1)%Z by lia.
      rewrite inject_Z_plus. change (inject_Z 1) with 1. lra.
  Qed.
  Lemma good_filled bins : good bins -> filled 2 bins.
  Proof.
    induction bins as [|b bs IH]; intros G; [unfold filled; change (load (concat [])) with 0; change (inject_Z (Z.of_nat (@length (list nat) []) - Z.of_nat 2)) with (-2); lra|].
    pose proof (bin_nonneg bs (good_tail b bs G)) as P0. pose proof G as [G1 G2]. destruct (G1 b (or_introl eq_refl)) as (_ & _ & I).
    pose proof (load_low b 0 (fun a H => proj1 (I a H))) as B0.
    destruct (Qlt_le_dec (load b) ((5 # 6) * cap)) as [S|S].
    - assert (F : filled 1 bs).
      { apply large_filled; [exact (good_tail b bs G)|]. intros b2 a H2 Ha. inversion G2 as [|? ? FO _]; subst. rewrite Forall_forall in FO.
        specialize (FO b2 H2 a Ha). lra. }
      unfold filled in *. cbn [concat length]. rewrite load_app. replace (Z.of_nat (Datatypes.S (length bs)) - Z.of_nat 2)%Z with (Z.of_nat (length bs) - Z.of_nat 1)%Z by lia. lra.
    - specialize (IH (good_tail b bs G)). unfold filled in *. cbn [concat length]. rewrite load_app.
      replace (Z.of_nat (Datatypes.S (length bs)) - Z.of_nat 2)%Z with (Z.of_nat (length bs) - Z.of_nat 2 + 1)%Z by lia. rewrite inject_Z_plus. change (inject_Z 1) with 1. lra.
  Qed.
End FirstFit.
