(** Comparisons, sectors, sampling. *)
From Coq Require Import List Arith NArith ZArith QArith Bool Lia Lqa Permutation.
From Verif.Model Require Import Num Prelude Sector Random.
From Verif.Proofs Require Import Lists QNum.
Import ListNotations.

(** ** Sectors *)
Section Sectors.
  Open Scope Z_scope.

  Lemma extend_keeps s a x :
    (cs_start s <> 0 \/ cs_end s <> 0) -> is_enclosed s x = true -> is_enclosed (extend s a) x = true.
  Proof.
    intros Hne Hx. unfold extend. destruct ((cs_start s =? 0) && (cs_end s =? 0)) eqn:E0.
    { apply andb_true_iff in E0 as [E1 E2]. apply Z.eqb_eq in E1, E2. lia. }
    destruct (is_enclosed s a) eqn:Ea; auto.
    unfold is_enclosed, max_angle in *. apply Z.leb_le in Hx. apply Z.leb_gt in Ea.
    destruct ((a - cs_end s) mod 65536 <=? (cs_start s - a) mod 65536) eqn:Eb; cbn [cs_start cs_end];
      apply Z.leb_le; clear Eb E0 Hne; Z.to_euclidean_division_equations; lia.
  Qed.

  Lemma extend_adds s a : is_enclosed (extend s a) a = true.
  Proof.
    unfold extend. destruct ((cs_start s =? 0) && (cs_end s =? 0)).
    { unfold is_enclosed, max_angle. cbn [cs_start cs_end]. apply Z.leb_le. lia. }
    destruct (is_enclosed s a) eqn:Ea; auto.
    destruct ((a - cs_end s) mod max_angle <=? (cs_start s - a) mod max_angle);
      unfold is_enclosed, max_angle; cbn [cs_start cs_end]; apply Z.leb_le; [lia|].
    rewrite Z.sub_diag. cbn. apply Z.mod_pos_bound. lia.
  Qed.

  Definition angle_ok (a : Z) : Prop := 0 <= a < max_angle.
  Definition nonsent (s : sector) : Prop := cs_start s <> 0 \/ cs_end s <> 0.

  Lemma extend_nonsent s a : angle_ok a -> angle_ok (cs_start s) -> angle_ok (cs_end s) ->
    nonsent s -> nonsent (extend s a) /\ angle_ok (cs_start (extend s a)) /\ angle_ok (cs_end (extend s a)).
  Proof.
    unfold angle_ok, nonsent, max_angle. intros Ha Hs He Hne. unfold extend.
    destruct ((cs_start s =? 0) && (cs_end s =? 0)) eqn:E0.
    { apply andb_true_iff in E0 as [E1 E2]. apply Z.eqb_eq in E1, E2. lia. }
    destruct (is_enclosed s a) eqn:Ea; auto.
    unfold is_enclosed, max_angle in Ea. apply Z.leb_gt in Ea.
    destruct ((a - cs_end s) mod max_angle <=? (cs_start s - a) mod max_angle); cbn [cs_start cs_end];
      (split; [|lia]); clear E0; destruct (Z.eq_dec a 0) as [->|]; try lia;
      destruct (Z.eq_dec (cs_start s) 0) as [E|]; destruct (Z.eq_dec (cs_end s) 0) as [E2|]; try lia;
      exfalso; try rewrite E in Ea; try rewrite E2 in Ea;
      revert Ea; Z.to_euclidean_division_equations; lia.
  Qed.

  Lemma fold_extend_keeps l : forall s x, (forall a, In a l -> angle_ok a) ->
    angle_ok (cs_start s) -> angle_ok (cs_end s) -> nonsent s ->
    is_enclosed s x = true \/ In x l -> is_enclosed (fold_left extend l s) x = true.
  Proof.
    induction l as [|a l IH]; intros s x Hl Hs He Hn Hx; cbn [fold_left].
    - destruct Hx as [Hx|[]]; auto.
    - destruct (extend_nonsent s a) as (N1 & N2 & N3); auto; [apply Hl; now left|].
      apply IH; auto.
      + intros b Hb. apply Hl. now right.
      + destruct Hx as [Hx|[->|Hx]]; auto.
        * left. apply extend_keeps; auto.
        * left. apply extend_adds.
  Qed.

  Lemma sector_encloses a l x : (forall b, In b (a :: l) -> angle_ok b) -> a <> 0 ->
    In x (a :: l) -> is_enclosed (fold_left extend (a :: l) sector_new) x = true.
  Proof.
    intros Hl Ha Hx. cbn [fold_left]. change (extend sector_new a) with (mkSector a a).
    apply fold_extend_keeps; cbn [cs_start cs_end]; auto.
    - intros b Hb. apply Hl. now right.
    - apply Hl. now left.
    - apply Hl. now left.
    - now left.
    - destruct Hx as [->|Hx]; auto. left. unfold is_enclosed. cbn [cs_start cs_end]. apply Z.leb_le. lia.
  Qed.

  Lemma overlaps_iff s o : angle_ok (cs_start s) -> angle_ok (cs_start o) ->
    overlaps s o = true <-> exists x, angle_ok x /\ is_enclosed s x = true /\ is_enclosed o x = true.
  Proof.
    intros Hs Ho. unfold overlaps, is_enclosed, max_angle. rewrite orb_true_iff, !Z.leb_le. split.
    - intros [H|H].
      + exists (cs_start o). split; auto. rewrite !Z.leb_le. split; auto.
        rewrite Z.sub_diag. cbn. apply Z.mod_pos_bound. lia.
      + exists (cs_start s). split; auto. rewrite !Z.leb_le. split; auto.
        rewrite Z.sub_diag. cbn. apply Z.mod_pos_bound. lia.
    - intros (x & Hx & H1 & H2). rewrite Z.leb_le in H1, H2. clear Hs Ho Hx.
      Z.to_euclidean_division_equations; lia.
  Qed.
End Sectors.

(** ** Sampling *)
Open Scope nat_scope.
Lemma sample_loop_spec {A} number : forall (vec acc : list A) r out r',
  sample_loop number vec acc r = Ok (out, r') ->
  exists rest s, out = acc ++ s /\ length s = number /\ Permutation (s ++ rest) vec.
Proof.
  induction number as [|k IH]; intros vec acc r out r' H; cbn [sample_loop] in H.
  - injection H as <- _. exists vec, []. rewrite app_nil_r. auto.
  - unfold rbind in H. destruct (range_usize 0 (length vec) r) as [[i r1]|] eqn:Er; [|discriminate].
    destruct (geti vec i) as [a|] eqn:Eg; [|discriminate].
    apply geti_inv in Eg. destruct (IH _ _ _ _ _ H) as (rest & s & -> & Hl & Hp).
    exists rest, (a :: s). rewrite <- app_assoc. split; [reflexivity|]. split; [cbn; lia|].
    cbn [app]. rewrite Hp. symmetry. now apply remove_nth_perm.
Qed.

Lemma sample_loop_ok {A} number : forall (vec acc : list A) r, number <= length vec ->
  exists out r', sample_loop number vec acc r = Ok (out, r').
Proof.
  induction number as [|k IH]; intros vec acc r H; cbn [sample_loop]; [eauto|].
  destruct (range_usize_ok 0 (length vec) r ltac:(lia)) as (i & r1 & E).
  apply range_usize_spec in E as Hi. rewrite E. cbn [rbind].
  assert (exists d : A, True) as [d _] by (destruct vec as [|d ?]; [cbn in H; lia|eauto]).
  rewrite (geti_ok vec i d) by lia. cbn [rbind]. apply IH. rewrite remove_nth_length; lia.
Qed.
