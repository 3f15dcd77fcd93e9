From Coq Require Import List Arith NArith Bool Lia Permutation.
From Verif.Model Require Import Prelude Crossover.
From Verif.Spec Require Import Crossover.
From Verif.Proofs Require Import Lists.
Import ListNotations.

(** Position reached [k] steps after [s] in a cycle of length [n]. *)
Definition cpos (n s k : nat) : nat := if s + k <? n then s + k else s + k - n.

Lemma cpos_lt n s k : s < n -> k < n -> cpos n s k < n.
Proof. unfold cpos. destruct (s + k <? n) eqn:E; [apply Nat.ltb_lt in E|apply Nat.ltb_ge in E]; lia. Qed.
Lemma cpos_next n s k : s < n -> k < n -> wrap_index (cpos n s k + 1) n = cpos n s (k + 1).
Proof.
  unfold wrap_index, cpos. intros.
  destruct (s + k <? n) eqn:E; destruct (s + (k + 1) <? n) eqn:E2;
  repeat match goal with H : (_ <? _) = true |- _ => apply Nat.ltb_lt in H
                       | H : (_ <? _) = false |- _ => apply Nat.ltb_ge in H end;
  match goal with |- context [?a =? ?b] => destruct (Nat.eqb_spec a b) end; lia.
Qed.
Lemma cpos_inj n s i j : s < n -> i < n -> j < n -> cpos n s i = cpos n s j -> i = j.
Proof.
  unfold cpos. intros.
  destruct (s + i <? n) eqn:E; destruct (s + j <? n) eqn:E2;
  repeat match goal with H : (_ <? _) = true |- _ => apply Nat.ltb_lt in H
                       | H : (_ <? _) = false |- _ => apply Nat.ltb_ge in H end; lia.
Qed.

Lemma read_from_length s l : length (read_from s l) = length l.
Proof. unfold read_from. rewrite app_length, skipn_length, firstn_length. lia. Qed.

Lemma read_from_perm s l : Permutation (read_from s l) l.
Proof.
  unfold read_from. rewrite Permutation_app_comm, firstn_skipn. reflexivity.
Qed.

Lemma nth_firstn {A} k n (l : list A) d : k < n -> nth k (firstn n l) d = nth k l d.
Proof.
  revert k l; induction n; intros k l H; [lia|].
  destruct l; simpl; auto. destruct k; auto. apply IHn. lia.
Qed.
Lemma nth_skipn {A} k n (l : list A) d : nth k (skipn n l) d = nth (n + k) l d.
Proof.
  revert l; induction n; intros l; simpl; auto. destruct l; simpl; auto. destruct k; auto.
Qed.

Lemma nth_read_from s l k :
  s < length l -> k < length l -> nth k (read_from s l) 0 = nth (cpos (length l) s k) l 0.
Proof.
  intros Hs Hk. unfold read_from, cpos.
  destruct (s + k <? length l) eqn:E; [apply Nat.ltb_lt in E|apply Nat.ltb_ge in E].
  - rewrite app_nth1 by (rewrite skipn_length; lia). apply nth_skipn.
  - rewrite app_nth2 by (rewrite skipn_length; lia). rewrite skipn_length.
    rewrite nth_firstn by lia. f_equal. lia.
Qed.

Lemma read_from_upd s l k x :
  s < length l -> k < length l ->
  read_from s (upd l (cpos (length l) s k) x) = upd (read_from s l) k x.
Proof.
  intros Hs Hk.
  apply (nth_ext _ _ 0 0).
  - now rewrite upd_length, !read_from_length, upd_length.
  - intros j Hj. rewrite read_from_length, upd_length in Hj.
    rewrite nth_read_from by (rewrite upd_length; lia). rewrite upd_length.
    rewrite nth_upd by (apply cpos_lt; lia).
    rewrite nth_upd by (rewrite read_from_length; lia).
    rewrite nth_read_from by lia.
    destruct (Nat.eqb_spec (cpos (length l) s k) (cpos (length l) s j)) as [e|e];
    destruct (Nat.eqb_spec k j) as [e2|e2]; auto.
    + apply cpos_inj in e; auto. congruence.
    + subst. congruence.
Qed.

Lemma upd_app_right {A} (l1 l2 : list A) k a :
  upd (l1 ++ l2) (length l1 + k) a = l1 ++ upd l2 k a.
Proof. induction l1; simpl; congruence. Qed.

Lemma skipn_cons {A} k (l : list A) d : k < length l -> skipn k l = nth k l d :: skipn (S k) l.
Proof.
  revert l; induction k; intros l Hl; destruct l; simpl in *; try lia; auto.
  apply IHk. lia.
Qed.

Lemma memb_In x l : memb x l = true <-> In x l.
Proof.
  unfold memb. rewrite existsb_exists. split.
  - intros (y & Hy & E). apply Nat.eqb_eq in E. congruence.
  - intros H. exists x. split; auto. apply Nat.eqb_refl.
Qed.
Lemma memb_notIn x l : memb x l = false <-> ~ In x l.
Proof. rewrite <- memb_In. destruct (memb x l); split; congruence. Qed.

Section Zone.
  Variable g : list nat.
  Variables s e : nat.
  Let n := length g.
  Hypothesis Hs : s < n.
  Hypothesis He : e < n.

  Let m := zone_size n s e.

  Lemma zone_size_bounds : 1 <= m <= n.
  Proof. unfold m, zone_size. destruct (s <=? e) eqn:E; [apply Nat.leb_le in E|apply Nat.leb_gt in E]; lia. Qed.

  Lemma cpos_end k : k < n -> cpos n s k = e <-> k = m - 1.
  Proof.
    intros Hk. unfold m, zone_size, cpos.
    destruct (s <=? e) eqn:E; [apply Nat.leb_le in E|apply Nat.leb_gt in E];
    destruct (s + k <? n) eqn:E2; [apply Nat.ltb_lt in E2|apply Nat.ltb_ge in E2|
                                   apply Nat.ltb_lt in E2|apply Nat.ltb_ge in E2]; lia.
  Qed.

  Lemma collect_zone_eq fuel : forall k added,
    k < m -> m - k <= fuel ->
    exists added',
      collect_zone fuel g (cpos n s k) e added = Ok (added', cpos n s m) /\
      (forall x, In x added' <-> In x added \/ In x (firstn (m - k) (skipn k (read_from s g)))).
  Proof.
    pose proof zone_size_bounds as Hm.
    induction fuel as [|fuel IH]; intros k added Hk Hf; [lia|].
    simpl.
    assert (Hlt : cpos n s k < n) by (apply cpos_lt; lia).
    rewrite (geti_ok g _ 0) by exact Hlt. simpl.
    assert (Hnth : nth k (read_from s g) 0 = nth (cpos n s k) g 0).
    { apply nth_read_from; auto. fold n. lia. }
    assert (Hsk : skipn k (read_from s g) = nth (cpos n s k) g 0 :: skipn (S k) (read_from s g)).
    { rewrite <- Hnth. apply skipn_cons. rewrite read_from_length. fold n. lia. }
    destruct (Nat.eqb_spec (cpos n s k) e) as [E|E].
    - apply cpos_end in E; [|lia]. subst k.
      fold n. rewrite cpos_next by lia.
      replace (m - 1 + 1) with m by lia.
      eexists; split; [reflexivity|].
      intros x. rewrite Hsk. replace (m - (m - 1)) with 1 by lia. simpl. tauto.
    - assert (k <> m - 1) by (intros ->; apply E, cpos_end; lia).
      fold n. rewrite cpos_next by lia.
      destruct (IH (k + 1) (nth (cpos n s k) g 0 :: added)) as (added' & Ea & Ha); try lia.
      exists added'. split; auto.
      intros x. rewrite Ha. rewrite Hsk.
      replace (m - k) with (S (m - (k + 1))) by lia.
      simpl. replace (k + 1) with (S k) by lia. tauto.
  Qed.
End Zone.

Section Fill.
  Variables g1 g2 : list nat.
  Variables s e : nat.
  Hypothesis Hnd : NoDup g1.
  Hypothesis Hperm : Permutation g2 g1.
  Hypothesis Hs : s < length g1.
  Hypothesis He : e < length g1.

  Let n := length g1.
  Let m := zone_size n s e.
  Let zone := firstn m (read_from s g1).

  Lemma zone_length : length zone = m.
  Proof.
    unfold zone. rewrite firstn_length, read_from_length. fold n.
    pose proof (zone_size_bounds g1 s e Hs He). fold n m in H. lia.
  Qed.

  Lemma fill_eq todo : forall done g added index,
    g2 = done ++ todo ->
    length g = n ->
    (forall x, In x added <-> In x zone \/ In x done) ->
    index = cpos n s (m + length (remaining zone done)) ->
    read_from s g = zone ++ remaining zone done
                      ++ skipn (m + length (remaining zone done)) (read_from s g1) ->
    exists g' added' index',
      foldm fill_step todo (g, added, index) = Ok (g', added', index') /\
      length g' = n /\
      read_from s g' = zone ++ remaining zone g2.
  Proof.
    assert (Hnd2 : NoDup g2) by (eapply Permutation_NoDup; [symmetry|]; eauto).
    assert (Hzr : NoDup (zone ++ remaining zone g2) /\ length (zone ++ remaining zone g2) = n).
    { assert (HP : Permutation (zone ++ remaining zone g2) g1).
      { apply NoDup_Permutation.
        - apply NoDup_app_intro.
          + unfold zone. apply NoDup_firstn_l.
            eapply Permutation_NoDup; [symmetry; apply read_from_perm|auto].
          + apply NoDup_filter; auto.
          + intros x Hx Hr. apply filter_In in Hr as [_ Hr]. destruct (in_dec _ _ _); congruence.
        - auto.
        - intros x. rewrite in_app_iff. unfold remaining. rewrite filter_In. split.
          + intros [H|[H _]].
            * eapply Permutation_in; [apply (read_from_perm s)|].
              rewrite <- (firstn_skipn m). apply in_or_app. now left.
            * eapply Permutation_in; eauto.
          + intros H. destruct (in_dec Nat.eq_dec x zone); [now left|right].
            split; auto. eapply Permutation_in; [symmetry|]; eauto. }
      split.
      - eapply Permutation_NoDup; [symmetry|]; eauto.
      - now apply Permutation_length. }
    destruct Hzr as [_ Hlen]. rewrite app_length, zone_length in Hlen.
    pose proof (zone_size_bounds g1 s e Hs He) as Hm. fold n m in Hm.
    induction todo as [|x todo IH]; intros done g added index Eg2 Hg Hadd Hidx Hread.
    - exists g, added, index. simpl. split; auto. split; auto.
      rewrite app_nil_r in Eg2. subst done. rewrite Hread.
      rewrite skipn_all2 by (rewrite read_from_length; fold n; lia).
      now rewrite app_nil_r.
    - cbn [foldm fill_step].
      assert (Hx : ~ In x done).
      { rewrite Eg2 in Hnd2. apply NoDup_app_inv in Hnd2 as (_ & _ & H). intros Hd.
        apply (H x); auto. now left. }
      destruct (memb x added) eqn:Em.
      + apply memb_In in Em. apply Hadd in Em. destruct Em as [Hz|Hd]; [|tauto].
        assert (Hrem : remaining zone (done ++ [x]) = remaining zone done).
        { unfold remaining. rewrite filter_app. simpl.
          destruct (in_dec Nat.eq_dec x zone); [|tauto]. apply app_nil_r. }
        apply (IH (done ++ [x])); auto.
        * rewrite <- app_assoc. exact Eg2.
        * intros y. rewrite Hadd, in_app_iff. simpl. split; [tauto|].
          intros [H|[H|[<-|[]]]]; auto.
        * now rewrite Hrem.
        * now rewrite Hrem.
      + apply memb_notIn in Em.
        assert (Hz : ~ In x zone) by (intros H; apply Em, Hadd; now left).
        assert (Hrem : remaining zone (done ++ [x]) = remaining zone done ++ [x]).
        { unfold remaining. rewrite filter_app. simpl.
          destruct (in_dec Nat.eq_dec x zone); [tauto|]. reflexivity. }
        assert (Hk : m + length (remaining zone done) < n).
        { assert (length (remaining zone g2) >= length (remaining zone done) + 1).
          { rewrite Eg2. unfold remaining. rewrite filter_app, app_length. simpl.
            destruct (in_dec Nat.eq_dec x zone); [tauto|]. simpl. lia. }
          lia. }
        rewrite seti_ok by (rewrite Hg, Hidx; apply cpos_lt; auto).
        unfold rbind.
        apply (IH (done ++ [x])).
        * rewrite <- app_assoc. exact Eg2.
        * now rewrite upd_length.
        * intros y. simpl. rewrite Hadd, in_app_iff. simpl. tauto.
        * rewrite Hrem, app_length, Hg, Hidx. simpl.
          rewrite cpos_next by auto. f_equal. lia.
        * rewrite Hidx, <- Hg. rewrite read_from_upd by (rewrite Hg; auto).
          rewrite Hread, Hrem, app_length. simpl length.
          assert (Hu : forall T, upd (zone ++ remaining zone done ++ T)
                           (m + length (remaining zone done)) x
                         = zone ++ remaining zone done ++ upd T 0 x).
          { intros T. replace (m + length (remaining zone done))
              with (length (zone ++ remaining zone done) + 0)
              by (rewrite app_length, zone_length; lia).
            rewrite (app_assoc zone _ T), upd_app_right. now rewrite <- app_assoc. }
          rewrite Hu. rewrite <- app_assoc. f_equal. f_equal.
          assert (Hl : m + length (remaining zone done) < length (read_from s g1))
            by (rewrite read_from_length; exact Hk).
          rewrite (skipn_cons _ _ 0 Hl). simpl. f_equal.
          replace (m + (length (remaining zone done) + 1)) with (S (m + length (remaining zone done))) by lia.
          reflexivity.
  Qed.

  Theorem crossover_ox_spec :
    exists child, crossover_ox g1 g2 s e = Ok child /\ length child = n /\ read_from s child = zone ++ remaining zone g2 /\ Permutation child g1.
  Proof.
    unfold crossover_ox.
    pose proof (zone_size_bounds g1 s e Hs He) as Hm. fold n m in Hm.
    destruct (collect_zone_eq g1 s e Hs He (length g1) 0 []) as (added & Ea & Ha); fold n m; try lia.
    fold n m in Ea, Ha.
    assert (E0 : cpos n s 0 = s).
    { unfold cpos. rewrite Nat.add_0_r. apply Nat.ltb_lt in Hs. fold n in Hs. now rewrite Hs. }
    rewrite E0 in Ea. fold n. rewrite Ea. cbn [rbind].
    destruct (fill_eq g2 [] g1 added (cpos n s m)) as (g' & a' & i' & E & Hl & Hr); auto.
    - intros x. rewrite Ha. rewrite Nat.sub_0_r. simpl. fold zone. tauto.
    - simpl. rewrite Nat.add_0_r. unfold zone. now rewrite firstn_skipn.
    - rewrite E. simpl. exists g'. repeat split; auto.
      rewrite <- (read_from_perm s g'), Hr.
      apply NoDup_Permutation.
      + apply NoDup_app_intro.
        * unfold zone. apply NoDup_firstn_l.
          eapply Permutation_NoDup; [symmetry; apply read_from_perm|auto].
        * apply NoDup_filter. eapply Permutation_NoDup; [symmetry|]; eauto.
        * intros x Hx Hrm. apply filter_In in Hrm as [_ Hrm]. destruct (in_dec _ _ _); congruence.
      + auto.
      + intros x. rewrite in_app_iff. unfold remaining. rewrite filter_In. split.
        * intros [H|[H _]].
          -- eapply Permutation_in; [apply (read_from_perm s)|].
             rewrite <- (firstn_skipn m). apply in_or_app. now left.
          -- eapply Permutation_in; eauto.
        * intros H. destruct (in_dec Nat.eq_dec x zone); [now left|right].
          split; auto. eapply Permutation_in; [symmetry|]; eauto.
  Qed.

  Lemma crossover_ox_zone child i :
    length child = n -> read_from s child = zone ++ remaining zone g2 ->
    in_zone s e i -> i < n -> nth i child 0 = nth i g1 0.
  Proof.
    intros Hl Hr Hz Hi.
    assert (Hex : exists k, k < m /\ cpos n s k = i).
    { unfold in_zone in Hz. unfold m, zone_size, cpos.
      destruct (s <=? e) eqn:E; [apply Nat.leb_le in E|apply Nat.leb_gt in E].
      - exists (i - s). destruct (s + (i - s) <? n) eqn:E2; [|apply Nat.ltb_ge in E2]; lia.
      - destruct (le_lt_dec s i).
        + exists (i - s). destruct (s + (i - s) <? n) eqn:E2; [|apply Nat.ltb_ge in E2]; fold n in Hs; lia.
        + exists (n - s + i). destruct (s + (n - s + i) <? n) eqn:E2; [apply Nat.ltb_lt in E2|]; fold n in Hs; lia. }
    destruct Hex as (k & Hk & <-).
    pose proof (zone_size_bounds g1 s e Hs He) as Hm. fold n m in Hm.
    rewrite <- Hl at 1. rewrite <- nth_read_from by (rewrite Hl; unfold n in *; lia).
    rewrite Hr, app_nth1 by (rewrite zone_length; lia).
    unfold zone. rewrite nth_firstn by auto. apply nth_read_from; fold n; lia.
  Qed.
End Fill.

Lemma draw_end_spec fuel n start r e r' :
  draw_end fuel n start r = Ok (e, r') -> e < n /\ start <> e.
Proof.
  revert r; induction fuel; intros r H; simpl in H; [discriminate|].
  unfold rbind in H. destruct (range_usize 0 n r) as [[k r1]|] eqn:E; [|discriminate].
  apply range_usize_spec in E.
  destruct (Nat.eqb_spec start k); [eauto|]. injection H as <- <-. lia.
Qed.

(** Any child produced by the crossover is a permutation of the parents. *)
Lemma crossover_perm fuel g1 g2 r child r' :
  NoDup g1 -> Permutation g2 g1 ->
  crossover fuel g1 g2 r = Ok (child, r') -> Permutation child g1.
Proof.
  unfold crossover, rbind. intros Hnd Hp H.
  destruct (range_usize 0 (length g1) r) as [[s r1]|] eqn:E1; [|discriminate].
  destruct (draw_end fuel (length g1) s r1) as [[e r2]|] eqn:E2; [|discriminate].
  apply range_usize_spec in E1. apply draw_end_spec in E2.
  destruct (crossover_ox_spec g1 g2 s e Hnd Hp) as (c & Ec & _ & _ & HP); try lia.
  rewrite Ec in H. injection H as <- <-. exact HP.
Qed.

(** The crossover ends once a draw differs from the first one. *)
Lemma crossover_ends g1 g2 (r : rng) k fuel :
  let n := length g1 in let at_ j := N.modulo (rdraw r (rpos r + j)) (N.of_nat n) in
  2 <= n -> NoDup g1 -> Permutation g2 g1 -> at_ (1 + k) <> at_ 0 -> k < fuel ->
  exists child r', crossover fuel g1 g2 r = Ok (child, r') /\ Permutation child g1.
Proof.
  cbv zeta. intros HN ND PM NE HF.
  set (n := length g1) in *. set (f := fun j => N.to_nat (rdraw r (rpos r + j) mod N.of_nat n)).
  assert (LT : forall j, f j < n).
  { intros j. unfold f. pose proof (N.mod_lt (rdraw r (rpos r + j)) (N.of_nat n)) as X. generalize dependent (rdraw r (rpos r + j) mod N.of_nat n)%N. intros; lia. }
  assert (RG : forall j, range_usize 0 n (mkRng (rdraw r) (rpos r + j)) = Ok (f j, mkRng (rdraw r) (rpos r + S j))).
  { intros j. unfold range_usize. assert (0 <? n = true) as -> by (apply Nat.ltb_lt; lia). cbn [draw rdraw rpos]. rewrite Nat.sub_0_r.
    replace (rpos r + S j) with (S (rpos r + j)) by lia. reflexivity. }
  assert (DE : forall m j, j <= 1 + k -> 1 + k - j < m -> exists e r', draw_end m n (f 0) (mkRng (rdraw r) (rpos r + j)) = Ok (e, r')).
  { induction m as [|m IH]; intros j J1 J2; [lia|]. cbn [draw_end]. rewrite RG. cbn [rbind].
    destruct (Nat.eqb_spec (f 0) (f j)) as [Q1|Q1]; [|eauto].
    destruct (Nat.eq_dec j (1 + k)) as [->|J3]; [|apply IH; lia]. exfalso. apply NE. symmetry. apply N2Nat.inj. exact Q1. }
  assert (R0 : range_usize 0 n r = Ok (f 0, mkRng (rdraw r) (rpos r + 1))).
  { rewrite <- RG. f_equal. destruct r. cbn. now rewrite Nat.add_0_r. }
  unfold crossover. fold n. rewrite R0. cbn [rbind]. destruct (DE fuel 1) as (e & r' & D); [lia|lia|].
  rewrite D. cbn [rbind]. apply draw_end_spec in D as [D1 D2].
  destruct (crossover_ox_spec g1 g2 (f 0) e ND PM) as (ch & EC & _ & _ & HP); [apply LT|exact D1|]. rewrite EC. cbn [rbind]. eauto.
Qed.
