(** Subpopulations: the diversity table. *)
From Coq Require Import List Arith NArith ZArith QArith Bool Lia Lqa Permutation Sorted.
From Verif.Model Require Import Num Prelude Evaluate Individual Config Population.
From Verif.Spec Require Import Library.
From Verif.Proofs Require Import Lists QNum MatrixFacts.
Import ListNotations.
Open Scope nat_scope.

Ltac rb H := unfold rbind in H;
  repeat match type of H with
  | match ?x with Ok _ => _ | Err _ => _ end = Ok _ =>
      let E := fresh "E" in destruct x eqn:E; [|discriminate H]
  end.

Lemma insert_nth_split {A} (l : list A) i a : insert_nth l i a = firstn i l ++ a :: skipn i l.
Proof. reflexivity. Qed.

Section Pop.
  Context {N : Num}.
  Variable L : lib.
  Hypothesis LOK : lib_ok L.

  (** fitness erased *)
  Definition core (i : individual) : individual := set_fitness i None.

  Lemma bpd_core a b : broken_pairs_distance (core a) (core b) = broken_pairs_distance a b.
  Proof. reflexivity. Qed.

  (** distance recorded for a pair: from the older to the newer individual *)
  Definition pair_distance (a b : individual) : res nat :=
    if i_number a <? i_number b then broken_pairs_distance a b else broken_pairs_distance b a.
  Definition D (a b : individual) : nat := match pair_distance a b with Ok d => d | Err _ => 0 end.

  Lemma D_sym a b : i_number a <> i_number b -> D a b = D b a.
  Proof.
    intros H. unfold D, pair_distance.
    destruct (Nat.ltb_spec (i_number a) (i_number b)), (Nat.ltb_spec (i_number b) (i_number a)); auto; lia.
  Qed.
  Lemma D_core a b : D (core a) (core b) = D a b.
  Proof. reflexivity. Qed.

  Definition ent (a b : individual) : diversity := (D a b, i_number b).
  Definition asc (v : list diversity) : Prop := StronglySorted (fun x y => fst x <= fst y) v.

  Definition entry_ok (div : nat -> option (list diversity)) (a : individual) (nbs : list individual) : Prop :=
    match div (i_number a) with
    | Some v => asc v /\ Permutation v (map (ent a) nbs)
    | None => nbs = []
    end.

  Definition Table (div : nat -> option (list diversity)) (ms : list individual) : Prop :=
    NoDup (map i_number ms) /\
    (forall k, ~ In k (map i_number ms) -> div k = None) /\
    (forall l1 a l2, ms = l1 ++ a :: l2 -> entry_ok div a (l1 ++ l2)).

  (** Inserting into a sorted vector with binary search *)
  Lemma asc_split d v : asc v -> exists a b c, v = a ++ b ++ c /\
    Forall (fun x : diversity => Nat.compare (fst x) d = Lt) a /\
    Forall (fun x : diversity => Nat.compare (fst x) d = Eq) b /\
    Forall (fun x : diversity => Nat.compare (fst x) d = Gt) c.
  Proof.
    induction 1 as [|x v Hs IH Hf].
    - exists [], [], []. repeat split; constructor.
    - destruct IH as (a & b & c & -> & Ha & Hb & Hc).
      destruct (Nat.compare (fst x) d) eqn:E.
      + apply Nat.compare_eq in E.
        assert (a = []) as ->.
        { destruct a as [|y a]; auto. inversion Ha as [|? ? Hy _]. subst.
          cbn in Hf. inversion Hf as [|? ? Hxy _]. subst. apply Nat.compare_lt_iff in Hy. lia. }
        exists [], (x :: b), c. repeat split; auto. constructor; auto. apply Nat.compare_eq_iff. auto.
      + exists (x :: a), b, c. repeat split; auto.
      + apply Nat.compare_gt_iff in E.
        assert (a = [] /\ b = []) as [-> ->].
        { split.
          - destruct a as [|y a]; auto. inversion Ha as [|? ? Hy _]. subst.
            cbn in Hf. inversion Hf as [|? ? Hxy _]. subst. apply Nat.compare_lt_iff in Hy. lia.
          - destruct b as [|y b]; auto. inversion Hb as [|? ? Hy _]. subst.
            rewrite Forall_forall in Hf. specialize (Hf y). apply Nat.compare_eq in Hy.
            assert (fst x <= fst y) by (apply Hf; apply in_or_app; right; now left). lia. }
        exists [], [], (x :: c). repeat split; auto. constructor; auto. now apply Nat.compare_gt_iff.
  Qed.

  Lemma StronglySorted_app {A} (R : A -> A -> Prop) l1 l2 :
    StronglySorted R (l1 ++ l2) <->
    StronglySorted R l1 /\ StronglySorted R l2 /\ (forall x y, In x l1 -> In y l2 -> R x y).
  Proof.
    induction l1 as [|a l1 IH]; cbn [app].
    - split; [intros H; repeat split; auto; [constructor|intros ? ? []]|tauto].
    - split.
      + intros H. inversion H as [|? ? Hs Hf]. subst. apply IH in Hs as (H1 & H2 & H3).
        rewrite Forall_forall in Hf. repeat split; auto.
        * constructor; auto. apply Forall_forall. intros; apply Hf. apply in_or_app; now left.
        * intros x y [->|Hx] Hy; auto. apply Hf. apply in_or_app; now right.
      + intros (H1 & H2 & H3). inversion H1 as [|? ? Hs Hf]. subst. constructor.
        * apply IH. repeat split; auto. intros; apply H3; auto. now right.
        * rewrite Forall_forall in *. intros x Hx. apply in_app_or in Hx as [Hx|Hx]; auto. apply H3; auto. now left.
  Qed.

  Lemma asc_insert (d : diversity) v : asc v ->
    asc (insert_nth v (l_bsearch L _ (fun e => Nat.compare (fst e) (fst d)) v) d).
  Proof.
    intros Hv. destruct (asc_split (fst d) v Hv) as (a & b & c & E & Ha & Hb & Hc).
    pose proof (bs_part L LOK _ (fun e : diversity => Nat.compare (fst e) (fst d)) a b c Ha Hb Hc) as Hi.
    rewrite <- E in Hi. revert Hi. unfold diversity. generalize (l_bsearch L (nat * nat) (fun e => Nat.compare (fst e) (fst d)) v). intros i Hi.
    unfold insert_nth, asc in *. rewrite <- (firstn_skipn i v) in Hv.
    apply StronglySorted_app in Hv as (H1 & H2 & H3). apply StronglySorted_app.
    pose proof (proj1 (Forall_forall _ _) Ha) as Ha'. pose proof (proj1 (Forall_forall _ _) Hb) as Hb'.
    pose proof (proj1 (Forall_forall _ _) Hc) as Hc'. cbv beta in Ha', Hb', Hc'.
    assert (Hle : forall x, In x (firstn i v) -> fst x <= fst d).
    { intros x Hx. rewrite E, app_assoc, firstn_app in Hx. apply in_app_or in Hx as [Hx|Hx].
      - apply in_firstn in Hx. apply in_app_or in Hx as [Hx|Hx].
        + apply Ha', Nat.compare_lt_iff in Hx. lia.
        + apply Hb', Nat.compare_eq in Hx. lia.
      - rewrite app_length in Hx. rewrite (proj2 (Nat.sub_0_le _ _)) in Hx by exact (proj2 Hi). destruct Hx. }
    assert (Hge : forall x, In x (skipn i v) -> fst d <= fst x).
    { intros x Hx. rewrite E, skipn_app in Hx. apply in_app_or in Hx as [Hx|Hx].
      - rewrite skipn_all2 in Hx by exact (proj1 Hi). destruct Hx.
      - assert (Hx' : In x (b ++ c)).
        { rewrite <- (firstn_skipn (i - length a) (b ++ c)). apply in_or_app. now right. }
        apply in_app_or in Hx' as [Hx'|Hx'].
        + apply Hb', Nat.compare_eq in Hx'. lia.
        + apply Hc', Nat.compare_gt_iff in Hx'. lia. }
    repeat split; auto.
    - constructor; auto. apply Forall_forall. auto.
    - intros x y Hx [<-|Hy]; auto.
  Qed.

  Definition add_div (div : nat -> option (list diversity)) key d :=
    fupd div key
      (Some (match div key with
             | Some v => insert_nth v (l_bsearch L _ (fun e => Nat.compare (fst e) (fst d)) v) d
             | None => [d]
             end)).

  Lemma fupd_same {A} (f : nat -> A) k a : fupd f k a k = a.
  Proof. unfold fupd. now rewrite Nat.eqb_refl. Qed.
  Lemma fupd_other {A} (f : nat -> A) k a j : j <> k -> fupd f k a j = f j.
  Proof. unfold fupd. intros H. now rewrite (proj2 (Nat.eqb_neq j k)). Qed.

  Lemma add_div_entry div a b nbs :
    entry_ok div a nbs -> entry_ok (add_div div (i_number a) (ent a b)) a (b :: nbs).
  Proof.
    unfold entry_ok, add_div. rewrite fupd_same. destruct (div (i_number a)) as [v|].
    - intros [Hs Hp]. split; [now apply asc_insert|]. rewrite insert_nth_perm. cbn [map]. now constructor.
    - intros ->. split; [repeat constructor|]. reflexivity.
  Qed.

  Lemma add_div_other div a k d nbs : i_number a <> k -> entry_ok div a nbs -> entry_ok (add_div div k d) a nbs.
  Proof. unfold entry_ok, add_div. intros H. now rewrite fupd_other. Qed.

  Lemma entry_ok_perm div a nbs nbs' : Permutation nbs nbs' -> entry_ok div a nbs -> entry_ok div a nbs'.
  Proof.
    unfold entry_ok. intros P. destruct (div (i_number a)).
    - intros [H1 H2]. split; auto. rewrite H2. now apply Permutation_map.
    - intros ->. now apply Permutation_nil.
  Qed.

  (** The loop of update_diversity on the other individuals, in order *)
  Definition ud_step (x : individual) (s : subpop) (o : individual) : res subpop :=
    rbind (broken_pairs_distance o x) (fun d =>
      Ok (add_diversity L (add_diversity L s (i_number o) (d, i_number x)) (i_number x) (d, i_number o))).

  Lemma ud_step_pop x s o s' : ud_step x s o = Ok s' -> sp_pop s' = sp_pop s /\ sp_max s' = sp_max s.
  Proof. unfold ud_step. intros H. rb H. injection H as <-. auto. Qed.

  Lemma ud_prefix x : forall l1 done l2 s, sp_pop s = done ++ l1 ++ l2 ->
    forall idx, nth_error (sp_pop s) idx = Some x -> (idx < length done \/ length done + length l1 <= idx) ->
    foldm (update_diversity_step L idx) (seq (length done) (length l1)) s = foldm (ud_step x) l1 s.
  Proof.
    induction l1 as [|o l1 IH]; intros done l2 s Es idx Hx Hidx; cbn [length seq foldm]; auto.
    cbn [length] in Hidx.
    assert (Ho : nth_error (sp_pop s) (length done) = Some o).
    { rewrite Es, nth_error_app2, Nat.sub_diag by lia. reflexivity. }
    unfold update_diversity_step at 1.
    rewrite (proj2 (Nat.eqb_neq idx (length done))) by lia.
    rewrite (geti_some _ _ _ Ho), (geti_some _ _ _ Hx). cbn [rbind]. unfold ud_step at 1.
    destruct (broken_pairs_distance o x) as [d|]; cbn [rbind]; auto.
    set (s1 := add_diversity L _ _ _). assert (E1 : sp_pop s1 = sp_pop s) by reflexivity.
    specialize (IH (done ++ [o]) l2 s1). rewrite app_length in IH. cbn [length] in IH.
    replace (S (length done)) with (length done + 1) by lia. apply IH.
    - rewrite E1, Es, <- app_assoc. reflexivity.
    - now rewrite E1.
    - lia.
  Qed.

  Lemma update_diversity_eq s l1 x l2 : sp_pop s = l1 ++ x :: l2 ->
    update_diversity L s (length l1) = foldm (ud_step x) (l1 ++ l2) s.
  Proof.
    intros Es. unfold update_diversity.
    assert (Hx : nth_error (sp_pop s) (length l1) = Some x).
    { rewrite Es, nth_error_app2, Nat.sub_diag by lia. reflexivity. }
    replace (length (sp_pop s)) with (length l1 + (1 + length l2)) by (rewrite Es, app_length; reflexivity).
    rewrite !seq_app, !foldm_app.
    rewrite (ud_prefix x l1 [] (x :: l2) s) by (auto; right; cbn; lia).
    destruct (foldm (ud_step x) l1 s) as [s1|] eqn:E1; cbn [rbind]; auto.
    assert (Ep : sp_pop s1 = sp_pop s).
    { apply (foldm_inv (ud_step x) (fun s' => sp_pop s' = sp_pop s)) in E1; auto.
      intros s0 a s0' _ H0 Hs. apply ud_step_pop in Hs. destruct Hs. congruence. }
    rewrite Nat.add_0_l. change (seq (length l1) 1) with [length l1]. cbn [app foldm].
    replace (update_diversity_step L (length l1) s1 (length l1)) with (Ok s1)
      by (unfold update_diversity_step; now rewrite Nat.eqb_refl).
    pose proof (ud_prefix x l2 (l1 ++ [x]) [] s1) as HH. rewrite app_length in HH. cbn [length] in HH.
    rewrite HH; auto.
    - now rewrite Ep, Es, app_nil_r, <- app_assoc.
    - rewrite Ep. exact Hx.
    - left. lia.
  Qed.

  Lemma ud_step_div x s o s' : ud_step x s o = Ok s' -> i_number o < i_number x ->
    sp_div s' = add_div (add_div (sp_div s) (i_number o) (ent o x)) (i_number x) (ent x o) /\
    broken_pairs_distance o x = Ok (D o x).
  Proof.
    unfold ud_step. intros H Hlt. rb H. injection H as <-.
    assert (ED : D o x = a).
    { unfold D, pair_distance. destruct (Nat.ltb_spec (i_number o) (i_number x)); [|lia]. now rewrite E. }
    split; [|congruence]. cbn. unfold ent. rewrite (D_sym x o), ED by lia. reflexivity.
  Qed.

  Lemma ud_loop x others : forall done s s',
    NoDup (map i_number (done ++ others)) -> (forall o, In o others -> i_number o < i_number x) ->
    (forall o, In o done -> i_number o <> i_number x) ->
    foldm (ud_step x) others s = Ok s' ->
    entry_ok (sp_div s) x done ->
    entry_ok (sp_div s') x (rev others ++ done) /\
    (forall k, k <> i_number x -> ~ In k (map i_number others) -> sp_div s' k = sp_div s k) /\
    (forall o nbs, In o others -> entry_ok (sp_div s) o nbs -> entry_ok (sp_div s') o (x :: nbs)) /\
    (forall o, In o others -> broken_pairs_distance o x = Ok (D o x)).
  Proof.
    induction others as [|o others IH]; intros done s s' Hnd Hlt Hd H Hx; cbn [foldm] in H.
    - injection H as <-. split; [exact Hx|split; [auto|split; [intros ? ? []|intros ? []]]].
    - destruct (ud_step x s o) as [s1|] eqn:E1; [|discriminate].
      assert (Ho : i_number o < i_number x) by (apply Hlt; now left).
      apply ud_step_div in E1 as [E1 Eb]; auto.
      assert (Hnd' : NoDup (map i_number ((o :: done) ++ others))).
      { eapply Permutation_NoDup; [|exact Hnd]. apply Permutation_map. cbn [app]. symmetry. apply Permutation_middle. }
      assert (Hno : ~ In (i_number o) (map i_number others)).
      { cbn in Hnd'. inversion Hnd' as [|? ? Hn _]. subst. intros Hin. apply Hn. rewrite map_app. apply in_or_app. now right. }
      destruct (IH (o :: done) s1 s') as (H1 & H2 & H3 & H4); auto.
      + intros o' Ho'. apply Hlt. now right.
      + intros o' [<-|Ho']; auto. lia.
      + rewrite E1. apply add_div_entry. apply add_div_other; auto. lia.
      + split; [|split; [|split]].
        * cbn [rev]. rewrite <- app_assoc. exact H1.
        * intros k Hk Hnin. cbn in Hnin. rewrite H2 by tauto. rewrite E1. unfold add_div.
          rewrite !fupd_other by (auto; intros ->; apply Hnin; now left). reflexivity.
        * intros o' nbs [<-|Ho'] Hok.
          -- unfold entry_ok. rewrite H2 by (auto; lia).
             change (entry_ok (sp_div s1) o (x :: nbs)). rewrite E1. apply add_div_other; [lia|].
             now apply add_div_entry.
          -- apply H3; auto. rewrite E1. assert (i_number o' < i_number x) by (apply Hlt; now right).
             assert (i_number o' <> i_number o).
             { intros Heq. apply Hno. rewrite <- Heq. now apply in_map. }
             apply add_div_other; [lia|]. apply add_div_other; auto.
        * intros o' [<-|Ho']; auto.
  Qed.

  Lemma Table_insert s l1 l2 x s' :
    Table (sp_div s) (l1 ++ l2) -> (forall o, In o (l1 ++ l2) -> i_number o < i_number x) ->
    foldm (ud_step x) (l1 ++ l2) s = Ok s' ->
    Table (sp_div s') (l1 ++ x :: l2) /\
    (forall o, In o (l1 ++ l2) -> broken_pairs_distance o x = Ok (D o x)).
  Proof.
    intros (Hnd & Hnone & Hok) Hlt H.
    assert (Hxn : ~ In (i_number x) (map i_number (l1 ++ l2))).
    { intros Hin. apply in_map_iff in Hin as (o & E & Ho). apply Hlt in Ho. lia. }
    destruct (ud_loop x (l1 ++ l2) [] s s') as (H1 & H2 & H3 & H4); auto.
    { unfold entry_ok. now rewrite Hnone. }
    split; auto. rewrite app_nil_r in H1.
    assert (Hnd' : NoDup (map i_number (l1 ++ x :: l2))).
    { eapply Permutation_NoDup; [apply Permutation_map, Permutation_middle|]. cbn. now constructor. }
    split; [auto|split].
    - intros k Hk. rewrite H2.
      + apply Hnone. intros Hin. apply Hk. rewrite map_app in *. cbn. apply in_app_or in Hin. apply in_or_app. cbn. tauto.
      + intros ->. apply Hk. apply in_map. apply in_or_app. right. now left.
      + intros Hin. apply Hk. rewrite map_app in *. cbn. apply in_app_or in Hin. apply in_or_app. cbn. tauto.
    - intros m1 a m2 E.
      assert (Ha : In a (l1 ++ x :: l2)) by (rewrite E; apply in_or_app; right; now left).
      assert (Hcase : a = x \/ In a (l1 ++ l2)).
      { apply in_app_or in Ha as [Ha|[<-|Ha]]; [right; apply in_or_app; now left|now left|right; apply in_or_app; now right]. }
      destruct Hcase as [->|Hin].
      + eapply entry_ok_perm; [|exact H1]. rewrite <- Permutation_rev.
        apply (Permutation_cons_inv (a := x)). rewrite !Permutation_middle. rewrite E. reflexivity.
      + apply in_split in Hin as (n1 & n2 & En).
        specialize (Hok n1 a n2 En).
        assert (Hin : In a (l1 ++ l2)) by (rewrite En; apply in_or_app; right; now left).
        pose proof (H3 a _ Hin Hok) as H5. eapply entry_ok_perm; [|exact H5].
        apply (Permutation_cons_inv (a := a)). rewrite !Permutation_middle, <- E.
        transitivity (x :: l1 ++ l2); [|apply Permutation_middle]. rewrite En.
        replace (n1 ++ a :: x :: n2) with ((n1 ++ [a]) ++ x :: n2) by (rewrite <- app_assoc; reflexivity).
        replace (n1 ++ a :: n2) with ((n1 ++ [a]) ++ n2) by (rewrite <- app_assoc; reflexivity).
        symmetry. apply Permutation_middle.
  Qed.

  (** Removal *)
  Lemma remove_first_perm k v d : NoDup (map snd v) -> In d v -> snd d = k ->
    Permutation v (d :: remove_first k v).
  Proof.
    induction v as [|e v IH]; intros Hnd Hin Hk; [destruct Hin|]. cbn [remove_first].
    cbn in Hnd. inversion Hnd as [|? ? Hn Hnd']. subst. destruct (Nat.eqb_spec (snd e) (snd d)) as [E|E].
    - destruct Hin as [->|Hin]; [reflexivity|]. exfalso. apply Hn. rewrite E. now apply in_map.
    - destruct Hin as [->|Hin]; [congruence|]. rewrite IH at 1 by auto. apply perm_swap.
  Qed.

  Lemma remove_first_asc k v : asc v -> asc (remove_first k v).
  Proof.
    unfold asc. induction 1 as [|e v Hs IH Hf]; cbn; [constructor|].
    destruct (snd e =? k); auto. constructor; auto.
    apply Forall_forall. intros x Hx. rewrite Forall_forall in Hf. apply Hf.
    clear -Hx. induction v as [|y v IH]; cbn in Hx; auto. destruct (snd y =? k); [now right|].
    destruct Hx as [->|Hx]; [now left|right; auto].
  Qed.

  Lemma Table_remove s l1 x l2 : Table (sp_div s) (l1 ++ x :: l2) ->
    Table (sp_div (remove_diversity s x)) (l1 ++ l2).
  Proof.
    intros (Hnd & Hnone & Hok).
    assert (Hnd2 : NoDup (i_number x :: map i_number (l1 ++ l2))).
    { change (NoDup (map i_number (x :: l1 ++ l2))). eapply Permutation_NoDup; [|exact Hnd].
      apply Permutation_map. symmetry. apply Permutation_middle. }
    inversion Hnd2 as [|? ? Hn Hnd']. subst. split; [auto|split].
    - intros k Hk. cbn. destruct (Nat.eqb_spec k (i_number x)) as [->|Hne]; auto.
      rewrite Hnone; auto. intros Hin. apply Hk. rewrite map_app in *. cbn in Hin.
      apply in_app_or in Hin. apply in_or_app. cbn in Hin. destruct Hin as [?|[?|?]]; auto. congruence.
    - intros m1 a m2 E. unfold entry_ok. cbn.
      assert (Ha : In a (l1 ++ l2)) by (rewrite E; apply in_or_app; right; now left).
      destruct (Nat.eqb_spec (i_number a) (i_number x)) as [E2|Hne].
      { exfalso. apply Hn. rewrite <- E2. now apply in_map. }
      assert (Ha2 : In a (l1 ++ x :: l2)) by (apply in_app_or in Ha; apply in_or_app; cbn; tauto).
      apply in_split in Ha2 as (n1 & n2 & En). specialize (Hok n1 a n2 En). unfold entry_ok in Hok.
      assert (P : Permutation (n1 ++ n2) (x :: m1 ++ m2)).
      { apply (Permutation_cons_inv (a := a)). rewrite Permutation_middle, <- En.
        rewrite <- Permutation_middle, E. rewrite <- Permutation_middle. apply perm_swap. }
      destruct (sp_div s (i_number a)) as [v|].
      + destruct Hok as [Hs Hp]. split; [now apply remove_first_asc|].
        rewrite P in Hp. cbn [map] in Hp.
        assert (Hndv : NoDup (map snd v)).
        { eapply Permutation_NoDup; [apply Permutation_map; symmetry; exact Hp|].
          change (ent a x :: map (ent a) (m1 ++ m2)) with (map (ent a) (x :: m1 ++ m2)).
          rewrite map_map.
          assert (Hnd3 : NoDup (map i_number (a :: x :: m1 ++ m2))).
          { eapply Permutation_NoDup; [|exact Hnd2].
            change (i_number x :: map i_number (l1 ++ l2)) with (map i_number (x :: l1 ++ l2)).
            apply Permutation_map. rewrite E. rewrite <- Permutation_middle. apply perm_swap. }
          inversion Hnd3. assumption. }
        apply (Permutation_cons_inv (a := ent a x)). rewrite <- Hp. symmetry.
        apply remove_first_perm; auto. eapply Permutation_in; [symmetry; exact Hp|]. now left.
      + subst. apply Permutation_sym in P. destruct n1; destruct n2; cbn in Hok; try discriminate.
        cbn in P. apply Permutation_length in P. discriminate.
  Qed.
End Pop.
