(** Ruin: string removal inside the route, conservation of customers, locations. *)
From Coq Require Import List Arith NArith ZArith Bool Lia Permutation.
From Verif.Model Require Import Num Prelude Evaluate Individual Config Matrix World Schedule RuinRecreate.
From Verif.Spec Require Import Solution RuinRecreate.
From Verif.Proofs Require Import Lists EvalThms.
From Verif.Proofs Require Export SplitStruct.
Import ListNotations.
Local Open Scope nat_scope.

Lemma mem_In x l : mem x l = true <-> In x l.
Proof.
  unfold mem. rewrite existsb_exists. split.
  - intros (y & H & E). apply Nat.eqb_eq in E. now subst.
  - intro H. exists x. split; auto. apply Nat.eqb_refl.
Qed.
Lemma mem_not x l : mem x l = false <-> ~ In x l.
Proof. rewrite <- mem_In. destruct (mem x l); intuition congruence. Qed.
Lemma set_insert_In x y l : In y (set_insert x l) <-> y = x \/ In y l.
Proof.
  unfold set_insert. destruct (mem x l) eqn:E.
  - apply mem_In in E. split; [tauto|]. intros [->|]; auto.
  - rewrite in_app_iff. cbn [In]. intuition congruence.
Qed.
Lemma set_insert_NoDup x l : NoDup l -> NoDup (set_insert x l).
Proof.
  unfold set_insert. destruct (mem x l) eqn:E; auto. apply mem_not in E. intro.
  apply NoDup_app_intro; auto; [constructor; auto; constructor|]. intros y H1 [->|[]]. auto.
Qed.

Lemma split_at_index {A} (l : list A) i : i < length l ->
  exists a x b, l = a ++ x :: b /\ length a = i.
Proof.
  intro H. destruct (nth_error l i) as [x|] eqn:E.
  - apply nth_error_split in E. destruct E as (a & b & E & L). exists a, x, b. auto.
  - apply nth_error_None in E. lia.
Qed.

Lemma remove_nth_mid {A} (a : list A) x b : remove_nth (a ++ x :: b) (length a) = a ++ b.
Proof.
  unfold remove_nth. rewrite firstn_app, Nat.sub_diag, firstn_all. cbn [firstn]. rewrite app_nil_r.
  f_equal. replace (a ++ x :: b) with ((a ++ [x]) ++ b) by (rewrite <- app_assoc; auto).
  rewrite skipn_app. replace (S (length a)) with (length (a ++ [x])) by (rewrite app_length; cbn; lia).
  rewrite skipn_all, Nat.sub_diag. auto.
Qed.

Lemma nth_error_mid {A} (a : list A) x b : nth_error (a ++ x :: b) (length a) = Some x.
Proof. rewrite nth_error_app2, Nat.sub_diag; auto. Qed.

Lemma concat_mid {A} (a : list (list A)) x b : concat (a ++ x :: b) = concat a ++ x ++ concat b.
Proof. now rewrite concat_app. Qed.

Lemma cut_perm node lt l l' rem : cut node lt l l' rem -> Permutation l (l' ++ rem).
Proof.
  destruct 1 as [a s b L I|a s1 m s2 b L Ne I].
  - rewrite <- app_assoc. apply Permutation_app_head. apply Permutation_app_comm.
  - rewrite <- !app_assoc. apply Permutation_app_head.
    etransitivity; [apply Permutation_app_swap_app|]. apply Permutation_app_head.
    etransitivity; [apply Permutation_app_comm|]. rewrite <- !app_assoc.
    etransitivity; [apply Permutation_app_swap_app|]. apply Permutation_app_head.
    apply Permutation_app; apply Permutation_rev.
Qed.
Lemma cut_length node lt l l' rem : cut node lt l l' rem -> length rem = lt.
Proof. destruct 1; auto. rewrite app_length, !rev_length. lia. Qed.

Section Ruin.
  Context {N : Num}.
  Variable p : problem.
  Variable c : config.
  Notation dim := (p_dim p).

  (** A property of routes kept by removals. *)
  Variable good : rroute -> Prop.
  Hypothesis good_remove : forall ro i n ro', good ro -> ro_remove p ro i = Ok (n, ro') -> good ro'.

  Lemma ro_remove_ok ro a x b : ro_nodes ro = a ++ x :: b ->
    exists ro', ro_remove p ro (length a) = Ok (x, ro') /\ ro_nodes ro' = a ++ b.
  Proof.
    intro E. unfold ro_remove. rewrite E.
    assert (L : length (a ++ x :: b) = length a + S (length b)) by (rewrite app_length; auto).
    assert (G1 : exists q, (if length a =? 0 then Ok 0 else geti (a ++ x :: b) (length a - 1)) = Ok q).
    { destruct (length a =? 0) eqn:Z; eauto. apply Nat.eqb_neq in Z.
      eexists. apply (geti_ok _ _ 0). rewrite L. lia. }
    destruct G1 as [pr G1]. rewrite G1. cbn [rbind].
    assert (G2 : exists q, (if length a =? length (a ++ x :: b) - 1 then Ok 0
                            else geti (a ++ x :: b) (length a + 1)) = Ok q).
    { destruct (length a =? length (a ++ x :: b) - 1) eqn:Z; eauto. apply Nat.eqb_neq in Z.
      eexists. apply (geti_ok _ _ 0). lia. }
    destruct G2 as [nx G2]. rewrite G2. cbn [rbind].
    rewrite (geti_some _ _ x) by apply nth_error_mid. cbn [rbind].
    eexists. split; [reflexivity|]. cbn [ro_nodes]. apply remove_nth_mid.
  Qed.

  (** The effect of removals on route [r]: only this route and the waiting list change. *)
  Record removed (r : nat) (s s' : rsol) (nodes' rem : list nat) : Prop := {
    rm_len : length (so_routes s') = length (so_routes s);
    rm_node : exists ro', nth_error (so_routes s') r = Some ro' /\ ro_nodes ro' = nodes' /\
                (forall ro, nth_error (so_routes s) r = Some ro -> good ro -> good ro');
    rm_other : forall k, k <> r -> nth_error (so_routes s') k = nth_error (so_routes s) k;
    rm_un : so_un s' = so_un s ++ rem;
    rm_ruined : so_ruined s' = so_ruined s;
    rm_loc : so_loc s' = so_loc s;
    rm_cost : so_cost s' = so_cost s
  }.

  Lemma removed_refl r s ro : nth_error (so_routes s) r = Some ro -> removed r s s (ro_nodes ro) [].
  Proof.
    intro H. constructor; auto.
    - exists ro. do 2 (split; [auto|]). intros ro1 E. rewrite H in E. injection E as <-. auto.
    - now rewrite app_nil_r.
  Qed.

  Lemma removed_trans r s1 s2 s3 n2 n3 m2 m3 :
    removed r s1 s2 n2 m2 -> removed r s2 s3 n3 m3 -> removed r s1 s3 n3 (m2 ++ m3).
  Proof.
    intros [A1 (ro2 & A2 & A2' & A2'') A3 A4 A5 A6 A7] [B1 (ro3 & B2 & B2' & B2'') B3 B4 B5 B6 B7].
    constructor; try congruence.
    - exists ro3. do 2 (split; [auto|]). intros ro H G. apply (B2'' ro2); auto. now apply (A2'' ro).
    - intros k Hk. rewrite B3, A3; auto.
    - rewrite B4, A4. now rewrite app_assoc.
  Qed.

  Lemma remove_at_ok r s ro a x b : nth_error (so_routes s) r = Some ro -> ro_nodes ro = a ++ x :: b ->
    exists s', remove_at p r s (length a) = Ok s' /\ removed r s s' (a ++ b) [x].
  Proof.
    intros H E. unfold remove_at. rewrite (geti_some _ _ _ H). cbn [rbind].
    destruct (ro_remove_ok ro a x b E) as (ro' & G & En). rewrite G. cbn [rbind].
    eexists. split; [reflexivity|].
    assert (Lr : r < length (so_routes s)) by (apply nth_error_Some; congruence).
    constructor; cbn [so_routes so_un so_ruined so_loc so_cost so_set_un so_set_routes]; auto.
    - apply upd_length.
    - exists ro'. rewrite nth_error_upd, Nat.eqb_refl. apply Nat.ltb_lt in Lr as ->.
      do 2 (split; [auto|]). intros ro1 H1 G1. rewrite H in H1. injection H1 as <-.
      eapply good_remove; eauto.
    - intros k Hk. rewrite nth_error_upd. destruct (r =? k) eqn:Z; auto. apply Nat.eqb_eq in Z. lia.
  Qed.

  (** The string procedure *)
  Lemma remove_string r a b : forall str (idx : list nat) s ro, length idx = length str ->
    nth_error (so_routes s) r = Some ro -> ro_nodes ro = a ++ str ++ b ->
    exists s', foldm (fun s (_ : nat) => remove_at p r s (length a)) idx s = Ok s' /\
      removed r s s' (a ++ b) str.
  Proof.
    induction str as [|x str IH]; intros idx s ro L H E.
    - destruct idx; [|discriminate]. exists s. split; [reflexivity|].
      cbn [app] in E. rewrite <- E. now apply removed_refl.
    - destruct idx as [|i idx]; [discriminate|]. cbn [foldm].
      destruct (remove_at_ok r s ro a x (str ++ b) H E) as (s1 & G & R). rewrite G.
      destruct R as [A1 (ro1 & A2 & A3 & A4) A5 A6 A7 A8 A9].
      destruct (IH idx s1 ro1) as (s2 & G2 & R2); auto.
      exists s2. split; auto. change (x :: str) with ([x] ++ str).
      eapply removed_trans; [|exact R2]. constructor; eauto.
  Qed.

  (** The split string procedure, from the right: first the part after the kept block ... *)
  Lemma split_right r start m_index m a b : forall s2 s ro,
    nth_error (so_routes s) r = Some ro -> ro_nodes ro = a ++ s2 ++ b ->
    length a = m_index + m -> start <= m_index -> 0 < length a ->
    exists s', split_string p r start m_index m (length a + length s2 - 1) s =
               split_string p r start m_index m (length a - 1) s' /\
      removed r s s' (a ++ b) (rev s2).
  Proof.
    induction s2 as [|x s2 IH] using rev_ind; intros s ro H E La Hs Hp.
    - cbn [length]. rewrite Nat.add_0_r. exists s. split; auto. cbn [app rev] in *.
      rewrite <- E. now apply removed_refl.
    - rewrite app_length. cbn [length].
      replace (length a + (length s2 + 1) - 1) with (S (length a + length s2 - 1)) by lia.
      cbn [split_string].
      replace (start <=? S (length a + length s2 - 1)) with true by (symmetry; apply Nat.leb_le; lia).
      replace (m_index + m <=? S (length a + length s2 - 1)) with true by (symmetry; apply Nat.leb_le; lia).
      cbn [orb].
      assert (E' : ro_nodes ro = (a ++ s2) ++ x :: b) by (rewrite E, <- !app_assoc; auto).
      destruct (remove_at_ok r s ro (a ++ s2) x b H E') as (s1 & G & R).
      rewrite app_length in G.
      replace (S (length a + length s2 - 1)) with (length a + length s2) by lia.
      rewrite G. cbn [rbind].
      destruct R as [A1 (ro1 & A2 & A3 & A4) A5 A6 A7 A8 A9].
      destruct (IH s1 ro1 A2) as (s' & G2 & R2); auto; [now rewrite A3, <- app_assoc|].
      rewrite G2. exists s'. split; auto. rewrite rev_app_distr.
      eapply removed_trans; [|exact R2]. constructor; eauto.
  Qed.

  (** ... then the kept block is skipped ... *)

  Lemma split_skip r start m_index m s : forall i, m_index <= i -> i < m_index + m -> start <= m_index ->
    split_string p r start m_index m i s =
    if m_index =? 0 then Ok s else split_string p r start m_index m (m_index - 1) s.
  Proof.
    induction i as [|i IH]; intros H1 H2 H3.
    - cbn [split_string]. replace m_index with 0 by lia. replace start with 0 by lia.
      cbn [Nat.leb Nat.ltb Nat.eqb orb]. replace (0 + m <=? 0) with false by (symmetry; apply Nat.leb_gt; lia).
      reflexivity.
    - cbn [split_string].
      replace (start <=? S i) with true by (symmetry; apply Nat.leb_le; lia).
      replace (m_index + m <=? S i) with false by (symmetry; apply Nat.leb_gt; lia).
      replace (S i <? m_index) with false by (symmetry; apply Nat.ltb_ge; lia).
      cbn [orb rbind]. destruct (Nat.eq_dec m_index (S i)) as [->|Ne].
      + cbn [Nat.eqb]. now replace (S i - 1) with i by lia.
      + apply IH; lia.
  Qed.

  (** ... and the part before it is removed. *)
  Lemma split_stop r start m_index m i s : i < start -> split_string p r start m_index m i s = Ok s.
  Proof.
    intro H. destruct i; cbn [split_string];
      match goal with |- context [start <=? ?n] => replace (start <=? n) with false by (symmetry; apply Nat.leb_gt; lia) end;
      reflexivity.
  Qed.

  Lemma split_left r m_index m a b : forall s1 s ro,
    nth_error (so_routes s) r = Some ro -> ro_nodes ro = a ++ s1 ++ b ->
    length a + length s1 <= m_index -> 0 < length s1 ->
    exists s', split_string p r (length a) m_index m (length a + length s1 - 1) s = Ok s' /\
      removed r s s' (a ++ b) (rev s1).
  Proof.
    induction s1 as [|x s1 IH] using rev_ind; intros s ro H E La Hp; [cbn in Hp; lia|].
    rewrite app_length in *. cbn [length] in *.
    assert (E' : ro_nodes ro = (a ++ s1) ++ x :: b) by (rewrite E, <- !app_assoc; auto).
    destruct (remove_at_ok r s ro (a ++ s1) x b H E') as (s2 & G & R).
    rewrite app_length in G. pose proof R as R0.
    destruct R as [A1 (ro1 & A2 & A3 & A4) A5 A6 A7 A8 A9].
    replace (length a + (length s1 + 1) - 1) with (length a + length s1) by lia.
    assert (U : split_string p r (length a) m_index m (length a + length s1) s =
      match length a + length s1 with
      | O => Ok s2
      | S index => split_string p r (length a) m_index m index s2
      end).
    { destruct (length a + length s1) as [|i] eqn:Ei; cbn [split_string].
      - replace (length a) with 0 by lia. cbn [Nat.leb].
        replace (0 <? m_index) with true by (symmetry; apply Nat.ltb_lt; lia).
        rewrite orb_true_r, G. reflexivity.
      - replace (length a <=? S i) with true by (symmetry; apply Nat.leb_le; lia).
        replace (S i <? m_index) with true by (symmetry; apply Nat.ltb_lt; lia).
        rewrite orb_true_r, G. reflexivity. }
    rewrite U. destruct s1 as [|y s1].
    - cbn [length app rev] in *. rewrite app_nil_r in *. exists s2. split; [|exact R0].
      rewrite Nat.add_0_r. destruct (length a) eqn:Z; auto. apply split_stop. lia.
    - remember (y :: s1) as s1' eqn:D.
      assert (0 < length s1') by (subst; cbn; lia).
      destruct (length a + length s1') as [|i] eqn:Ei; [lia|].
      replace i with (S i - 1) by lia.
      destruct (IH s2 ro1 A2) as (s' & G2 & R2); [now rewrite A3, <- app_assoc|lia|lia|].
      exists s'. split; [exact G2|]. rewrite rev_app_distr.
      eapply removed_trans; [exact R0|exact R2].
  Qed.

  Lemma split_string_ok r a s1 m s2 b s ro :
    nth_error (so_routes s) r = Some ro -> ro_nodes ro = a ++ s1 ++ m ++ s2 ++ b -> s2 <> [] ->
    exists s', split_string p r (length a) (length a + length s1) (length m)
                 (length a + (length s1 + length s2) + length m - 1) s = Ok s' /\
      removed r s s' (a ++ m ++ b) (rev s2 ++ rev s1).
  Proof.
    intros H E Ne.
    assert (L2 : 0 < length s2) by (destruct s2; [congruence|cbn; lia]).
    set (A := a ++ s1 ++ m). assert (LA : length A = length a + length s1 + length m).
    { unfold A. rewrite !app_length. lia. }
    destruct (Nat.eq_dec (length A) 0) as [Z|Z].
    - (* everything before the last part is empty *)
      assert (a = [] /\ s1 = [] /\ m = []) as (-> & -> & ->).
      { rewrite Z in LA. destruct a, s1, m; cbn in LA; try lia. auto. }
      cbn [length app rev Nat.add] in *. clear A LA Z.
      rewrite app_nil_r.
      (* as a right part with a dummy start *)
      revert s ro H E. clear Ne.
      induction s2 as [|x s2 IH] using rev_ind; intros s ro H E; [cbn in L2; lia|].
      rewrite app_length in *. cbn [length] in *.
      assert (E' : ro_nodes ro = s2 ++ x :: b) by (rewrite E, <- app_assoc; auto).
      destruct (remove_at_ok r s ro s2 x b H E') as (s3 & G & R).
      pose proof R as R0. destruct R as [A1 (ro1 & A2 & A3 & A4) A5 A6 A7 A8 A9].
      replace (length s2 + 1 + 0 - 1) with (length s2) by lia.
      assert (U : split_string p r 0 0 0 (length s2) s =
        match length s2 with O => Ok s3 | S i => split_string p r 0 0 0 i s3 end).
      { destruct (length s2) eqn:D; cbn [split_string Nat.leb Nat.add orb]; rewrite G; reflexivity. }
      rewrite U. destruct s2 as [|y s2].
      + cbn [length app rev] in *. exists s3. split; auto.
      + remember (y :: s2) as t eqn:D. assert (0 < length t) by (subst; cbn; lia).
        destruct (length t) as [|i] eqn:Ei; [lia|].
        destruct (IH ltac:(lia) s3 ro1 A2) as (s' & G2 & R2); [exact A3|].
        rewrite rev_app_distr. exists s'. split.
        * replace i with (S i + 0 - 1) by lia. exact G2.
        * eapply removed_trans; [exact R0|exact R2].
    - destruct (split_right r (length a) (length a + length s1) (length m) A b s2 s ro H) as (s3 & G3 & R3);
        try lia.
      { rewrite E. unfold A. rewrite <- !app_assoc. auto. }
      replace (length a + (length s1 + length s2) + length m - 1) with (length A + length s2 - 1) by lia.
      rewrite G3. pose proof R3 as R0. destruct R3 as [A1 (ro1 & A2 & A3 & A4) A5 A6 A7 A8 A9].
      assert (U : split_string p r (length a) (length a + length s1) (length m) (length A - 1) s3 =
        if length a + length s1 =? 0 then Ok s3
        else split_string p r (length a) (length a + length s1) (length m) (length a + length s1 - 1) s3).
      { destruct (Nat.eq_dec (length m) 0) as [Zm|Zm].
        - replace (length a + length s1 =? 0) with false by (symmetry; apply Nat.eqb_neq; lia).
          do 2 f_equal. lia.
        - apply split_skip; lia. }
      rewrite U. destruct (length a + length s1 =? 0) eqn:Z0.
      + apply Nat.eqb_eq in Z0. destruct a, s1; cbn in Z0; try lia.
        exists s3. split; auto. cbn [rev app] in *. rewrite app_nil_r. exact R0.
      + destruct (Nat.eq_dec (length s1) 0) as [Z1|Z1].
        * destruct s1; [|discriminate]. cbn [length rev app] in *. rewrite app_nil_r.
          exists s3. rewrite Nat.add_0_r in *. split.
          -- apply Nat.eqb_neq in Z0. apply split_stop. lia.
          -- unfold A in R0. rewrite <- app_assoc in R0. exact R0.
        * destruct (split_left r (length a + length s1) (length m) a (m ++ b) s1 s3 ro1 A2) as (s4 & G4 & R4);
            [rewrite A3; unfold A; now rewrite <- !app_assoc|lia|lia|].
          rewrite G4. exists s4. split; auto. eapply removed_trans; [exact R0|exact R4].
  Qed.

  (** The start of the string *)
  Lemma start_index_ok idx len lt r : idx < len -> 1 <= lt -> lt <= len ->
    exists st r', start_index idx len lt r = Ok (st, r') /\ st <= idx /\ idx < st + lt /\ st + lt <= len.
  Proof.
    intros H1 H2 H3. unfold start_index.
    destruct (Z.min (Z.of_nat len - Z.of_nat lt) (Z.of_nat idx) <? 0)%Z eqn:Z; [apply Z.ltb_lt in Z; lia|].
    set (lo := Z.to_nat (Z.max (Z.of_nat idx - Z.of_nat lt + 1) 0)).
    set (hi := Z.to_nat (Z.min (Z.of_nat len - Z.of_nat lt) (Z.of_nat idx))).
    destruct (lo <? hi) eqn:L.
    - apply Nat.ltb_lt in L. destruct (range_usize_ok lo (hi + 1) r) as (k & r' & G); [lia|].
      rewrite G. exists k, r'. split; auto. apply range_usize_spec in G. unfold lo, hi in *. lia.
    - apply Nat.ltb_ge in L. exists lo, r. split; auto. unfold lo, hi in *. lia.
  Qed.

  Lemma grow_m_bounds : forall k m r, m <= fst (grow_m p k m r) <= m + k.
  Proof.
    induction k as [|k IH]; intros m r; cbn [grow_m fst]; [lia|].
    destruct (real p r) as [x r1]. destruct (flit 1 100 <:? x).
    - specialize (IH (m + 1) r1). lia.
    - cbn [fst]. lia.
  Qed.

  Lemma seg {A} (l : list A) st n : st + n <= length l ->
    exists a s b, l = a ++ s ++ b /\ length a = st /\ length s = n.
  Proof.
    intro H. exists (firstn st l), (firstn n (skipn st l)), (skipn n (skipn st l)).
    rewrite !firstn_skipn. split; auto. rewrite !firstn_length, skipn_length. lia.
  Qed.
  Lemma in_seg {A} (a s b : list A) i x : nth_error (a ++ s ++ b) i = Some x ->
    length a <= i -> i < length a + length s -> In x s.
  Proof.
    intros H1 H2 H3. rewrite nth_error_app2 in H1 by lia. rewrite nth_error_app1 in H1 by lia.
    eapply nth_error_In; eauto.
  Qed.

  Definition ruined_at (r : nat) (s s' : rsol) (nodes' rem : list nat) : Prop :=
    exists s1, removed r s s1 nodes' rem /\ s' = so_set_ruined s1 (set_insert r (so_ruined s)).

  Lemma ruin_route_ok s node r lt rnd ro idx :
    nth_error (so_loc s) node = Some (r, idx) -> nth_error (so_routes s) r = Some ro ->
    nth_error (ro_nodes ro) idx = Some node -> 1 <= lt -> lt <= length (ro_nodes ro) ->
    exists s' rnd' nodes' rem, ruin_route p s node r lt rnd = Ok (s', rnd') /\
      cut node lt (ro_nodes ro) nodes' rem /\ ruined_at r s s' nodes' rem.
  Proof.
    intros HL HR HN L1 L2. unfold ruin_route.
    rewrite (geti_some _ _ _ HL), (geti_some _ _ _ HR). cbn [rbind snd].
    assert (Hidx : idx < length (ro_nodes ro)) by (apply nth_error_Some; congruence).
    destruct (real p rnd) as [x rnd1]. destruct (x <:? flit 1 2).
    - destruct (start_index_ok idx (length (ro_nodes ro)) lt rnd1) as (st & r2 & G & S1 & S2 & S3); auto.
      rewrite G. cbn [rbind].
      destruct (seg (ro_nodes ro) st lt S3) as (a & str & b & E & La & Ls).
      destruct (remove_string r a b str (seq 0 lt) s ro) as (s1 & G1 & R1); auto.
      { rewrite seq_length. auto. }
      rewrite La in G1. rewrite G1. cbn [rbind].
      do 4 eexists. split; [reflexivity|]. split.
      + rewrite E. apply cut_string; auto. rewrite E in HN. eapply in_seg; eauto; lia.
      + exists s1. split; eauto. now rewrite (rm_ruined _ _ _ _ _ R1).
    - destruct (length (ro_nodes ro) <? lt) eqn:Z; [apply Nat.ltb_lt in Z; lia|]. clear Z.
      set (mm := length (ro_nodes ro) - lt).
      destruct (if 0 <? mm then grow_m p (mm - 1) 1 rnd1 else (0, rnd1)) as [m r2] eqn:EM.
      assert (Hm : m <= mm).
      { destruct (0 <? mm) eqn:Zm; [|injection EM as <- _; lia].
        apply Nat.ltb_lt in Zm. pose proof (grow_m_bounds (mm - 1) 1 rnd1) as B. rewrite EM in B. cbn in B. lia. }
      destruct (start_index_ok idx (length (ro_nodes ro)) (lt + m) r2) as (st & r3 & G & S1 & S2 & S3);
        try (unfold mm in Hm; lia).
      rewrite G. cbn [rbind].
      destruct (range_usize_ok st (st + lt) r3) as (mi & r4 & G2); [lia|]. rewrite G2. cbn [rbind].
      apply range_usize_spec in G2. destruct G2 as [M1 M2].
      destruct (seg (ro_nodes ro) st (lt + m) S3) as (a & str & b & E & La & Ls).
      destruct (seg str (mi - st) m) as (s1 & k & s2 & Es & L1' & Lk); [lia|].
      assert (L2' : length s1 + length s2 = lt).
      { rewrite Es in Ls. rewrite !app_length in Ls. lia. }
      assert (Ne : s2 <> []). { intro. subst s2. cbn in L2'. lia. }
      assert (E2 : ro_nodes ro = a ++ s1 ++ k ++ s2 ++ b).
      { rewrite E, Es, <- !app_assoc. auto. }
      destruct (split_string_ok r a s1 k s2 b s ro HR E2 Ne) as (s' & G3 & R3).
      replace (length a + (length s1 + length s2) + length k - 1) with (st + lt + m - 1) in G3 by lia.
      rewrite La, Lk in G3. replace (st + length s1) with mi in G3 by lia.
      rewrite G3. cbn [rbind].
      do 4 eexists. split; [reflexivity|]. split.
      + rewrite E2. apply cut_split; auto. rewrite <- Es. rewrite E in HN. eapply in_seg; eauto; lia.
      + exists s'. split; eauto. now rewrite (rm_ruined _ _ _ _ _ R3).
  Qed.
End Ruin.
