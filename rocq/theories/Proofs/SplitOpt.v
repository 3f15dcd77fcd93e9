(** Optimality of the linear split (unlimited and limited fleet), exact arithmetic. *)
From Coq Require Import List Arith ZArith QArith Bool Lia Lqa Permutation Sorted.
From Verif.Model Require Import Num Prelude Evaluate Individual Config Split.
From Verif.Spec Require Import Solution.
From Verif.Proofs Require Import Lists QNum EvalFacts SplitStruct SplitQueue.
Import ListNotations.
Local Open Scope Q_scope.

Fixpoint tri (x : nat) : nat := match x with O => 0 | S x => (tri x + x)%nat end.
Lemma tri_double x : (2 * tri x = x * (x - 1))%nat.
Proof. induction x; simpl; auto. destruct x; simpl in *; nia. Qed.

Section Opt.
  Variable p : @problem NumQ.
  Variable pen : Q.
  Variable geno : list nat.
  Notation n := (p_dim p - 1)%nat.
  Notation D := (cumD p geno).
  Notation Ql := (cumQ p geno).
  Notation dd := (ddepot p geno).
  Notation d := (p_dist p).
  Notation dem := (p_demand p).
  Notation cap := (p_cap p).
  Hypothesis Hdim : (1 <= p_dim p)%nat.
  Hypothesis Hlen : length geno = n.
  Hypothesis Hin : forall a, In a geno -> (a < p_dim p)%nat.
  Hypothesis Hpen : 0 <= pen.
  Hypothesis Hdem : forall a, (a < p_dim p)%nat -> 0 <= dem a.
  Hypothesis Hsym : forall a, (a < p_dim p)%nat -> d 0%nat a == d a 0%nat.

  Notation RP := (route_penalized d dem cap pen).
  Notation TP := (total_penalized d dem cap pen).

  Definition seg (i x : nat) : list nat := firstn (x - i) (skipn i geno).

  Lemma gnode_lt i : (1 <= i <= n)%nat -> (gnode geno i < p_dim p)%nat.
  Proof. intros H. apply Hin. unfold gnode. apply nth_In. lia. Qed.

  Lemma skipn_gnode i : (i < length geno)%nat -> skipn i geno = gnode geno (i + 1) :: skipn (i + 1) geno.
  Proof.
    unfold gnode. replace (i + 1 - 1)%nat with i by lia. replace (i + 1)%nat with (S i) by lia.
    clear. revert i. induction geno as [|a g IH]; intros i Hi; simpl in *; [lia|].
    destruct i; auto. apply IH. lia.
  Qed.
  Lemma seg_cons i x : (i < x <= n)%nat -> seg i x = gnode geno (i + 1) :: seg (i + 1) x.
  Proof.
    intros H. unfold seg. rewrite skipn_gnode by lia.
    replace (x - i)%nat with (S (x - (i + 1))) by lia. reflexivity.
  Qed.
  Lemma seg_nil i : seg i i = [].
  Proof. unfold seg. now rewrite Nat.sub_diag. Qed.

  Lemma seg_load m : forall i, (i + m <= n)%nat ->
    route_load dem (seg i (i + m)) == Ql (i + m) - Ql i.
  Proof.
    induction m as [|m IH]; intros i H.
    - rewrite Nat.add_0_r, seg_nil. unfold route_load. simpl. numq. ring.
    - rewrite seg_cons by lia. replace (i + S m)%nat with ((i + 1) + m)%nat by lia.
      unfold route_load in *. cbn [map Qsum]. rewrite IH by lia.
      replace (i + 1)%nat with (S i) at 3 by lia. cbn [cumQ]. unfold sdemand.
      replace (S i) with (i + 1)%nat by lia. numq. ring.
  Qed.

  Lemma seg_walk m : forall i, (1 <= i)%nat -> (i + m <= n)%nat ->
    walk_length d (gnode geno i :: seg i (i + m) ++ [0%nat]) == D (i + m) - D i + dd (i + m).
  Proof.
    induction m as [|m IH]; intros i H1 H.
    - rewrite Nat.add_0_r, seg_nil. cbn [app walk_length]. unfold ddepot. numq. ring.
    - rewrite seg_cons by lia. cbn [app]. rewrite walk_cons_app.
      replace (i + S m)%nat with ((i + 1) + m)%nat by lia.
      rewrite IH by lia. replace (D (i + 1)) with (D (S i)) by (f_equal; lia).
      cbn [cumD]. unfold dnext. destruct i as [|i]; [lia|].
      assert (E : (S i <? n)%nat = true) by (apply Nat.ltb_lt; lia). rewrite E. numq. ring.
  Qed.

  Lemma seg_cost i x : (i < x <= n)%nat ->
    RP (seg i x) == dd (i + 1) + (D x - D (i + 1)) + dd x + W pen (Ql x - cap) (Ql i).
  Proof.
    intros H. unfold route_penalized, route_length.
    assert (El : route_load dem (seg i x) - cap == Ql x - cap - Ql i).
    { replace x with (i + (x - i))%nat at 1 by lia. rewrite seg_load by lia.
      replace (i + (x - i))%nat with x by lia. numq. ring. }
    rewrite (Qpos_comp _ _ El). unfold W. rewrite Qpos_max.
    rewrite seg_cons by lia. cbn [app]. rewrite walk_cons_app.
    rewrite Hsym by (apply gnode_lt; lia).
    replace x with ((i + 1) + (x - (i + 1)))%nat at 1 by lia.
    rewrite seg_walk by lia. replace (i + 1 + (x - (i + 1)))%nat with x by lia.
    unfold ddepot. numq. ring.
  Qed.

  Lemma fq_cost pc i x : (i < x <= n)%nat -> fq p pen geno pc i x == pc i + RP (seg i x).
  Proof. intros H. rewrite seg_cost by auto. unfold fq, gq. numq. ring. Qed.

  Lemma Ql_mono i j : (i <= j <= n)%nat -> Ql i <= Ql j.
  Proof.
    intros H. induction j as [|j IH].
    - replace i with 0%nat by lia. lra.
    - destruct (Nat.eq_dec i (S j)) as [->|Hneq]; [lra|].
      specialize (IH ltac:(lia)). cbn [cumQ]. unfold sdemand.
      pose proof (Hdem (gnode geno (S j)) ltac:(apply gnode_lt; lia)). numq. lra.
  Qed.

  (** The set of values closed under the operations, with tolerance [tau]. *)
  Variable L : Q -> Prop.
  Variable tau : Q.
  Hypothesis Htau : 0 <= tau.
  Hypothesis Htol : forall x y, L x -> L y -> x < y + qeps -> x <= y + tau.
  Hypothesis L0 : L 0.
  Hypothesis Lcomp : forall a b, a == b -> L a -> L b.
  Hypothesis Ladd : forall a b, L a -> L b -> L (a + b).
  Hypothesis Lsub : forall a b, L a -> L b -> L (a - b).
  Hypothesis Ldist : forall a b, (a < p_dim p)%nat -> (b < p_dim p)%nat -> L (d a b).
  Hypothesis Ldem : forall a, (a < p_dim p)%nat -> L (pen * dem a).
  Hypothesis Lcap : L (pen * cap).

  Lemma L_dd i : (1 <= i <= n)%nat -> L (dd i).
  Proof. intros H. apply Ldist; [now apply gnode_lt|lia]. Qed.
  Lemma L_D i : (i <= n)%nat -> L (D i).
  Proof.
    induction i as [|i IH]; intros H; [exact L0|]. cbn [cumD]. apply Ladd; [apply IH; lia|].
    unfold dnext. destruct i as [|i]; [exact L0|].
    assert (E : (S i <? n)%nat = true) by (apply Nat.ltb_lt; lia). rewrite E.
    apply Ldist; apply gnode_lt; lia.
  Qed.
  Lemma L_Q i : (i <= n)%nat -> L (pen * Ql i).
  Proof.
    induction i as [|i IH]; intros H.
    - apply (Lcomp 0); auto. cbn [cumQ]. numq. ring.
    - apply (Lcomp (pen * Ql i + pen * sdemand p geno (S i))).
      + cbn [cumQ]. numq. ring.
      + apply Ladd; [apply IH; lia|]. unfold sdemand. apply Ldem, gnode_lt. lia.
  Qed.
  Lemma L_g pc i : (i < n)%nat -> L (pc i) -> L (gq p geno pc i).
  Proof. intros H Hi. unfold gq. apply Lsub; [apply Ladd; auto; apply L_dd; lia|apply L_D; lia]. Qed.
  Lemma L_f pc i x : (i < n)%nat -> (x <= n)%nat -> L (pc i) -> L (fq p pen geno pc i x).
  Proof.
    intros H Hx Hi. unfold fq. destruct x as [|x].
    - (* x = 0 is never used; ddepot 0 is the first gene *)
      apply Ladd; [apply Ladd; [now apply L_g|]|].
      + apply Ladd; [apply L_D; lia|]. change (dd 0) with (dd 1). apply L_dd. lia.
      + destruct (Qlt_le_dec (Ql i) (Ql 0 - cap)) as [Hc|Hc].
        * apply (Lcomp (pen * Ql 0 - pen * cap - pen * Ql i)).
          -- rewrite W_hi by lra. ring.
          -- apply Lsub; [apply Lsub|]; auto; apply L_Q; lia.
        * apply (Lcomp 0); auto. rewrite W_lo by lra. reflexivity.
    - apply Ladd; [apply Ladd; [now apply L_g|]|].
      + apply Ladd; [apply L_D; lia|]. apply L_dd. lia.
      + destruct (Qlt_le_dec (Ql i) (Ql (S x) - cap)) as [Hc|Hc].
        * apply (Lcomp (pen * Ql (S x) - pen * cap - pen * Ql i)).
          -- rewrite W_hi by lra. ring.
          -- apply Lsub; [apply Lsub|]; auto; apply L_Q; lia.
        * apply (Lcomp 0); auto. rewrite W_lo by lra. reflexivity.
  Qed.

  Lemma Qsum_app l1 l2 : Qsum (l1 ++ l2) == Qsum l1 + Qsum l2.
  Proof. induction l1; simpl; [ring|]. rewrite IHl1. ring. Qed.
  Lemma TP_app r1 r2 : TP (r1 ++ r2) == TP r1 + TP r2.
  Proof. unfold total_penalized. rewrite map_app. apply Qsum_app. Qed.
  Lemma TP_cons r rs : TP (r :: rs) == RP r + TP rs.
  Proof. reflexivity. Qed.

  Notation T k := (inject_Z (Z.of_nat k) * tau).
  Lemma T_add a b : T (a + b) == T a + T b.
  Proof. rewrite Nat2Z.inj_add, inject_Z_plus. ring. Qed.
  Lemma T_mono a b : (a <= b)%nat -> T a <= T b.
  Proof. intros H. apply Qmult_le_compat_r; auto. rewrite <- Zle_Qle. lia. Qed.

  (** Last piece of a segmentation of a prefix. *)
  Lemma last_seg init s x : (x <= n)%nat -> s <> [] -> concat (init ++ [s]) = firstn x geno ->
    exists j, (j < x)%nat /\ concat init = firstn j geno /\ s = seg j x.
  Proof.
    intros Hx Hs E. rewrite concat_app in E. cbn [concat] in E. rewrite app_nil_r in E.
    assert (Hl : (length (concat init) + length s = x)%nat).
    { rewrite <- app_length, E, firstn_length. lia. }
    assert (0 < length s)%nat by (destruct s; [congruence|simpl; lia]).
    exists (length (concat init)). split; [lia|].
    assert (E1 : concat init = firstn (length (concat init)) (firstn x geno)).
    { rewrite <- E. rewrite firstn_app, Nat.sub_diag, firstn_O, app_nil_r. symmetry. apply firstn_all. }
    rewrite firstn_firstn, Nat.min_l in E1 by lia. split; auto.
    unfold seg. rewrite <- (firstn_skipn (length (concat init)) (firstn x geno)) in E.
    rewrite firstn_firstn, Nat.min_l, <- E1 in E by lia. apply app_inv_head in E.
    rewrite E, firstn_skipn_comm. f_equal. f_equal. lia.
  Qed.

  Section Unlimited.
    Variables (pc : nat -> Q) (pr : nat -> nat).
    Hypothesis Hpc0 : pc 0%nat == 0.
    Hypothesis Hcells : cells_ok p pen geno tau pc pr n.

    Lemma unlimited_lower segs : forall x, (x <= n)%nat -> Forall (fun s => s <> []) segs ->
      concat segs = firstn x geno -> pc x <= TP segs + T (tri x).
    Proof.
      induction segs as [|s init IH] using rev_ind; intros x Hx Hne E.
      - assert (x = 0)%nat.
        { simpl in E. assert (length (firstn x geno) = 0)%nat by now rewrite <- E.
          rewrite firstn_length in H. lia. }
        subst x. rewrite Hpc0. unfold total_penalized. simpl. unfold inject_Z. lra.
      - apply Forall_app in Hne as [Hne Hs]. apply Forall_inv in Hs.
        destruct (last_seg init s x Hx Hs E) as (j & Hj & Ej & Es). subst s.
        specialize (IH j ltac:(lia) Hne Ej).
        destruct (Hcells x ltac:(lia)) as (_ & _ & Hb). specialize (Hb j Hj).
        rewrite fq_cost in Hb by lia. rewrite TP_app.
        unfold total_penalized at 2. cbn [map Qsum].
        assert (Ht : T (tri j + (x - 1)) <= T (tri x)).
        { apply T_mono. destruct x as [|x]; [lia|]. cbn [tri].
          assert (tri j <= tri x)%nat by (clear - Hj; assert (j <= x)%nat by lia; induction H; simpl; lia).
          lia. }
        rewrite T_add in Ht. lra.
    Qed.

    Lemma traceback_cost : forall e fuel rs, (e <= n)%nat ->
      traceback geno fuel pr e = Ok rs -> TP rs == pc e.
    Proof.
      induction e as [e IH] using (well_founded_induction lt_wf). intros fuel rs He H.
      destruct e as [|e].
      - destruct fuel; injection H as <-; rewrite Hpc0; reflexivity.
      - destruct fuel as [|fuel]; [discriminate|]. cbn [traceback] in H. unfold rbind in H.
        destruct (traceback geno fuel pr (pr (S e))) as [rest|] eqn:E; [|discriminate].
        injection H as <-. destruct (Hcells (S e) ltac:(lia)) as (H1 & H2 & _).
        rewrite TP_cons, (IH (pr (S e)) H1 fuel rest) by (auto; lia).
        rewrite H2, fq_cost by lia. unfold seg.
        change (match pr (S e) with 0%nat => S e | S l => (e - l)%nat end) with (S e - pr (S e))%nat. ring.
    Qed.
  End Unlimited.

  Lemma linear_optimal (pr : nat -> nat) :
    exists pc pr' rs, @linear_split NumQ p pen geno pr = Ok (pc, pr') /\
      traceback geno (p_dim p) pr' n = Ok rs /\ concat (rev rs) = geno /\
      Forall (fun r => r <> []) rs /\ (length rs <= n)%nat /\
      forall segs, concat segs = geno -> Forall (fun s => s <> []) segs ->
        TP rs <= TP segs + T (tri n).
  Proof.
    destruct (linear_cells p pen geno Hpen Ql_mono L tau Htau Htol L_g L_f pr L0 Lcomp)
      as (pc & pr' & E & H0 & Hc).
    destruct (traceback_ok geno pr' n (p_dim p)) as (rs & Er & Hcc & Hne & Hl).
    - intros x Hx. apply (Hc x). lia.
    - lia.
    - lia.
    - exists pc, pr', rs. repeat split; auto.
      + rewrite Hcc, <- Hlen. apply firstn_all.
      + intros segs Es Hns. rewrite (traceback_cost pc pr' H0 Hc n (p_dim p) rs); auto.
        apply (unlimited_lower pc pr' H0 Hc segs n); auto.
        rewrite Es, <- Hlen. symmetry. apply firstn_all.
  Qed.

  (** *** Limited fleet *)
  Hypothesis Hdist : forall a b, (a < p_dim p)%nat -> (b < p_dim p)%nat -> 0 <= d a b.
  Hypothesis Hcap : 0 <= cap.
  Hypothesis Hbnd : route_length d geno + pen * route_load dem geno < inject_Z (10 ^ 30).
  Hypothesis Hn1 : (1 <= n)%nat.

  Lemma D_mono i j : (i <= j <= n)%nat -> D i <= D j.
  Proof.
    intros H. induction j as [|j IH].
    - replace i with 0%nat by lia. lra.
    - destruct (Nat.eq_dec i (S j)) as [->|Hneq]; [lra|].
      specialize (IH ltac:(lia)). cbn [cumD]. unfold dnext. destruct j as [|j]; [numq; lra|].
      assert (E : (S j <? n)%nat = true) by (apply Nat.ltb_lt; lia). rewrite E.
      pose proof (Hdist (gnode geno (S j)) (gnode geno (S j + 1)) ltac:(apply gnode_lt; lia) ltac:(apply gnode_lt; lia)).
      numq. lra.
  Qed.
  Lemma dd_nonneg i : (1 <= i <= n)%nat -> 0 <= dd i.
  Proof. intros H. apply Hdist; [now apply gnode_lt|lia]. Qed.

  Lemma whole_seg : seg 0 n = geno.
  Proof. unfold seg. rewrite Nat.sub_0_r, <- Hlen. apply firstn_all. Qed.

  Lemma whole_length : route_length d geno == dd 1 + (D n - D 1) + dd n.
  Proof.
    unfold route_length. rewrite <- whole_seg at 1. rewrite seg_cons by lia. cbn [app Nat.add].
    rewrite walk_cons_app, Hsym by (apply gnode_lt; lia).
    replace n with (1 + (n - 1))%nat at 1 by lia. rewrite seg_walk by lia.
    replace (1 + (n - 1))%nat with n by lia. unfold ddepot. numq. ring.
  Qed.
  Lemma whole_load : route_load dem geno == Ql n.
  Proof.
    rewrite <- whole_seg at 1. pose proof (seg_load n 0%nat ltac:(lia)) as H. cbn [Nat.add] in H.
    rewrite H. cbn [cumQ]. numq. ring.
  Qed.

  Lemma first_layer_dominated (P : nat -> Q) :
    P 0%nat == 0 -> (forall i, (1 <= i)%nat -> P i == inject_Z (10 ^ 30)) ->
    forall i, (1 <= i < n)%nat ->
      gq p geno P 0 + pen * (Ql i - Ql 0) < gq p geno P i.
  Proof.
    intros HP0 HP i Hi. unfold gq. rewrite HP0, HP by lia. cbn [Nat.add].
    pose proof whole_length as El. pose proof whole_load as Eq. rewrite El, Eq in Hbnd.
    pose proof (D_mono (i + 1) n ltac:(lia)). pose proof (dd_nonneg n ltac:(lia)).
    pose proof (dd_nonneg (i + 1) ltac:(lia)). pose proof (Ql_mono i n ltac:(lia)) as HQ.
    apply (pen_mul_le pen Hpen) in HQ. cbn [cumQ]. numq. lra.
  Qed.

  (** Row relations of the final tables. *)
  Definition rows_ok (st : @split_state NumQ) (m : nat) : Prop :=
    sp_pc st 0%nat 0%nat == 0 /\
    (1 <= m -> layer0_ok p pen geno (sp_pc st 1%nat) (sp_pred st 1%nat) (sp_pc st 0%nat))%nat /\
    (forall k, (1 <= k < m)%nat ->
       layer_ok p pen geno tau k (sp_pc st k) (sp_pc st (k + 1)%nat) (sp_pred st (k + 1)%nat)) /\
    (forall k x, (k > m \/ (x < k))%nat -> (1 <= x)%nat -> sp_pc st k x == inject_Z (10 ^ 30)) /\
    (forall x, (1 <= x)%nat -> sp_pc st 0%nat x == inject_Z (10 ^ 30)).

  Lemma row_L st m : rows_ok st m -> forall k x, (1 <= k <= m)%nat -> (k <= x <= n)%nat -> L (sp_pc st k x).
  Proof.
    intros (H0 & H1 & Hk & _). induction k as [|k IH]; intros x Hkm Hx; [lia|].
    destruct k as [|k].
    - destruct (H1 ltac:(lia) x ltac:(lia)) as [_ E].
      apply (Lcomp (fq p pen geno (sp_pc st 0%nat) 0 x)); [symmetry; exact E|].
      apply L_f; try lia. apply (Lcomp 0); auto. symmetry; auto.
    - destruct (Hk (S k) ltac:(lia) x ltac:(lia)) as (Hp & E & _).
      replace (S k + 1)%nat with (S (S k)) in * by lia.
      apply (Lcomp (fq p pen geno (sp_pc st (S k)) (sp_pred st (S (S k)) x) x)); [symmetry; exact E|].
      apply L_f; try lia. apply IH; lia.
  Qed.

  Lemma limited_rows (st0 : @split_state NumQ) : forall m,
    exists st, foldm (@limited_layer NumQ p pen geno) (seq 0 m)
                 (mkSplit (@reset_all NumQ (sp_pc st0)) (sp_pred st0)) = Ok st /\ rows_ok st m.
  Proof.
    induction m as [|m IH].
    - eexists. split; [reflexivity|]. unfold rows_ok. cbn [sp_pc]. split; [reflexivity|].
      split; [lia|]. split; [lia|]. split.
      + intros k x _ Hx. destruct x; [lia|]. reflexivity.
      + intros x Hx. destruct x; [lia|]. reflexivity.
    - destruct IH as (st & E & HR). pose proof HR as (H0 & H1 & Hk & Hu & H00).
      replace (S m) with (m + 1)%nat by lia. rewrite seq_app, foldm_app, E. cbn [Nat.add seq foldm rbind].
      destruct (Nat.eq_dec m 0) as [->|Hm0].
      + destruct (layer_first p pen geno st (first_layer_dominated _ H0 H00)) as (st' & E' & Hl & Hcol & Hoth).
        rewrite E'. exists st'. split; auto.
        destruct (Hoth 0%nat ltac:(lia)) as [R0 _]. split; [rewrite R0; auto|]. split.
        { intros _. rewrite R0. exact Hl. }
        split; [lia|]. split.
        * intros k x Hkx Hx. destruct (Nat.eq_dec k 1) as [->|Hk1].
          -- lia.
          -- destruct (Hoth k Hk1) as [Rk _]. rewrite Rk. apply Hu; lia.
        * rewrite R0. auto.
      + destruct (le_lt_dec m n) as [Hmn|Hmn].
        * destruct (layer_general p pen geno Hpen Ql_mono L tau Htau Htol L_g L_f st m) as (st' & E' & Hl & Hcol & Hoth); auto.
          { intros j Hj. apply (row_L st m HR); lia. }
          rewrite E'. exists st'. split; auto.
          assert (Rle : forall k, (k <= m)%nat -> sp_pc st' k = sp_pc st k /\ sp_pred st' k = sp_pred st k).
          { intros k Hk'. apply Hoth. lia. }
          unfold rows_ok. destruct (Rle 0%nat ltac:(lia)) as [R0 _]. destruct (Rle 1%nat ltac:(lia)) as [R1 R1'].
          rewrite R0, R1, R1'. split; auto. split; [intros; apply H1; lia|]. split.
          -- intros k Hk'. destruct (Nat.eq_dec k m) as [->|Hneq].
             ++ destruct (Rle m ltac:(lia)) as [Rm _]. rewrite Rm. exact Hl.
             ++ destruct (Rle k ltac:(lia)) as [Rk _]. destruct (Rle (k + 1)%nat ltac:(lia)) as [Rk1 Rk1'].
                rewrite Rk, Rk1, Rk1'. apply Hk. lia.
          -- split; auto. intros k x Hkx Hx. destruct (Nat.eq_dec k (m + 1)) as [->|Hk1].
             ++ rewrite Hcol by lia. apply Hu; lia.
             ++ destruct (Hoth k Hk1) as [Rk _]. rewrite Rk. apply Hu; lia.
        * (* beyond the number of customers nothing is written *)
          assert (Eseq : (p_dim p - (m + 1) = 0)%nat) by lia.
          unfold limited_layer. rewrite Eseq. cbn [seq foldm rbind]. eexists. split; [reflexivity|].
          assert (Hpc : forall r, (if r =? m + 1 then sp_pc st (m + 1)%nat else sp_pc st r)%nat = sp_pc st r).
          { intros r. destruct (Nat.eqb_spec r (m + 1)); subst; auto. }
          assert (Hpr : forall r, (if r =? m + 1 then sp_pred st (m + 1)%nat else sp_pred st r)%nat = sp_pred st r).
          { intros r. destruct (Nat.eqb_spec r (m + 1)); subst; auto. }
          unfold rows_ok. cbn [sp_pc sp_pred]. rewrite !Hpc, !Hpr. split; auto. split; [intros; apply H1; lia|].
          split; [|split; auto].
          -- intros k Hk'. rewrite !Hpc, !Hpr. destruct (Nat.eq_dec k m) as [->|Hneq].
             ++ intros x Hx. lia.
             ++ apply Hk. lia.
          -- intros k x Hkx Hx. rewrite !Hpc. apply Hu; lia.
  Qed.

  Lemma limited_lower st m : rows_ok st m -> forall segs x,
    (1 <= length segs <= m)%nat -> (x <= n)%nat -> Forall (fun s => s <> []) segs ->
    concat segs = firstn x geno ->
    (length segs <= x)%nat /\ sp_pc st (length segs) x <= TP segs + T (length segs * n).
  Proof.
    intros (H0 & H1 & Hk & _). induction segs as [|s init IH] using rev_ind; intros x Hm Hx Hne E.
    - simpl in Hm. lia.
    - rewrite app_length in *. cbn [length] in *.
      apply Forall_app in Hne as [Hne Hs]. apply Forall_inv in Hs.
      destruct (last_seg init s x Hx Hs E) as (j & Hj & Ej & Es). subst s.
      rewrite TP_app. unfold total_penalized at 2. cbn [map Qsum].
      destruct init as [|s0 init0].
      + assert (j = 0)%nat.
        { simpl in Ej. assert (length (firstn j geno) = 0)%nat by now rewrite <- Ej.
          rewrite firstn_length in H. lia. }
        subst j. cbn [length Nat.add]. split; [lia|].
        destruct (H1 ltac:(lia) x ltac:(lia)) as [_ Ex]. rewrite Ex, fq_cost by lia. rewrite H0.
        pose proof (T_mono 0 (1 * n) ltac:(lia)) as Ht. change (inject_Z (Z.of_nat 0)) with 0 in Ht.
        unfold total_penalized. simpl. simpl in Ht. unfold inject_Z in *. lra.
      + set (init := s0 :: init0) in *. assert (Hli : (1 <= length init)%nat) by (simpl; lia).
        destruct (IH j ltac:(lia) ltac:(lia) Hne Ej) as [Hlj IH']. clear IH.
        split; [lia|].
        destruct (Hk (length init) ltac:(lia) x ltac:(lia)) as (_ & _ & Hb).
        specialize (Hb j ltac:(lia)). rewrite fq_cost in Hb by lia.
        assert (Ht : T (length init * n + (x - 1 - length init)) <= T ((length init + 1) * n)).
        { apply T_mono. lia. }
        rewrite T_add in Ht. lra.
  Qed.

  Lemma limited_trace st m : rows_ok st m -> forall k x acc,
    (1 <= k <= m)%nat -> (k <= x <= n)%nat ->
    exists rs, traceback_limited geno st k x acc = (rs ++ acc, 0%nat) /\
      concat rs = firstn x geno /\ length rs = k /\ Forall (fun r => r <> []) rs /\
      TP rs == sp_pc st k x.
  Proof.
    intros (H0 & H1 & Hk & _). induction k as [|k IH]; intros x acc Hkm Hx; [lia|].
    cbn [traceback_limited]. destruct k as [|k].
    - destruct (H1 ltac:(lia) x ltac:(lia)) as [Ep Ex]. rewrite Ep. cbn [traceback_limited].
      exists [firstn (x - 0) (skipn 0 geno)]. rewrite Nat.sub_0_r. cbn [skipn app concat].
      rewrite app_nil_r. repeat split; auto.
      + constructor; auto. intros E. assert (length (firstn x geno) = 0)%nat by now rewrite E.
        rewrite firstn_length in H. lia.
      + rewrite Ex, fq_cost by lia. rewrite H0. unfold total_penalized, seg. cbn [map Qsum skipn].
        rewrite Nat.sub_0_r. ring.
    - destruct (Hk (S k) ltac:(lia) x ltac:(lia)) as (Hp & Ex & _).
      replace (S k + 1)%nat with (S (S k)) in * by lia.
      set (b := sp_pred st (S (S k)) x) in *.
      destruct (IH b (firstn (x - b) (skipn b geno) :: acc)) as (rs & Er & Hc & Hl & Hne & Ht); try lia.
      exists (rs ++ [firstn (x - b) (skipn b geno)]).
      rewrite Er, <- app_assoc. split; [reflexivity|]. split.
      { rewrite concat_app, Hc. cbn [concat]. rewrite app_nil_r. apply firstn_split_at. lia. }
      split; [rewrite app_length; simpl; lia|]. split.
      { apply Forall_app. split; auto. constructor; auto. intros E.
        assert (length (firstn (x - b) (skipn b geno)) = 0)%nat by now rewrite E.
        rewrite firstn_length, skipn_length in H. lia. }
      rewrite TP_app, Ht, Ex, fq_cost by lia. unfold total_penalized, seg. cbn [map Qsum]. ring.
  Qed.

  Lemma cheapest_spec (st : @split_state NumQ) m : (1 <= m)%nat ->
    let v := @cheapest_row NumQ p st m in
    (1 <= v <= m)%nat /\ forall k, (1 <= k <= m)%nat -> sp_pc st v n <= sp_pc st k n.
  Proof.
    intros Hm. unfold cheapest_row.
    assert (G : forall l (best : @F NumQ) num, (1 <= num <= m)%nat -> (forall v, In v l -> 1 <= v <= m)%nat ->
      best = sp_pc st num n ->
      let r := fold_left (fun '(best, num) v =>
                if sp_pc st v n <:? best then (sp_pc st v n, v) else (best, num)) l (best, num) in
      (1 <= snd r <= m)%nat /\ fst r = sp_pc st (snd r) n /\ fst r <= best /\
      forall v, In v l -> fst r <= sp_pc st v n).
    { induction l as [|v l IH]; intros best num Hnum Hl Hb; cbn [fold_left].
      - simpl. repeat split; try lia; auto. lra.
      - assert (Hv : (1 <= v <= m)%nat) by (apply Hl; now left).
        destruct (sp_pc st v n <:? best) eqn:El; numq; qdec.
        + destruct (IH (sp_pc st v n) v) as (A & B & C & E); auto.
          { intros; apply Hl; now right. }
          split; auto. split; auto. split; [numq; lra|].
          intros w [<-|Hw]; auto.
        + destruct (IH best num) as (A & B & C & E); auto.
          { intros; apply Hl; now right. }
          split; auto. split; auto. split; auto.
          intros w [<-|Hw]; auto. numq; lra. }
    destruct (G (seq 1 (m - 1)) (sp_pc st m n) m) as (A & B & C & E); auto; try lia.
    { intros v Hv. apply in_seq in Hv. lia. }
    cbv zeta. split; auto. intros k Hk. rewrite <- B.
    destruct (Nat.eq_dec k m) as [->|Hneq]; auto. apply E. apply in_seq. lia.
  Qed.

  Lemma limited_optimal (st0 : @split_state NumQ) m : (1 <= m)%nat ->
    exists st rs, foldm (@limited_layer NumQ p pen geno) (seq 0 m)
                    (mkSplit (@reset_all NumQ (sp_pc st0)) (sp_pred st0)) = Ok st /\
      traceback_limited geno st (@cheapest_row NumQ p st m) n [] = (rs, 0%nat) /\
      concat rs = geno /\ Forall (fun r => r <> []) rs /\ (length rs <= m)%nat /\
      forall segs, concat segs = geno -> Forall (fun s => s <> []) segs -> (length segs <= m)%nat ->
        TP rs <= TP segs + T (n * n).
  Proof.
    intros Hm. destruct (limited_rows st0 m) as (st & E & HR).
    destruct (cheapest_spec st m Hm) as [Hv Hmin]. set (v := cheapest_row p st m) in *.
    assert (H1n : sp_pc st 1%nat n == RP geno).
    { destruct HR as (H0 & H1 & _). destruct (H1 Hm n ltac:(lia)) as [_ Ex].
      rewrite Ex, fq_cost, whole_seg, H0 by lia. ring. }
    assert (Hvn : (v <= n)%nat).
    { destruct (le_lt_dec v n); auto. exfalso.
      destruct HR as (_ & _ & _ & Hu & _). specialize (Hu v n ltac:(lia) ltac:(lia)).
      specialize (Hmin 1%nat ltac:(lia)). rewrite Hu, H1n in Hmin.
      unfold route_penalized in Hmin.
      assert (Hq : pen * Qpos (route_load dem geno - cap) <= pen * route_load dem geno).
      { apply pen_mul_le; auto. unfold Qpos. destruct (Qle_bool _ 0) eqn:Eb; [|lra].
        rewrite whole_load. pose proof (Ql_mono 0 n ltac:(lia)). cbn [cumQ] in H. numq. lra. }
      lra. }
    destruct (limited_trace st m HR v n [] ltac:(lia) ltac:(lia)) as (rs & Et & Hc & Hl & Hne & Ht).
    rewrite app_nil_r in Et. rewrite <- Hlen, firstn_all in Hc.
    exists st, rs. split; auto. split; auto. split; auto. split; auto. split; [lia|].
    intros segs Es Hns Hlm.
    assert (Hl1 : (1 <= length segs)%nat).
    { destruct segs; [|simpl; lia]. exfalso. simpl in Es. assert (length geno = 0)%nat by now rewrite <- Es. lia. }
    destruct (limited_lower st m HR segs n) as [Hle Hlow]; auto; try lia.
    { rewrite Es, <- Hlen. symmetry. apply firstn_all. }
    rewrite Ht. specialize (Hmin (length segs) ltac:(lia)).
    assert (Hx : T (length segs * n) <= T (n * n)) by (apply T_mono; nia). lra.
  Qed.
End Opt.
