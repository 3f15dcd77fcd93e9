(** The queue of the linear split, in exact arithmetic: its front is always (up to the comparison
    tolerance) a best predecessor. *)
From Coq Require Import List Arith ZArith QArith Bool Lia Lqa Permutation Sorted.
From Verif.Model Require Import Num Prelude Evaluate Individual Config Split.
From Verif.Proofs Require Import Lists QNum SplitStruct.
Import ListNotations.
Local Open Scope Q_scope.

Definition qeps : Q := 1 # 1000000.

Section W.
  Variable pen : Q.
  Hypothesis Hpen : 0 <= pen.
  (** Penalty of an overload. *)
  Definition W (X q : Q) : Q := pen * Qmaxb 0 (X - q).

  Lemma pen_mul_le a b : a <= b -> pen * a <= pen * b.
  Proof. intros H. rewrite (Qmult_comm pen a), (Qmult_comm pen b). now apply Qmult_le_compat_r. Qed.

  Lemma W_hi X q : q <= X -> W X q == pen * (X - q).
  Proof. intros H. unfold W. destruct (Qmaxb_spec 0 (X - q)) as [[H1 ->]|[H1 ->]]; [ring|].
    assert (E : X - q == 0) by lra. rewrite E. ring. Qed.
  Lemma W_lo X q : X <= q -> W X q == 0.
  Proof. intros H. unfold W. destruct (Qmaxb_spec 0 (X - q)) as [[H1 ->]|[H1 ->]]; [|ring]. lra. Qed.
  Lemma W_nonneg X q : 0 <= W X q.
  Proof.
    destruct (Qlt_le_dec q X) as [H|H].
    - rewrite W_hi by lra. assert (0 <= X - q) by lra. apply pen_mul_le in H0. lra.
    - rewrite W_lo by lra. lra.
  Qed.
  Lemma W_anti X q q' : q <= q' -> W X q' <= W X q.
  Proof.
    intros H. destruct (Qlt_le_dec q' X) as [H1|H1].
    - rewrite !W_hi by lra. apply pen_mul_le. lra.
    - rewrite (W_lo X q') by lra. apply W_nonneg.
  Qed.
  Lemma W_shift X q q' : q <= q' -> W X q <= W X q' + pen * (q' - q).
  Proof.
    intros H. destruct (Qlt_le_dec q X) as [H1|H1].
    - destruct (Qlt_le_dec q' X) as [H2|H2].
      + rewrite !W_hi by lra. lra.
      + rewrite (W_lo X q'), (W_hi X q) by lra.
        assert (H3 : X - q <= q' - q) by lra. apply pen_mul_le in H3. lra.
    - rewrite (W_lo X q) by lra. pose proof (W_nonneg X q').
      assert (H3 : 0 <= q' - q) by lra. apply pen_mul_le in H3. lra.
  Qed.
  Lemma W_diff_mono X X' q q' : q <= q' -> X <= X' -> W X q - W X q' <= W X' q - W X' q'.
  Proof.
    intros Hq HX.
    destruct (Qlt_le_dec q' X) as [H1|H1].
    - rewrite !W_hi by lra. lra.
    - rewrite (W_lo X q') by lra.
      destruct (Qlt_le_dec q X) as [H2|H2].
      + rewrite (W_hi X q), (W_hi X' q) by lra.
        destruct (Qlt_le_dec q' X') as [H3|H3].
        * rewrite (W_hi X' q') by lra.
          assert (H4 : X <= q') by lra. apply pen_mul_le in H4. lra.
        * rewrite (W_lo X' q') by lra. apply pen_mul_le in HX. lra.
      + rewrite (W_lo X q) by lra. pose proof (W_anti X' q q' Hq). lra.
  Qed.
End W.

Section Queue.
  Variable p : @problem NumQ.
  Variable pen : Q.
  Variable geno : list nat.
  Notation n := (p_dim p - 1)%nat.
  Notation D := (cumD p geno).
  Notation Ql := (cumQ p geno).
  Notation dd := (ddepot p geno).
  Hypothesis Hpen : 0 <= pen.
  Hypothesis Hmono : forall i j, (i <= j <= n)%nat -> Ql i <= Ql j.

  Definition gq (pc : nat -> Q) (i : nat) : Q := pc i + dd (i + 1) - D (i + 1).
  Definition fq (pc : nat -> Q) (i x : nat) : Q :=
    gq pc i + (D x + dd x) + W pen (Ql x - p_cap p) (Ql i).

  Lemma Qmaxb_comp a b b' : b == b' -> Qmaxb a b == Qmaxb a b'.
  Proof.
    intros H. destruct (Qmaxb_spec a b) as [[? ->]|[? ->]], (Qmaxb_spec a b') as [[? ->]|[? ->]]; lra.
  Qed.

  Lemma propagate_fq pc i x : @propagate NumQ p pen geno pc i x == fq pc i x.
  Proof.
    unfold propagate, fq, gq, W. numq.
    rewrite (Qmaxb_comp 0 (Ql x - Ql i - p_cap p) (Ql x - p_cap p - Ql i)) by (numq; ring).
    numq. ring.
  Qed.

  Lemma dominates_true pc i j :
    @dominates NumQ p pen geno pc i j = true -> gq pc i + pen * (Ql j - Ql i) < gq pc j.
  Proof. unfold dominates, gq. numq. intros H. qdec. numq. lra. Qed.
  Lemma dominates_false pc i j :
    @dominates NumQ p pen geno pc i j = false -> gq pc j <= gq pc i + pen * (Ql j - Ql i).
  Proof. unfold dominates, gq. numq. intros H. qdec. numq. lra. Qed.
  Lemma dominates_right_true pc i j :
    @dominates_right NumQ p geno pc i j = true -> gq pc j < gq pc i + qeps.
  Proof. unfold dominates_right, gq, qeps. intros H. qapx. numq. lra. Qed.
  Lemma dominates_right_false pc i j :
    @dominates_right NumQ p geno pc i j = false -> gq pc i + qeps <= gq pc j.
  Proof. unfold dominates_right, gq, qeps. intros H. qapx. numq. lra. Qed.

  (** Tolerance: [L] is a set of values on which comparing with epsilon errs by at most [tau]. *)
  Variable L : Q -> Prop.
  Variable tau : Q.
  Hypothesis Htau : 0 <= tau.
  Hypothesis Htol : forall x y, L x -> L y -> x < y + qeps -> x <= y + tau.
  (** The costs involved are in [L] as soon as the path costs are. *)
  Hypothesis HLg : forall pc i, (i < n)%nat -> L (pc i) -> L (gq pc i).
  Hypothesis HLf : forall pc i x, (i < n)%nat -> (x <= n)%nat -> L (pc i) -> L (fq pc i x).

  Section Fixed.
    Variable pc : nat -> Q.
    Definition R (a b : nat) : Prop :=
      (a < b)%nat /\ gq pc a <= gq pc b /\ gq pc b - pen * Ql b <= gq pc a - pen * Ql a.

    Definition covered (base i k : nat) (q : list nat) : Prop :=
      forall j, (base <= j <= i)%nat -> exists a, In a q /\
        forall x, (i < x <= n)%nat -> fq pc a x <= fq pc j x + inject_Z (Z.of_nat k) * tau.

    Record QI (base i : nat) (q : list nat) : Prop := {
      qi_ne : q <> [];
      qi_sorted : StronglySorted R q;
      qi_range : forall a, In a q -> (base <= a <= i)%nat;
      qi_L : forall j, (base <= j <= i)%nat -> L (pc j);
      qi_cov : exists k, (k + length q <= i + 1 - base)%nat /\ covered base i k q;
      qi_front : forall a t, q = a :: t -> (i + 1 <= n)%nat ->
                 forall b, In b q -> fq pc a (i + 1) <= fq pc b (i + 1)
    }.

    Lemma R_trans a b c : R a b -> R b c -> R a c.
    Proof. unfold R. intros (?&?&?) (?&?&?). repeat split; [lia|lra|lra]. Qed.

    Lemma inject_S k : inject_Z (Z.of_nat (S k)) == inject_Z (Z.of_nat k) + 1.
    Proof. rewrite Nat2Z.inj_succ. unfold Z.succ. rewrite inject_Z_plus. reflexivity. Qed.

    Lemma inject_mono k k' : (k <= k')%nat -> inject_Z (Z.of_nat k) * tau <= inject_Z (Z.of_nat k') * tau.
    Proof.
      intros H. apply Qmult_le_compat_r; auto. rewrite <- Zle_Qle. lia.
    Qed.
    Lemma inject_nonneg k : 0 <= inject_Z (Z.of_nat k) * tau.
    Proof. pose proof (inject_mono 0 k). change (inject_Z (Z.of_nat 0)) with 0 in H. lra || (specialize (H ltac:(lia)); lra). Qed.

    (** Taking over: when [b] beats [a] (tolerance) at x and has at least its load, it does so later on. *)
    Lemma takeover a b x x' :
      (a <= b <= n)%nat -> (x <= x' <= n)%nat ->
      fq pc b x <= fq pc a x + tau -> fq pc b x' <= fq pc a x' + tau.
    Proof.
      intros Hab Hx H. unfold fq in *.
      pose proof (W_diff_mono pen Hpen (Ql x - p_cap p) (Ql x' - p_cap p) (Ql a) (Ql b)) as Hw.
      pose proof (Hmono a b Hab). pose proof (Hmono x x' Hx).
      assert (Ql x - p_cap p <= Ql x' - p_cap p) by lra. specialize (Hw H0 H2). lra.
    Qed.

    Lemma front_best a b t x :
      StronglySorted R (a :: b :: t) -> (forall c, In c (a :: b :: t) -> (c <= n)%nat) ->
      fq pc a x <= fq pc b x - qeps ->
      forall c, In c (a :: b :: t) -> fq pc a x <= fq pc c x.
    Proof.
      intros Hs Hr H c Hc.
      inversion Hs as [|? ? Hs' Ha]; subst. inversion Hs' as [|? ? Hs'' Hb]; subst.
      rewrite Forall_forall in Ha, Hb.
      destruct Hc as [->|[->|Hc]]; [lra|unfold qeps in H; lra|].
      destruct (Ha b (or_introl eq_refl)) as (Hab & Gab & Sab).
      destruct (Ha c (or_intror Hc)) as (Hac & Gac & Sac).
      destruct (Hb c Hc) as (Hbc & Gbc & Sbc).
      pose proof (Hmono a b ltac:(split; [lia|apply Hr; simpl; auto])) as Qab.
      pose proof (Hmono b c ltac:(split; [lia|apply Hr; simpl; auto])) as Qbc.
      unfold fq in *. set (X := Ql x - p_cap p) in *. unfold qeps in H.
      destruct (Qlt_le_dec (Ql b) X) as [H1|H1].
      - exfalso. rewrite (W_hi pen X (Ql a)), (W_hi pen X (Ql b)) in H by lra. lra.
      - rewrite (W_lo pen X (Ql b)) in H by lra.
        pose proof (W_nonneg pen Hpen X (Ql c)). lra.
    Qed.

    Lemma pop_front_ok base i k : forall q,
      (i + 1 <= n)%nat ->
      q <> [] -> StronglySorted R q -> (forall a, In a q -> (base <= a <= i)%nat) ->
      (forall j, (base <= j <= i)%nat -> L (pc j)) ->
      (k + length q <= i + 1 - base)%nat -> covered base i k q ->
      QI base i (pop_front_while
        (fun a b => @approx_gte NumQ (@propagate NumQ p pen geno pc a (i + 1))
                                     (@propagate NumQ p pen geno pc b (i + 1))) q).
    Proof.
      intros q Hi. revert k. induction q as [|a q IH]; intros k Hne Hs Hr HL Hk Hc; [congruence|].
      cbn [pop_front_while]. destruct q as [|b t].
      { constructor; auto; eauto. intros a' t [= <- <-] _ b [<-|[]]. lra. }
      assert (Ha : (base <= a <= i)%nat) by (apply Hr; simpl; auto).
      assert (Hb : (base <= b <= i)%nat) by (apply Hr; simpl; auto).
      inversion Hs as [|? ? Hs' Hall]; subst.
      assert (Rab : R a b) by (rewrite Forall_forall in Hall; apply Hall; now left).
      pose proof (propagate_fq pc a (i + 1)) as Ea. pose proof (propagate_fq pc b (i + 1)) as Eb.
      destruct (approx_gte _ _) eqn:E.
      - apply approx_gte_Q in E.
        assert (Ht : fq pc b (i + 1) <= fq pc a (i + 1) + tau).
        { apply Htol; try (apply HLf; auto; lia). unfold qeps. lra. }
        apply (IH (S k)); auto.
        + discriminate.
        + intros; apply Hr. now right.
        + simpl in *. lia.
        + intros j Hj. destruct (Hc j Hj) as (c & Hc1 & Hc2).
          destruct Hc1 as [<-|Hc1].
          * exists b. split; [now left|]. intros x Hx. specialize (Hc2 x Hx).
            rewrite inject_S. pose proof (takeover a b (i + 1) x) as Hto.
            specialize (Hto ltac:(destruct Rab; lia) ltac:(lia) Ht). lra.
          * exists c. split; auto. intros x Hx. specialize (Hc2 x Hx).
            rewrite inject_S. lra.
      - apply approx_gte_Q_false in E. constructor; auto; eauto.
        intros a' t' [= <- <-] _ c Hin.
        apply (front_best a b t (i + 1)); auto.
        + intros c' Hc'. specialize (Hr c' Hc'). lia.
        + unfold qeps. lra.
    Qed.

    Lemma ss_app_l {A} (S : A -> A -> Prop) l1 l2 : StronglySorted S (l1 ++ l2) -> StronglySorted S l1.
    Proof.
      induction l1; intros H; [constructor|]. simpl in H. inversion H; subst. constructor; auto.
      rewrite Forall_app in H3. tauto.
    Qed.
    Lemma ss_snoc {A} (S : A -> A -> Prop) l a :
      StronglySorted S l -> Forall (fun x => S x a) l -> StronglySorted S (l ++ [a]).
    Proof.
      induction 1; intros Hf; simpl; [repeat constructor|].
      inversion Hf; subst. constructor; auto. apply Forall_app. split; auto.
    Qed.
    Lemma ss_last {A} (S : A -> A -> Prop) l x t :
      StronglySorted S l -> rev l = x :: t -> forall a, In a l -> a = x \/ S a x.
    Proof.
      intros Hs Hr a Ha. assert (l = rev t ++ [x]).
      { rewrite <- (rev_involutive l), Hr. reflexivity. }
      subst l. apply in_app_or in Ha as [Ha|[<-|[]]]; auto. right.
      clear Hr. induction (rev t) as [|y l IH]; [destruct Ha|].
      simpl in Hs. inversion Hs; subst. destruct Ha as [<-|Ha]; auto.
      rewrite Forall_app in H2. destruct H2 as [_ H2]. now inversion H2.
    Qed.

    Lemma queue_update_QI base i q :
      (base <= i)%nat -> (i + 1 <= n)%nat -> L (pc i) -> (0 < i)%nat ->
      (base <= i - 1)%nat -> QI base (i - 1) q ->
      exists q', @queue_update NumQ p pen geno pc q i = Ok q' /\ QI base i q'.
    Proof.
      intros Hbi Hi HLi Hpos Hb1 [Hne Hs Hr HL (k & Hk & Hc) _].
      unfold queue_update. assert (E : (i <? n)%nat = true) by (apply Nat.ltb_lt; lia). rewrite E.
      destruct (rev q) as [|back t] eqn:Er.
      { exfalso. apply Hne. rewrite <- (rev_involutive q), Er. reflexivity. }
      assert (Hbin : In back q) by (apply in_rev; rewrite Er; now left).
      assert (HbR : (base <= back <= i - 1)%nat) by auto.
      assert (HL' : forall j, (base <= j <= i)%nat -> L (pc j)).
      { intros j Hj. destruct (Nat.eq_dec j i) as [->|]; auto. apply HL. lia. }
      pose proof (Hmono back i ltac:(lia)) as HQb.
      eexists. split; [reflexivity|].
      destruct (dominates p pen geno pc back i) eqn:Ed.
      - apply dominates_true in Ed. eapply pop_front_ok with (k := k); auto.
        + intros a Ha. specialize (Hr a Ha). lia.
        + lia.
        + intros j Hj. destruct (Nat.eq_dec j i) as [->|Hji].
          * exists back. split; auto. intros x Hx. unfold fq.
            pose proof (W_shift pen Hpen (Ql x - p_cap p) (Ql back) (Ql i) HQb).
            pose proof (inject_nonneg k). lra.
          * destruct (Hc j ltac:(lia)) as (a & Ha & Hax). exists a. split; auto.
            intros x Hx. apply Hax. lia.
      - apply dominates_false in Ed.
        destruct (pop_back_while_prefix (fun b => @dominates_right NumQ p geno pc b i) q)
          as (popped & Eq & Hpop & Hlast).
        set (qk := pop_back_while _ q) in *.
        assert (Hinq : forall a, In a qk -> In a q) by (intros a Ha; rewrite Eq; apply in_or_app; auto).
        eapply pop_front_ok with (k := (k + length popped)%nat); auto.
        + intros H. apply app_eq_nil in H as [_ H]. discriminate.
        + apply ss_snoc.
          * rewrite Eq in Hs. now apply ss_app_l in Hs.
          * apply Forall_forall. intros a Ha.
            assert (Hsk : StronglySorted R qk) by (rewrite Eq in Hs; now apply ss_app_l in Hs).
            pose proof (Hr a (Hinq a Ha)) as Har. unfold R. split; [lia|]. split.
            -- destruct (rev qk) as [|l tl] eqn:El.
               { assert (qk = []) by (rewrite <- (rev_involutive qk), El; reflexivity).
                 rewrite H in Ha. destruct Ha. }
               pose proof (Hlast l tl eq_refl) as Hl. apply dominates_right_false in Hl.
               destruct (ss_last R qk l tl Hsk El a Ha) as [->|(_ & Hg & _)]; unfold qeps in Hl; lra.
            -- destruct (ss_last R q back t Hs Er a (Hinq a Ha)) as [->|(_ & _ & Hg)]; lra.
        + intros a Ha. apply in_app_or in Ha as [Ha|[<-|[]]]; [|lia].
          specialize (Hr a (Hinq a Ha)). lia.
        + rewrite app_length. simpl. rewrite Eq, app_length in Hk. lia.
        + intros j Hj. destruct (Nat.eq_dec j i) as [->|Hji].
          * exists i. split; [apply in_or_app; right; now left|]. intros x Hx.
            pose proof (inject_nonneg (k + length popped)). lra.
          * destruct (Hc j ltac:(lia)) as (a & Ha & Hax).
            rewrite Eq in Ha. apply in_app_or in Ha as [Ha|Ha].
            -- exists a. split; [apply in_or_app; auto|]. intros x Hx.
               specialize (Hax x ltac:(lia)).
               pose proof (inject_mono k (k + length popped) ltac:(lia)). lra.
            -- exists i. split; [apply in_or_app; right; now left|]. intros x Hx.
               specialize (Hax x ltac:(lia)).
               assert (Hk1 : (S k <= k + length popped)%nat) by (destruct popped; [destruct Ha|simpl; lia]).
               pose proof (inject_mono _ _ Hk1) as Hm. rewrite inject_S in Hm.
               rewrite Forall_forall in Hpop. pose proof (Hpop a Ha) as Hd.
               apply dominates_right_true in Hd.
               assert (Haq : In a q) by (rewrite Eq; apply in_or_app; auto).
               pose proof (Hr a Haq) as Har.
               assert (Hg : gq pc i <= gq pc a + tau).
               { apply Htol; auto; apply HLg; auto; lia. }
               pose proof (Hmono a i ltac:(lia)) as Hai.
               pose proof (W_anti pen Hpen (Ql x - p_cap p) (Ql a) (Ql i) Hai) as Hw.
               assert (fq pc i x <= fq pc a x + tau) by (unfold fq; lra). lra.
    Qed.

    Lemma QI_init base : L (pc base) -> QI base base [base].
    Proof.
      intros H. constructor.
      - discriminate.
      - repeat constructor.
      - intros a [<-|[]]. lia.
      - intros j Hj. replace j with base by lia. auto.
      - exists 0%nat. split; [simpl; lia|]. intros j Hj. exists base. split; [now left|].
        intros x Hx. replace j with base by lia. pose proof (inject_nonneg 0). lra.
      - intros a t [= <- <-] _ b [<-|[]]. lra.
    Qed.

    (** The front is a best predecessor up to (i - base) tolerances. *)
    Lemma QI_best base i a t : QI base i (a :: t) -> (base <= i)%nat -> (i + 1 <= n)%nat ->
      (base <= a <= i)%nat /\
      forall j, (base <= j <= i)%nat ->
        fq pc a (i + 1) <= fq pc j (i + 1) + inject_Z (Z.of_nat (i - base)) * tau.
    Proof.
      intros [Hne Hs Hr HL (k & Hk & Hc) Hf] Hb Hi. split; [apply Hr; now left|].
      intros j Hj. destruct (Hc j Hj) as (c & Hc1 & Hc2).
      specialize (Hf a t eq_refl Hi c Hc1). specialize (Hc2 (i + 1)%nat ltac:(lia)).
      pose proof (inject_mono k (i - base) ltac:(simpl in Hk; lia)). lra.
    Qed.
  End Fixed.

  (** The queue only looks at path costs of cells it contains. *)
  Lemma gq_ext pc pc' i : pc i == pc' i -> gq pc i == gq pc' i.
  Proof. intros H. unfold gq. rewrite H. reflexivity. Qed.
  Lemma fq_ext pc pc' i x : pc i == pc' i -> fq pc i x == fq pc' i x.
  Proof. intros H. unfold fq. rewrite (gq_ext pc pc' i H). reflexivity. Qed.

  Lemma QI_ext pc pc' base i q :
    (forall j, (base <= j <= i)%nat -> pc j = pc' j) -> QI pc base i q -> QI pc' base i q.
  Proof.
    intros E [Hne Hs Hr HL (k & Hk & Hc) Hf]. constructor; auto.
    - assert (G : forall l, (forall a, In a l -> (base <= a <= i)%nat) ->
        StronglySorted (R pc) l -> StronglySorted (R pc') l).
      { intros l Hl. induction 1 as [|a l Hs' IH Ha]; constructor.
        - apply IH. intros; apply Hl; now right.
        - rewrite Forall_forall in *. intros b Hb. destruct (Ha b Hb) as (H1 & H2 & H3).
          pose proof (gq_ext pc pc' a ltac:(rewrite E; [reflexivity|apply Hl; now left])).
          pose proof (gq_ext pc pc' b ltac:(rewrite E; [reflexivity|apply Hl; now right])).
          repeat split; auto; lra. }
      auto.
    - intros j Hj. rewrite <- E by auto. auto.
    - exists k. split; auto. intros j Hj. destruct (Hc j Hj) as (a & Ha & Hax).
      exists a. split; auto. intros x Hx.
      rewrite <- (fq_ext pc pc' a) by (rewrite E; [reflexivity|auto]).
      rewrite <- (fq_ext pc pc' j) by (rewrite E; [reflexivity|auto]). auto.
    - intros a t -> Hi b Hb.
      rewrite <- (fq_ext pc pc' a) by (rewrite E; [reflexivity|apply Hr; now left]).
      rewrite <- (fq_ext pc pc' b) by (rewrite E; [reflexivity|auto]).
      eapply Hf; eauto.
  Qed.

  (** *** The unlimited linear split *)
  Definition Tri (x : nat) : Q := inject_Z (Z.of_nat x).

  (** After processing cells 1..m every cell x has a predecessor b < x that realises its cost and
      is best up to (x-1) tolerances. *)
  Definition cells_ok (pc : nat -> Q) (pr : nat -> nat) (m : nat) : Prop :=
    forall x, (1 <= x <= m)%nat ->
      (pr x < x)%nat /\ pc x == fq pc (pr x) x /\
      forall j, (j < x)%nat -> pc x <= fq pc j x + inject_Z (Z.of_nat (x - 1)) * tau.

  Lemma linear_cells pr :
    L 0 -> (forall a b, a == b -> L a -> L b) ->
    exists pc pr', @linear_split NumQ p pen geno pr = Ok (pc, pr') /\ pc 0%nat == 0 /\
      cells_ok pc pr' n.
  Proof.
    intros L0 Lc. unfold linear_split.
    assert (G : forall k i (pc : nat -> @F NumQ) pr q,
      (i + k = n + 1)%nat -> (1 <= i)%nat ->
      pc 0%nat == 0 -> cells_ok pc pr (i - 1) ->
      ((i <= n)%nat -> QI pc 0 (i - 1) q) ->
      exists pc' pr' q', foldm (@linear_step NumQ p pen geno) (seq i k) (pc, pr, q) = Ok (pc', pr', q') /\
        pc' 0%nat == 0 /\ cells_ok pc' pr' n).
    { induction k as [|k IH]; intros i pc pr0 q Hik Hi H0 Hc Hq.
      - exists pc, pr0, q. simpl. split; auto. split; auto. replace n with (i - 1)%nat by lia. auto.
      - cbn [seq foldm linear_step]. specialize (Hq ltac:(lia)).
        destruct q as [|front q]; [destruct Hq; congruence|].
        pose proof (QI_best pc 0 (i - 1) front q Hq ltac:(lia) ltac:(lia)) as [Hfr Hbest].
        replace (i - 1 + 1)%nat with i in Hbest by lia.
        set (v := @propagate NumQ p pen geno pc front i).
        set (pc1 := fupd pc i v).
        assert (Ev : v == fq pc front i) by apply propagate_fq.
        assert (Ext : forall j, (0 <= j <= i - 1)%nat -> pc j = pc1 j).
        { intros j Hj. unfold pc1, fupd. destruct (Nat.eqb_spec j i); [lia|reflexivity]. }
        assert (Ei : pc1 i = v) by (unfold pc1, fupd; now rewrite Nat.eqb_refl).
        assert (Hc' : cells_ok pc1 (fupd pr0 i front) i).
        { intros x Hx. unfold fupd at 1 2. destruct (Nat.eqb_spec x i) as [->|Hxi].
          - split; [lia|]. split.
            + rewrite Ei, Ev. apply fq_ext. rewrite Ext by lia. reflexivity.
            + intros j Hj. rewrite Ei, Ev.
              rewrite (fq_ext pc1 pc j) by (rewrite Ext by lia; reflexivity).
              pose proof (Hbest j ltac:(lia)) as Hb. rewrite Nat.sub_0_r in Hb. exact Hb.
          - destruct (Hc x ltac:(lia)) as (H1 & H2 & H3). split; auto. split.
            + rewrite <- Ext by lia. rewrite H2. apply fq_ext. rewrite Ext by lia. reflexivity.
            + intros j Hj. rewrite <- Ext by lia. specialize (H3 j Hj).
              rewrite (fq_ext pc1 pc j) by (rewrite Ext by lia; reflexivity). exact H3. }
        match goal with |- context [queue_update p pen geno ?P (front :: q) i] => change P with pc1 end.
        destruct (Nat.eq_dec i n) as [Ein|Ein].
        + unfold queue_update.
          assert (Elt : (i <? n)%nat = false) by (apply Nat.ltb_ge; lia). rewrite Elt. cbn [rbind].
          apply IH; try lia.
          * rewrite <- Ext by lia. auto.
          * replace (S i - 1)%nat with i by lia. exact Hc'.
        + destruct (queue_update_QI pc1 0 i (front :: q)) as (q' & Eq & Hq'); try lia.
          * rewrite Ei. apply (Lc (fq pc front i)); [symmetry; exact Ev|].
            apply HLf; try lia. apply (qi_L _ _ _ _ Hq). lia.
          * now apply (QI_ext pc pc1).
          * rewrite Eq. cbn [rbind]. apply IH; try lia.
            -- rewrite <- Ext by lia. auto.
            -- replace (S i - 1)%nat with i by lia. exact Hc'.
            -- replace (S i - 1)%nat with i by lia. auto. }
    destruct (G n 1%nat (@reset_row0 NumQ) pr [0%nat]) as (pc & pr' & q & E & H1 & H2); try lia.
    - reflexivity.
    - intros x Hx. lia.
    - intros _. apply QI_init. exact L0.
    - rewrite E. simpl. eauto.
  Qed.

  (** *** Layers of the limited fleet split *)
  (** Layer [k] -> [k+1]: cells x > k. *)
  Definition layer_ok (k : nat) (P P' : nat -> Q) (pr' : nat -> nat) : Prop :=
    forall x, (k + 1 <= x <= n)%nat ->
      (k <= pr' x < x)%nat /\ P' x == fq P (pr' x) x /\
      forall j, (k <= j < x)%nat -> P' x <= fq P j x + inject_Z (Z.of_nat (x - 1 - k)) * tau.

  Lemma layer_steps (k : nat) (P : nat -> @F NumQ) :
    (forall j, (k <= j <= n)%nat -> L (P j)) ->
    forall m i (pc' : nat -> @F NumQ) pr' q,
      (i + m = n + 1)%nat -> (k + 1 <= i)%nat ->
      (forall x, (k + 1 <= x < i)%nat ->
        (k <= pr' x < x)%nat /\ pc' x == fq P (pr' x) x /\
        forall j, (k <= j < x)%nat -> pc' x <= fq P j x + inject_Z (Z.of_nat (x - 1 - k)) * tau) ->
      ((i <= n)%nat -> QI P k (i - 1) q) ->
      exists pc2 pr2 q2, foldm (@layer_step NumQ p pen geno k P) (seq i m) (pc', pr', q) = Ok (pc2, pr2, q2) /\
        layer_ok k P pc2 pr2.
  Proof.
    intros HLP. induction m as [|m IH]; intros i pc' pr' q Him Hi Hc Hq.
    - exists pc', pr', q. simpl. split; auto. intros x Hx. apply Hc. lia.
    - cbn [seq foldm layer_step]. specialize (Hq ltac:(lia)).
      destruct q as [|front q]; [destruct Hq; congruence|].
      pose proof (QI_best P k (i - 1) front q Hq ltac:(lia) ltac:(lia)) as [Hfr Hbest].
      replace (i - 1 + 1)%nat with i in Hbest by lia.
      assert (Ev : @propagate NumQ p pen geno P front i == fq P front i) by apply propagate_fq.
      assert (Hc' : forall x, (k + 1 <= x < S i)%nat ->
        (k <= fupd pr' i front x < x)%nat /\
        fupd pc' i (@propagate NumQ p pen geno P front i) x == fq P (fupd pr' i front x) x /\
        forall j, (k <= j < x)%nat -> fupd pc' i (@propagate NumQ p pen geno P front i) x
                                     <= fq P j x + inject_Z (Z.of_nat (x - 1 - k)) * tau).
      { intros x Hx. unfold fupd. destruct (Nat.eqb_spec x i) as [->|Hxi].
        - split; [lia|]. split; [exact Ev|]. intros j Hj. rewrite Ev. apply Hbest. lia.
        - apply Hc. lia. }
      destruct (Nat.eq_dec i n) as [Ein|Ein].
      + unfold queue_update.
        assert (Elt : (i <? n)%nat = false) by (apply Nat.ltb_ge; lia). rewrite Elt. cbn [rbind].
        apply IH; try lia. auto.
      + destruct (queue_update_QI P k i (front :: q)) as (q' & Eq & Hq'); try lia; auto.
        { apply HLP. lia. }
        rewrite Eq. cbn [rbind]. apply IH; try lia; auto.
        replace (S i - 1)%nat with i by lia. auto.
  Qed.

  Lemma layer_unchanged (k : nat) (P : nat -> @F NumQ) : forall l s s',
    foldm (@layer_step NumQ p pen geno k P) l s = Ok s' ->
    forall x, ~ In x l -> fst (fst s') x = fst (fst s) x /\ snd (fst s') x = snd (fst s) x.
  Proof.
    induction l as [|i l IH]; intros s s' H x Hx; simpl in H.
    - injection H as <-. auto.
    - destruct (layer_step p pen geno k P s i) as [s1|] eqn:E; [|discriminate].
      destruct (IH s1 s' H x) as [H1 H2]; [intros Hin; apply Hx; now right|].
      rewrite H1, H2. destruct s as [[pc pr] q]. simpl in E.
      destruct q; [injection E as <-; auto|]. unfold rbind in E.
      destruct (queue_update _ _ _ _ _ _); [|discriminate]. injection E as <-. simpl.
      unfold fupd. destruct (Nat.eqb_spec x i); [subst; exfalso; apply Hx; now left|auto].
  Qed.

  Lemma layer_general (st : @split_state NumQ) (k : nat) :
    (forall j, (k <= j <= n)%nat -> L (sp_pc st k j)) -> (k <= n)%nat ->
    exists st', @limited_layer NumQ p pen geno st k = Ok st' /\
      layer_ok k (sp_pc st k) (sp_pc st' (k + 1)) (sp_pred st' (k + 1)) /\
      (forall x, (x <= k)%nat -> sp_pc st' (k + 1) x = sp_pc st (k + 1) x) /\
      (forall r, r <> (k + 1)%nat -> sp_pc st' r = sp_pc st r /\ sp_pred st' r = sp_pred st r).
  Proof.
    intros HLP Hk. unfold limited_layer.
    destruct (layer_steps k (sp_pc st k) HLP (p_dim p - (k + 1)) (k + 1)
                (sp_pc st (k + 1)) (sp_pred st (k + 1)) [k]) as (pc2 & pr2 & q2 & E & H); try lia.
    - intros _. replace (k + 1 - 1)%nat with k by lia. apply QI_init. apply HLP. lia.
    - rewrite E. cbn [rbind]. eexists. split; [reflexivity|]. cbn [sp_pc sp_pred].
      rewrite Nat.eqb_refl. split; auto. split.
      + intros x Hx. apply (layer_unchanged _ _ _ _ _ E x). rewrite in_seq. lia.
      + intros r Hr. apply Nat.eqb_neq in Hr. rewrite Hr. auto.
  Qed.

  (** First layer: cells i >= 1 cost 1e30 and are dominated by cell 0. *)
  Definition layer0_ok (P' : nat -> Q) (pr' : nat -> nat) (P : nat -> Q) : Prop :=
    forall x, (1 <= x <= n)%nat -> pr' x = 0%nat /\ P' x == fq P 0 x.

  Lemma layer_first (st : @split_state NumQ) :
    (forall i, (1 <= i < n)%nat -> gq (sp_pc st 0) 0 + pen * (Ql i - Ql 0) < gq (sp_pc st 0) i) ->
    exists st', @limited_layer NumQ p pen geno st 0 = Ok st' /\
      layer0_ok (sp_pc st' 1) (sp_pred st' 1) (sp_pc st 0) /\
      (forall x, (x <= 0)%nat -> sp_pc st' 1 x = sp_pc st 1 x) /\
      (forall r, r <> 1%nat -> sp_pc st' r = sp_pc st r /\ sp_pred st' r = sp_pred st r).
  Proof.
    intros Hbig. unfold limited_layer. set (P := sp_pc st 0) in *.
    assert (G : forall m i (pc' : nat -> @F NumQ) pr', (i + m = n + 1)%nat -> (1 <= i)%nat ->
      (forall x, (1 <= x < i)%nat -> pr' x = 0%nat /\ pc' x == fq P 0 x) ->
      exists pc2 pr2 q2, foldm (@layer_step NumQ p pen geno 0 P) (seq i m) (pc', pr', [0%nat]) = Ok (pc2, pr2, q2)
        /\ layer0_ok pc2 pr2 P).
    { induction m as [|m IH]; intros i pc' pr' Him Hi Hc.
      - exists pc', pr', [0%nat]. split; auto. intros x Hx. apply Hc. lia.
      - cbn [seq foldm layer_step].
        assert (Eq : @queue_update NumQ p pen geno P [0%nat] i = Ok [0%nat]).
        { unfold queue_update. destruct (i <? n)%nat eqn:El; auto. apply Nat.ltb_lt in El.
          cbn [rev app].
          assert (Ed : @dominates NumQ p pen geno P 0 i = true).
          { unfold dominates. numq. apply Qltb_lt. specialize (Hbig i ltac:(lia)).
            unfold gq in Hbig. numq. lra. }
          rewrite Ed. reflexivity. }
        rewrite Eq. cbn [rbind]. apply IH; try lia.
        intros x Hx. unfold fupd. destruct (Nat.eqb_spec x i) as [->|].
        + split; auto. apply propagate_fq.
        + apply Hc. lia. }
    destruct (G (p_dim p - (0 + 1))%nat (0 + 1)%nat (sp_pc st 1) (sp_pred st 1)) as (pc2 & pr2 & q2 & E & H); try lia.
    cbn [Nat.add] in *. rewrite E. cbn [rbind]. eexists. split; [reflexivity|]. cbn [sp_pc sp_pred Nat.eqb].
    split; auto. split.
    - intros x Hx. apply (layer_unchanged _ _ _ _ _ E x). rewrite in_seq. lia.
    - intros r Hr. apply Nat.eqb_neq in Hr. rewrite Hr. auto.
  Qed.
End Queue.
