(** SWAP* in double precision: the three best positions, the cheapest place, and what the search
    leaves undone when it finds no exchange. *)
From Coq Require Import List Arith ZArith Bool Lia Reals Lra Permutation Sorted.
From Flocq Require Import Core BinarySingleNaN.
From Verif.Model Require Import Num NumFloat Prelude Evaluate Individual Config Sector Random Matrix LinkedList LocalSearch.
From Verif.Spec Require Import Solution LocalSearch LocalOptimum Floats FloatProgram FloatSearch.
From Verif.Proofs Require Import Lists LinkFacts EvalFacts EvalThms SplitStruct FloatFacts FloatRun FloatMove FloatDelta FloatLs FloatOptimum
  LsState LsMoves LsEffect LsStar LsLocal LsSearch LsRun LsOptimum.
Import ListNotations.
Open Scope nat_scope.

Local Notation fx := (SpecFloat.fexp 53 1024).

(** ** The three best positions *)
Section Best.
  Local Open Scope R_scope.
  Definition fin (x : dbl * ptr) : Prop := is_finite (fst x) = true.
  Definition cheap (x y : dbl * ptr) : Prop := B2R (fst x) <= B2R (fst y).

  Lemma tbi_add_cheap (t : @tbi NumF) (sl : list (@F NumF * ptr)) (x : dbl) a : @stored NumF t sl -> (length sl <= 3)%nat ->
    StronglySorted cheap sl -> Forall fin sl -> is_finite x = true ->
    exists (sl' rest : list (@F NumF * ptr)), @stored NumF (@tbi_add NumF t x a) sl' /\ Permutation (sl' ++ rest) ((x, a) :: sl) /\
      StronglySorted cheap sl' /\ (forall y z, In y sl' -> In z rest -> cheap y z) /\
      (forall y, In y sl' -> length sl = 3%nat -> exists z, In z sl /\ cheap y z) /\
      length sl' = Nat.min 3 (S (length sl)).
  Proof.
    unfold stored. destruct t as [t1 t2 t3 calc]. cbn [t_one t_two t_three].
    intros (E1 & E2 & E3) L SS FF FX. subst. unfold tbi_add. cbn [t_one t_two t_three t_calc].
    destruct sl as [|[x1 a1] [|[x2 a2] [|[x3 a3] [|e sl]]]]; cbn [length] in L; [| | | |lia];
      unfold slots; cbn [nth_error fst snd]; rewrite ?olt_None.
  Ltac facts :=
    repeat match goal with
    | S : StronglySorted cheap (_ :: _) |- _ =>
        let A := fresh in let B := fresh in inversion S as [|? ? A B]; subst; clear S
    | S : Forall (cheap _) (_ :: _) |- _ =>
        let A := fresh in let B := fresh in inversion S as [|? ? A B]; subst; clear S
    | S : Forall fin (_ :: _) |- _ =>
        let A := fresh in let B := fresh in inversion S as [|? ? A B]; subst; clear S
    | S : StronglySorted cheap [] |- _ => clear S
    | S : Forall (cheap _) [] |- _ => clear S
    | S : Forall fin [] |- _ => clear S
    end; unfold cheap, fin in *; cbn [fst] in *.
  Ltac dec x y :=
    let Q := fresh in match goal with |- context [@olt NumF ?A ?B] => unify A (@Some dbl x); unify B (@Some dbl y); destruct (@olt NumF A B) eqn:Q end;
    [change (dlt x y = true) in Q; apply lt_real in Q; auto|change (dlt x y = false) in Q; apply not_lt_real in Q; auto].
  Ltac fn :=
    split; [split; [reflexivity|split; reflexivity]|split; [|split; [|split; [|split; [|reflexivity]]]]];
    [ | repeat first [apply SSorted_nil|apply SSorted_cons|apply Forall_nil|apply Forall_cons]; unfold cheap; cbn [fst]; lra
      | unfold cheap; let y := fresh in let z := fresh in intros y z I J; cbn [In] in I, J;
        intuition (subst; cbn [fst]; lra)
      | cbn [length]; let y := fresh in intros y I J; try discriminate J;
        unfold cheap; eexists; (split; [right; right; left; reflexivity|]); cbn [fst];
        cbn [In] in I; intuition (subst; cbn [fst]; lra) ].
    - exists [(x, a)], []. fn. auto.
    - facts. dec x1 x.
      + exists [(x1, a1); (x, a)], []. fn. apply perm_swap.
      + exists [(x, a); (x1, a1)], []. fn. auto.
    - facts. dec x2 x; [|dec x1 x].
      + exists [(x1, a1); (x2, a2); (x, a)], []. fn. symmetry.
        apply (Permutation_cons_append [(x1, a1); (x2, a2)] (x, a)).
      + exists [(x1, a1); (x, a); (x2, a2)], []. fn. apply perm_swap.
      + exists [(x, a); (x1, a1); (x2, a2)], []. fn. auto.
    - facts. dec x3 x; [|dec x2 x; [|dec x1 x]].
      + exists [(x1, a1); (x2, a2); (x3, a3)], [(x, a)]. fn. symmetry.
        apply (Permutation_cons_append [(x1, a1); (x2, a2); (x3, a3)] (x, a)).
      + exists [(x1, a1); (x2, a2); (x, a)], [(x3, a3)]. fn. symmetry.
        apply (Permutation_middle [(x1, a1); (x2, a2)] [(x3, a3)] (x, a)).
      + exists [(x1, a1); (x, a); (x2, a2)], [(x3, a3)]. fn. apply perm_swap.
      + exists [(x, a); (x1, a1); (x2, a2)], [(x3, a3)]. fn. auto.
  Qed.

  Lemma offers_cheap (L : list (@F NumF * ptr)) : Forall fin L -> forall (t : @tbi NumF) (sl R : list (@F NumF * ptr)), stored t sl -> (length sl <= 3)%nat ->
    StronglySorted cheap sl -> Forall fin sl -> (forall y z, In y sl -> In z R -> cheap y z) ->
    (R <> [] -> length sl = 3%nat) ->
    exists (sl' R' : list (@F NumF * ptr)), stored (fold_left offer L t) sl' /\ Permutation (sl' ++ R') ((sl ++ R) ++ L) /\
      StronglySorted cheap sl' /\ (forall y z, In y sl' -> In z R' -> cheap y z) /\
      length sl' = Nat.min 3 (length sl + length L).
  Proof.
    induction L as [|[x a] L IH]; intros FL t sl R S H SS FF CR LR; cbn [fold_left].
    - exists sl, R. rewrite !app_nil_r. split; auto. split; auto. split; auto. split; auto.
      cbn [length]. lia.
    - inversion FL as [|? ? FX FL']; subst. unfold fin in FX. cbn [fst] in FX.
      destruct (tbi_add_cheap t sl x a S H SS FF FX) as (s1 & r1 & S1 & P1 & SS1 & C1 & D1 & L1).
      assert (FF1 : Forall fin (s1 ++ r1)) by (eapply Permutation_Forall; [symmetry; exact P1|constructor; auto]).
      apply Forall_app in FF1. destruct FF1 as [FF1 _].
      destruct (IH FL' (tbi_add t x a) s1 (r1 ++ R)) as (s2 & r2 & S2 & P2 & SS2 & C2 & L2); auto.
      + lia.
      + intros y z I J. apply in_app_or in J. destruct J as [J|J]; auto.
        destruct (D1 y I) as (e & IE & CE).
        { apply LR. intros ->. destruct J. }
        specialize (CR e z IE J). unfold cheap in *. lra.
      + intros NE. destruct r1 as [|e r1].
        * cbn [app] in NE. apply LR in NE. lia.
        * apply Permutation_length in P1. rewrite app_length in P1. cbn [length] in P1. lia.
      + exists s2, r2. split; [auto|]. split; [|split; [auto|split; [auto|]]].
        * rewrite P2. rewrite (app_assoc s1), P1. cbn [app]. apply Permutation_middle.
        * cbn [length]. lia.
  Qed.

  Lemma offered_cheap (L : list (@F NumF * ptr)) calc : Forall fin L ->
    exists (sl R : list (@F NumF * ptr)), stored (fold_left offer L (tbi_reset calc)) sl /\ Permutation (sl ++ R) L /\
      StronglySorted cheap sl /\ (forall y z, In y sl -> In z R -> cheap y z) /\
      length sl = Nat.min 3 (length L).
  Proof.
    intros FL. destruct (offers_cheap L FL (tbi_reset calc) [] []) as (sl & R & S & P & SS & C & LL);
      auto using stored_reset, SSorted_nil; [intros ? ? []|congruence|].
    cbn [app length Nat.add] in *. eauto 10.
  Qed.
End Best.

(** ** The places, in any arithmetic *)
Section Places.
  Context {N : Num}.
  Variable p : problem.

  Lemma last0_pre_absent r X Y : NoDup (X ++ Y) -> forall n, In n Y -> last0 (pre r X) <> PN n.
  Proof.
    intros ND n I E. destruct (last0_pre_inv _ _ _ E) as (X' & ->).
    apply NoDup_app_inv in ND. destruct ND as (_ & _ & D). apply (D n); auto. auto with datatypes.
  Qed.
  Lemma last0_pre_tail r X Z : Z <> [] -> last0 (pre r (X ++ Z)) = last0 (map PN Z).
  Proof. intros. rewrite pre_app, last0_app; nepos. Qed.
  Lemma last0_PN Z : Z <> [] -> exists Z' n, Z = Z' ++ [n] /\ last0 (map PN Z) = PN n.
  Proof.
    intros NE. destruct (exists_last NE) as (Z' & n & ->). exists Z', n. split; auto.
    rewrite map_app. apply last_last.
  Qed.

  Lemma place_split r l x a pos l' e A B : NoDup l -> l = A ++ x :: B -> place p r l x a pos l' e ->
    (pos = last0 (pre r A) /\ e = extra p (last0 (pre r A)) (PN a) (hd0 (suf r B))) \/
    (In (e, pos) (positions p r l (PN a)) /\ is_away r A x pos).
  Proof.
    intros ND E PL.
    destruct PL as [A1 B1 E1|A0 A1 B1 E1 NA|A1 B0 B1 E1 NB].
    - left. assert (Q : A = A1 /\ B = B1) by (apply (split_unique A B A1 B1 x); congruence).
      destruct Q as [-> ->]. auto.
    - right. assert (Q : A = A0 ++ A1 /\ B = B1).
      { apply (split_unique A B (A0 ++ A1) B1 x); [rewrite <- app_assoc|]; congruence. }
      destruct Q as [-> ->]. split.
      + unfold positions. apply in_map_iff. exists (last0 (pre r A0), hd0 (map PN A1)). split; auto.
        rewrite E1. rewrite <- (hd0_app (map PN A1) (suf r (x :: B1))) by nepos. rewrite <- suf_app. apply cut_pair.
      + rewrite E1 in ND. split.
        * apply (last0_pre_absent r A0 (A1 ++ x :: B1) ND). auto with datatypes.
        * rewrite last0_pre_tail by auto. destruct (last0_PN A1 NA) as (Z & n & EZ & ->).
          apply (last0_pre_absent r A0 (A1 ++ x :: B1) ND). rewrite EZ. auto with datatypes.
    - right. assert (Q : A = A1 /\ B = B0 ++ B1) by (apply (split_unique A B A1 (B0 ++ B1) x); congruence).
      destruct Q as [-> ->]. split.
      + unfold positions. apply in_map_iff. exists (last0 (map PN B0), hd0 (suf r B1)). split; auto.
        rewrite E1. rewrite <- (last0_pre_tail r (A1 ++ [x]) B0) by auto.
        replace (A1 ++ x :: B0 ++ B1) with (((A1 ++ [x]) ++ B0) ++ B1) by (rewrite <- !app_assoc; auto).
        apply cut_pair.
      + rewrite E1 in ND. destruct (last0_PN B0 NB) as (Z & n & EZ & ->).
        assert (IN : In n (B0 ++ B1)) by (rewrite EZ; auto with datatypes).
        split.
        * intros Q. injection Q as ->. apply NoDup_app_inv in ND. destruct ND as (_ & ND & _).
          apply NoDup_cons_iff in ND. tauto.
        * intros Q. symmetry in Q. revert Q.
          apply (last0_pre_absent r A1 (x :: B0 ++ B1) ND). right. auto.
  Qed.

  Lemma place_all r l x a A B A' B' : l = A ++ x :: B -> A ++ B = A' ++ B' ->
    exists pos e, place p r l x a pos (A' ++ a :: B') e.
  Proof.
    intros E E'. apply app_eq_app in E'. destruct E' as (M & [[EA EB]|[EA EB]]).
    - destruct M as [|m M].
      + rewrite app_nil_r in EA. cbn [app] in EB. subst A' B'. do 2 eexists. eapply pl_same; eauto.
      + subst A B'. do 2 eexists. apply (pl_before p r l x a A' (m :: M) B); [|discriminate]. rewrite E, <- app_assoc. auto.
    - destruct M as [|m M].
      + rewrite app_nil_r in EA. cbn [app] in EB. subst A' B'. do 2 eexists. eapply pl_same; eauto.
      + subst A' B. do 2 eexists. rewrite <- app_assoc. apply (pl_after p r l x a A (m :: M) B'); [auto|discriminate].
  Qed.
End Places.

(** ** Comparisons up to the tolerance *)
Section Tolerance.
  Local Open Scope R_scope.
  Notation eps1 := (100000001 / 100000000 / 1000000).

  Lemma minus_zero (x : dbl) : is_finite x = true ->
    is_finite (dsub x (d_of_Z 0)) = true /\ B2R (dsub x (d_of_Z 0)) = B2R x.
  Proof.
    intros F. destruct int_zero as [F0 V0]. change (@f0 NumF) with (d_of_Z 0) in V0, F0.
    pose proof (Bminus_correct 53 1024 prec_pos prec_emax mode_NE x (d_of_Z 0) F F0) as B.
    change (round_mode mode_NE) with ZnearestE in B. rewrite V0 in B.
    replace (B2R x - 0) with (B2R x) in B by ring.
    rewrite (round_generic radix2 fx ZnearestE (B2R x)) in B by apply generic_format_B2R.
    rewrite Rlt_bool_true in B by apply abs_B2R_lt_emax. destruct B as (B1 & B2 & _). split; auto.
  Qed.
  Lemma gte_real (x : dbl) : is_finite x = true -> @approx_gte NumF x (@f0 NumF) = true -> - eps1 <= B2R x.
  Proof.
    intros F L. destruct eps_value as [FE _]. pose proof eps_above as VE. destruct int_zero as [F0 V0]. change (@f0 NumF) with (d_of_Z 0) in V0, F0.
    unfold approx_gte in L. apply orb_true_iff in L. destruct L as [L|L].
    - change (dlt (d_of_Z 0) x = true) in L. apply lt_real in L; auto. rewrite V0 in L. lra.
    - change (dlt (Babs (dsub x (d_of_Z 0))) (d_lit 1 1000000) = true) in L.
      destruct (minus_zero x F) as [FS VS]. apply lt_real in L; auto; [|now rewrite is_finite_Babs].
      rewrite B2R_Babs, VS in L. apply Rabs_lt_inv in L. lra.
  Qed.
  Lemma not_lte_real (x : dbl) : is_finite x = true -> @approx_lte NumF x (@f0 NumF) = false -> 0 <= B2R x.
  Proof.
    intros F L. destruct int_zero as [F0 V0]. change (@f0 NumF) with (d_of_Z 0) in V0, F0.
    unfold approx_lte in L. apply orb_false_iff in L. destruct L as [L _].
    change (dlt x (d_of_Z 0) = false) in L. pose proof (not_lt_real _ _ F F0 L) as L1. lra.
  Qed.
  Lemma approx_lt_near (x y : dbl) : is_finite x = true -> is_finite y = true -> Rabs (B2R y) <= 2100000000 ->
    (@approx_lt NumF x y = true -> B2R x <= B2R y) /\ (@approx_lt NumF x y = false -> B2R y <= B2R x + 12 / 10000000).
  Proof.
    intros FX FY BY. destruct eps_value as [FE VL]. pose proof eps_above as VE.
    assert (N : near_to (dsub y (d_lit 1 1000000)) (B2R y - B2R (d_lit 1 1000000)) (0 + 0 + bpow radix2 (31 - 54))).
    { assert (SELF : forall z : dbl, is_finite z = true -> near_to z (B2R z) 0) by (intros z Fz; split; [exact Fz|]; rewrite Rminus_diag_eq, Rabs_R0 by auto; lra).
      apply near_sub; [apply SELF, FY|apply SELF, FE|lia|].
      change (bpow radix2 31) with (IZR 2147483648). apply Rabs_le_inv in BY.
      assert (Rabs (B2R y - B2R (d_lit 1 1000000)) <= 2100000001) by (apply Rabs_le; lra). lra. }
    destruct N as [FS N]. apply Rabs_le_inv in N. change (bpow radix2 (31 - 54)) with (/ IZR 8388608) in N.
    split; intros L.
    - change (dlt x (dsub y (d_lit 1 1000000)) = true) in L. apply lt_real in L; auto. lra.
    - change (dlt x (dsub y (d_lit 1 1000000)) = false) in L. apply not_lt_real in L; auto. lra.
  Qed.
  Lemma below_infinity (x : dbl) : is_finite x = true -> @flt_inf NumF x = true.
  Proof. destruct x as [|[]| |[]]; try discriminate; reflexivity. Qed.
End Tolerance.

Lemma foldm_covers_inv {A S} (f : S -> A -> res S) (I : S -> Prop) (R : S -> S -> Prop) (P : A -> S -> Prop) l :
  (forall s, R s s) -> (forall a b d, R a b -> R b d -> R a d) ->
  (forall a s s', P a s -> R s s' -> P a s') ->
  forall s s', (forall s a s', In a l -> I s -> f s a = Ok s' -> I s' /\ R s s' /\ P a s') ->
  I s -> foldm f l s = Ok s' -> I s' /\ R s s' /\ forall a, In a l -> P a s'.
Proof.
  intros R1 R2 K. induction l as [|a l IH]; intros s s' Hf HI E; cbn [foldm] in E.
  - injection E as <-. split; [auto|]. split; [auto|intros ? []].
  - destruct (f s a) as [s1|] eqn:E1; [|discriminate]. cbn [rbind] in E.
    destruct (Hf s a s1) as (Q0 & Q1 & Q2); [left; auto|auto|auto|].
    destruct (IH s1 s') as (Q5 & Q3 & Q4); [intros; apply Hf; auto; right; auto|auto|auto|].
    split; [auto|]. split; [eapply R2; eauto|]. intros x [->|J]; eauto.
Qed.

(** ** What the search for an exchange has looked at *)
Section StarF.
  Variable p : @problem NumF.
  Variable c : @config NumF.
  Variable d : nat -> nat -> Z.
  Variable q : nat -> Z.
  Variable cap : Z.
  Variable pen : dbl.
  Notation nv := (c_num_vehicles c).
  Notation dim := (p_dim p).
  Hypothesis II : integral_instance p c d q cap.
  Hypothesis MO : moderate p d q cap pen.
  Hypothesis triangle : forall i j k, i < dim -> j < dim -> k < dim -> (d i k <= d i j + d j k)%Z.
  Variable top : Z.
  Hypothesis TOP : forall a b, a < dim -> b < dim -> (d a b <= top)%Z.
  Hypothesis SS : ((Z.of_nat dim + 8) * top <= 2 ^ 29)%Z.
  Local Open Scope R_scope.
  Notation size := ((Z.of_nat dim + 8) * top)%Z.
  Notation all := (zload q (seq 1 (dim - 1))).
  Hypothesis SZ : IZR size + B2R pen * IZR (Z.max 0 (all - cap)) <= 500000000.
  Notation e25 := (bpow radix2 (-25)).
  Notation excess z := (B2R pen * IZR (Z.max 0 z)).
  Notation costR := (costR d q cap pen).
  Notation total rs := (totalR c d q cap pen rs).

  Let D0 := mo_depot _ _ _ _ _ MO.
  Let AL := mo_load _ _ _ _ _ MO.
  Let PF := proj1 (mo_pen _ _ _ _ _ MO).
  Let PN0 := proj2 (mo_pen _ _ _ _ _ MO).

  Section Choice.
    Variable s : @lsearch NumF.
    Variable rs : nat -> list nat.
    Hypothesis H : holds p c pen s rs.

    Lemma positions_fin r n : (r < nv)%nat -> (0 < n < dim)%nat -> Forall fin (positions p r (rs r) (PN n)).
    Proof.
      intros Hr Hn. apply Forall_forall. intros [x a] I. destruct (positions_In _ _ _ _ _ _ I) as (X & Y & E & -> & ->).
      destruct (extra_int p c d q cap II top TOP SS (last0 (pre r X)) n (hd0 (suf r Y))) as [[F _] _]; auto.
      - apply (in_pre p c d q cap pen II s rs H r r); auto. intros k K. rewrite E. apply in_or_app. auto.
      - apply (in_suf p c d q cap pen II s rs H r r); auto. intros k K. rewrite E. apply in_or_app. auto.
    Qed.

    (** The place that is chosen is a cheapest one. *)
    Lemma cheapest_exact r C D v u calc : (r < nv)%nat -> (0 < u < dim)%nat -> rs r = C ++ v :: D ->
      s_best s r u = fresh p r (rs r) u calc ->
      exists pos (x : dbl) l', cheapest_insert_and_removal p s (PN u) (PN v) = Ok (pos, Some (x : @F NumF)) /\
        place p r (rs r) v u pos l' x /\
        (forall pos' l'' (x' : dbl), place p r (rs r) v u pos' l'' x' -> B2R x <= B2R x').
    Proof.
      intros Hr Hu E EB.
      destruct (cheapest_place p c pen s rs H r C D v u Hr E calc EB) as (pos & x & l' & EQ & PL).
      exists pos, x, l'. split; auto. split; auto.
      intros pos' l'' x' PL'.
      pose proof (serves_nodup p c rs (h_serves _ _ _ _ _ H) r Hr) as ND.
      destruct (cheapest_cases p c pen s rs H r C D v u Hr E calc EB) as (sl & rest & S & P & L & QQ).
      destruct (offered_cheap (positions p r (rs r) (PN u)) calc (positions_fin r u Hr Hu)) as (sl2 & R2 & S2 & P2 & SO & CR & LL).
      fold (fresh p r (rs r) u calc) in S2.
      assert (ES : sl2 = sl).
      { rewrite positions_length in LL. rewrite <- L in LL.
        destruct S as (A1 & A2 & A3), S2 as (B1 & B2 & B3).
        rewrite A1 in B1. rewrite A2 in B2. rewrite A3 in B3. unfold slots in *.
        assert (L3 : (length sl <= 3)%nat) by lia. clear - B1 B2 B3 LL L3.
        destruct sl as [|[x1 a1] [|[x2 a2] [|[x3 a3] [|]]]], sl2 as [|[y1 b1] [|[y2 b2] [|[y3 b3] [|]]]];
          cbn [length nth_error] in *; try lia; try congruence. }
      subst sl2.
      assert (KD1 : okp p (last0 (pre r C))).
      { apply (in_pre p c d q cap pen II s rs H r r); auto. intros k K. rewrite E. apply in_or_app. auto. }
      assert (KD2 : okp p (hd0 (suf r D))).
      { apply (in_suf p c d q cap pen II s rs H r r); auto. intros k K. rewrite E. apply in_or_app. right. right. auto. }
      destruct (extra_int p c d q cap II top TOP SS (last0 (pre r C)) u (hd0 (suf r D)) KD1 Hu KD2) as [ID _].
      assert (INT : forall y a, In (y, a) (sl ++ rest) -> exists z, is_int y z /\ (Z.abs z < exact_bound)%Z).
      { intros y a I. apply (Permutation_in _ P) in I. destruct (positions_In _ _ _ _ _ _ I) as (X & Y & EX & -> & ->).
        destruct (extra_int p c d q cap II top TOP SS (last0 (pre r X)) u (hd0 (suf r Y))) as [J K]; auto.
        - apply (in_pre p c d q cap pen II s rs H r r); auto. intros k K. rewrite EX. apply in_or_app. auto.
        - apply (in_suf p c d q cap pen II s rs H r r); auto. intros k K. rewrite EX. apply in_or_app. auto.
        - exists (extZ d (last0 (pre r X)) u (hd0 (suf r Y))). split; auto.
          pose proof (top_nonneg p c d q cap II top TOP). assert (top <= 2 ^ 29)%Z by nia. unfold exact_bound. lia. }
      assert (CMP : forall y a, In (y, a) (sl ++ rest) ->
        (@approx_lt NumF (dc p r C D u) y = true -> B2R (dc p r C D u : dbl) <= B2R (y : dbl)) /\
        (@approx_lt NumF (dc p r C D u) y = false -> B2R (y : dbl) <= B2R (dc p r C D u : dbl))).
      { intros y a I. destruct (INT y a I) as (z & IZ & ZB). unfold dc. rewrite (int_approx_lt _ _ _ _ ID IZ ZB).
        destruct ID as [_ ID], IZ as [_ IZ]. change (@F NumF) with dbl in *. rewrite ID, IZ. split; intros Q.
        - apply Z.ltb_lt in Q. apply IZR_le. lia.
        - apply Z.ltb_ge in Q. apply IZR_le. lia. }
      destruct (place_split p r (rs r) v u pos' l'' x' C D ND E PL') as [[_ ->]|[I AW]].
      - fold (dc p r C D u). destruct QQ as [(k & y & a & K & _ & _ & QQ)|(_ & QQ)]; rewrite EQ in QQ.
        + apply nth_error_In in K. destruct (CMP y a ltac:(apply in_or_app; auto)) as [_ CM].
          destruct (@approx_lt NumF (dc p r C D u) y); injection QQ as _ ->; [apply Rle_refl|auto].
        + injection QQ as _ ->. apply Rle_refl.
      - assert (I2 : In (x', pos') (sl ++ R2)) by (apply (Permutation_in _ (Permutation_sym P2)); auto).
        destruct QQ as [(k & y & a & K & _ & FA & QQ)|(NA & QQ)]; rewrite EQ in QQ.
        + assert (YX : B2R (y : dbl) <= B2R x').
          { apply in_app_or in I2. destruct I2 as [I2|I2].
            - apply In_nth_error in I2. destruct I2 as (j & J).
              destruct (le_lt_dec k j) as [KJ|KJ].
              + destruct (Nat.eq_dec j k) as [->|NK]; [rewrite K in J; injection J as -> ->; apply Rle_refl|].
                apply nth_error_split in K. destruct K as (s1 & s2 & EK & LK).
                rewrite EK in J, SO. rewrite nth_error_app2 in J by lia.
                replace (j - length s1)%nat with (Datatypes.S (j - k - 1))%nat in J by lia. cbn [nth_error] in J.
                apply nth_error_In in J. clear - SO J.
                induction s1 as [|e s1 IH]; cbn [app] in SO; inversion SO as [|? ? S1 S2]; subst; auto.
                rewrite Forall_forall in S2. apply (S2 _ J).
              + exfalso. apply (FA j x' pos' KJ J AW).
            - apply nth_error_In in K. apply (CR _ _ K I2). }
          apply nth_error_In in K. destruct (CMP y a ltac:(apply in_or_app; auto)) as [CM _].
          destruct (@approx_lt NumF (dc p r C D u) y); injection QQ as _ ->; [|auto].
          eapply Rle_trans; [apply CM; auto|auto].
        + exfalso. apply (NA x' pos'); auto. apply (Permutation_in _ (Permutation_sym P)). auto.
    Qed.

    (** The cheapest position of a whole route *)
    Lemma fresh_cheapest r n calc : (r < nv)%nat -> (0 < n < dim)%nat -> exists X Y,
      rs r = X ++ Y /\ t_one (fresh p r (rs r) n calc)
        = (Some (extra p (last0 (pre r X)) (PN n) (hd0 (suf r Y))), Some (last0 (pre r X))) /\
      forall X' Y', rs r = X' ++ Y' ->
        B2R (extra p (last0 (pre r X)) (PN n) (hd0 (suf r Y)) : dbl) <= B2R (extra p (last0 (pre r X')) (PN n) (hd0 (suf r Y')) : dbl).
    Proof.
      intros Hr Hn.
      destruct (offered_cheap (positions p r (rs r) (PN n)) calc (positions_fin r n Hr Hn)) as (sl & R & S & P & SO & CR & LL).
      fold (fresh p r (rs r) n calc) in S. rewrite positions_length in LL.
      destruct sl as [|[x a] sl]; [discriminate LL|].
      destruct (positions_In p r (rs r) (PN n) x a) as (X & Y & E & EA & EX).
      { apply (Permutation_in _ P). left. auto. }
      exists X, Y. split; auto. split; [rewrite <- EA, <- EX; apply S|]. rewrite <- EA, <- EX. intros X' Y' E'.
      assert (I : In (extra p (last0 (pre r X')) (PN n) (hd0 (suf r Y')), last0 (pre r X')) (positions p r (rs r) (PN n))).
      { unfold positions. apply in_map_iff. exists (last0 (pre r X'), hd0 (suf r Y')). split; auto. rewrite E'. apply cut_pair. }
      apply (Permutation_in _ (Permutation_sym P)) in I. destruct I as [I|I].
      - apply (f_equal fst) in I. cbn [fst] in I. rewrite <- I. apply Rle_refl.
      - apply in_app_or in I. destruct I as [I|I].
        + inversion SO as [|? ? _ FA]; subst. rewrite Forall_forall in FA. apply (FA _ I).
        + apply (CR (x, a) _ ltac:(left; auto) I).
    Qed.

    (** *** The value of an exchange *)
    Definition change (r1 r2 : nat) (l1 l2 : list nat) : R := costR l1 + costR l2 - (costR (rs r1) + costR (rs r2)).

    Lemma cost_bound (r : nat) l : proper p l -> Rabs (costR l) <= 500000000.
    Proof.
      intros PL. pose proof (proper_wz p c d q cap II top TOP SS r l PL) as W. pose proof (proper_loads p c d q cap II l PL) as LB.
      pose proof (excess_bound p q cap pen top PN0 SZ (zload q l - cap) ltac:(lia)) as XB.
      pose proof (top_nonneg p c d q cap II top TOP).
      unfold FloatDelta.costR. rewrite (tour_wz d r l).
      assert (0 <= IZR (wz d (stops r l)) <= IZR size) by (split; apply IZR_le; lia).
      apply Rabs_le. lra.
    Qed.

    Lemma star_value r1 r2 b l1 l2 dl : (r1 < nv)%nat -> (r2 < nv)%nat -> r1 <> r2 -> star p pen s rs r1 r2 b l1 l2 dl ->
      near_to dl (change r1 r2 l1 l2) (16 * e25) /\ Rabs (B2R (dl : dbl)) <= 2100000000.
    Proof.
      intros H1 H2 NE ST.
      destruct (star_links p c pen s (s_links s) rs r1 r2 b l1 l2 dl (h_serves _ _ _ _ _ H) (h_runs _ _ _ _ _ H) H1 H2 NE ST)
        as (_ & _ & _ & _ & SV & _).
      set (rs2 := nupd (nupd rs r1 l1) r2 l2) in *.
      assert (P : forall r, (r < nv)%nat -> proper p (rs2 r)).
      { intros r Hr. split; [apply (serves_nodup p c _ SV r Hr)|].
        intros n I. pose proof (serves_bound p c _ SV r n Hr I). lia. }
      assert (P1 : proper p l1) by (replace l1 with (rs2 r1) by (unfold rs2; rewrite nupd_other, nupd_same by auto; auto); auto).
      assert (P2 : proper p l2) by (replace l2 with (rs2 r2) by (unfold rs2; rewrite nupd_same by auto; auto); auto).
      pose proof (star_near p c d q cap pen II D0 top TOP SS AL PF PN0 SZ s rs H r1 r2 b l1 l2 dl H1 H2 NE P1 P2 ST) as E.
      rewrite (totalR_two p c d q cap pen rs r1 r2 l1 l2 H1 H2 NE) in E.
      replace (total rs - costR (rs r1) - costR (rs r2) + costR l1 + costR l2 - total rs) with (change r1 r2 l1 l2) in E
        by (unfold change; ring).
      split; auto. destruct E as [_ E]. destruct bounds29 as (_ & _ & _ & [_ E25] & _).
      pose proof (cost_bound r1 l1 P1) as C1. pose proof (cost_bound r2 l2 P2) as C2.
      pose proof (cost_bound r1 (rs r1) (route_proper p c pen s rs H r1 H1)) as C3.
      pose proof (cost_bound r2 (rs r2) (route_proper p c pen s rs H r2 H2)) as C4.
      unfold change in E. apply Rabs_le_inv in E, C1, C2, C3, C4. apply Rabs_le. lra.
    Qed.

    (** The cost of a route in which [a] takes a place and [x] leaves *)
    Lemma place_cost r x a pos l' (e : dbl) A B : (r < nv)%nat -> (0 < a < dim)%nat -> place p r (rs r) x a pos l' e ->
      rs r = A ++ x :: B ->
      costR l' = IZR (ztour d (rs r)) + IZR (remZ d r A x B) + B2R e + excess (zload q (rs r) - q x + q a - cap).
    Proof.
      intros Hr Ha PL E. destruct (place_int p c d q cap pen II top TOP SS s rs H r x a pos l' e A B Hr Ha PL E) as (z & [_ EZ] & _ & W & L).
      unfold FloatDelta.costR. rewrite (tour_wz d r l'), W, L, EZ, (tour_wz d r (rs r)), !plus_IZR. ring.
    Qed.
    Lemma place_nonneg r x a pos l' (e : dbl) : (r < nv)%nat -> (0 < a < dim)%nat -> place p r (rs r) x a pos l' e -> 0 <= B2R e.
    Proof.
      intros Hr Ha PL.
      assert (EXT : forall u w, okp p u -> okp p w -> 0 <= B2R (extra p u (PN a) w : dbl)).
      { intros u w KU KW. destruct (extra_int p c d q cap II top TOP SS u a w KU Ha KW) as [[_ ->] _]. apply IZR_le.
        unfold extZ, dz. cbn [num]. pose proof (triangle (num u) a (num w) KU ltac:(lia) KW). lia. }
      assert (K : forall l, (forall k, In k l -> In k (rs r)) -> okp p (last0 (pre r l)) /\ okp p (hd0 (suf r l))).
      { intros l KL. split; [apply (in_pre p c d q cap pen II s rs H r r)|apply (in_suf p c d q cap pen II s rs H r r)]; auto. }
      destruct PL as [A B E|A0 A1 B E NA|A B0 B1 E NB]; apply EXT.
      - apply K. intros k I. rewrite E. apply in_or_app. auto.
      - apply K. intros k I. rewrite E. apply in_or_app. right. right. auto.
      - apply K. intros k I. rewrite E. apply in_or_app. auto.
      - rewrite <- (hd0_app (map PN A1) (suf r (x :: B))) by nepos. rewrite <- suf_app. apply K. intros k I. rewrite E. apply in_or_app. auto.
      - rewrite <- (last0_pre_tail r (A ++ [x]) B0) by auto. apply K. intros k I. rewrite E.
        rewrite ?in_app_iff in *. cbn [In] in *. rewrite ?in_app_iff. tauto.
      - apply K. intros k I. rewrite E. rewrite ?in_app_iff. cbn [In]. rewrite ?in_app_iff. tauto.
    Qed.

    (** *** The best exchange so far *)
    Definition okb (b : @bss NumF) : Prop :=
      forall y : dbl, b_cost b = Some (y : @F NumF) -> is_finite y = true /\ Rabs (B2R y) <= 2100000000.
    Definition belowR (b : @bss NumF) (x : R) : Prop := exists y : dbl, b_cost b = Some (y : @F NumF) /\ B2R y <= x.
    Definition lowerR (b b' : @bss NumF) : Prop := forall x, belowR b x -> belowR b' x.
    Definition seenR (b : @bss NumF) (x : R) : Prop := belowR b (x + 2 / 1000000) \/ - (1 / 1000000) <= x.
    Lemma lowerR_refl b : lowerR b b.
    Proof using. intros x. auto. Qed.
    Lemma lowerR_trans a b e : lowerR a b -> lowerR b e -> lowerR a e.
    Proof using. intros Q1 Q2 x X. auto. Qed.
    Lemma seenR_lower b b' x : seenR b x -> lowerR b b' -> seenR b' x.
    Proof using. intros [X|X] L; [left; auto|right; auto]. Qed.
    Lemma belowR_le b x y : x <= y -> belowR b x -> belowR b y.
    Proof using. intros L (z & E & LE). exists z. split; [auto|lra]. Qed.

    Lemma step_olt (x : dbl) (b b' : @bss NumF) bu bv pu pv : okb b -> is_finite x = true -> Rabs (B2R x) <= 2100000000 ->
      (if @olt NumF (Some (x : @F NumF)) (b_cost b) then Ok (@mkBSS NumF (Some (x : @F NumF)) bu bv pu pv) else Ok b) = Ok b' ->
      okb b' /\ lowerR b b' /\ belowR b' (B2R x).
    Proof using.
      intros OB FX BX. unfold belowR, lowerR, okb in *. unfold olt. destruct (b_cost b) as [y|] eqn:EB.
      - destruct (OB y eq_refl) as [FY BY]. destruct (@flt NumF x y) eqn:L; intros E; injection E as <-; cbn [b_cost].
        + change (dlt x y = true) in L. apply lt_real in L; auto. split.
          * intros z Z. injection Z as <-. auto.
          * split; [|exists x; split; [auto|apply Rle_refl]]. intros t (z & E & LE). rewrite EB in E. injection E as <-. exists x. split; [auto|lra].
        + change (dlt x y = false) in L. apply not_lt_real in L; auto. split; [rewrite EB; auto|]. split; auto. exists y. split; auto.
      - rewrite (below_infinity x FX). intros E. injection E as <-. cbn [b_cost]. split.
        + intros z Z. injection Z as <-. auto.
        + split; [|exists x; split; [auto|apply Rle_refl]]. intros t (z & E & _). congruence.
    Qed.
    Lemma step_approx (x : dbl) (b b' : @bss NumF) bu bv pu pv : okb b -> is_finite x = true -> Rabs (B2R x) <= 2100000000 ->
      (if @oapprox_lt NumF (Some (x : @F NumF)) (b_cost b) then Ok (@mkBSS NumF (Some (x : @F NumF)) bu bv pu pv) else Ok b) = Ok b' ->
      okb b' /\ lowerR b b' /\ belowR b' (B2R x + 12 / 10000000).
    Proof using.
      intros OB FX BX. unfold belowR, lowerR, okb in *. unfold oapprox_lt. destruct (b_cost b) as [y|] eqn:EB.
      - destruct (OB y eq_refl) as [FY BY]. destruct (approx_lt_near x y FX FY BY) as [T F].
        destruct (@approx_lt NumF x y) eqn:L; intros E; injection E as <-; cbn [b_cost].
        + specialize (T eq_refl). split.
          * intros z Z. injection Z as <-. auto.
          * split; [|exists x; split; [auto|lra]]. intros t (z & E & LE). rewrite EB in E. injection E as <-. exists x. split; [auto|lra].
        + specialize (F eq_refl). split; [rewrite EB; auto|]. split; auto. exists y. split; auto.
      - rewrite (below_infinity x FX). intros E. injection E as <-. cbn [b_cost]. split.
        + intros z Z. injection Z as <-. auto.
        + split; [|exists x; split; [auto|lra]]. intros t (z & E & _). congruence.
    Qed.

    Variables r1 r2 : nat.
    Hypothesis H1 : (r1 < nv)%nat.
    Hypothesis H2 : (r2 < nv)%nat.
    Hypothesis NE : r1 <> r2.
    Hypothesis R12 : ready p s rs r1 r2.
    Hypothesis R21 : ready p s rs r2 r1.

    Lemma swap_pair_step u v b b' : In u (rs r1) -> In v (rs r2) -> okb b ->
      swap_pair p pen r1 r2 s (PN u) b (PN v) = Ok b' ->
      okb b' /\ lowerR b b' /\
      forall pu pv l1 l2 (iu iv : dbl), place p r2 (rs r2) v u pu l2 iu -> place p r1 (rs r1) u v pv l1 iv ->
        seenR b' (change r1 r2 l1 l2).
    Proof.
      intros IU IV OB. unfold swap_pair. pose proof IU as IU'. pose proof IV as IV'.
      pose proof (route_ok p c pen s rs H r1 u H1 IU) as U0. pose proof (route_ok p c pen s rs H r2 v H2 IV) as V0.
      apply in_split in IU, IV. destruct IU as (A & B & EU), IV as (C & D & EV).
      destruct R12 as [DU FU]. destruct R21 as [DV FV].
      destruct (FU u IU') as (cu & BU). destruct (FV v IV') as (cv & BV).
      rewrite (DU A u B EU), (DV C v D EV).
      destruct bounds29 as (_ & _ & _ & [E25p E25] & _).
      set (p1 := @penalty_change NumF pen (r_over (s_routes s r1) -: dem p (PN u) +: dem p (PN v)) (r_over (s_routes s r1))).
      set (p2 := @penalty_change NumF pen (r_over (s_routes s r2) +: dem p (PN u) -: dem p (PN v)) (r_over (s_routes s r2))).
      assert (CH : forall pu pv l1 l2 (iu iv : dbl), place p r2 (rs r2) v u pu l2 iu -> place p r1 (rs r1) u v pv l1 iv ->
        change r1 r2 l1 l2 = IZR (remZ d r1 A u B) + IZR (remZ d r2 C v D)
          + (excess (zload q (rs r1) - q u + q v - cap) - excess (zload q (rs r1) - cap))
          + (excess (zload q (rs r2) - q v + q u - cap) - excess (zload q (rs r2) - cap)) + B2R iv + B2R iu).
      { intros pu pv l1 l2 iu iv PU PV. unfold change.
        rewrite (place_cost r1 u v pv l1 iv A B H1 V0 PV EU), (place_cost r2 v u pu l2 iu C D H2 U0 PU EV).
        unfold FloatDelta.costR. ring. }
      destruct (approx_lte (removal p r1 A u B +: removal p r2 C v D +: p1 +: p2) f0) eqn:G.
      2:{ intros E. injection E as <-. split; auto. split; [apply lowerR_refl|]. intros pu pv l1 l2 iu iv PU PV. right.
          rewrite (CH _ _ _ _ _ _ PU PV).
          pose proof (place_nonneg r2 v u pu l2 iu H2 U0 PU) as X1. pose proof (place_nonneg r1 u v pv l1 iv H1 V0 PV) as X2.
          pose proof (read_overF p c d q cap pen II D0 AL s rs H r1 H1) as O1. pose proof (read_overF p c d q cap pen II D0 AL s rs H r2 H2) as O2.
          pose proof (load_bound p c d q cap pen II s rs H r1 H1) as LB1. pose proof (load_bound p c d q cap pen II s rs H r2 H2) as LB2.
          destruct (dem_ok p c d q cap II u U0) as [QU QUB]. destruct (dem_ok p c d q cap II v V0) as [QV QVB].
          pose proof (cust_le p c d q cap pen II s rs H r1 u H1 IU') as CU. pose proof (cust_le p c d q cap pen II s rs H r2 v H2 IV') as CV.
          pose proof (two_loads p c d q cap pen II s rs H r1 r2 H1 H2 NE) as TL.
          destruct (cap_ok p c d q cap II) as [CI CB]. pose proof (top_nonneg p c d q cap II top TOP) as TN.
          pose proof (size_pos p c d q cap II top TOP AL) as SP.
          destruct (removal_int p c d q cap pen II top TOP SS s rs H r1 A u B H1 EU) as [RI1 RB1].
          destruct (removal_int p c d q cap pen II top TOP SS s rs H r2 C v D H2 EV) as [RI2 RB2].
          assert (OI1 : is_int (@fadd NumF (@fsub NumF (r_over (s_routes s r1)) (@dem NumF p (PN u))) (@dem NumF p (PN v)))
                          (zload q (rs r1) - q u + q v - cap)).
          { eapply int_eq; [apply addN; [apply subN|..]; eauto; unfold exact_bound in *; lia|lia]. }
          assert (OI2 : is_int (@fsub NumF (@fadd NumF (r_over (s_routes s r2)) (@dem NumF p (PN u))) (@dem NumF p (PN v)))
                          (zload q (rs r2) - q v + q u - cap)).
          { eapply int_eq; [apply subN; [apply addN|..]; eauto; unfold exact_bound in *; lia|lia]. }
          pose proof (penalty_near p c d q cap pen II top TOP AL PF PN0 SZ _ _ _ _ OI1 O1 ltac:(lia) ltac:(lia)) as N1.
          pose proof (penalty_near p c d q cap pen II top TOP AL PF PN0 SZ _ _ _ _ OI2 O2 ltac:(lia) ltac:(lia)) as N2.
          pose proof (excess_bound p q cap pen top PN0 SZ (zload q (rs r1) - cap) ltac:(lia)) as XB1.
          pose proof (excess_bound p q cap pen top PN0 SZ (zload q (rs r2) - cap) ltac:(lia)) as XB2.
          pose proof (excess_bound p q cap pen top PN0 SZ (zload q (rs r1) - q u + q v - cap) ltac:(lia)) as XN1.
          pose proof (excess_bound p q cap pen top PN0 SZ (zload q (rs r2) - q v + q u - cap) ltac:(lia)) as XN2.
          assert (ST8 : (8 * top <= size)%Z) by nia.
          apply near_int in RI1, RI2.
          assert (RR1 : -(2 * IZR top) <= IZR (remZ d r1 A u B) <= 2 * IZR top) by (rewrite <- mult_IZR, <- opp_IZR; split; apply IZR_le; lia).
          assert (RR2 : -(2 * IZR top) <= IZR (remZ d r2 C v D) <= 2 * IZR top) by (rewrite <- mult_IZR, <- opp_IZR; split; apply IZR_le; lia).
          assert (T8 : 8 * IZR top <= IZR size) by (rewrite <- mult_IZR; apply IZR_le; lia).
          assert (NG : near_to (removal p r1 A u B +: removal p r2 C v D +: p1 +: p2)
            (IZR (remZ d r1 A u B) + IZR (remZ d r2 C v D)
             + (excess (zload q (rs r1) - q u + q v - cap) - excess (zload q (rs r1) - cap))
             + (excess (zload q (rs r2) - q v + q u - cap) - excess (zload q (rs r2) - cap))) (12 * e25)).
          { eapply near_more.
            - apply (near_step p q cap); [apply (near_step p q cap); [apply (near_step p q cap); [exact RI1|exact RI2|lra|apply Rabs_le; lra]|exact N1|lra|apply Rabs_le; lra]|exact N2|lra|apply Rabs_le; lra].
            - lra. }
          destruct NG as [FG NG]. apply not_lte_real in G; auto. apply Rabs_le_inv in NG. change (@F NumF) with dbl in *. lra. }
      destruct (cheapest_exact r2 C D v u cu H2 U0 EV BU) as (qu & xu & k2 & Q1 & PU & O1).
      destruct (cheapest_exact r1 A B u v cv H1 V0 EU BV) as (qv & xv & k1 & Q2 & PV & O2).
      rewrite Q1, Q2. cbn [rbind oadd].
      destruct (star_value r1 r2 _ k1 k2 _ H1 H2 NE (st_swap p pen s rs r1 r2 A u B C v D qu k2 xu qv k1 xv EU EV PU PV)) as [[FX NX] BX].
      fold p1 p2 in FX, NX, BX. set (x := removal p r1 A u B +: p1 +: xu +: removal p r2 C v D +: p2 +: xv) in *.
      intros E. destruct (step_olt x b b' (Some (PN u)) (Some (PN v)) (Some qu) (Some qv) OB FX BX E) as (K1 & K2 & K3).
      split; auto. split; auto. intros pu pv l1 l2 iu iv PU' PV'. left. eapply belowR_le; [|exact K3].
      rewrite (CH _ _ _ _ _ _ PU PV) in NX. rewrite (CH _ _ _ _ _ _ PU' PV').
      specialize (O1 _ _ _ PU'). specialize (O2 _ _ _ PV'). apply Rabs_le_inv in NX. change (@F NumF) with dbl in *. lra.
    Qed.

    (** Taking [u] out of [r] and putting it into another route *)
    Lemma out_cost r A u B : (r < nv)%nat -> rs r = A ++ u :: B ->
      costR (A ++ B) = IZR (ztour d (rs r)) + IZR (remZ d r A u B) + excess (zload q (rs r) - q u - cap).
    Proof.
      intros Hr E. unfold FloatDelta.costR. rewrite (tour_wz d r (A ++ B)), (removal_wz d r A u B), <- E, (tour_wz d r (rs r)), plus_IZR.
      replace (zload q (A ++ B)) with (zload q (rs r) - q u)%Z by (rewrite E, !load_appZ, load_consZ; lia).
      unfold remZ. ring.
    Qed.
    Lemma in_cost r X u Y : (r < nv)%nat -> (0 < u < dim)%nat -> rs r = X ++ Y ->
      costR (X ++ u :: Y) = IZR (ztour d (rs r)) + B2R (extra p (last0 (pre r X)) (PN u) (hd0 (suf r Y)) : dbl)
                            + excess (zload q (rs r) + q u - cap).
    Proof.
      intros Hr Hu E.
      assert (K1 : okp p (last0 (pre r X))) by (apply (in_pre p c d q cap pen II s rs H r r); auto; intros n I; rewrite E; apply in_or_app; auto).
      assert (K2 : okp p (hd0 (suf r Y))) by (apply (in_suf p c d q cap pen II s rs H r r); auto; intros n I; rewrite E; apply in_or_app; auto).
      destruct (extra_int p c d q cap II top TOP SS _ u _ K1 Hu K2) as [[_ EE] _]. change (@F NumF) with dbl in *. rewrite EE.
      unfold FloatDelta.costR. rewrite (tour_wz d r (X ++ u :: Y)), (extra_wz d r X u Y), <- E, (tour_wz d r (rs r)), plus_IZR.
      replace (zload q (X ++ u :: Y)) with (zload q (rs r) + q u)%Z by (rewrite E, !load_appZ, load_consZ; lia).
      unfold extZ. ring.
    Qed.

    Lemma swap_relocate_u_step u b b' : In u (rs r1) -> okb b -> swap_relocate_u p pen r1 r2 s b (PN u) = Ok b' ->
      okb b' /\ lowerR b b' /\
      forall A B X Y, rs r1 = A ++ u :: B -> rs r2 = X ++ Y -> seenR b' (change r1 r2 (A ++ B) (X ++ u :: Y)).
    Proof.
      intros IU OB. unfold swap_relocate_u. pose proof IU as IU'. pose proof (route_ok p c pen s rs H r1 u H1 IU) as U0.
      apply in_split in IU. destruct IU as (A & B & EU).
      destruct R12 as [DU FU]. destruct (FU u IU') as (cu & BU). cbn [num]. rewrite BU.
      destruct (fresh_cheapest r2 u cu H2 U0) as (X & Y & EX & -> & LE). rewrite (DU A u B EU). cbn [oadd].
      destruct (star_value r1 r2 _ (A ++ B) (X ++ u :: Y) _ H1 H2 NE (st_u p pen s rs r1 r2 A u B X Y EU EX)) as [[FX NX] BX].
      match goal with |- context [@oapprox_lt NumF (Some ?x) _] => set (x0 := x) in * end.
      intros E. destruct (step_approx x0 b b' (Some (PN u)) None (Some (last0 (pre r2 X))) None OB FX BX E) as (K1 & K2 & K3).
      split; auto. split; auto. intros A' B' X' Y' EU' EX'. left. eapply belowR_le; [|exact K3].
      pose proof (serves_nodup p c rs (h_serves _ _ _ _ _ H) r1 H1) as ND1.
      assert (Q1 : A = A' /\ B = B') by (apply (split_unique A B A' B' u); congruence). destruct Q1 as [<- <-].
      destruct bounds29 as (_ & _ & _ & [E25p E25] & _). specialize (LE _ _ EX').
      unfold change in NX |- *. rewrite (in_cost r2 X u Y H2 U0 EX) in NX. rewrite (in_cost r2 X' u Y' H2 U0 EX').
      apply Rabs_le_inv in NX. change (@F NumF) with dbl in *. lra.
    Qed.

    Lemma swap_relocate_v_step v b b' : In v (rs r2) -> okb b -> swap_relocate_v p pen r1 r2 s b (PN v) = Ok b' ->
      okb b' /\ lowerR b b' /\
      forall C D X Y, rs r2 = C ++ v :: D -> rs r1 = X ++ Y -> seenR b' (change r1 r2 (X ++ v :: Y) (C ++ D)).
    Proof.
      intros IV OB. unfold swap_relocate_v. pose proof IV as IV'. pose proof (route_ok p c pen s rs H r2 v H2 IV) as V0.
      apply in_split in IV. destruct IV as (C & D & EV).
      destruct R21 as [DV FV]. destruct (FV v IV') as (cv & BV). cbn [num]. rewrite BV.
      destruct (fresh_cheapest r1 v cv H1 V0) as (X & Y & EX & -> & LE). rewrite (DV C v D EV). cbn [oadd].
      destruct (star_value r1 r2 _ (X ++ v :: Y) (C ++ D) _ H1 H2 NE (st_v p pen s rs r1 r2 C v D X Y EV EX)) as [[FX NX] BX].
      match goal with |- context [@oapprox_lt NumF (Some ?x) _] => set (x0 := x) in * end.
      intros E. destruct (step_approx x0 b b' None (Some (PN v)) None (Some (last0 (pre r1 X))) OB FX BX E) as (K1 & K2 & K3).
      split; auto. split; auto. intros C' D' X' Y' EV' EX'. left. eapply belowR_le; [|exact K3].
      pose proof (serves_nodup p c rs (h_serves _ _ _ _ _ H) r2 H2) as ND2.
      assert (Q1 : C = C' /\ D = D') by (apply (split_unique C D C' D' v); congruence). destruct Q1 as [<- <-].
      destruct bounds29 as (_ & _ & _ & [E25p E25] & _). specialize (LE _ _ EX').
      unfold change in NX |- *. rewrite (in_cost r1 X v Y H1 V0 EX) in NX. rewrite (in_cost r1 X' v Y' H1 V0 EX').
      apply Rabs_le_inv in NX. change (@F NumF) with dbl in *. lra.
    Qed.
  End Choice.

  (** The exchanges between two routes, with any places *)
  Inductive swaps (rs : nat -> list nat) (r1 r2 : nat) : list nat -> list nat -> Prop :=
  | sp_two u v A B C D A' B' C' D' : rs r1 = A ++ u :: B -> rs r2 = C ++ v :: D -> A ++ B = A' ++ B' -> C ++ D = C' ++ D' ->
      swaps rs r1 r2 (A' ++ v :: B') (C' ++ u :: D')
  | sp_u u A B X Y : rs r1 = A ++ u :: B -> rs r2 = X ++ Y -> swaps rs r1 r2 (A ++ B) (X ++ u :: Y)
  | sp_v v C D X Y : rs r2 = C ++ v :: D -> rs r1 = X ++ Y -> swaps rs r1 r2 (X ++ v :: Y) (C ++ D).

  Lemma star_seenF s rs r1 r2 s' b : holds p c pen s rs -> caches p c s rs ->
    (r1 < nv)%nat -> (r2 < nv)%nat -> r1 <> r2 -> swap_star_best p pen s r1 r2 = Ok (s', b) ->
    okb b /\ forall l1 l2, swaps rs r1 r2 l1 l2 -> seenR b (change rs r1 r2 l1 l2).
  Proof.
    intros H C H1 H2 NE. unfold swap_star_best.
    destruct (preprocess_ok p c pen s rs r1 r2) as (s1 & E1 & P1 & C1 & R1 & _ & _); auto.
    rewrite E1. cbn [rbind].
    assert (HH1 : holds p c pen s1 rs) by (eapply holds_view; [apply prepared_view|]; eauto).
    destruct (preprocess_ok p c pen s1 rs r2 r1) as (s2 & E2 & P2 & C2 & R2 & I2 & B2); auto.
    rewrite E2. cbn [rbind].
    assert (HH2 : holds p c pen s2 rs) by (eapply holds_view; [apply prepared_view|]; eauto).
    assert (R1' : ready p s2 rs r1 r2).
    { destruct R1 as [Q1 Q2]. split.
      - intros A u B E. rewrite I2; [auto|]. rewrite in_map_iff. intros (k & K & I). injection K as ->.
        revert I. apply (serves_apart p c rs (h_serves _ _ _ _ _ H) r1 r2); auto. rewrite E. auto with datatypes.
      - intros u I. rewrite B2 by auto. auto. }
    rewrite (customers_of_ok p c pen s2 rs HH2 r1), (customers_of_ok p c pen s2 rs HH2 r2) by auto. cbn [rbind].
    destruct (foldm _ (map PN (rs r1)) bss_new) as [b1|] eqn:F1; [|discriminate]. cbn [rbind].
    destruct (foldm _ (map PN (rs r1)) b1) as [b2|] eqn:F2; [|discriminate]. cbn [rbind].
    destruct (foldm _ (map PN (rs r2)) b2) as [b3|] eqn:F3; [|discriminate]. cbn [rbind].
    intros E. injection E as <- <-.
    apply (foldm_covers_inv _ okb lowerR (fun a b' => forall u, a = PN u -> forall v, In v (rs r2) ->
      forall pu pv l1 l2 (iu iv : dbl), place p r2 (rs r2) v u pu l2 iu -> place p r1 (rs r1) u v pv l1 iv ->
      seenR b' (change rs r1 r2 l1 l2))) in F1; [|apply lowerR_refl|apply lowerR_trans|intros; eapply seenR_lower; eauto| |].
    2:{ intros b a b' Ia Ob Fa. apply in_map_iff in Ia. destruct Ia as (u & <- & Iu).
        apply (foldm_covers_inv _ okb lowerR (fun a b' => forall v, a = PN v ->
          forall pu pv l1 l2 (iu iv : dbl), place p r2 (rs r2) v u pu l2 iu -> place p r1 (rs r1) u v pv l1 iv ->
          seenR b' (change rs r1 r2 l1 l2))) in Fa; [|apply lowerR_refl|apply lowerR_trans|intros; eapply seenR_lower; eauto| |auto].
        - destruct Fa as (O & L & Fa). split; auto. split; auto. intros u' EU v Iv. injection EU as <-. apply (Fa (PN v)); auto. apply in_map; auto.
        - intros b'' a' bz Ia' Ob' Fa'. apply in_map_iff in Ia'. destruct Ia' as (v & <- & Iv).
          destruct (swap_pair_step s2 rs HH2 r1 r2 H1 H2 NE R1' R2 u v _ _ Iu Iv Ob' Fa') as (O & L & Q). split; auto. split; auto.
          intros v' EV. injection EV as <-. exact Q. }
    2:{ intros y Y. discriminate Y. }
    destruct F1 as (O1 & _ & F1).
    apply (foldm_covers_inv _ okb lowerR (fun a b' => forall u, a = PN u -> forall A B X Y, rs r1 = A ++ u :: B -> rs r2 = X ++ Y ->
      seenR b' (change rs r1 r2 (A ++ B) (X ++ u :: Y)))) in F2; [|apply lowerR_refl|apply lowerR_trans|intros; eapply seenR_lower; eauto| |auto].
    2:{ intros b a b' Ia Ob Fa. apply in_map_iff in Ia. destruct Ia as (u & <- & Iu).
        destruct (swap_relocate_u_step s2 rs HH2 r1 r2 H1 H2 NE R1' u _ _ Iu Ob Fa) as (O & L & Q). split; auto. split; auto.
        intros u' EU. injection EU as <-. exact Q. }
    destruct F2 as (O2 & L2 & F2).
    apply (foldm_covers_inv _ okb lowerR (fun a b' => forall v, a = PN v -> forall C D X Y, rs r2 = C ++ v :: D -> rs r1 = X ++ Y ->
      seenR b' (change rs r1 r2 (X ++ v :: Y) (C ++ D)))) in F3; [|apply lowerR_refl|apply lowerR_trans|intros; eapply seenR_lower; eauto| |auto].
    2:{ intros b a b' Ia Ob Fa. apply in_map_iff in Ia. destruct Ia as (v & <- & Iv).
        destruct (swap_relocate_v_step s2 rs HH2 r1 r2 H1 H2 NE R2 v _ _ Iv Ob Fa) as (O & L & Q). split; auto. split; auto.
        intros v' EV. injection EV as <-. exact Q. }
    destruct F3 as (O3 & L3 & F3). split; auto.
    intros l1 l2 [u v A B C' D A' B' Cz D' EU EV EA EC|u A B X Y EU EX|v C' D X Y EV EX].
    - destruct (place_all p r1 (rs r1) u v A B A' B' EU EA) as (pv & iv & PV).
      destruct (place_all p r2 (rs r2) v u C' D Cz D' EV EC) as (pu & iu & PU).
      eapply seenR_lower; [|exact (lowerR_trans _ _ _ L2 L3)]. eapply (F1 (PN u)); [|reflexivity| |exact PU|exact PV].
      + apply in_map. rewrite EU. auto with datatypes.
      + rewrite EV. auto with datatypes.
    - eapply seenR_lower; [|exact L3]. eapply (F2 (PN u)); eauto. apply in_map. rewrite EU. auto with datatypes.
    - eapply (F3 (PN v)); eauto. apply in_map. rewrite EV. auto with datatypes.
  Qed.

  Lemma star_optimalF s rs r1 r2 k : holds p c pen s rs -> caches p c s rs ->
    (r1 < nv)%nat -> (r2 < nv)%nat -> r1 <> r2 -> swap_star_run p pen s r1 r2 = Ok (k, false) ->
    forall l1 l2, swaps rs r1 r2 l1 l2 -> - (31 / 10000000) <= change rs r1 r2 l1 l2.
  Proof.
    intros H C H1 H2 NE. unfold swap_star_run.
    destruct (swap_star_best p pen s r1 r2) as [[s' b]|] eqn:E; [|discriminate]. cbn [rbind].
    destruct (star_seenF s rs r1 r2 s' b H C H1 H2 NE E) as [OB S].
    destruct (not_improving (b_cost b)) eqn:NI.
    2:{ destruct (move_to _ _ _); [|discriminate]. cbn [rbind]. destruct (move_to _ _ _); [|discriminate]. cbn [rbind].
        destruct (update_route _ _ _ _); [|discriminate]. cbn [rbind]. destruct (update_route _ _ _ _); discriminate. }
    intros _ l1 l2 ST. destruct (S _ _ ST) as [(y & EY & L)|L]; [|lra].
    rewrite EY in NI. cbn [not_improving] in NI. destruct (OB y EY) as [FY _]. apply gte_real in NI; auto. lra.
  Qed.

  Section Exchange.
    Variable s : @lsearch NumF.
    Variable rs : nat -> list nat.
    Hypothesis H : holds p c pen s rs.
    Hypothesis CA : caches p c s rs.
    Hypothesis Q : forall r1 r2, (r1 < r2 < nv)%nat -> squiet p c pen rs r1 r2.
    Notation cost sol := (true_cost d q cap (B2R pen) sol).

    Lemma swaps_cost r1 r2 l1 l2 rest sol' : - (31 / 10000000) <= change rs r1 r2 l1 l2 ->
      Permutation (all_routes c rs) (rs r1 :: rs r2 :: rest) -> Permutation sol' (l1 :: l2 :: rest) ->
      cost (all_routes c rs) <= cost sol' + 31 / 10000000.
    Proof.
      intros L P1 P2. rewrite (true_cost_perm d q cap pen _ _ P1), (true_cost_perm d q cap pen _ _ P2).
      unfold true_cost. cbn [map rsum]. unfold change in L.
      change (FloatDelta.costR d q cap pen) with (true_route_cost d q cap (B2R pen)) in L. lra.
    Qed.

    Lemma float_exchange l1 l2 sol' : l1 <> [] -> l2 <> [] ->
      overlaps (sector_of p l1) (sector_of p l2) = true ->
      exchange (all_routes c rs) sol' l1 l2 -> cost (all_routes c rs) <= cost sol' + 31 / 10000000.
    Proof.
      intros N1 N2 OV EX.
      assert (P : exists rest, Permutation (all_routes c rs) (l1 :: l2 :: rest)) by (destruct EX; eauto).
      destruct P as (rest0 & P0). destruct (pick2 _ _ _ _ _ P0) as (r1 & r2 & H1 & H2 & NE & E1 & E2).
      assert (SW : forall A rest (x y : list nat), Permutation A (x :: y :: rest) -> Permutation A (y :: x :: rest)).
      { intros A rest x y PA. rewrite PA. apply perm_swap. }
      destruct (Nat.lt_total r1 r2) as [LT|[LT|LT]]; [|congruence|].
      - destruct (Q r1 r2 ltac:(lia) s H CA) as (k & R); try congruence.
        pose proof (star_optimalF s rs r1 r2 k H CA H1 H2 NE R) as O.
        destruct EX as [u v A B C D A' B' C' D' rest P1 EA EC EA' EC' P2|u A B C D rest P1 EA EC P2]; rewrite <- E1, <- E2 in P1;
          (eapply (swaps_cost r1 r2); [apply O|exact P1|exact P2]).
        + eapply (sp_two rs r1 r2 u v A B C D); congruence.
        + eapply (sp_u rs r1 r2 u A B C D); congruence.
      - destruct (Q r2 r1 ltac:(lia) s H CA) as (k & R); [congruence|congruence|rewrite overlaps_sym; congruence|].
        assert (NE' : r2 <> r1) by auto.
        pose proof (star_optimalF s rs r2 r1 k H CA H2 H1 NE' R) as O.
        destruct EX as [u v A B C D A' B' C' D' rest P1 EA EC EA' EC' P2|u A B C D rest P1 EA EC P2]; rewrite <- E1, <- E2 in P1;
          (eapply (swaps_cost r2 r1); [apply O|apply SW, P1|apply SW, P2]).
        + eapply (sp_two rs r2 r1 v u C D A B); congruence.
        + eapply (sp_v rs r2 r1 u A B C D); congruence.
    Qed.
  End Exchange.
End StarF.
