(** SWAP* in exact arithmetic: the three best positions, the exchange cost, the cheapest place. *)
From Coq Require Import List Arith ZArith QArith Bool Lia Lqa Permutation Sorted.
From Verif.Model Require Import Num Prelude Evaluate Config Sector Matrix LinkedList LocalSearch.
From Verif.Spec Require Import Solution LocalSearch.
From Verif.Proofs Require Import Lists LinkFacts QNum EvalFacts EvalThms LsState LsMoves LsDelta LsStar.
Import ListNotations.
Open Scope nat_scope.

Section StarQ.
  Variable p : @problem NumQ.
  Variable c : @config NumQ.
  Variable pen : @F NumQ.
  Notation nv := (c_num_vehicles c).
  Notation holds := (holds p c pen).
  Local Open Scope Q_scope.

  (** ** The three best positions *)

  Definition cheaper (x y : @F NumQ * ptr) : Prop := fst x <= fst y.

  Lemma tbi_add_sorted (t : @tbi NumQ) sl (x : @F NumQ) a : stored t sl -> (length sl <= 3)%nat ->
    StronglySorted cheaper sl ->
    exists sl' rest, stored (tbi_add t x a) sl' /\ Permutation (sl' ++ rest) ((x, a) :: sl) /\
      StronglySorted cheaper sl' /\ (forall y z, In y sl' -> In z rest -> cheaper y z) /\
      (forall y, In y sl' -> length sl = 3%nat -> exists z, In z sl /\ cheaper y z) /\
      length sl' = Nat.min 3 (S (length sl)).
  Proof.
    unfold stored. destruct t as [t1 t2 t3 calc]. cbn [t_one t_two t_three].
    intros (E1 & E2 & E3) L SS. subst. unfold tbi_add. cbn [t_one t_two t_three t_calc].
    destruct sl as [|[x1 a1] [|[x2 a2] [|[x3 a3] [|e sl]]]]; cbn [length] in L; [| | | |lia];
      unfold slots; cbn [nth_error fst snd]; rewrite ?olt_None.
  Ltac facts :=
    repeat match goal with
    | S : StronglySorted cheaper (_ :: _) |- _ =>
        let A := fresh in let B := fresh in inversion S as [|? ? A B]; subst; clear S
    | S : Forall (cheaper _) (_ :: _) |- _ =>
        let A := fresh in let B := fresh in inversion S as [|? ? A B]; subst; clear S
    | S : StronglySorted cheaper [] |- _ => clear S
    | S : Forall (cheaper _) [] |- _ => clear S
    end; unfold cheaper in *; cbn [fst] in *.
  Ltac dec b :=
    let Q := fresh in destruct b eqn:Q; cbn [olt] in Q;
    [apply Qltb_lt in Q|apply Qltb_ge in Q].
  Ltac fin :=
    split; [split; [reflexivity|split; reflexivity]|split; [|split; [|split; [|split; [|reflexivity]]]]];
    [ | repeat (constructor; cbn [fst]; unfold cheaper; cbn [fst]); lra
      | unfold cheaper; let y := fresh in let z := fresh in intros y z I J; cbn [In] in I, J;
        intuition (subst; cbn [fst]; lra)
      | cbn [length]; let y := fresh in intros y I J; try discriminate J;
        unfold cheaper; eexists; (split; [right; right; left; reflexivity|]); cbn [fst];
        cbn [In] in I; intuition (subst; cbn [fst]; lra) ].
    - exists [(x, a)], []. fin. auto.
    - dec (olt (Some x1) (Some x)); facts.
      + exists [(x1, a1); (x, a)], []. fin. apply perm_swap.
      + exists [(x, a); (x1, a1)], []. fin. auto.
    - dec (olt (Some x2) (Some x)); [|dec (olt (Some x1) (Some x))]; facts.
      + exists [(x1, a1); (x2, a2); (x, a)], []. fin. symmetry.
        apply (Permutation_cons_append [(x1, a1); (x2, a2)] (x, a)).
      + exists [(x1, a1); (x, a); (x2, a2)], []. fin. apply perm_swap.
      + exists [(x, a); (x1, a1); (x2, a2)], []. fin. auto.
    - dec (olt (Some x3) (Some x)); [|dec (olt (Some x2) (Some x)); [|dec (olt (Some x1) (Some x))]]; facts.
      + exists [(x1, a1); (x2, a2); (x3, a3)], [(x, a)]. fin. symmetry.
        apply (Permutation_cons_append [(x1, a1); (x2, a2); (x3, a3)] (x, a)).
      + exists [(x1, a1); (x2, a2); (x, a)], [(x3, a3)]. fin. symmetry.
        apply (Permutation_middle [(x1, a1); (x2, a2)] [(x3, a3)] (x, a)).
      + exists [(x1, a1); (x, a); (x2, a2)], [(x3, a3)]. fin. apply perm_swap.
      + exists [(x, a); (x1, a1); (x2, a2)], [(x3, a3)]. fin. auto.
  Qed.

  Lemma offers_sorted L : forall (t : @tbi NumQ) sl R, stored t sl -> (length sl <= 3)%nat ->
    StronglySorted cheaper sl -> (forall y z, In y sl -> In z R -> cheaper y z) ->
    (R <> [] -> length sl = 3%nat) ->
    exists sl' R', stored (fold_left offer L t) sl' /\ Permutation (sl' ++ R') ((sl ++ R) ++ L) /\
      StronglySorted cheaper sl' /\ (forall y z, In y sl' -> In z R' -> cheaper y z) /\
      length sl' = Nat.min 3 (length sl + length L).
  Proof.
    induction L as [|[x a] L IH]; intros t sl R S H SS CR LR; cbn [fold_left].
    - exists sl, R. rewrite !app_nil_r. split; auto. split; auto. split; auto. split; auto.
      cbn [length]. lia.
    - destruct (tbi_add_sorted t sl x a S H SS) as (s1 & r1 & S1 & P1 & SS1 & C1 & D1 & L1).
      destruct (IH (tbi_add t x a) s1 (r1 ++ R)) as (s2 & r2 & S2 & P2 & SS2 & C2 & L2); auto.
      + lia.
      + intros y z I J. apply in_app_or in J. destruct J as [J|J]; auto.
        destruct (D1 y I) as (e & IE & CE).
        { apply LR. intros ->. destruct J. }
        specialize (CR e z IE J). unfold cheaper in *. lra.
      + intros NE. destruct r1 as [|e r1].
        * cbn [app] in NE. apply LR in NE. lia.
        * apply Permutation_length in P1. rewrite app_length in P1. cbn [length] in P1. lia.
      + exists s2, r2. split; [auto|]. split; [|split; [auto|split; [auto|]]].
        * rewrite P2. rewrite (app_assoc s1), P1. cbn [app]. apply Permutation_middle.
        * cbn [length]. lia.
  Qed.

  (** After offering any sequence of positions to an empty record, it holds three cheapest. *)
  Lemma offered_best (L : list (@F NumQ * ptr)) calc :
    exists sl R, stored (fold_left offer L (tbi_reset calc)) sl /\ Permutation (sl ++ R) L /\
      StronglySorted cheaper sl /\ (forall y z, In y sl -> In z R -> cheaper y z) /\
      length sl = Nat.min 3 (length L).
  Proof.
    destruct (offers_sorted L (tbi_reset calc) [] []) as (sl & R & S & P & SS & C & LL);
      auto using stored_reset, SSorted_nil; [intros ? ? []|congruence|].
    cbn [app length Nat.add] in *. eauto 10.
  Qed.

  (** ** The cost of an exchange *)

  Hypothesis dem0 : p_demand p 0%nat == 0.
  Notation w := (w p).
  Notation dq := (dq p).
  Notation load := (route_load (p_demand p)).
  Notation cost := (route_penalized (p_dist p) (p_demand p) (p_cap p) pen).
  Notation total := (total p c pen).

  Ltac wsimp :=
    repeat first [rewrite w_app by nepos | rewrite hd0_app by nepos | rewrite last0_app by nepos].
  Ltac cons_app := repeat match goal with |- context [?a :: ?l] =>
    lazymatch l with [] => fail | _ => change (a :: l) with ([a] ++ l) end end.

  Lemma removal_w r A x B :
    w (stops r (A ++ B)) == w (stops r (A ++ x :: B)) + removal p r A x B.
  Proof using.
    change (x :: B) with ([x] ++ B). rewrite !stops_app, !suf_app. change (map PN [x]) with [PN x].
    wsimp. cbn [hd last]. rewrite w_one. unfold removal. change (@dist NumQ p) with dq. numq. lra.
  Qed.

  Lemma extra_w r X a Y :
    w (stops r (X ++ a :: Y)) == w (stops r (X ++ Y)) + extra p (last0 (pre r X)) (PN a) (hd0 (suf r Y)).
  Proof using.
    change (a :: Y) with ([a] ++ Y). rewrite !stops_app, !suf_app. change (map PN [a]) with [PN a].
    wsimp. cbn [hd last]. rewrite w_one. unfold extra. change (@dist NumQ p) with dq. numq. lra.
  Qed.

  Lemma load_out A x B : load (A ++ B) == load (A ++ x :: B) - p_demand p x.
  Proof using. rewrite !load_app, load_cons. lra. Qed.

  Lemma place_w r l x a pos l' e A B : NoDup l -> place p r l x a pos l' e -> l = A ++ x :: B ->
    w (stops r l') == w (stops r l) + removal p r A x B + e /\
    load l' == load l - p_demand p x + p_demand p a.
  Proof using.
    intros ND PL E.
    destruct PL as [A1 B1 E1|A0 A1 B1 E1 NA|A1 B0 B1 E1 NB].
    - assert (Q : A = A1 /\ B = B1) by (apply (split_unique A B A1 B1 x); congruence).
      destruct Q as [-> ->]. rewrite E. split.
      + rewrite extra_w, (removal_w r A1 x B1). lra.
      + rewrite !load_app, !load_cons. lra.
    - assert (Q : A = A0 ++ A1 /\ B = B1).
      { apply (split_unique A B (A0 ++ A1) B1 x); [rewrite <- app_assoc|]; congruence. }
      destruct Q as [-> ->]. rewrite E. split.
      + rewrite (extra_w r A0 a (A1 ++ B1)). rewrite suf_app, hd0_app by nepos.
        rewrite app_assoc, (removal_w r (A0 ++ A1) x B1). lra.
      + rewrite ?load_app, ?load_cons, ?load_app. lra.
    - assert (Q : A = A1 /\ B = B0 ++ B1) by (apply (split_unique A B A1 (B0 ++ B1) x); congruence).
      destruct Q as [-> ->]. rewrite E. split.
      + rewrite (app_assoc A1 B0), (extra_w r (A1 ++ B0) a B1). rewrite pre_app, last0_app by nepos.
        rewrite <- app_assoc, (removal_w r A1 x (B0 ++ B1)). lra.
      + rewrite ?load_app, ?load_cons, ?load_app, ?load_cons. lra.
  Qed.

  Lemma penalty_change_Q (new old : @F NumQ) :
    penalty_change pen new old == pen * Qpos new - pen * Qpos old.
  Proof using. unfold penalty_change. numq. rewrite !Qpos_max. lra. Qed.

  Lemma star_exact s rs r1 r2 b l1 l2 d :
    holds s rs -> (r1 < nv)%nat -> (r2 < nv)%nat -> r1 <> r2 -> star p pen s rs r1 r2 b l1 l2 d ->
    d == total (nupd (nupd rs r1 l1) r2 l2) - total rs.
  Proof using dem0.
    intros H H1 H2 NE ST. rewrite total_two by auto.
    pose proof (read_over p c pen dem0 s rs H r1 H1) as O1.
    pose proof (read_over p c pen dem0 s rs H r2 H2) as O2.
    pose proof (serves_nodup p c rs (h_serves _ _ _ _ _ H) r1 H1) as ND1.
    pose proof (serves_nodup p c rs (h_serves _ _ _ _ _ H) r2 H2) as ND2.
    unfold route_penalized.
    destruct ST as [A u B C v D pu l2 iu pv l1 iv EU EV PU PV R1 R2 p1 p2 d
                   |A u B X Y EU EX R1 R2 p1 p2 d|C v D X Y EV EX R1 R2 p1 p2 d].
    - destruct (place_w _ _ _ _ _ _ _ _ _ ND1 PV EU) as [W1 L1].
      destruct (place_w _ _ _ _ _ _ _ _ _ ND2 PU EV) as [W2 L2].
      rewrite (length_w p r1 l1), (length_w p r2 l2), (length_w p r1 (rs r1)), (length_w p r2 (rs r2)).
      unfold d, p1, p2, R1, R2. rewrite W1, W2.
      assert (Q1 : penalty_change pen (r_over (s_routes s r1) -: dem p (PN u) +: dem p (PN v)) (r_over (s_routes s r1))
                   == pen * Qpos (load l1 - p_cap p) - pen * Qpos (load (rs r1) - p_cap p)).
      { rewrite penalty_change_Q. unfold dem. cbn [num]. numq.
        rewrite (Qpos_comp _ _ O1). rewrite (Qpos_comp (_ + _) (load l1 - p_cap p)); [reflexivity|lra]. }
      assert (Q2 : penalty_change pen (r_over (s_routes s r2) +: dem p (PN u) -: dem p (PN v)) (r_over (s_routes s r2))
                   == pen * Qpos (load l2 - p_cap p) - pen * Qpos (load (rs r2) - p_cap p)).
      { rewrite penalty_change_Q. unfold dem. cbn [num]. numq.
        rewrite (Qpos_comp _ _ O2). rewrite (Qpos_comp (_ - _) (load l2 - p_cap p)); [reflexivity|lra]. }
      revert Q1 Q2. generalize (penalty_change pen (r_over (s_routes s r1) -: dem p (PN u) +: dem p (PN v)) (r_over (s_routes s r1))).
      generalize (penalty_change pen (r_over (s_routes s r2) +: dem p (PN u) -: dem p (PN v)) (r_over (s_routes s r2))).
      intros q2 q1 Q1 Q2. numq. lra.
    - pose proof (extra_w r2 X u Y) as W2. pose proof (removal_w r1 A u B) as W1.
      pose proof (load_out A u B) as L1. pose proof (load_out X u Y) as L2.
      rewrite (length_w p r1 (A ++ B)), (length_w p r2 (X ++ u :: Y)), (length_w p r1 (rs r1)), (length_w p r2 (rs r2)).
      rewrite EU, EX in *. unfold d, p1, p2, R1, R2. rewrite W1, W2.
      assert (Q1 : penalty_change pen (r_over (s_routes s r1) -: dem p (PN u)) (r_over (s_routes s r1))
                   == pen * Qpos (load (A ++ B) - p_cap p) - pen * Qpos (load (A ++ u :: B) - p_cap p)).
      { rewrite penalty_change_Q. unfold dem. cbn [num]. numq.
        rewrite (Qpos_comp _ _ O1). rewrite (Qpos_comp (_ - p_demand p u) (load (A ++ B) - p_cap p)); [reflexivity|lra]. }
      assert (Q2 : penalty_change pen (r_over (s_routes s r2) +: dem p (PN u)) (r_over (s_routes s r2))
                   == pen * Qpos (load (X ++ u :: Y) - p_cap p) - pen * Qpos (load (X ++ Y) - p_cap p)).
      { rewrite penalty_change_Q. unfold dem. cbn [num]. numq.
        rewrite (Qpos_comp _ _ O2). rewrite (Qpos_comp (_ + _) (load (X ++ u :: Y) - p_cap p)); [reflexivity|lra]. }
      revert Q1 Q2. generalize (penalty_change pen (r_over (s_routes s r1) -: dem p (PN u)) (r_over (s_routes s r1))).
      generalize (penalty_change pen (r_over (s_routes s r2) +: dem p (PN u)) (r_over (s_routes s r2))).
      intros q2 q1 Q1 Q2. numq. lra.
    - pose proof (extra_w r1 X v Y) as W1. pose proof (removal_w r2 C v D) as W2.
      pose proof (load_out C v D) as L2. pose proof (load_out X v Y) as L1.
      rewrite (length_w p r1 (X ++ v :: Y)), (length_w p r2 (C ++ D)), (length_w p r1 (rs r1)), (length_w p r2 (rs r2)).
      rewrite EV, EX in *. unfold d, p1, p2, R1, R2. rewrite W1, W2.
      assert (Q1 : penalty_change pen (r_over (s_routes s r1) +: dem p (PN v)) (r_over (s_routes s r1))
                   == pen * Qpos (load (X ++ v :: Y) - p_cap p) - pen * Qpos (load (X ++ Y) - p_cap p)).
      { rewrite penalty_change_Q. unfold dem. cbn [num]. numq.
        rewrite (Qpos_comp _ _ O1). rewrite (Qpos_comp (_ + _) (load (X ++ v :: Y) - p_cap p)); [reflexivity|lra]. }
      assert (Q2 : penalty_change pen (r_over (s_routes s r2) -: dem p (PN v)) (r_over (s_routes s r2))
                   == pen * Qpos (load (C ++ D) - p_cap p) - pen * Qpos (load (C ++ v :: D) - p_cap p)).
      { rewrite penalty_change_Q. unfold dem. cbn [num]. numq.
        rewrite (Qpos_comp _ _ O2). rewrite (Qpos_comp (_ - p_demand p v) (load (C ++ D) - p_cap p)); [reflexivity|lra]. }
      revert Q1 Q2. generalize (penalty_change pen (r_over (s_routes s r1) +: dem p (PN v)) (r_over (s_routes s r1))).
      generalize (penalty_change pen (r_over (s_routes s r2) -: dem p (PN v)) (r_over (s_routes s r2))).
      intros q2 q1 Q1 Q2. numq. lra.
  Qed.

  (** ** The place chosen is the cheapest, up to the tolerance *)

  Lemma last0_pre_NoDup r X Y : NoDup (X ++ Y) -> forall n, In n Y -> last0 (pre r X) <> PN n.
  Proof using.
    intros ND n I E. destruct (last0_pre_inv _ _ _ E) as (X' & ->).
    apply NoDup_app_inv in ND. destruct ND as (_ & _ & D). apply (D n); auto. auto with datatypes.
  Qed.
  Lemma last0_pre_app r X Z : Z <> [] -> last0 (pre r (X ++ Z)) = last0 (map PN Z).
  Proof using. intros. rewrite pre_app, last0_app; nepos. Qed.
  Lemma last0_mapPN Z : Z <> [] -> exists Z' n, Z = Z' ++ [n] /\ last0 (map PN Z) = PN n.
  Proof using.
    intros NE. destruct (exists_last NE) as (Z' & n & ->). exists Z', n. split; auto.
    rewrite map_app. apply last_last.
  Qed.

  Lemma place_cases r l x a pos l' e A B : NoDup l -> l = A ++ x :: B -> place p r l x a pos l' e ->
    (pos = last0 (pre r A) /\ e = extra p (last0 (pre r A)) (PN a) (hd0 (suf r B))) \/
    (In (e, pos) (positions p r l (PN a)) /\ is_away r A x pos).
  Proof using.
    intros ND E PL.
    destruct PL as [A1 B1 E1|A0 A1 B1 E1 NA|A1 B0 B1 E1 NB].
    - left. assert (Q : A = A1 /\ B = B1) by (apply (split_unique A B A1 B1 x); congruence).
      destruct Q as [-> ->]. auto.
    - right. assert (Q : A = A0 ++ A1 /\ B = B1).
      { apply (split_unique A B (A0 ++ A1) B1 x); [rewrite <- app_assoc|]; congruence. }
      destruct Q as [-> ->]. split.
      + unfold positions. apply in_map_iff. exists (last0 (pre r A0), hd0 (map PN A1)). split; auto.
        rewrite E1. rewrite <- (hd0_app (map PN A1) (suf r (x :: B1))) by nepos. rewrite <- suf_app. apply cut_pair.
      + rewrite E1 in ND. split.
        * apply (last0_pre_NoDup r A0 (A1 ++ x :: B1) ND). auto with datatypes.
        * rewrite last0_pre_app by auto. destruct (last0_mapPN A1 NA) as (Z & n & EZ & ->).
          apply (last0_pre_NoDup r A0 (A1 ++ x :: B1) ND). rewrite EZ. auto with datatypes.
    - right. assert (Q : A = A1 /\ B = B0 ++ B1) by (apply (split_unique A B A1 (B0 ++ B1) x); congruence).
      destruct Q as [-> ->]. split.
      + unfold positions. apply in_map_iff. exists (last0 (map PN B0), hd0 (suf r B1)). split; auto.
        rewrite E1. rewrite <- (last0_pre_app r (A1 ++ [x]) B0) by auto.
        replace (A1 ++ x :: B0 ++ B1) with (((A1 ++ [x]) ++ B0) ++ B1) by (rewrite <- !app_assoc; auto).
        apply cut_pair.
      + rewrite E1 in ND. destruct (last0_mapPN B0 NB) as (Z & n & EZ & ->). 
        assert (IN : In n (B0 ++ B1)) by (rewrite EZ; auto with datatypes).
        split.
        * intros Q. injection Q as ->. apply NoDup_app_inv in ND. destruct ND as (_ & ND & _).
          apply NoDup_cons_iff in ND. tauto.
        * intros Q. symmetry in Q. revert Q.
          apply (last0_pre_NoDup r A1 (x :: B0 ++ B1) ND). right. auto.
  Qed.

  Lemma cheapest_optimal s rs r C D v u calc :
    holds s rs -> (r < nv)%nat -> rs r = C ++ v :: D -> s_best s r u = fresh p r (rs r) u calc ->
    exists pos x l', cheapest_insert_and_removal p s (PN u) (PN v) = Ok (pos, Some x) /\
      place p r (rs r) v u pos l' x /\
      (forall pos' l'' x', place p r (rs r) v u pos' l'' x' -> x <= x' + (1 # 1000000)).
  Proof using.
    intros H Hr E EB.
    destruct (cheapest_place p c pen s rs H r C D v u Hr E calc EB) as (pos & x & l' & EQ & PL).
    exists pos, x, l'. split; auto. split; auto.
    intros pos' l'' x' PL'.
    pose proof (serves_nodup p c rs (h_serves _ _ _ _ _ H) r Hr) as ND.
    destruct (cheapest_cases p c pen s rs H r C D v u Hr E calc EB) as (sl & rest & S & P & L & QQ).
    destruct (offered_best (positions p r (rs r) (PN u)) calc) as (sl2 & R2 & S2 & P2 & SS & CR & LL).
    fold (fresh p r (rs r) u calc) in S2.
    assert (ES : sl2 = sl).
    { rewrite positions_length in LL. rewrite <- L in LL.
      destruct S as (A1 & A2 & A3), S2 as (B1 & B2 & B3).
      rewrite A1 in B1. rewrite A2 in B2. rewrite A3 in B3. unfold slots in *.
      assert (L3 : (length sl <= 3)%nat) by lia. clear - B1 B2 B3 LL L3.
      destruct sl as [|[x1 a1] [|[x2 a2] [|[x3 a3] [|]]]], sl2 as [|[y1 b1] [|[y2 b2] [|[y3 b3] [|]]]];
        cbn [length nth_error] in *; try lia; try congruence. }
    subst sl2.
    destruct (place_cases r (rs r) v u pos' l'' x' C D ND E PL') as [[_ ->]|[I AW]].
    - fold (dc p r C D u). set (z := dc p r C D u) in *. clearbody z. change (@F NumQ) with Q in *. destruct QQ as [(k & y & a & K & _ & _ & QQ)|(_ & QQ)]; rewrite EQ in QQ.
      + destruct (@approx_lt NumQ z y) eqn:T; injection QQ as _ ->; [lra|].
        apply approx_lt_Q_false in T. lra.
      + injection QQ as _ ->. lra.
    - assert (I2 : In (x', pos') (sl ++ R2)) by (apply (Permutation_in _ (Permutation_sym P2)); auto).
      destruct QQ as [(k & y & a & K & _ & FA & QQ)|(NA & QQ)]; rewrite EQ in QQ.
      + assert (YX : y <= x').
        { apply in_app_or in I2. destruct I2 as [I2|I2].
          - apply In_nth_error in I2. destruct I2 as (j & J).
            destruct (le_lt_dec k j) as [KJ|KJ].
            + destruct (Nat.eq_dec j k) as [->|NK]; [rewrite K in J; injection J as -> ->; lra|].
              apply nth_error_split in K. destruct K as (s1 & s2 & EK & LK).
              rewrite EK in J, SS. rewrite nth_error_app2 in J by lia.
              replace (j - length s1)%nat with (Datatypes.S (j - k - 1))%nat in J by lia. cbn [nth_error] in J.
              apply nth_error_In in J. clear - SS J.
              induction s1 as [|e s1 IH]; cbn [app] in SS; inversion SS as [|? ? S1 S2]; subst; auto.
              rewrite Forall_forall in S2. apply (S2 _ J).
            + exfalso. apply (FA j x' pos' KJ J AW).
          - apply nth_error_In in K. apply (CR _ _ K I2). }
        set (z := dc p r C D u) in *. clearbody z. change (@F NumQ) with Q in *.
        destruct (@approx_lt NumQ z y) eqn:T; injection QQ as _ ->.
        * apply approx_lt_Q in T. lra.
        * lra.
      + exfalso. apply (NA x' pos'); auto. apply (Permutation_in _ (Permutation_sym P)). auto.
  Qed.
End StarQ.
