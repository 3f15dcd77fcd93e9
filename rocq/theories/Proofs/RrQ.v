(** Ruin and recreate in exact arithmetic. *)
From Coq Require Import List Arith NArith ZArith Bool Lia Permutation QArith Qround Lqa.
From Verif.Model Require Import Num Prelude Evaluate Individual Config Matrix World Schedule RuinRecreate.
From Verif.Spec Require Import Solution Population RuinRecreate.
From Verif.Proofs Require Import Lists QNum EvalFacts EvalThms SplitStruct MatrixFacts RrRuin RrRuinRun RrRecreate RrRun.
Import ListNotations.
Local Open Scope nat_scope.

Lemma anglesQ (p : @problem NumQ) : angles_ok p.
Proof. intros r _. apply nan_Q. Qed.
Lemma keysQ (p : @problem NumQ) : keys_ok p.
Proof. intros n _. split; apply nan_Q. Qed.
Lemma roomQ (p : @problem NumQ) good pen : room p good pen.
Proof. intros ro x _ _ _. reflexivity. Qed.

Section ExactQ.
  Variable p : @problem NumQ.
  Variable c : @config NumQ.
  Notation d := (p_dist p).
  Local Open Scope Q_scope.

  Lemma walk_join (dd : nat -> nat -> Q) a : forall z y m,
    walk_length dd (z :: a ++ y :: m) == walk_length dd (z :: a) + dd (last a z) y + walk_length dd (y :: m).
  Proof.
    induction a as [|x a IH]; intros z y m.
    - cbn [app last walk_length]. ring.
    - cbn [app]. rewrite !walk_cons_app, IH. rewrite last_cons_default. ring.
  Qed.

  Lemma route_length_parts a b :
    route_length d (a ++ b) == walk_length d (0%nat :: a) + d (last a 0%nat) (hd 0%nat b) +
      walk_length d (hd 0%nat b :: tl (b ++ [0%nat])).
  Proof.
    unfold route_length. rewrite <- app_assoc.
    replace (b ++ [0%nat]) with (hd 0%nat b :: tl (b ++ [0%nat])) at 1 by (destruct b; reflexivity).
    apply walk_join.
  Qed.

  Lemma pdelta_extra a x b : @pdelta NumQ p a x b == extra d a x b.
  Proof.
    unfold extra. rewrite (route_length_parts a (x :: b)), (route_length_parts a b). cbn [hd tl app].
    unfold pdelta. numq.
    replace (b ++ [0%nat]) with (hd 0%nat b :: tl (b ++ [0%nat])) at 1 by (destruct b; reflexivity).
    rewrite walk_cons_app. lra.
  Qed.

  Lemma route_load_mid (dem : nat -> Q) a x b : route_load dem (a ++ x :: b) == route_load dem (a ++ b) + dem x.
  Proof.
    unfold route_load. induction a as [|y a IH]; cbn [app map Qsum]; [ring|]. rewrite IH. ring.
  Qed.

  Lemma exact_add ro i n ro' : exact_route p ro -> @ro_add NumQ p ro i n = Ok ro' -> proper p (ro_nodes ro') -> exact_route p ro'.
  Proof.
    intros [H1 H2] H _. destruct (le_lt_dec i (length (ro_nodes ro))) as [L|L].
    - assert (E : ro_nodes ro = firstn i (ro_nodes ro) ++ skipn i (ro_nodes ro)) by now rewrite firstn_skipn.
      assert (Li : length (firstn i (ro_nodes ro)) = i) by (rewrite firstn_length; lia).
      unfold ro_add in H. pose proof (@delta_distance_ok NumQ p ro _ _ n E) as D. rewrite Li in D. rewrite D in H.
      cbn [rbind] in H. injection H as <-. unfold exact_route. cbn [ro_nodes ro_dist ro_over].
      set (a := firstn i (ro_nodes ro)) in *. set (b := skipn i (ro_nodes ro)) in *.
      replace (insert_nth (ro_nodes ro) i n) with (a ++ n :: b) by (rewrite E, <- Li; symmetry; apply insert_nth_mid).
      pose proof (pdelta_extra a n b) as P. unfold extra, pdelta in P. rewrite E in H1, H2.
      pose proof (route_load_mid (p_demand p) a n b) as R. split; numq; lra.
    - exfalso. unfold ro_add, delta_distance in H. assert (Z : (i =? 0) = false) by (apply Nat.eqb_neq; lia).
      rewrite Z in H. destruct (geti (ro_nodes ro) (i - 1)); [|discriminate]. cbn [rbind] in H.
      assert (Z2 : (i =? length (ro_nodes ro)) = false) by (apply Nat.eqb_neq; lia). rewrite Z2 in H.
      unfold geti in H. assert (Z3 : nth_error (ro_nodes ro) i = None) by (apply nth_error_None; lia).
      rewrite Z3 in H. discriminate.
  Qed.

  Lemma exact_remove ro i n ro' : exact_route p ro -> @ro_remove NumQ p ro i = Ok (n, ro') -> exact_route p ro'.
  Proof.
    intros [H1 H2] H. unfold ro_remove in H.
    destruct (if i =? 0 then Ok 0%nat else geti (ro_nodes ro) (i - 1)) as [pr|] eqn:EP; [|discriminate]. cbn [rbind] in H.
    destruct (if i =? length (ro_nodes ro) - 1 then Ok 0%nat else geti (ro_nodes ro) (i + 1)) as [nx|] eqn:EN; [|discriminate]. cbn [rbind] in H.
    destruct (geti (ro_nodes ro) i) as [x|] eqn:EX; [|discriminate]. cbn [rbind] in H. injection H as -> <-.
    apply geti_inv in EX. apply nth_error_split in EX. destruct EX as (a & b & E & La). subst i.
    assert (Pa : pr = last a 0%nat).
    { destruct a as [|y a]; cbn [length Nat.eqb] in EP; [injection EP as <-; reflexivity|].
      apply geti_inv in EP. rewrite E in EP. cbn [length] in EP.
      assert (G : nth_error ((y :: a) ++ n :: b) (length (y :: a) - 1) = Some (last (y :: a) 0%nat))
        by (apply last_nth; discriminate).
      cbn [length] in G. congruence. }
    assert (Nb : nx = hd 0%nat b).
    { rewrite E, app_length in EN. cbn [length] in EN. destruct b as [|y b].
      - replace (length a =? length a + S (length (@nil nat)) - 1) with true in EN by (symmetry; apply Nat.eqb_eq; cbn; lia).
        injection EN as <-. reflexivity.
      - replace (length a =? length a + S (length (y :: b)) - 1) with false in EN
          by (symmetry; apply Nat.eqb_neq; cbn; lia).
        apply geti_inv in EN. rewrite nth_error_app2 in EN by lia.
        replace (length a + 1 - length a)%nat with 1%nat in EN by lia. cbn in EN. injection EN as <-. reflexivity. }
    unfold exact_route. cbn [ro_nodes ro_dist ro_over]. rewrite E, remove_nth_mid. subst pr nx.
    pose proof (pdelta_extra a n b) as P. unfold extra, pdelta in P. rewrite E in H1, H2.
    pose proof (route_load_mid (p_demand p) a n b) as R. split; numq; lra.
  Qed.

  Lemma exact_eval nodes : proper p nodes -> exact_route p (mkRoute nodes (gdist p (@f0 NumQ) 0 nodes) (gover p nodes)).
  Proof.
    intros _. split; cbn [ro_nodes ro_dist ro_over].
    - rewrite gdist_Q. numq. unfold route_length. ring.
    - apply gover_Q.
  Qed.

  Lemma exact_routes_Forall s : Forall (exact_route p) (so_routes s) <-> exact_sol p s.
  Proof. apply Forall_forall. Qed.

  Lemma so_total_Q pen s : exact_sol p s ->
    @so_total NumQ pen s == total_penalized d (p_demand p) (p_cap p) pen (routes_of s).
  Proof.
    intro H. unfold so_total, total_penalized, routes_of. rewrite map_map. numq.
    rewrite (fold_add_Q _ (fun r => route_penalized d (p_demand p) (p_cap p) pen (ro_nodes r))); [ring|].
    intros r Hr. destruct (H r Hr) as [E1 E2]. unfold route_penalized.
    rewrite Qpos_max, (Qpos_comp _ _ E2), E1. ring.
  Qed.

  Lemma priced_exact pen s : exact_sol p s -> priced pen s -> exact_cost p pen s.
  Proof. intros H P. eexists. split; [exact P|]. now apply so_total_Q. Qed.

  (** ** Random numbers below one *)
  Definition unit_reals : Prop := forall x, 0 <= (o_real p x : Q) /\ (o_real p x : Q) < 1.

  Lemma below_Q : unit_reals -> reals_below_one p.
  Proof.
    intros U z x n Hn. destruct (U z) as [U1 U2]. numq.
    set (r := o_real p z : Q) in *. clearbody r. change (@F NumQ) with Q in *.
    assert (Hm : Qminb x (inject_Z (Z.of_nat n)) <= inject_Z (Z.of_nat n)).
    { destruct (Qminb_spec x (inject_Z (Z.of_nat n))) as [[? ->]|[? ->]]; lra. }
    set (m := Qminb _ _) in *. clearbody m.
    assert (N0 : 0 < inject_Z (Z.of_nat n)) by (change 0 with (inject_Z 0); rewrite <- Zlt_Qlt; lia).
    assert (L : r * m < inject_Z (Z.of_nat n)).
    { destruct (Qlt_le_dec m 0) as [G|G].
      - assert (r * m <= 0) by nra. lra.
      - assert (r * m <= r * inject_Z (Z.of_nat n)) by nra.
        assert (r * inject_Z (Z.of_nat n) < 1 * inject_Z (Z.of_nat n)) by nra. lra. }
    pose proof (Qfloor_le (r * m)) as FL.
    assert (Z : (Qfloor (r * m) < Z.of_nat n)%Z) by (rewrite Zlt_Qlt; lra).
    lia.
  Qed.

  (** ** Greedy insertion *)
  Notation ins := (nat * nat * @F NumQ)%type.
  Lemma pick_some_least (l : list ins) : forall b x : ins, pick (Some b) l = Some x ->
    (snd x : Q) <= snd b /\ forall y, In y l -> (snd x : Q) <= snd y + (1 # 1000000).
  Proof.
    induction l as [|[[r i] v] l IH]; intros b x H.
    - cbn in H. injection H as <-. split; [lra|]. intros y [].
    - change (pick (consider r i v (Some b)) l = Some x) in H. destruct b as [[r0 i0] w]. cbn [consider] in H.
      destruct (approx_lt v w) eqn:E.
      + apply IH in H. cbn [snd] in *. destruct H as [H1 H2]. apply approx_lt_Q in E. split; [numq; lra|].
        intros y [<-|Hy]; [cbn [snd]; numq; lra|auto].
      + apply IH in H. cbn [snd] in *. destruct H as [H1 H2]. apply approx_lt_Q_false in E. split; [auto|].
        intros y [<-|Hy]; [cbn [snd]; numq; lra|auto].
  Qed.
  Lemma pick_least (l : list ins) (x : ins) : pick None l = Some x ->
    forall y, In y l -> (snd x : Q) <= snd y + (1 # 1000000).
  Proof.
    destruct l as [|[[r i] v] l]; [discriminate|]. intro H.
    change (pick (Some (r, i, v)) l = Some x) in H. apply pick_some_least in H. destruct H as [H1 H2].
    intros y [<-|Hy]; [cbn [snd] in *; numq; lra|auto].
  Qed.
  Lemma pick_empty (l : list ins) : pick None l = None -> l = [].
  Proof.
    destruct l as [|y l]; auto. intro H. pose proof (@pick_none NumQ _ H y (or_introl eq_refl)). discriminate.
  Qed.

  Lemma app_same_length {A} (a b a' b' : list A) : a ++ b = a' ++ b' -> length a = length a' -> a = a' /\ b = b'.
  Proof.
    revert a'. induction a as [|x a IH]; intros [|y a'] H L; try discriminate; auto.
    cbn in H. injection H as -> H. destruct (IH a' H ltac:(cbn in L; lia)) as [-> ->]. auto.
  Qed.

  Lemma placed_greedily pen un s updated s2 u2 :
    placed p c (exact_route p) pen un s updated s2 u2 ->
    greedily d (p_demand p) (p_cap p) pen (1 # 1000000) un (routes_of s) updated (routes_of s2).
  Proof.
    induction 1 as [s updated|x un s updated order r a b v s1 s2 updated2 FI P PK INS PL IH]; [constructor|].
    pose proof INS as INS'. destruct INS' as (ro & ro' & E1 & E2 & _).
    destruct (inserted_routes _ _ _ _ _ _ _ INS) as [R1 R2].
    eapply greedily_cons; [|exact IH]. rewrite R2.
    assert (EX : forall k q, nth_error (so_routes s) k = Some q -> exact_route p q).
    { intros k q Hq. pose proof (fi_good _ _ _ _ _ _ FI) as G. rewrite Forall_forall in G. apply G. eapply nth_error_In; eauto. }
    assert (RN : forall k nodes, nth_error (routes_of s) k = Some nodes ->
      exists q, nth_error (so_routes s) k = Some q /\ ro_nodes q = nodes).
    { intros k nodes H. rewrite routes_nth in H. destruct (nth_error (so_routes s) k) as [q|]; [|discriminate].
      injection H as <-. eauto. }
    destruct (pick None (touched_cands p s x order)) as [w|] eqn:PT.
    - injection PK as ->. pose proof (pick_least _ _ PT) as LEAST.
      apply pick_in in PT. destruct PT as [PT|PT]; [discriminate|].
      apply in_touched_cands in PT. destruct PT as (r0 & ro0 & a0 & b0 & T1 & T2 & T3 & T4 & T5).
      assert (T51 : r = r0) by congruence. assert (T52 : length a = length a0) by congruence.
      assert (T53 : v = pdelta p a0 x b0) by congruence. subst r0. rewrite E1 in T2. injection T2 as <-.
      rewrite E2 in T4. destruct (app_same_length _ _ _ _ T4 T52) as [<- <-].
      apply greedy_touched; auto.
      + eapply Permutation_in; eauto.
      + destruct (EX _ _ E1) as [_ X]. rewrite E2 in X. apply approx_lte_Q in T3. numq. lra.
      + intros r2 a2 b2 H1 H2 H3. destruct (RN _ _ H2) as (q & Q1 & Q2).
        specialize (LEAST (r2, length a2, pdelta p a2 x b2)). cbn [snd] in LEAST.
        assert (LE : (v : Q) <= pdelta p a2 x b2 + (1 # 1000000)).
        { apply LEAST. apply in_touched_cands. exists r2, q, a2, b2.
          split; [eapply Permutation_in; [symmetry; exact P|exact H1]|].
          split; auto. split; [|auto]. apply approx_lte_Q. destruct (EX _ _ Q1) as [_ X]. rewrite Q2 in X. numq. lra. }
        subst v. rewrite !pdelta_extra in LE. exact LE.
      + intro y. apply set_insert_In.
    - pose proof (pick_empty _ PT) as EMP. pose proof (pick_least _ _ PK) as LEAST.
      apply pick_in in PK. destruct PK as [PK|PK]; [discriminate|].
      apply in_all_cands in PK. destruct PK as (r0 & ro0 & a0 & b0 & T2 & T4 & T5).
      assert (T51 : r = r0) by congruence. assert (T52 : length a = length a0) by congruence. subst r0.
      rewrite E1 in T2. injection T2 as <-.
      rewrite E2 in T4. destruct (app_same_length _ _ _ _ T4 T52) as [<- <-].
      assert (VAL : forall k q a2 b2, nth_error (so_routes s) k = Some q -> ro_nodes q = a2 ++ b2 ->
        (pdelta p a2 x b2 +: fmax f0 (ro_over q +: p_demand p x) *: pen : Q)
        == extra d a2 x b2 + pen * Qpos (route_load (p_demand p) (a2 ++ b2) + p_demand p x - p_cap p)).
      { intros k q a2 b2 K1 K2. destruct (EX _ _ K1) as [_ X]. rewrite K2 in X.
        rewrite <- pdelta_extra. cbn [fadd fmul fmax NumQ f0]. rewrite Qpos_max.
        rewrite (Qpos_comp _ (route_load (p_demand p) (a2 ++ b2) + p_demand p x - p_cap p)) by (rewrite X; ring). ring. }
      apply greedy_other; auto.
      + intros r2 nodes H1 H2. destruct (RN _ _ H2) as (q & Q1 & Q2).
        apply Qnot_lt_le. intro H3.
        assert (I : In (r2, length (@nil nat), pdelta p [] x nodes) (touched_cands p s x order)).
        { apply in_touched_cands. exists r2, q, [], nodes.
          split; [eapply Permutation_in; [symmetry; exact P|exact H1]|].
          split; auto. split; [|auto]. apply approx_lte_Q. destruct (EX _ _ Q1) as [_ X]. rewrite Q2 in X. numq. lra. }
        rewrite EMP in I. destruct I.
      + intros r2 a2 b2 H2. destruct (RN _ _ H2) as (q & Q1 & Q2).
        specialize (LEAST (r2, length a2, pdelta p a2 x b2 +: fmax f0 (ro_over q +: p_demand p x) *: pen)).
        cbn [snd] in LEAST.
        assert (LE : (v : Q) <= (pdelta p a2 x b2 +: fmax f0 (ro_over q +: p_demand p x) *: pen : Q) + (1 # 1000000)).
        { apply LEAST. apply in_all_cands. exists r2, q, a2, b2. auto. }
        rewrite (VAL _ _ _ _ Q1 Q2) in LE.
        assert (EV : (v : Q) == extra d a x b + pen * Qpos (route_load (p_demand p) (a ++ b) + p_demand p x - p_cap p)).
        { rewrite <- (VAL _ _ _ _ E1 E2). injection T5 as ->. reflexivity. }
        rewrite EV in LE. exact LE.
      + intro y. apply set_insert_In.
  Qed.
End ExactQ.
