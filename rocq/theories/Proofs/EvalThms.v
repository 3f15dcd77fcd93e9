(** Proofs of the evaluation and route sorting properties. *)
From Coq Require Import List Arith ZArith QArith Bool Lia Lqa Permutation Sorted.
From Verif.Model Require Import Num Prelude Evaluate Individual Split.
From Verif.Spec Require Import Solution.
From Verif.Proofs Require Import Lists QNum EvalFacts SplitStruct.
Import ListNotations.

Lemma serves_NoDup dim rs : serves_all_once dim rs -> NoDup (concat rs).
Proof. intros H. eapply Permutation_NoDup; [symmetry; exact H|apply seq_NoDup]. Qed.
Lemma serves_In dim rs c : serves_all_once dim rs -> (In c (concat rs) <-> (0 < c < dim)%nat).
Proof.
  intros H. rewrite <- (in_rev (concat rs)) || idtac.
  split; intros Hc.
  - eapply Permutation_in in Hc; [|exact H]. apply in_seq in Hc. lia.
  - eapply Permutation_in; [symmetry; exact H|]. apply in_seq. lia.
Qed.

Lemma nth_error_nth_lt {A} (l : list A) i d : (i < length l)%nat -> nth_error l i = Some (nth i l d).
Proof. intros. now apply nth_error_nth'. Qed.

Section Adj.
  Context {N : Num}.
  Variable p : problem.

  Lemma geval_adjacent pen e rs r a b :
    (0 < p_dim p)%nat ->
    serves_all_once (p_dim p) rs -> In r rs -> consecutive r a b ->
    (b <> 0%nat -> nth_error (se_pred (geval p pen e rs)) b = Some a) /\
    (a <> 0%nat -> nth_error (se_succ (geval p pen e rs)) a = Some b).
  Proof.
    intros H0 Hs Hr Hc. pose proof (serves_NoDup _ _ Hs) as Hnd.
    apply in_split in Hr as (rs1 & rs2 & ->).
    apply consecutive_cases in Hc as [H1 H2]. unfold geval. cbn [se_pred se_succ].
    split; intros Hz.
    - destruct (H1 Hz) as (r1 & r2 & -> & ->).
      assert (Hb : (0 < b < p_dim p)%nat).
      { apply (serves_In _ _ b Hs). rewrite concat_app. apply in_or_app. right.
        simpl. apply in_or_app. left. apply in_or_app. right. now left. }
      rewrite (nth_error_nth_lt _ _ 0%nat) by (rewrite gpreds_length, resize_length; lia).
      rewrite gpreds_in; auto. rewrite resize_length. lia.
    - destruct (H2 Hz) as (r1 & r2 & -> & ->).
      assert (Hb : (0 < a < p_dim p)%nat).
      { apply (serves_In _ _ a Hs). rewrite concat_app. apply in_or_app. right.
        simpl. apply in_or_app. left. apply in_or_app. right. now left. }
      rewrite (nth_error_nth_lt _ _ 0%nat) by (rewrite gsuccs_length, resize_length; lia).
      rewrite gsuccs_in; auto. rewrite resize_length. lia.
  Qed.

  (** Every customer of a complete solution sits between two neighbours. *)
  Lemma serves_consecutive dim rs c :
    serves_all_once dim rs -> (0 < c < dim)%nat ->
    exists r a b, In r rs /\ consecutive r a c /\ consecutive r c b.
  Proof.
    intros Hs Hc. apply (serves_In _ _ c Hs) in Hc.
    apply in_concat in Hc as (r & Hr & Hc).
    apply in_split in Hc as (r1 & r2 & ->).
    exists (r1 ++ c :: r2). 
    destruct (exists_last (l := 0%nat :: r1)) as (l1 & a & Ea); [discriminate|].
    destruct (r2 ++ [0%nat]) as [|b l2] eqn:Eb; [destruct r2; discriminate|].
    exists a, b. split; auto. split.
    - exists l1, (r2 ++ [0%nat]). rewrite <- app_assoc. cbn [app].
      change (0%nat :: r1 ++ c :: r2 ++ [0%nat]) with ((0%nat :: r1) ++ c :: r2 ++ [0%nat]).
      rewrite Ea, <- app_assoc. reflexivity.
    - exists (0%nat :: r1), l2. rewrite <- app_assoc. cbn [app]. now rewrite Eb.
  Qed.

  Lemma evaluate_history_free pen e1 e2 routes r1 r2 :
    evaluate p pen e1 routes = Ok r1 -> evaluate p pen e2 routes = Ok r2 ->
    (0 < p_dim p)%nat -> (forall n, In n (concat routes) -> (n < p_dim p)%nat) ->
    se_cost r1 = se_cost r2 /\ se_feasible r1 = se_feasible r2 /\ se_routes r1 = se_routes r2 /\
    (serves_all_once (p_dim p) routes ->
     forall c, (0 < c < p_dim p)%nat ->
       nth_error (se_pred r1) c = nth_error (se_pred r2) c /\
       nth_error (se_succ r1) c = nth_error (se_succ r2) c).
  Proof.
    intros E1 E2 H0 Hn. rewrite evaluate_eq in E1, E2 by auto.
    injection E1 as <-. injection E2 as <-. repeat split; auto.
    all: destruct (serves_consecutive _ _ c H H1) as (r & a & b & Hr & Ha & Hb).
    - destruct (geval_adjacent pen e1 routes r a c) as [X _]; auto.
      destruct (geval_adjacent pen e2 routes r a c) as [Y _]; auto.
      rewrite X, Y by lia. reflexivity.
    - destruct (geval_adjacent pen e1 routes r c b) as [_ X]; auto.
      destruct (geval_adjacent pen e2 routes r c b) as [_ Y]; auto.
      rewrite X, Y by lia. reflexivity.
  Qed.
End Adj.

Lemma evaluate_correct (p : @problem NumQ) (pen : Q) (e : @sol_eval NumQ) (routes : list (list nat)) :
  (0 < p_dim p)%nat ->
  (forall n, In n (concat routes) -> (n < p_dim p)%nat) ->
  exists e', @evaluate NumQ p pen e routes = Ok e' /\
    (exists c, se_cost e' = Some c /\
       c == total_penalized (p_dist p) (p_demand p) (p_cap p) pen routes) /\
    (se_feasible e' = true <-> within_capacity (p_demand p) (p_cap p) (1 # 1000000) routes) /\
    Forall2 (fun (r : list nat) (ev : @route_eval NumQ) =>
       re_distance ev == route_length (p_dist p) r /\
       re_overload ev == route_load (p_demand p) r - p_cap p /\
       re_cost ev == route_penalized (p_dist p) (p_demand p) (p_cap p) pen r)
      routes (se_routes e') /\
    (serves_all_once (p_dim p) routes -> forall r a b, In r routes -> consecutive r a b ->
       (b <> 0%nat -> nth_error (se_pred e') b = Some a) /\
       (a <> 0%nat -> nth_error (se_succ e') a = Some b)).
Proof.
  intros H0 Hn. exists (geval p pen e routes).
  split; [now apply evaluate_eq|]. split; [|split; [|split]].
  - eexists. split; [reflexivity|]. apply gtotal_Q.
  - apply gfeasible_Q.
  - unfold geval. cbn [se_routes]. clear Hn.
    induction routes as [|r rs IH]; simpl; constructor; auto. cbn [re_distance re_overload re_cost].
    split; [|split].
    + rewrite gdist_Q. unfold route_length. numq. ring.
    + apply gover_Q.
    + apply gcost_Q.
  - intros Hs r a b Hr Hc. now apply geval_adjacent with (r := r).
Qed.

(** *** Sorting of routes in exact arithmetic *)
Section SortQ.
  Variable p : @problem NumQ.
  Hypothesis Hproper : forall y x y' x', y == y' -> x == x' -> o_atan2 p y x == o_atan2 p y' x'.
  Hypothesis Hlt : forall y x, o_atan2 p y x < 10.

  Lemma fold_coord (f : nat -> Q) r : fold_left (fun a n => a + f n) r 0 == Qsum (map f r).
  Proof. rewrite (fold_add_Q f f); [ring|]. intros. reflexivity. Qed.

  Lemma route_angle_Q r : r <> [] ->
    @route_angle NumQ p r == barycentre_angle (o_atan2 p) (p_coord p) r.
  Proof.
    intros H. unfold route_angle, barycentre_angle. destruct r as [|c r]; [congruence|].
    numq. apply Hproper.
    - rewrite (fold_coord (fun n => snd (p_coord p n))). reflexivity.
    - rewrite (fold_coord (fun n => fst (p_coord p n))). reflexivity.
  Qed.

  Lemma route_angle_nonempty r : r <> [] -> @route_angle NumQ p r < 10.
  Proof. intros H. unfold route_angle. destruct r; [congruence|]. apply Hlt. Qed.

  Lemma sorted_empty_last (l : list (Q * list nat)) :
    StronglySorted (fun a b => Qle_bool (fst a) (fst b) = true) l ->
    (forall k, In k l -> fst k = @route_angle NumQ p (snd k)) ->
    exists front k, map snd l = front ++ repeat [] k /\ Forall (fun r => r <> []) front /\
      StronglySorted (fun r s => @route_angle NumQ p r <= @route_angle NumQ p s) front.
  Proof.
    induction 1 as [|a l Hs IH Ha]; intros Hk.
    - exists [], 0%nat. repeat split; auto. constructor.
    - destruct IH as (front & k & E & Hf & Hsf); [intros; apply Hk; now right|].
      pose proof (Hk a (or_introl eq_refl)) as Ea.
      destruct (snd a) as [|c r] eqn:Er.
      + (* empty route: everything after is empty *)
        destruct front as [|f front].
        * exists [], (S k). simpl. rewrite Er. simpl in E. rewrite E. repeat split; auto.
        * exfalso. rewrite Forall_forall in Ha.
          assert (Hin : In f (map snd l)) by (rewrite E; now left).
          apply in_map_iff in Hin as (b & Eb & Hb). specialize (Ha b Hb).
          rewrite Ea, (Hk b) in Ha by now right. rewrite Eb in Ha.
          apply Forall_inv in Hf. pose proof (route_angle_nonempty f Hf) as Hlt10.
          apply Qle_bool_iff in Ha. simpl in Ha.
          change (@route_angle NumQ p []) with (10 # 1) in Ha. numq. lra.
      + exists ((c :: r) :: front), k. simpl. rewrite Er, E. repeat split; auto.
        * constructor; auto. discriminate.
        * constructor; auto. rewrite Forall_forall in *. intros s Hsin.
          assert (Hin : In s (map snd l)) by (rewrite E; apply in_or_app; now left).
          apply in_map_iff in Hin as (b & Eb & Hb). specialize (Ha b Hb).
          rewrite Ea, (Hk b) in Ha by now right. rewrite Eb in Ha. now apply Qle_bool_iff.
  Qed.

  Lemma sort_routes_sorted_aux (ind : individual) :
    length (i_geno ind) = length (concat (i_pheno ind)) ->
    exists ind' front k, @sort_routes NumQ p ind = Ok ind' /\
      i_pheno ind' = front ++ repeat [] k /\ Forall (fun r => r <> []) front /\
      StronglySorted (fun r s => barycentre_angle (o_atan2 p) (p_coord p) r
                                 <= barycentre_angle (o_atan2 p) (p_coord p) s) front.
  Proof.
    intros Hlen. unfold sort_routes.
    set (keyed := map (fun r => (@route_angle NumQ p r, r)) (i_pheno ind)).
    assert (Hnan : existsb (fun k => fisnan (fst k)) keyed = false).
    { apply not_true_is_false. intros H. apply existsb_exists in H as (k & _ & Hk).
      unfold fisnan in Hk. numq. rewrite Qeq_bool_refl in Hk. discriminate. }
    rewrite Hnan, andb_false_r.
    set (sorted := isort _ keyed).
    assert (Hsp : Permutation sorted keyed) by apply isort_perm.
    rewrite overwrite_exact.
    2:{ rewrite Hlen. apply Permutation_length, concat_perm. symmetry.
        rewrite Hsp. unfold keyed. rewrite map_map. simpl. now rewrite map_id. }
    cbn [rbind].
    destruct (sorted_empty_last sorted) as (front & k & E & Hf & Hs).
    - assert (HS : StronglySorted (fun a b : Q * list nat => Qle_bool (fst a) (fst b) = true) sorted).
      { apply (isort_sorted (fun a b : Q * list nat => Qle_bool (fst a) (fst b)) (fun _ => True)).
        - intros x y _ _. rewrite !Qle_bool_iff.
          destruct (Qlt_le_dec (fst x) (fst y)); [left|right]; lra.
        - intros x y z _ _ _. rewrite !Qle_bool_iff. lra.
        - apply Forall_forall. auto. }
      exact HS.
    - intros k Hk. eapply Permutation_in in Hk; [|exact Hsp].
      apply in_map_iff in Hk as (r & <- & _). reflexivity.
    - eexists _, front, k. split; [reflexivity|]. simpl. repeat split; auto.
      clear E. induction Hs as [|r l Hs IH Hr]; [constructor|].
      inversion Hf; subst. constructor; auto.
      rewrite Forall_forall in *. intros s Hin.
      rewrite <- !route_angle_Q; auto.
  Qed.
End SortQ.

Lemma sort_routes_sorted (p : @problem NumQ) (ind : @individual NumQ) :
  (forall y x y' x', y == y' -> x == x' -> o_atan2 p y x == o_atan2 p y' x') ->
  (forall y x, o_atan2 p y x < 10) ->
  length (i_geno ind) = length (concat (i_pheno ind)) ->
  exists ind' front k, @sort_routes NumQ p ind = Ok ind' /\
    i_pheno ind' = front ++ repeat [] k /\ Forall (fun r => r <> []) front /\
    StronglySorted (fun r s => barycentre_angle (o_atan2 p) (p_coord p) r
                               <= barycentre_angle (o_atan2 p) (p_coord p) s) front.
Proof. intros. now apply sort_routes_sorted_aux. Qed.
