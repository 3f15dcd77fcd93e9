(** Structural facts about the split, for any arithmetic. *)
From Coq Require Import List Arith Bool Lia Permutation Sorted.
From Verif.Model Require Import Num Prelude Evaluate Individual Config Split.
From Verif.Proofs Require Import Lists EvalFacts.
Import ListNotations.

Section Queue.
  Lemma drop_while_suffix f l : exists l1, l = l1 ++ drop_while f l /\ Forall (fun x => f x = true) l1.
  Proof.
    induction l as [|x l IH]; simpl.
    - exists []. auto.
    - destruct (f x) eqn:E.
      + destruct IH as (l1 & E1 & H1). exists (x :: l1). split; simpl; [congruence|auto].
      + exists []. auto.
  Qed.

  (** The elements popped at the back satisfy the test; the last one kept does not. *)
  Lemma pop_back_while_prefix f q :
    exists l2, q = pop_back_while f q ++ l2 /\ Forall (fun x => f x = true) l2 /\
      (forall x l, rev (pop_back_while f q) = x :: l -> f x = false).
  Proof.
    unfold pop_back_while. destruct (drop_while_suffix f (rev q)) as (l1 & E & H).
    exists (rev l1). repeat split.
    - rewrite <- rev_app_distr, <- E. symmetry. apply rev_involutive.
    - rewrite Forall_forall in *. intros x Hx. apply H. now apply in_rev.
    - intros x l. rewrite rev_involutive. clear.
      induction (rev q) as [|y t IH]; simpl; [discriminate|].
      destruct (f y) eqn:E; auto. intros [= <- _]. exact E.
  Qed.

  Lemma pop_front_while_suffix f q :
    exists l1, q = l1 ++ pop_front_while f q.
  Proof.
    induction q as [|a q IH]; [exists []; reflexivity|].
    simpl. destruct q as [|b q]; [exists []; reflexivity|].
    destruct (f a b); [|exists []; reflexivity].
    destruct IH as (l1 & E). exists (a :: l1). cbn [app]. f_equal. exact E.
  Qed.

  Lemma pop_front_while_nonempty f q : q <> [] -> pop_front_while f q <> [].
  Proof.
    induction q as [|a q IH]; [congruence|]. intros _.
    simpl. destruct q as [|b q]; [discriminate|].
    destruct (f a b); [|discriminate]. apply IH. discriminate.
  Qed.
End Queue.

Section Generic.
  Context {N : Num}.
  Variable p : problem.
  Variable pen : F.
  Variable geno : list nat.

  Lemma queue_update_ok pc q i :
    q <> [] -> (forall x, In x q -> x < i) ->
    exists q', queue_update p pen geno pc q i = Ok q' /\ q' <> [] /\ (forall x, In x q' -> x <= i) /\
               (forall x, In x q' -> In x q \/ x = i).
  Proof.
    intros Hq Hlt. unfold queue_update.
    destruct (i <? p_dim p - 1).
    2:{ exists q. repeat split; auto. intros x Hx. specialize (Hlt x Hx). lia. }
    destruct (rev q) as [|back t] eqn:Er.
    { exfalso. apply Hq. rewrite <- (rev_involutive q), Er. reflexivity. }
    set (q1 := if dominates p pen geno pc back i then q else _).
    assert (H1 : q1 <> [] /\ forall x, In x q1 -> In x q \/ x = i).
    { unfold q1. destruct (dominates p pen geno pc back i); [auto|].
      split; [intros H; apply app_eq_nil in H as [_ H]; discriminate|].
      intros x Hx. apply in_app_or in Hx as [Hx|[<-|[]]]; auto.
      destruct (pop_back_while_prefix (fun b => dominates_right p geno pc b i) q) as (l2 & E & _).
      left. rewrite E. apply in_or_app. auto. }
    destruct H1 as [H1 H2].
    eexists. split; [reflexivity|]. split; [now apply pop_front_while_nonempty|].
    match goal with |- context [pop_front_while ?f ?q] =>
      destruct (pop_front_while_suffix f q) as (l1 & E) end.
    assert (H3 : forall x, In x (pop_front_while (fun a b => approx_gte (propagate p pen geno pc a (i + 1))
                (propagate p pen geno pc b (i + 1))) q1) -> In x q \/ x = i).
    { intros x Hx. apply H2. rewrite E. apply in_or_app. auto. }
    split; auto.
    intros x Hx. apply H3 in Hx as [Hx| ->]; auto. specialize (Hlt x Hx). lia.
  Qed.

  (** Rust's linear split never empties its queue and always writes a smaller predecessor. *)
  Lemma linear_split_ok pr :
    exists pc pr', linear_split p pen geno pr = Ok (pc, pr') /\
      (forall e, 1 <= e <= p_dim p - 1 -> pr' e < e).
  Proof.
    unfold linear_split.
    assert (G : forall k i pc pr q,
      i = p_dim p - 1 - k + 1 -> k <= p_dim p - 1 ->
      q <> [] -> (forall x, In x q -> x < i) ->
      (forall e, 1 <= e < i -> pr e < e) ->
      exists pc' pr' q', foldm (linear_step p pen geno) (seq i k) (pc, pr, q) = Ok (pc', pr', q') /\
        (forall e, 1 <= e <= p_dim p - 1 -> pr' e < e)).
    { induction k as [|k IH]; intros i pc pr0 q Hi Hk Hq Hlt Hpr.
      - exists pc, pr0, q. simpl. split; auto. intros e He. apply Hpr. lia.
      - cbn [seq foldm linear_step]. destruct q as [|front q]; [congruence|].
        destruct (queue_update_ok (fupd pc i (propagate p pen geno pc front i)) (front :: q) i)
          as (q' & Eq & Hq' & Hle & _); auto.
        rewrite Eq. cbn [rbind]. apply IH; auto; try lia.
        + intros x Hx. specialize (Hle x Hx). lia.
        + intros e He. unfold fupd. destruct (Nat.eqb_spec e i) as [->|].
          * apply Hlt. now left.
          * apply Hpr. lia. }
    destruct (G (p_dim p - 1) 1 reset_row0 pr [0]) as (pc & pr' & q & E & H); try lia; auto.
    - discriminate.
    - intros x [<-|[]]. lia.
    - rewrite E. simpl. eauto.
  Qed.

  Lemma bellman_inner_pred limit fuel : forall from to pf load cost s,
    from < to ->
    (forall e, 1 <= e -> snd s e < e) ->
    forall e, 1 <= e -> snd (bellman_inner p pen geno limit fuel from to pf load cost s) e < e.
  Proof.
    induction fuel as [|fuel IH]; intros from to pf load cost s Hlt Hs e He; cbn [bellman_inner]; auto.
    destruct ((to <? p_dim p) && limit _); auto.
    apply IH; auto; [lia|]. intros e' He'.
    match goal with |- context [if ?b then _ else _] => destruct b end; auto.
    simpl. unfold fupd. destruct (Nat.eqb_spec e' to) as [->|]; auto.
  Qed.

  Lemma bellman_split_pred factor pr :
    (forall e, 1 <= e -> pr e < e) ->
    forall e, 1 <= e -> snd (bellman_split p pen geno factor pr) e < e.
  Proof.
    intros Hpr. unfold bellman_split.
    assert (G : forall l s, (forall e, 1 <= e -> snd s e < e) ->
      forall e, 1 <= e -> snd (fold_left (fun s from =>
          bellman_inner p pen geno (fun l => approx_lte l (p_cap p *: factor))
                        (p_dim p) from (from + 1) (fst s from) f0 f0 s) l s) e < e).
    { induction l as [|a l IH]; intros s Hs; simpl; auto.
      apply IH. apply bellman_inner_pred; auto. lia. }
    apply G. exact Hpr.
  Qed.

  Lemma firstn_split_at (b e : nat) :
    b <= e -> firstn b geno ++ firstn (e - b) (skipn b geno) = firstn e geno.
  Proof.
    intros H. rewrite <- (firstn_skipn b (firstn e geno)).
    rewrite firstn_firstn, Nat.min_l by lia. f_equal.
    rewrite firstn_skipn_comm. f_equal. f_equal. lia.
  Qed.

  (** The traceback yields consecutive non-empty pieces of the tour, last piece first. *)
  Lemma traceback_ok pr : forall e fuel,
    (forall x, 1 <= x <= e -> pr x < x) -> e <= fuel -> e <= length geno ->
    exists rs, traceback geno fuel pr e = Ok rs /\ concat (rev rs) = firstn e geno /\
      Forall (fun r => r <> []) rs /\ length rs <= e.
  Proof.
    induction e as [e IH] using (well_founded_induction lt_wf). intros fuel Hpr Hf Hl.
    destruct e as [|e].
    { exists []. destruct fuel; simpl; auto. }
    destruct fuel as [|fuel]; [lia|].
    assert (Hb : pr (S e) < S e) by (apply Hpr; lia).
    destruct (IH (pr (S e)) Hb fuel) as (rs & E & Hc & Hne & Hln); try lia.
    { intros x Hx. apply Hpr. lia. }
    cbn [traceback]. rewrite E. cbn [rbind].
    eexists. split; [reflexivity|]. cbn [rev].
    rewrite concat_app, Hc. cbn [concat]. rewrite app_nil_r.
    split; [apply firstn_split_at; lia|]. split.
    - constructor; auto. intros H.
      assert (length (firstn (S e - pr (S e)) (skipn (pr (S e)) geno)) = 0) by now rewrite H.
      rewrite firstn_length, skipn_length in H0. lia.
    - simpl. lia.
  Qed.

  Lemma pad_routes_concat n rs : concat (pad_routes n rs) = concat rs.
  Proof. unfold pad_routes. rewrite concat_app, concat_repeat_nil. apply app_nil_r. Qed.
  Lemma pad_routes_length n rs : length rs <= n -> length (pad_routes n rs) = n.
  Proof. unfold pad_routes. rewrite app_length, repeat_length. lia. Qed.

  (** *** sort_routes *)
  Lemma overwrite_exact g l : length g = length l -> overwrite g l = Ok l.
  Proof.
    revert g; induction l as [|x l IH]; intros g H; destruct g as [|y g]; simpl in *; try discriminate; auto.
    rewrite IH by lia. reflexivity.
  Qed.
  Lemma overwrite_short g l : length g < length l -> overwrite g l = Err EPanic.
  Proof.
    revert g; induction l as [|x l IH]; intros g H; destruct g as [|y g]; simpl in *; try lia; auto.
    rewrite IH by lia. reflexivity.
  Qed.

  Lemma sort_routes_spec ind ind' :
    length (i_geno ind) = length (concat (i_pheno ind)) ->
    sort_routes p ind = Ok ind' ->
    Permutation (i_pheno ind') (i_pheno ind) /\ i_geno ind' = concat (i_pheno ind') /\
    i_number ind' = i_number ind /\ i_fitness ind' = i_fitness ind /\ i_eval ind' = i_eval ind.
  Proof.
    unfold sort_routes. intros Hlen H.
    set (keyed := map (fun r => (route_angle p r, r)) (i_pheno ind)) in *.
    destruct ((2 <=? length keyed) && existsb _ keyed); [discriminate|].
    set (ph := map snd (isort _ keyed)) in *.
    assert (HP : Permutation ph (i_pheno ind)).
    { unfold ph. rewrite isort_perm. unfold keyed. rewrite map_map, map_id. reflexivity. }
    rewrite overwrite_exact in H.
    - cbn [rbind] in H. injection H as <-. simpl. auto.
    - rewrite Hlen. apply Permutation_length. symmetry. now apply concat_perm.
  Qed.

  (** Distinct customers. *)
  Definition proper (nodes : list nat) : Prop := NoDup nodes /\ forall n, In n nodes -> 1 <= n < p_dim p.

  Lemma serves_proper rs : Permutation (concat rs) (seq 1 (p_dim p - 1)) -> forall r, In r rs -> proper r.
  Proof using Type.
    intros P r I. assert (ND : NoDup (concat rs)) by (eapply Permutation_NoDup; [symmetry; exact P|apply seq_NoDup]).
    apply in_split in I. destruct I as (a & b & ->). rewrite concat_app in ND, P. cbn [concat] in ND, P. split.
    - apply NoDup_app_inv in ND. destruct ND as (_ & ND & _). now apply NoDup_app_inv in ND.
    - intros n Hn. assert (K : In n (seq 1 (p_dim p - 1))).
      { eapply Permutation_in; [exact P|]. rewrite !in_app_iff. auto. }
      apply in_seq in K. lia.
  Qed.

  (** Every route of customers has an angle that is a number. *)
  Definition angles_ok : Prop := forall r, proper r -> fisnan (route_angle p r) = false.

  Lemma sort_routes_total ind : angles_ok -> length (i_geno ind) = length (concat (i_pheno ind)) ->
    Permutation (concat (i_pheno ind)) (seq 1 (p_dim p - 1)) -> exists ind', sort_routes p ind = Ok ind'.
  Proof using Type.
    intros AO HL HS. unfold sort_routes. set (keyed := map _ _).
    assert (EX : existsb (fun k : F * list nat => fisnan (fst k)) keyed = false).
    { apply not_true_iff_false. intro EX. apply existsb_exists in EX as (a & Ha & Hn). unfold keyed in Ha.
      apply in_map_iff in Ha as (r & <- & Hr). cbn [fst] in Hn. rewrite AO in Hn; [discriminate|].
      now apply (serves_proper _ HS). }
    rewrite EX, andb_false_r. set (ph := map snd _).
    assert (HP : Permutation ph (i_pheno ind)).
    { unfold ph. rewrite isort_perm. unfold keyed. rewrite map_map, map_id. reflexivity. }
    rewrite overwrite_exact; [cbn [rbind]; eauto|]. rewrite HL. symmetry. apply Permutation_length, concat_perm; auto.
  Qed.
End Generic.
