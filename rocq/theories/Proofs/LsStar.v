(** SWAP*: the cached insertion positions are right when they are read, and the exchange that
    is performed keeps the routes intact. *)
From Coq Require Import List Arith ZArith Bool Lia Permutation.
From Verif.Model Require Import Num Prelude Evaluate Config Sector Matrix LinkedList LocalSearch.
From Verif.Spec Require Import Solution LocalSearch.
From Verif.Proofs Require Import Lists LinkFacts EvalThms LsState LsMoves.
Import ListNotations.
Open Scope nat_scope.

Ltac nepos := auto 6 with ne.

(** ** Splitting a route at a position *)

(** A pair of neighbouring stops cuts the customers in two. *)
Lemma pair_cut r l a b : In (a, b) (pairs (stops r l)) ->
  exists X Y, l = X ++ Y /\ a = last0 (pre r X) /\ b = hd0 (suf r Y).
Proof.
  unfold stops. intros I.
  assert (G : forall l pr q, In (a, b) (pairs (q :: map PN l ++ [PE r])) -> last0 (pre r pr) = q ->
                exists X Y, l = X ++ Y /\ a = last0 (pre r (pr ++ X)) /\ b = hd0 (suf r Y)).
  { clear. induction l as [|n l IH]; intros pr q I E.
    - cbn [map app pairs In] in I. destruct I as [I|[]]. exists [], []. rewrite (app_nil_r pr), E. split; [auto|split; [congruence|cbn; congruence]].
    - cbn [map app] in I. rewrite in_pairs_cons in I. destruct I as [I|I].
      + exists [], (n :: l). rewrite (app_nil_r pr), E. split; [auto|split; [congruence|cbn; congruence]].
      + destruct (IH (pr ++ [n]) _ I) as (X & Y & -> & -> & ->).
        * rewrite pre_app. cbn [map]. apply last_last.
        * exists (n :: X), Y. split; auto. rewrite <- app_assoc. auto. }
  destruct (G l [] (PS r) I eq_refl) as (X & Y & E & A & B). exists X, Y. auto.
Qed.
Lemma cut_pair r X Y : In (last0 (pre r X), hd0 (suf r Y)) (pairs (stops r (X ++ Y))).
Proof. rewrite stops_app. apply in_pairs_app; nepos. Qed.

Lemma last0_pre_inv r X n : last0 (pre r X) = PN n -> exists X', X = X' ++ [n].
Proof.
  destruct X as [|x X] using rev_ind; [discriminate|]. rewrite pre_app. cbn [map]. rewrite last_last.
  intros E. injection E as <-. eauto.
Qed.
Lemma hd0_suf_inv r Y n : hd0 (suf r Y) = PN n -> exists Y', Y = n :: Y'.
Proof. destruct Y as [|y Y]; [discriminate|]. cbn. intros E. injection E as <-. eauto. Qed.

Lemma split_unique {X} (A B A' B' : list X) u :
  A ++ u :: B = A' ++ u :: B' -> NoDup (A ++ u :: B) -> A = A' /\ B = B'.
Proof.
  revert A'. induction A as [|z A IH]; intros [|y A'] E ND; cbn [app] in *.
  - split; congruence.
  - exfalso. assert (u = y) by congruence. subst y. assert (EB : B = A' ++ u :: B') by congruence.
    rewrite EB in ND. apply NoDup_cons_iff in ND. destruct ND as [NI _]. apply NI. auto with datatypes.
  - exfalso. assert (z = u) by congruence. subst z. apply NoDup_cons_iff in ND. destruct ND as [NI _].
    apply NI. auto with datatypes.
  - assert (z = y) by congruence. subst y. apply NoDup_cons_iff in ND. destruct ND as [_ ND].
    destruct (IH A') as [-> ->]; auto. congruence.
Qed.

Section Star.
  Context {N : Num}.
  Variable p : problem.
  Variable c : config.
  Variable pen : F.
  Notation nv := (c_num_vehicles c).
  Notation holds := (holds p c pen).
  Notation stepped := (stepped p c pen).
  Notation dist := (dist p).
  Notation dem := (dem p).

  (** ** The three best insertion positions *)

  Definition slots (sl : list (F * ptr)) (k : nat) : iloc :=
    match nth_error sl k with Some (x, a) => (Some x, Some a) | None => (None, None) end.
  (** The record holds [sl] *)
  Definition stored (t : tbi) (sl : list (F * ptr)) : Prop :=
    t_one t = slots sl 0 /\ t_two t = slots sl 1 /\ t_three t = slots sl 2.

  Definition offer (t : tbi) (x : F * ptr) : tbi := tbi_add t (fst x) (snd x).

  Lemma olt_None x : olt None x = false.
  Proof. reflexivity. Qed.

  Lemma tbi_add_stored t sl x a : stored t sl -> length sl <= 3 ->
    exists sl' rest, stored (tbi_add t x a) sl' /\ Permutation (sl' ++ rest) ((x, a) :: sl) /\
      length sl' = Nat.min 3 (S (length sl)) /\ t_calc (tbi_add t x a) = t_calc t.
  Proof.
    unfold stored. destruct t as [t1 t2 t3 calc]. cbn [t_one t_two t_three].
    intros (E1 & E2 & E3) L. subst. unfold tbi_add. cbn [t_one t_two t_three t_calc].
    destruct sl as [|[x1 a1] [|[x2 a2] [|[x3 a3] [|e sl]]]]; cbn [length] in L; [| | | |lia];
      unfold slots; cbn [nth_error fst snd]; rewrite ?olt_None.
    - exists [(x, a)], []. auto 10.
    - destruct (olt (Some x1) (Some x)).
      + exists [(x1, a1); (x, a)], []. cbn. split; auto. split; auto. apply perm_swap.
      + exists [(x, a); (x1, a1)], []. cbn. split; auto.
    - destruct (olt (Some x2) (Some x)); [|destruct (olt (Some x1) (Some x))].
      + exists [(x1, a1); (x2, a2); (x, a)], []. cbn. split; auto. split; auto.
        apply (Permutation_cons_append [(x1, a1); (x2, a2)] (x, a)) || symmetry.
        apply (Permutation_cons_append [(x1, a1); (x2, a2)] (x, a)).
      + exists [(x1, a1); (x, a); (x2, a2)], []. cbn. split; auto. split; auto. apply perm_swap.
      + exists [(x, a); (x1, a1); (x2, a2)], []. cbn. auto.
    - destruct (olt (Some x3) (Some x)); [|destruct (olt (Some x2) (Some x)); [|destruct (olt (Some x1) (Some x))]].
      + exists [(x1, a1); (x2, a2); (x3, a3)], [(x, a)]. cbn. split; auto. split; auto. symmetry.
        apply (Permutation_cons_append [(x1, a1); (x2, a2); (x3, a3)] (x, a)).
      + exists [(x1, a1); (x2, a2); (x, a)], [(x3, a3)]. cbn. split; auto. split; auto. symmetry.
        apply (Permutation_middle [(x1, a1); (x2, a2)] [(x3, a3)] (x, a)).
      + exists [(x1, a1); (x, a); (x2, a2)], [(x3, a3)]. cbn. split; auto. split; auto.
        apply perm_swap.
      + exists [(x, a); (x1, a1); (x2, a2)], [(x3, a3)]. cbn. auto.
  Qed.

  Lemma offers_stored L : forall t sl, stored t sl -> length sl <= 3 ->
    exists sl' rest, stored (fold_left offer L t) sl' /\ Permutation (sl' ++ rest) (sl ++ L) /\
      length sl' = Nat.min 3 (length sl + length L) /\ t_calc (fold_left offer L t) = t_calc t.
  Proof.
    induction L as [|[x a] L IH]; intros t sl S H; cbn [fold_left].
    - exists sl, []. rewrite !app_nil_r. split; auto. split; auto. split; auto. cbn [length]. lia.
    - destruct (tbi_add_stored t sl x a S H) as (s1 & r1 & S1 & P1 & L1 & C1).
      destruct (IH _ s1 S1) as (s2 & r2 & S2 & P2 & L2 & C2); [lia|].
      exists s2, (r2 ++ r1). split; [auto|]. split; [|split].
      + rewrite app_assoc, P2, <- app_assoc, (Permutation_app_comm L), app_assoc, P1.
        cbn. apply Permutation_middle.
      + cbn [length]. lia.
      + rewrite <- C1. exact C2.
  Qed.

  (** The extra distance of customer [u] between two stops *)
  Definition extra (a u b : ptr) : F := dist a u +: dist u b -: dist a b.
  (** All insertion positions of a route *)
  Definition positions (r : nat) (l : list nat) (u : ptr) : list (F * ptr) :=
    map (fun e => (extra (fst e) u (snd e), fst e)) (pairs (stops r l)).
  Definition fresh (r : nat) (l : list nat) (n : nat) (calc : Z) : tbi :=
    fold_left offer (positions r l (PN n)) (tbi_reset calc).

  Lemma stored_reset calc : stored (tbi_reset calc) [].
  Proof. split; auto. Qed.
  Lemma fresh_calc r l n calc : t_calc (fresh r l n calc) = calc.
  Proof.
    unfold fresh. destruct (offers_stored (positions r l (PN n)) (tbi_reset calc) []) as (? & ? & _ & _ & _ & E);
      auto using stored_reset; cbn; lia.
  Qed.

  Lemma pairs_length (L : list ptr) : length (pairs L) = length L - 1.
  Proof. induction L as [|a [|b L] IH]; auto. cbn [pairs length] in *. lia. Qed.
  Lemma positions_length r l u : length (positions r l u) = S (length l).
  Proof.
    unfold positions, stops. rewrite map_length, pairs_length. cbn [length].
    rewrite app_length, map_length. cbn. lia.
  Qed.
  Lemma positions_In r l u x a : In (x, a) (positions r l u) ->
    exists X Y, l = X ++ Y /\ a = last0 (pre r X) /\ x = extra a u (hd0 (suf r Y)).
  Proof.
    unfold positions. rewrite in_map_iff. intros ([v y] & E & I). cbn in E. injection E as <- <-.
    destruct (pair_cut _ _ _ _ I) as (X & Y & -> & -> & ->). eauto.
  Qed.
  Lemma positions_NoDup r l u : NoDup l -> NoDup (map snd (positions r l u)).
  Proof.
    intros ND. unfold positions. rewrite map_map. cbn [snd]. rewrite pairs_fst.
    rewrite stops_pre, removelast_last. pose proof (stops_NoDup r l ND) as NS. rewrite stops_pre in NS.
    apply NoDup_app_inv in NS. tauto.
  Qed.

  (** ** Walks over a route *)

  Section Walks.
    Variable s : lsearch.
    Variable rs : nat -> list nat.
    Hypothesis H : holds s rs.

    Lemma until_depot_ok r l : forall fuel q,
      (forall n, In n l -> 0 < n) -> length l < fuel -> fpath (s_links s) q (suf r l) ->
      until_depot fuel (s_links s) (l_succ (s_links s) q) = Ok (map PN l).
    Proof using.
      induction l as [|n l IH]; intros fuel q P L R; cbn [suf map app fpath] in R;
        destruct R as [E R]; destruct fuel as [|fuel]; cbn [length] in L; try lia;
        cbn [until_depot]; rewrite E; cbn [deref rbind]; unfold is_depot; cbn [num].
      - reflexivity.
      - replace (n =? 0) with false by (symmetry; apply Nat.eqb_neq; specialize (P n (or_introl eq_refl)); lia).
        rewrite (IH fuel (PN n)); [reflexivity|intros k I; apply P; right; auto|lia|exact R].
    Qed.

    Lemma customers_of_ok r : r < nv -> customers_of p s r = Ok (map PN (rs r)).
    Proof using H.
      intros Hr. unfold customers_of. apply (until_depot_ok r).
      - intros n I. destruct (serves_bound p c rs (h_serves _ _ _ _ _ H) r n Hr I). auto.
      - unfold walk_fuel. pose proof (serves_length p c rs (h_serves _ _ _ _ _ H) r Hr). lia.
      - apply runs_fpath. apply (h_runs _ _ _ _ _ H). auto.
    Qed.

    Lemma read_cut r X Y : r < nv -> rs r = X ++ Y -> succ_ s (last0 (pre r X)) = Ok (hd0 (suf r Y)).
    Proof using H.
      intros Hr E. apply (read_succ p c pen s rs H r); nepos. rewrite E, stops_app. auto.
    Qed.

    Lemma best_inserts_ok u r calc : r < nv -> best_inserts_of p s (PN u) r calc = Ok (fresh r (rs r) u calc).
    Proof using H.
      intros Hr. unfold best_inserts_of.
      pose proof (read_cut r [] (rs r) Hr eq_refl) as E. cbn [pre map last] in E. rewrite E. cbn [rbind].
      rewrite customers_of_ok by auto. cbn [rbind].
      unfold fresh, positions.
      change (tbi_add (tbi_reset calc) _ (PS r)) with (offer (tbi_reset calc) (extra (PS r) (PN u) (hd0 (suf r (rs r))), PS r)).
      set (t0 := tbi_reset calc). clearbody t0.
      assert (G : forall Y X q t, rs r = X ++ Y -> q = last0 (pre r X) ->
        foldm (fun t v => y <- succ_ s v ;; Ok (tbi_add t (dist v (PN u) +: dist (PN u) y -: dist v y) v))
              (map PN Y) (offer t (extra q (PN u) (hd0 (suf r Y)), q))
        = Ok (fold_left offer (map (fun e => (extra (fst e) (PN u) (snd e), fst e)) (pairs (q :: suf r Y))) t)).
      { induction Y as [|y Y IH]; intros X q t EX EQ.
        - reflexivity.
        - cbn [map foldm suf app]. assert (EX' : rs r = (X ++ [y]) ++ Y) by (rewrite EX, <- app_assoc; auto).
          pose proof (read_cut r _ _ Hr EX') as R. rewrite pre_app in R. cbn [map] in R. rewrite last_last in R.
          rewrite R. cbn [rbind].
          match goal with |- foldm _ _ (tbi_add ?t _ _) = _ =>
            etransitivity; [apply (IH (X ++ [y]) (PN y) t); auto|] end.
          + rewrite pre_app. cbn [map]. rewrite last_last. auto.
          + fold (suf r Y). destruct (suf_head r Y) as (b & L & EB). rewrite EB. reflexivity. }
      apply (G (rs r) []); auto.
    Qed.
  End Walks.

  (** ** The cache of insertion positions *)

  (** What [holds] reads of the state *)
  Definition same_view (s s' : lsearch) : Prop :=
    s_links s' = s_links s /\ s_empty s' = s_empty s /\
    (forall r, r_ncust (s_routes s' r) = r_ncust (s_routes s r) /\
               r_dist (s_routes s' r) = r_dist (s_routes s r) /\
               r_load (s_routes s' r) = r_load (s_routes s r) /\
               r_over (s_routes s' r) = r_over (s_routes s r) /\
               r_cost (s_routes s' r) = r_cost (s_routes s r) /\
               r_sector (s_routes s' r) = r_sector (s_routes s r)) /\
    (forall a, n_route (s_info s' a) = n_route (s_info s a) /\ n_pos (s_info s' a) = n_pos (s_info s a) /\
               n_cumd (s_info s' a) = n_cumd (s_info s a) /\ n_cuml (s_info s' a) = n_cuml (s_info s a)).

  Lemma holds_view s s' rs : same_view s s' -> holds s rs -> holds s' rs.
  Proof.
    intros (V1 & V2 & V3 & V4) [HS HR HC HE]. constructor; auto.
    - intros r Hr. rewrite V1. auto.
    - intros r Hr. destruct (HC r Hr) as [C1 C2]. destruct (V3 r) as (W1 & W2 & W3 & W4 & W5 & W6). split.
      + intros A a B E. destruct (V4 a) as (X1 & X2 & X3 & X4). rewrite X1, X2, X3, X4. exact (C1 A a B E).
      + cbn zeta. rewrite W1, W2, W3, W4, W5, W6. exact C2.
    - intros r. rewrite V2. apply HE.
  Qed.
  Lemma same_view_refl s : same_view s s.
  Proof. unfold same_view. auto 10. Qed.
  Lemma same_view_trans s1 s2 s3 : same_view s1 s2 -> same_view s2 s3 -> same_view s1 s3.
  Proof.
    intros (A1 & A2 & A3 & A4) (B1 & B2 & B3 & B4). split; [congruence|split; [congruence|split]].
    - intros r. destruct (A3 r) as (W1 & W2 & W3 & W4 & W5 & W6), (B3 r) as (V1 & V2 & V3 & V4 & V5 & V6).
      rewrite V1, V2, V3, V4, V5, V6. auto 10.
    - intros a. destruct (A4 a) as (W1 & W2 & W3 & W4), (B4 a) as (V1 & V2 & V3 & V4).
      rewrite V1, V2, V3, V4. auto 10.
  Qed.

  (** An entry of the cache not older than the last change of the route is right; nothing is
      from the future. *)
  Record caches (s : lsearch) (rs : nat -> list nat) : Prop := {
    ca_right : forall r n, r < nv -> (r_mod (s_routes s r) <= t_calc (s_best s r n))%Z ->
      s_best s r n = fresh r (rs r) n (t_calc (s_best s r n));
    ca_calc : forall r n, r < nv -> (t_calc (s_best s r n) <= s_count s)%Z;
    ca_mod : forall r, r < nv -> (r_mod (s_routes s r) <= s_count s)%Z
  }.

  Lemma caches_stepped s s' rs rs' r1 r2 :
    caches s rs -> stepped (set_count s (s_count s + 1)%Z) s' rs' r1 r2 ->
    (forall r, r < nv -> r <> r1 -> r <> r2 -> rs' r = rs r) -> caches s' rs'.
  Proof.
    intros [C1 C2 C3] (_ & (_ & _ & E3 & E4 & _) & R1 & R2) O. cbn [set_count s_count s_best s_routes] in *.
    constructor; rewrite ?E3, ?E4.
    - intros r n Hr. destruct (Nat.eq_dec r r1) as [X|X]; [|destruct (Nat.eq_dec r r2) as [Y|Y]].
      1,2: destruct (R2 r) as [M _]; auto; rewrite M; intros L; specialize (C2 r n Hr); lia.
      rewrite R1, O by auto. auto.
    - intros r n Hr. specialize (C2 r n Hr). lia.
    - intros r Hr. destruct (Nat.eq_dec r r1) as [X|X]; [|destruct (Nat.eq_dec r r2) as [Y|Y]].
      1,2: destruct (R2 r) as [M _]; auto; rewrite M; lia.
      rewrite R1 by auto. specialize (C3 r Hr). lia.
  Qed.

  (** The cost of taking a customer out of its route *)
  Definition removal (r : nat) (A : list nat) (u : nat) (B : list nat) : F :=
    let up := last0 (pre r A) in
    let x := hd0 (suf r B) in
    dist up x -: dist up (PN u) -: dist (PN u) x.

  (** State [s'] differs from [s] only by newer removal costs and cache entries *)
  Definition prepared (s s' : lsearch) : Prop :=
    s_links s' = s_links s /\ s_routes s' = s_routes s /\ s_cust s' = s_cust s /\
    s_corr s' = s_corr s /\ s_count s' = s_count s /\ s_empty s' = s_empty s /\ s_hash s' = s_hash s /\
    (forall a, n_route (s_info s' a) = n_route (s_info s a) /\ n_pos (s_info s' a) = n_pos (s_info s a) /\
               n_cumd (s_info s' a) = n_cumd (s_info s a) /\ n_cuml (s_info s' a) = n_cuml (s_info s a) /\
               n_tested (s_info s' a) = n_tested (s_info s a)).

  Lemma prepared_refl s : prepared s s.
  Proof. unfold prepared. auto 12. Qed.
  Lemma prepared_trans s1 s2 s3 : prepared s1 s2 -> prepared s2 s3 -> prepared s1 s3.
  Proof.
    intros (A1 & A2 & A3 & A4 & A5 & A6 & A7 & A8) (B1 & B2 & B3 & B4 & B5 & B6 & B7 & B8).
    unfold prepared. rewrite B1, B2, B3, B4, B5, B6, B7. do 7 (split; [auto|]).
    intros a. destruct (A8 a) as (W1 & W2 & W3 & W4 & W5), (B8 a) as (V1 & V2 & V3 & V4 & V5).
    rewrite V1, V2, V3, V4, V5. auto 10.
  Qed.
  Lemma prepared_view s s' : prepared s s' -> same_view s s'.
  Proof.
    intros (A1 & A2 & A3 & A4 & A5 & A6 & A7 & A8). unfold same_view. rewrite A1, A2, A6.
    do 3 (split; [auto 10|]). intros a. destruct (A8 a) as (W1 & W2 & W3 & W4 & W5). auto 10.
  Qed.

  (** The customers [us] of route r1 have been prepared for insertion into r2 *)
  Definition ready (s : lsearch) (rs : nat -> list nat) (r1 r2 : nat) : Prop :=
    (forall A u B, rs r1 = A ++ u :: B -> n_drem (s_info s (PN u)) = removal r1 A u B) /\
    (forall u, In u (rs r1) -> exists calc, s_best s r2 u = fresh r2 (rs r2) u calc).

  Lemma preprocess_step_ok s rs r1 r2 A u B :
    holds s rs -> caches s rs -> r1 < nv -> r2 < nv -> r1 <> r2 -> rs r1 = A ++ u :: B ->
    exists s', preprocess_step p r2 s (PN u) = Ok s' /\ prepared s s' /\ caches s' rs /\
      n_drem (s_info s' (PN u)) = removal r1 A u B /\
      (exists calc, s_best s' r2 u = fresh r2 (rs r2) u calc) /\
      (forall a, a <> PN u -> s_info s' a = s_info s a) /\
      (forall r n, r <> r2 \/ n <> u -> s_best s' r n = s_best s r n).
  Proof.
    intros H C H1 H2 NE E. unfold preprocess_step.
    assert (ES : stops r1 (rs r1) = pre r1 A ++ PN u :: suf r1 B) by (rewrite E; apply stops_mid).
    destruct (read_stop p c pen s rs H r1 _ _ _ H1 ES) as (P1 & P2 & _).
    rewrite P1, P2 by nepos. cbn [rbind].
    set (s1 := set_info s _).
    assert (PR : prepared s s1).
    { unfold prepared, s1. cbn. do 7 (split; [auto|]). intros a. unfold pupd.
      destruct (ptr_eqb a (PN u)) eqn:Q; cbn; auto 10. apply ptr_eqb_eq in Q. subst a. auto 10. }
    assert (H' : holds s1 rs) by (eapply holds_view; [apply prepared_view|]; eauto).
    assert (D1 : n_drem (s_info s1 (PN u)) = removal r1 A u B).
    { unfold s1. cbn [set_info s_info]. unfold pupd. rewrite ptr_eqb_refl. reflexivity. }
    assert (D2 : forall a, a <> PN u -> s_info s1 a = s_info s a).
    { intros a NA. unfold s1. cbn [set_info s_info]. unfold pupd.
      destruct (ptr_eqb a (PN u)) eqn:Q; auto. apply ptr_eqb_eq in Q. congruence. }
    assert (C1 : caches s1 rs) by (destruct C as [X1 X2 X3]; constructor; auto).
    change (s_best s1) with (s_best s). change (s_routes s1) with (s_routes s). change (s_count s1) with (s_count s).
    cbn [num].
    destruct (t_calc (s_best s r2 u) <? r_mod (s_routes s r2))%Z eqn:T.
    - rewrite (best_inserts_ok s1 rs H' u r2) by auto. cbn [rbind].
      eexists. split; [reflexivity|].
      set (t := fresh r2 (rs r2) u (s_count s)).
      assert (B1 : forall r n, r <> r2 \/ n <> u -> best_set (s_best s) r2 u t r n = s_best s r n).
      { intros r n [X|X]; unfold best_set, nupd.
        - replace (r =? r2) with false by (symmetry; apply Nat.eqb_neq; auto). auto.
        - destruct (r =? r2) eqn:Q; auto. apply Nat.eqb_eq in Q. subst r.
          replace (n =? u) with false by (symmetry; apply Nat.eqb_neq; auto). auto. }
      assert (B2 : best_set (s_best s) r2 u t r2 u = t).
      { unfold best_set, nupd. rewrite !Nat.eqb_refl. auto. }
      assert (BD : forall r n, (r = r2 /\ n = u) \/ (r <> r2 \/ n <> u)) by (intros; lia).
      split; [exact PR|]. split; [|split; [exact D1|split; [exists (s_count s); exact B2|split; [exact D2|exact B1]]]].
      destruct C as [X1 X2 X3]. constructor; cbn [set_best s_best s_routes s_count].
      + intros r n Hr. change (s_best s1) with (s_best s). destruct (BD r n) as [[-> ->]|D].
        * rewrite B2. intros _. unfold t. rewrite fresh_calc. auto.
        * rewrite B1 by auto. apply X1; auto.
      + intros r n Hr. change (s_best s1) with (s_best s). destruct (BD r n) as [[-> ->]|D].
        * rewrite B2. unfold t. rewrite fresh_calc. cbn. lia.
        * rewrite B1 by auto. apply X2; auto.
      + exact X3.
    - apply Z.ltb_ge in T. exists s1. split; auto. split; auto. split; auto. split; auto.
      split; [|auto]. exists (t_calc (s_best s r2 u)). apply C; auto.
  Qed.

  Lemma preprocess_ok s rs r1 r2 :
    holds s rs -> caches s rs -> r1 < nv -> r2 < nv -> r1 <> r2 ->
    exists s', preprocess_insertions p s r1 r2 = Ok s' /\ prepared s s' /\ caches s' rs /\
      ready s' rs r1 r2 /\
      (forall a, ~ In a (map PN (rs r1)) -> s_info s' a = s_info s a) /\
      (forall r n, r <> r2 -> s_best s' r n = s_best s r n).
  Proof.
    intros H C H1 H2 NE. unfold preprocess_insertions.
    rewrite (customers_of_ok s rs H r1 H1). cbn [rbind].
    assert (G : forall B A s0, rs r1 = A ++ B -> holds s0 rs -> caches s0 rs ->
      exists s', foldm (preprocess_step p r2) (map PN B) s0 = Ok s' /\ prepared s0 s' /\ caches s' rs /\
        (forall A' u B', B = A' ++ u :: B' -> n_drem (s_info s' (PN u)) = removal r1 (A ++ A') u B') /\
        (forall u, In u B -> exists calc, s_best s' r2 u = fresh r2 (rs r2) u calc) /\
        (forall a, ~ In a (map PN B) -> s_info s' a = s_info s0 a) /\
        (forall r n, r <> r2 \/ ~ In n B -> s_best s' r n = s_best s0 r n)).
    { induction B as [|u B IH]; intros A s0 E H0 C0; cbn [map foldm].
      - exists s0. split; auto. split; [apply prepared_refl|]. split; auto. split; [|split; [|split]]; auto.
        + intros [|? ?]; discriminate.
        + intros u [].
      - destruct (preprocess_step_ok s0 rs r1 r2 A u B) as (s1 & E1 & P1 & C1 & D1 & F1 & I1 & B1); auto.
        rewrite E1. cbn [rbind].
        assert (HH : holds s1 rs) by (eapply holds_view; [apply prepared_view|]; eauto).
        destruct (IH (A ++ [u]) s1) as (s2 & E2 & P2 & C2 & D2 & F2 & I2 & B2); auto.
        { rewrite E, <- app_assoc. auto. }
        assert (ND : NoDup (rs r1)) by (apply (serves_nodup p c rs); [apply H|auto]).
        rewrite E in ND. apply NoDup_app_inv in ND. destruct ND as (_ & ND & _). inversion ND as [|? ? NU _]; subst.
        exists s2. split; auto. split; [eapply prepared_trans; eauto|]. split; auto. split; [|split; [|split]].
        + intros [|a A'] x B' EB; cbn [app] in EB; injection EB as -> ->.
          * rewrite app_nil_r. rewrite I2; auto. rewrite in_map_iff. intros (k & Q & I). congruence.
          * rewrite (D2 A' x B'), <- app_assoc; auto.
        + intros x [->|I]; auto. rewrite B2 by auto. auto.
        + intros a NI. rewrite I2, I1; auto.
          * intros ->. apply NI. left. auto.
          * intros I. apply NI. right. auto.
        + intros r n D. rewrite B2, B1; auto.
          * destruct D as [D|D]; auto. right. intros ->. apply D. left. auto.
          * destruct D as [D|D]; auto. right. intros I. apply D. right. auto. }
    destruct (G (rs r1) [] s eq_refl H C) as (s' & E & P & C' & D & F & I & B).
    exists s'. split; auto. split; auto. split; auto. split; [split; auto|]. split; auto.
  Qed.

  (** ** Exchange of customers *)

  (** Customer [a] takes a place in route [r] (customers [l]) from which [x] is taken out:
      behind [pos], giving [l'], for the extra distance [e]. *)
  Inductive place (r : nat) (l : list nat) (x a : nat) : ptr -> list nat -> F -> Prop :=
  | pl_same A B : l = A ++ x :: B ->
      place r l x a (last0 (pre r A)) (A ++ a :: B) (extra (last0 (pre r A)) (PN a) (hd0 (suf r B)))
  | pl_before A0 A1 B : l = A0 ++ A1 ++ x :: B -> A1 <> [] ->
      place r l x a (last0 (pre r A0)) (A0 ++ a :: A1 ++ B)
            (extra (last0 (pre r A0)) (PN a) (hd0 (map PN A1)))
  | pl_after A B0 B1 : l = A ++ x :: B0 ++ B1 -> B0 <> [] ->
      place r l x a (last0 (map PN B0)) (A ++ B0 ++ a :: B1)
            (extra (last0 (map PN B0)) (PN a) (hd0 (suf r B1))).

  (** Any position that is neither [x] nor the one before it is such a place. *)
  Lemma place_away r l x a e pos : In x l -> NoDup l -> In (e, pos) (positions r l (PN a)) ->
    pos <> PN x -> (forall A B, l = A ++ x :: B -> pos <> last0 (pre r A)) ->
    exists l', place r l x a pos l' e.
  Proof.
    intros I ND P N1 N2. destruct (positions_In _ _ _ _ _ P) as (X & Y & E & EP & EE).
    assert (J : In x X \/ In x Y) by (apply in_app_or; rewrite <- E; auto).
    destruct J as [J|J]; apply in_split in J; destruct J as (L1 & L2 & J).
    - exists (L1 ++ L2 ++ a :: Y). subst X.
      assert (NL : L2 <> []).
      { intros ->. apply N1. rewrite EP, pre_app. cbn [map]. apply last_last. }
      assert (Q : last0 (pre r (L1 ++ x :: L2)) = last0 (map PN L2)).
      { rewrite pre_app. cbn [map]. rewrite last0_app by nepos.
        change (PN x :: map PN L2) with ([PN x] ++ map PN L2). apply last0_app. nepos. }
      rewrite Q in EP. rewrite EE, EP. apply pl_after; auto.
      rewrite E, <- app_assoc. auto.
    - exists (X ++ a :: L1 ++ L2). subst Y.
      assert (NL : L1 <> []).
      { intros ->. cbn [app] in E. apply (N2 X L2 E). auto. }
      rewrite suf_app, hd0_app in EE by nepos.
      rewrite EE, EP. apply pl_before; auto.
  Qed.

  Definition is_away (r : nat) (C : list nat) (v : nat) (a : ptr) : Prop :=
    a <> PN v /\ a <> last0 (pre r C).

  Section Cheapest.
    Variable s : lsearch.
    Variable rs : nat -> list nat.
    Hypothesis H : holds s rs.
    Variables (r : nat) (C D : list nat) (v u : nat).
    Hypothesis Hr : r < nv.
    Hypothesis E : rs r = C ++ v :: D.

    Lemma away_from_ok e a : In (e, a) (positions r (rs r) (PN u)) ->
      exists b, away_from s a (PN v) = Ok b /\ (b = true <-> is_away r C v a).
    Proof using H Hr E.
      intros P. destruct (positions_In _ _ _ _ _ P) as (X & Y & EX & EP & _).
      pose proof (serves_bound p c rs (h_serves _ _ _ _ _ H) r) as SB.
      pose proof (serves_nodup p c rs (h_serves _ _ _ _ _ H) r Hr) as ND.
      assert (V0 : 0 < v) by (apply SB; auto; rewrite E; auto with datatypes).
      assert (NS : NoDup (stops r (rs r))) by (apply stops_NoDup; auto).
      unfold away_from. rewrite EP. unfold is_away.
      destruct (num (last0 (pre r X)) =? num (PN v)) eqn:Q.
      - exists false. split; auto. split; [discriminate|]. intros [N1 _]. exfalso. apply N1.
        apply Nat.eqb_eq in Q. cbn [num] in Q.
        destruct (last0 (pre r X)) eqn:L; cbn [num] in Q; try lia. congruence.
      - rewrite (read_cut s rs H r X Y) by auto. cbn [rbind]. eexists. split; [reflexivity|].
        apply Nat.eqb_neq in Q. rewrite negb_true_iff, Nat.eqb_neq. cbn [num].
        assert (PX : In (last0 (pre r X), hd0 (suf r Y)) (pairs (stops r (rs r)))) by (rewrite EX; apply cut_pair).
        assert (PV : In (last0 (pre r C), PN v) (pairs (stops r (rs r)))).
        { rewrite E. apply (cut_pair r C (v :: D)). }
        split.
        + intros NQ. split; [intros Z; rewrite Z in Q; auto|].
          intros Z. rewrite Z in PX. rewrite (pairs_fun _ _ _ _ NS PX PV) in NQ. auto.
        + intros [_ NZ] Z. apply NZ.
          destruct (hd0 (suf r Y)) eqn:L; cbn [num] in Z; try lia. subst n.
          apply (pairs_inj _ _ _ _ NS PX PV).
    Qed.

    Definition dc : F := extra (last0 (pre r C)) (PN u) (hd0 (suf r D)).

    Lemma cheapest_cases calc : s_best s r u = fresh r (rs r) u calc ->
      exists sl rest,
        stored (fresh r (rs r) u calc) sl /\ Permutation (sl ++ rest) (positions r (rs r) (PN u)) /\
        length sl = Nat.min 3 (S (length (rs r))) /\
        ((exists k x a, nth_error sl k = Some (x, a) /\ is_away r C v a /\
            (forall j y b, j < k -> nth_error sl j = Some (y, b) -> ~ is_away r C v b) /\
            cheapest_insert_and_removal p s (PN u) (PN v)
            = Ok (if approx_lt dc x then (last0 (pre r C), Some dc) else (a, Some x))) \/
         ((forall y b, In (y, b) (sl ++ rest) -> ~ is_away r C v b) /\
          cheapest_insert_and_removal p s (PN u) (PN v) = Ok (last0 (pre r C), Some dc))).
    Proof using H Hr E.
      intros EB.
      destruct (offers_stored (positions r (rs r) (PN u)) (tbi_reset calc) []) as (sl & rest & S & P & L & _);
        [apply stored_reset|cbn; lia|].
      cbn [app length] in P, L. rewrite positions_length in L. cbn [Nat.add] in L.
      fold (fresh r (rs r) u calc) in S.
      exists sl, rest. split; auto. split; auto. split; auto.
      assert (ES : stops r (rs r) = pre r C ++ PN v :: suf r D) by (rewrite E; apply stops_mid).
      destruct (read_stop p c pen s rs H r _ _ _ Hr ES) as (R1 & R2 & R3 & _).
      unfold cheapest_insert_and_removal. rewrite R3. cbn [rbind num]. rewrite EB.
      destruct S as (S1 & S2 & S3). rewrite S1, S2, S3.
      rewrite (R1 ltac:(nepos)), (R2 ltac:(nepos)).
      assert (IN : forall y b, In (y, b) sl -> In (y, b) (positions r (rs r) (PN u))).
      { intros y b I. apply (Permutation_in _ P). apply in_or_app. auto. }
      assert (LR : length (rs r) = S (length C + length D)).
      { rewrite E, app_length. cbn. lia. }
      destruct sl as [|[x1 a1] sl]; [cbn [length] in L; lia|].
      destruct sl as [|[x2 a2] sl]; [cbn [length] in L; lia|].
      unfold slots. cbn [nth_error fst snd deref rbind].
      destruct (away_from_ok x1 a1) as (b1 & A1 & B1); [apply IN; left; auto|].
      rewrite A1. cbn [rbind]. destruct b1.
      { left. exists 0, x1, a1. cbn [nth_error]. split; auto. split; [apply B1; auto|].
        split; [intros; lia|]. cbn [rbind orb negb]. unfold oapprox_lt. fold (extra (last0 (pre r C)) (PN u) (hd0 (suf r D))).
        fold dc. destruct (approx_lt dc x1); auto. }
      assert (F1 : ~ is_away r C v a1) by (intros Z; apply B1 in Z; discriminate).
      destruct (away_from_ok x2 a2) as (b2 & A2 & B2); [apply IN; right; left; auto|].
      rewrite A2. cbn [rbind]. destruct b2.
      { left. exists 1, x2, a2. cbn [nth_error]. split; auto. split; [apply B2; auto|].
        split.
        { intros [|j] y b J Q; [|lia]. cbn in Q. injection Q as <- <-. auto. }
        cbn [rbind orb negb]. unfold oapprox_lt. fold (extra (last0 (pre r C)) (PN u) (hd0 (suf r D))).
        fold dc. destruct (approx_lt dc x2); auto. }
      assert (F2 : ~ is_away r C v a2) by (intros Z; apply B2 in Z; discriminate).
      pose proof (positions_NoDup r (rs r) (PN u) (serves_nodup p c rs (h_serves _ _ _ _ _ H) r Hr)) as ND.
      rewrite <- P in ND.
      assert (F3 : forall y b, In (y, b) (sl ++ rest) -> is_away r C v b).
      { intros y b I. unfold is_away in *. cbn [app map snd] in ND.
        inversion ND as [|? ? NI1 ND1]; subst. inversion ND1 as [|? ? NI2 ND2]; subst.
        assert (Q1 : b <> a1).
        { intros ->. apply NI1. right. apply in_map_iff. exists (y, a1). auto. }
        assert (Q2 : b <> a2).
        { intros ->. apply NI2. apply in_map_iff. exists (y, a2). auto. }
        assert (Q3 : a1 <> a2) by (intros ->; apply NI1; left; auto).
        assert (K1 : a1 = PN v \/ a1 = last0 (pre r C)).
        { destruct (ptr_dec a1 (PN v)); auto. destruct (ptr_dec a1 (last0 (pre r C))); auto. tauto. }
        assert (K2 : a2 = PN v \/ a2 = last0 (pre r C)).
        { destruct (ptr_dec a2 (PN v)); auto. destruct (ptr_dec a2 (last0 (pre r C))); auto. tauto. }
        destruct K1, K2; split; congruence. }
      destruct sl as [|[x3 a3] sl].
      { right. cbn [rbind orb negb nth_error]. split; auto.
        assert (rest = []).
        { apply Permutation_length in P. rewrite app_length, positions_length in P. cbn [length] in *.
          destruct rest; auto. cbn [length] in P. lia. }
        subst rest. intros y b I. cbn [app In] in I. destruct I as [I|[I|[]]]; injection I as <- <-; auto. }
      left. exists 2, x3, a3. cbn [nth_error]. split; auto. split; [apply (F3 x3); left; auto|].
      split.
      { intros [|[|j]] y b J Q; [| |lia]; cbn in Q; injection Q as <- <-; auto. }
      cbn [rbind orb negb]. unfold oapprox_lt. fold (extra (last0 (pre r C)) (PN u) (hd0 (suf r D))).
      fold dc. cbn [snd fst rbind negb orb]. destruct (approx_lt dc x3); auto.
    Qed.

    Lemma cheapest_place calc : s_best s r u = fresh r (rs r) u calc ->
      exists pos x l', cheapest_insert_and_removal p s (PN u) (PN v) = Ok (pos, Some x) /\
        place r (rs r) v u pos l' x.
    Proof using H Hr E.
      intros EB. destruct (cheapest_cases calc EB) as (sl & rest & S & P & L & Q).
      assert (PD : place r (rs r) v u (last0 (pre r C)) (C ++ u :: D) dc) by (apply pl_same; auto).
      destruct Q as [(k & x & a & K & (W1 & W2) & _ & ->)|(_ & ->)].
      - destruct (approx_lt dc x); [eauto 6|].
        destruct (place_away r (rs r) v u x a) as (l' & PL); [| | | | |eauto 6]; auto.
        + rewrite E. auto with datatypes.
        + apply (serves_nodup p c rs (h_serves _ _ _ _ _ H) r Hr).
        + apply (Permutation_in _ P). apply in_or_app. left. eapply nth_error_In; eauto.
        + intros A B EA. 
          assert (A = C); [|congruence].
          pose proof (serves_nodup p c rs (h_serves _ _ _ _ _ H) r Hr) as ND.
          rewrite EA in ND. rewrite E in EA. destruct (split_unique _ _ _ _ _ (eq_sym EA) ND). auto.
      - eauto 6.
    Qed.
  End Cheapest.

  (** The candidates SWAP* chooses from: the routes they give and their cost *)
  Inductive star (s : lsearch) (rs : nat -> list nat) (r1 r2 : nat) : bss -> list nat -> list nat -> F -> Prop :=
  | st_swap A u B C v D pu l2 iu pv l1 iv :
      rs r1 = A ++ u :: B -> rs r2 = C ++ v :: D ->
      place r2 (rs r2) v u pu l2 iu -> place r1 (rs r1) u v pv l1 iv ->
      let R1 := s_routes s r1 in
      let R2 := s_routes s r2 in
      let p1 := penalty_change pen (r_over R1 -: dem (PN u) +: dem (PN v)) (r_over R1) in
      let p2 := penalty_change pen (r_over R2 +: dem (PN u) -: dem (PN v)) (r_over R2) in
      let d := removal r1 A u B +: p1 +: iu +: removal r2 C v D +: p2 +: iv in
      star s rs r1 r2 (mkBSS (Some d) (Some (PN u)) (Some (PN v)) (Some pu) (Some pv)) l1 l2 d
  | st_u A u B X Y :
      rs r1 = A ++ u :: B -> rs r2 = X ++ Y ->
      let R1 := s_routes s r1 in
      let R2 := s_routes s r2 in
      let p1 := penalty_change pen (r_over R1 -: dem (PN u)) (r_over R1) in
      let p2 := penalty_change pen (r_over R2 +: dem (PN u)) (r_over R2) in
      let d := removal r1 A u B +: extra (last0 (pre r2 X)) (PN u) (hd0 (suf r2 Y)) +: p1 +: p2 in
      star s rs r1 r2 (mkBSS (Some d) (Some (PN u)) None (Some (last0 (pre r2 X))) None)
           (A ++ B) (X ++ u :: Y) d
  | st_v C v D X Y :
      rs r2 = C ++ v :: D -> rs r1 = X ++ Y ->
      let R1 := s_routes s r1 in
      let R2 := s_routes s r2 in
      let p1 := penalty_change pen (r_over R1 +: dem (PN v)) (r_over R1) in
      let p2 := penalty_change pen (r_over R2 -: dem (PN v)) (r_over R2) in
      let d := removal r2 C v D +: extra (last0 (pre r1 X)) (PN v) (hd0 (suf r1 Y)) +: p1 +: p2 in
      star s rs r1 r2 (mkBSS (Some d) None (Some (PN v)) None (Some (last0 (pre r1 X))))
           (X ++ v :: Y) (C ++ D) d.

  Definition best_ok (s : lsearch) (rs : nat -> list nat) (r1 r2 : nat) (b : bss) : Prop :=
    b = bss_new \/ exists l1 l2 d, star s rs r1 r2 b l1 l2 d.

  Section Choice.
    Variable s : lsearch.
    Variable rs : nat -> list nat.
    Hypothesis H : holds s rs.
    Variables r1 r2 : nat.
    Hypothesis H1 : r1 < nv.
    Hypothesis H2 : r2 < nv.
    Hypothesis R12 : ready s rs r1 r2.
    Hypothesis R21 : ready s rs r2 r1.

    Lemma swap_pair_ok u v b : In u (rs r1) -> In v (rs r2) -> best_ok s rs r1 r2 b ->
      exists b', swap_pair p pen r1 r2 s (PN u) b (PN v) = Ok b' /\ best_ok s rs r1 r2 b'.
    Proof using H H1 H2 R12 R21.
      intros IU IV B. unfold swap_pair.
      match goal with |- context [if approx_lte ?x f0 then _ else _] => destruct (approx_lte x f0) end; [|eauto].
      pose proof IU as IU'. pose proof IV as IV'.
      apply in_split in IU, IV. destruct IU as (A & B' & EU), IV as (C & D & EV).
      destruct R12 as [DU FU]. destruct R21 as [DV FV].
      destruct (FU u IU') as (cu & BU). destruct (FV v IV') as (cv & BV).
      destruct (cheapest_place s rs H r2 C D v u H2 EV cu BU) as (pu & iu & l2 & Q1 & PU).
      destruct (cheapest_place s rs H r1 A B' u v H1 EU cv BV) as (pv & iv & l1 & Q2 & PV).
      rewrite Q1, Q2. cbn [rbind oadd]. rewrite (DU A u B' EU), (DV C v D EV).
      match goal with |- context [if olt ?x (b_cost b) then _ else _] => destruct (olt x (b_cost b)) end; [|eauto].
      eexists. split; [reflexivity|]. right. exists l1, l2. eexists. eapply st_swap; eauto.
    Qed.

    (** The cheapest position of a route *)
    Lemma fresh_first r n calc : exists X Y,
      rs r = X ++ Y /\ t_one (fresh r (rs r) n calc)
        = (Some (extra (last0 (pre r X)) (PN n) (hd0 (suf r Y))), Some (last0 (pre r X))).
    Proof using H1 H2.
      destruct (offers_stored (positions r (rs r) (PN n)) (tbi_reset calc) []) as (sl & rest & S & P & L & _);
        [apply stored_reset|cbn; lia|].
      fold (fresh r (rs r) n calc) in S.
      cbn [app length] in P, L. rewrite positions_length in L.
      destruct sl as [|[x a] sl]; [cbn [length] in L; lia|].
      destruct (positions_In r (rs r) (PN n) x a) as (X & Y & E & -> & ->).
      { apply (Permutation_in _ P). left. auto. }
      exists X, Y. split; auto. destruct S as (S & _). exact S.
    Qed.

    Lemma swap_relocate_u_ok u b : In u (rs r1) -> best_ok s rs r1 r2 b ->
      exists b', swap_relocate_u p pen r1 r2 s b (PN u) = Ok b' /\ best_ok s rs r1 r2 b'.
    Proof using R12 H1 H2.
      intros IU B. unfold swap_relocate_u. pose proof IU as IU'. apply in_split in IU. destruct IU as (A & B' & EU).
      destruct R12 as [DU FU]. destruct (FU u IU') as (cu & BU). cbn [num]. rewrite BU.
      destruct (fresh_first r2 u cu) as (X & Y & E & ->). rewrite (DU A u B' EU). cbn [oadd].
      match goal with |- context [if ?x then _ else _] => destruct x end; [|eauto].
      eexists. split; [reflexivity|]. right. do 3 eexists. apply st_u; eauto.
    Qed.

    Lemma swap_relocate_v_ok v b : In v (rs r2) -> best_ok s rs r1 r2 b ->
      exists b', swap_relocate_v p pen r1 r2 s b (PN v) = Ok b' /\ best_ok s rs r1 r2 b'.
    Proof using R21 H1 H2.
      intros IV B. unfold swap_relocate_v. pose proof IV as IV'. apply in_split in IV. destruct IV as (C & D & EV).
      destruct R21 as [DV FV]. destruct (FV v IV') as (cv & BV). cbn [num]. rewrite BV.
      destruct (fresh_first r1 v cv) as (X & Y & E & ->). rewrite (DV C v D EV). cbn [oadd].
      match goal with |- context [if ?x then _ else _] => destruct x end; [|eauto].
      eexists. split; [reflexivity|]. right. do 3 eexists. apply st_v; eauto.
    Qed.
  End Choice.

  Lemma swap_star_best_ok s rs r1 r2 :
    holds s rs -> caches s rs -> r1 < nv -> r2 < nv -> r1 <> r2 ->
    exists s' b, swap_star_best p pen s r1 r2 = Ok (s', b) /\ prepared s s' /\ caches s' rs /\
      best_ok s' rs r1 r2 b.
  Proof.
    intros H C H1 H2 NE. unfold swap_star_best.
    destruct (preprocess_ok s rs r1 r2) as (s1 & E1 & P1 & C1 & R1 & _ & _); auto.
    rewrite E1. cbn [rbind].
    assert (HH1 : holds s1 rs) by (eapply holds_view; [apply prepared_view|]; eauto).
    destruct (preprocess_ok s1 rs r2 r1) as (s2 & E2 & P2 & C2 & R2 & I2 & B2); auto.
    rewrite E2. cbn [rbind].
    assert (HH2 : holds s2 rs) by (eapply holds_view; [apply prepared_view|]; eauto).
    assert (R1' : ready s2 rs r1 r2).
    { destruct R1 as [Q1 Q2]. split.
      - intros A u B E. rewrite I2; [auto|]. rewrite in_map_iff. intros (k & K & I). injection K as ->.
        revert I. apply (serves_apart p c rs (h_serves _ _ _ _ _ H) r1 r2); auto. rewrite E. auto with datatypes.
      - intros u I. rewrite B2 by auto. auto. }
    rewrite (customers_of_ok s2 rs HH2 r1), (customers_of_ok s2 rs HH2 r2) by auto. cbn [rbind].
    destruct (foldm_ok (fun best u => foldm (swap_pair p pen r1 r2 s2 u) (map PN (rs r2)) best)
                (best_ok s2 rs r1 r2) (map PN (rs r1)) bss_new) as (b1 & -> & K1).
    { intros b a I B. apply in_map_iff in I. destruct I as (u & <- & I).
      apply foldm_ok; auto. intros b' a' I' B'. apply in_map_iff in I'. destruct I' as (v & <- & I').
      apply swap_pair_ok; auto. }
    { left. auto. }
    cbn [rbind].
    destruct (foldm_ok (swap_relocate_u p pen r1 r2 s2) (best_ok s2 rs r1 r2) (map PN (rs r1)) b1) as (b2 & -> & K2); auto.
    { intros b a I B. apply in_map_iff in I. destruct I as (u & <- & I). apply swap_relocate_u_ok; auto. }
    cbn [rbind].
    destruct (foldm_ok (swap_relocate_v p pen r1 r2 s2) (best_ok s2 rs r1 r2) (map PN (rs r2)) b2) as (b3 & -> & K3); auto.
    { intros b a I B. apply in_map_iff in I. destruct I as (v & <- & I). apply swap_relocate_v_ok; auto. }
    cbn [rbind]. exists s2, b3. split; auto. split; [eapply prepared_trans; eauto|auto].
  Qed.

  (** ** Relinking *)

  Lemma insert_runs h rs r1 r2 A u B X Y :
    serves_all_once (p_dim p) (all_routes c rs) -> (forall r, r < nv -> runs h r (rs r)) ->
    r1 < nv -> r2 < nv -> r1 <> r2 -> rs r1 = A ++ u :: B -> rs r2 = X ++ Y ->
    let rs' := nupd (nupd rs r1 (A ++ B)) r2 (X ++ u :: Y) in
    exists h', insert_node h (PN u) (last0 (pre r2 X)) = Ok h' /\
      serves_all_once (p_dim p) (all_routes c rs') /\ (forall r, r < nv -> runs h' r (rs' r)).
  Proof.
    intros S R H1 H2 NE E1 E2 rs'.
    assert (S1 : stops r1 (rs r1) = pre r1 A ++ PN u :: suf r1 B) by (rewrite E1; apply stops_mid).
    assert (S2 : stops r2 (rs r2) = pre r2 X ++ suf r2 Y) by (rewrite E2; apply stops_app).
    assert (L1 : l_pred h (PN u) = Some (last0 (pre r1 A))).
    { destruct (pre_last r1 A) as (L & a & EL). rewrite EL in *. rewrite last_last.
      rewrite <- app_assoc in S1. destruct (R r1 H1) as [R1 _]. apply (R1 _ _ _ _ S1). }
    assert (L2 : l_succ h (PN u) = Some (hd0 (suf r1 B))).
    { destruct (suf_head r1 B) as (b & L & EL). rewrite EL in *. cbn [hd].
      destruct (R r1 H1) as [R1 _]. apply (R1 _ _ _ _ S1). }
    assert (L3 : l_succ h (last0 (pre r2 X)) = Some (hd0 (suf r2 Y))).
    { destruct (pre_last r2 X) as (L & a & EL), (suf_head r2 Y) as (b & L' & EL'). rewrite EL, EL' in *.
      rewrite last_last. cbn [hd]. rewrite <- app_assoc in S2. destruct (R r2 H2) as [R1 _]. apply (R1 _ _ _ _ S2). }
    unfold insert_node. rewrite L1, L2, L3. cbn [deref rbind].
    eexists. split; [reflexivity|].
    assert (F1 : rs' r1 = A ++ B) by (unfold rs'; rewrite nupd_other, nupd_same; auto).
    assert (F2 : rs' r2 = X ++ u :: Y) by (unfold rs'; rewrite nupd_same; auto).
    assert (O : forall r, r < nv -> r <> r1 -> r <> r2 -> rs' r = rs r)
      by (intros; unfold rs'; rewrite !nupd_other; auto).
    assert (S' : serves_all_once (p_dim p) (all_routes c rs')).
    { apply (serves_two p c rs rs' r1 r2); auto. rewrite F1, F2, E1, E2.
      rewrite <- !app_assoc. apply Permutation_app_head. cbn [app].
      rewrite <- Permutation_middle. rewrite app_assoc, <- Permutation_middle. rewrite <- app_assoc. auto. }
    split; auto.
    apply (relink_runs p c rs rs' h S' r1 r2
             [(last0 (pre r1 A), hd0 (suf r1 B)); (last0 (pre r2 X), PN u); (PN u, hd0 (suf r2 Y))]); auto.
    - intros a b I. cbn [In] in I. destruct I as [I|[I|[I|[]]]]; injection I as <- <-.
      + exists r1. rewrite F1. split; auto. apply cut_pair.
      + exists r2. rewrite F2. split; auto. apply (cut_pair r2 X (u :: Y)).
      + exists r2. rewrite F2. split; auto.
        replace (X ++ u :: Y) with ((X ++ [u]) ++ Y) by (rewrite <- app_assoc; auto).
        replace (PN u) with (last0 (pre r2 (X ++ [u]))) by (rewrite pre_app; apply last_last).
        apply cut_pair.
    - intros r a b [->| ->] I.
      + rewrite F1, stops_app, in_pairs_app in I by nepos. destruct I as [I|[I|I]].
        * right. exists r1. split; auto. rewrite S1. apply in_pairs_app; nepos.
        * left. left. auto.
        * right. exists r1. split; auto. rewrite S1. apply in_pairs_app; nepos. right. right.
          destruct (suf_head r1 B) as (z & L & EL). rewrite EL in *. rewrite in_pairs_cons. auto.
      + rewrite F2, stops_mid, in_pairs_app in I by nepos. destruct I as [I|[I|I]].
        * right. exists r2. split; auto. rewrite S2. apply in_pairs_app; nepos.
        * left. right. left. auto.
        * destruct (suf_head r2 Y) as (z & L & EL). rewrite EL in *. rewrite in_pairs_cons in I.
          destruct I as [I|I]; [left; cbn; auto|].
          right. exists r2. split; auto. rewrite S2. apply in_pairs_app; nepos.
  Qed.

  Lemma place_cut r l x a pos l' e : place r l x a pos l' e ->
    exists A B X Y, l = A ++ x :: B /\ A ++ B = X ++ Y /\ pos = last0 (pre r X) /\ l' = X ++ a :: Y.
  Proof.
    intros [A B E|A0 A1 B E NA|A B0 B1 E NB].
    - exists A, B, A, B. auto.
    - exists (A0 ++ A1), B, A0, (A1 ++ B). rewrite <- !app_assoc. auto.
    - exists A, (B0 ++ B1), (A ++ B0), B1. rewrite <- !app_assoc. split; auto. split; auto. split; auto.
      rewrite pre_app, last0_app by nepos. auto.
  Qed.
  (** ... and in the route that still contains [x] *)
  Lemma place_cut_full r l x a pos l' e : place r l x a pos l' e ->
    exists X Y A B, l = X ++ Y /\ pos = last0 (pre r X) /\ X ++ a :: Y = A ++ x :: B /\ l' = A ++ B.
  Proof.
    intros [A B E|A0 A1 B E NA|A B0 B1 E NB].
    - exists A, (x :: B), (A ++ [a]), B. rewrite <- !app_assoc. auto.
    - exists A0, (A1 ++ x :: B), (A0 ++ a :: A1), B. rewrite <- !app_assoc. cbn [app]. auto.
    - exists (A ++ x :: B0), B1, A, (B0 ++ a :: B1). rewrite <- !app_assoc. cbn [app]. split; auto. split; auto.
      rewrite pre_app. cbn [map]. rewrite last0_app by nepos.
      change (PN x :: map PN B0) with ([PN x] ++ map PN B0). rewrite last0_app by nepos. auto.
  Qed.

  Lemma star_links s0 h rs r1 r2 b l1 l2 d :
    serves_all_once (p_dim p) (all_routes c rs) -> (forall r, r < nv -> runs h r (rs r)) ->
    r1 < nv -> r2 < nv -> r1 <> r2 -> star s0 rs r1 r2 b l1 l2 d ->
    let rs' := nupd (nupd rs r1 l1) r2 l2 in
    exists h1 h2, move_to h (b_u b) (b_pos_u b) = Ok h1 /\ move_to h1 (b_v b) (b_pos_v b) = Ok h2 /\
      serves_all_once (p_dim p) (all_routes c rs') /\ (forall r, r < nv -> runs h2 r (rs' r)).
  Proof.
    intros S R H1 H2 NE ST rs'. unfold rs'. clear rs'.
    destruct ST as [A u B C v D pu l2 iu pv l1 iv EU EV PU PV R1 R2 p1 p2 d
                   |A u B X Y EU EX R1 R2 p1 p2 d|C v D X Y EV EX R1 R2 p1 p2 d];
      cbn [b_u b_v b_pos_u b_pos_v move_to deref rbind].
    - destruct (place_cut_full _ _ _ _ _ _ _ PU) as (X & Y & A2 & B2 & EX & -> & EM & EL2).
      destruct (insert_runs h rs r1 r2 A u B X Y S R H1 H2 NE EU EX) as (h1 & Q1 & S1 & RU1).
      set (rs1 := nupd (nupd rs r1 (A ++ B)) r2 (X ++ u :: Y)) in *.
      destruct (place_cut _ _ _ _ _ _ _ PV) as (A1 & B1 & X1 & Y1 & EA & EAB & -> & EL1).
      assert (AB : A1 ++ B1 = A ++ B).
      { assert (ND : NoDup (rs r1)) by (apply (serves_nodup p c rs S); auto).
        rewrite EU in EA, ND. destruct (split_unique _ _ _ _ _ EA ND) as [-> ->]. auto. }
      assert (F1 : rs1 r1 = X1 ++ Y1).
      { unfold rs1. rewrite nupd_other, nupd_same by auto. congruence. }
      assert (F2 : rs1 r2 = A2 ++ v :: B2).
      { unfold rs1. rewrite nupd_same. auto. }
      destruct (insert_runs h1 rs1 r2 r1 A2 v B2 X1 Y1 S1 RU1 H2 H1) as (h2 & Q2 & S2 & RU2); auto.
      exists h1, h2. split; auto. split; auto.
      assert (EXT : forall r, r < nv -> nupd (nupd rs1 r2 (A2 ++ B2)) r1 (X1 ++ v :: Y1) r = nupd (nupd rs r1 l1) r2 l2 r).
      { intros r Hr. subst l1 l2. unfold rs1, nupd.
        destruct (r =? r1) eqn:Q3; [apply Nat.eqb_eq in Q3; subst r;
          replace (r1 =? r2) with false by (symmetry; apply Nat.eqb_neq; auto); auto|].
        destruct (r =? r2); auto. }
      rewrite (all_routes_ext c _ _ EXT) in S2. split; auto.
      intros r Hr. rewrite <- EXT by auto. auto.
    - destruct (insert_runs h rs r1 r2 A u B X Y S R H1 H2 NE EU EX) as (h1 & Q1 & S1 & RU1).
      exists h1, h1. auto.
    - destruct (insert_runs h rs r2 r1 C v D X Y S R H2 H1) as (h1 & Q1 & S1 & RU1); auto.
      exists h, h1. split; auto. split; auto.
      assert (EXT : forall r, r < nv -> nupd (nupd rs r2 (C ++ D)) r1 (X ++ v :: Y) r = nupd (nupd rs r1 (X ++ v :: Y)) r2 (C ++ D) r).
      { intros r Hr. unfold nupd.
        destruct (r =? r1) eqn:Q3; [apply Nat.eqb_eq in Q3; subst r;
          replace (r1 =? r2) with false by (symmetry; apply Nat.eqb_neq; auto); auto|].
        destruct (r =? r2); auto. }
      rewrite (all_routes_ext c _ _ EXT) in S1. split; auto.
      intros r Hr. rewrite <- EXT by auto. auto.
  Qed.

  Lemma swap_star_run_full s rs r1 r2 :
    holds s rs -> caches s rs -> r1 < nv -> r2 < nv -> r1 <> r2 ->
    exists s1, prepared s s1 /\ caches s1 rs /\
      ((swap_star_run p pen s r1 r2 = Ok (s1, false)) \/
       (exists s' b l1 l2 d, swap_star_run p pen s r1 r2 = Ok (s', true) /\
          swap_star_best p pen s r1 r2 = Ok (s1, b) /\ b_cost b = Some d /\
          star s1 rs r1 r2 b l1 l2 d /\ approx_gte d f0 = false /\
          stepped (set_count s1 (s_count s1 + 1)%Z) s' (nupd (nupd rs r1 l1) r2 l2) r1 r2)).
  Proof.
    intros H C H1 H2 NE. unfold swap_star_run.
    destruct (swap_star_best_ok s rs r1 r2) as (s1 & b & -> & P & C1 & B); auto.
    cbn [rbind]. exists s1. split; auto. split; auto.
    destruct B as [->|(l1 & l2 & d & ST)]; [left; auto|].
    assert (EB : b_cost b = Some d) by (destruct ST; auto). rewrite EB. cbn [not_improving].
    destruct (approx_gte d f0) eqn:G; [left; auto|]. right.
    assert (HH : holds s1 rs) by (eapply holds_view; [apply prepared_view|]; eauto).
    cbn [set_count s_links].
    destruct (star_links s1 (s_links s1) rs r1 r2 b l1 l2 d) as (h1 & h2 & -> & Q2 & S' & R'); auto;
      try apply HH.
    cbn [rbind]. rewrite Q2. cbn [rbind].
    set (s2 := set_count s1 (s_count s1 + 1)%Z).
    assert (HS : holds s2 rs) by (apply (holds_view s1); auto; unfold same_view; cbn; auto 10).
    destruct (relink_ok p c pen s2 rs (nupd (nupd rs r1 l1) r2 l2) h2 r1 r2) as (s' & Q3 & Q4); auto.
    { intros r Hr N1 N2. rewrite !nupd_other; auto. }
    unfold update_two in Q3. replace (r1 =? r2) with false in Q3 by (symmetry; apply Nat.eqb_neq; auto).
    exists s', b, l1, l2, d. split; [|auto].
    destruct (update_route p pen (set_links s2 h2) r1) as [s3|] eqn:Q5; cbn [rbind] in *; [|discriminate].
    cbn [negb] in Q3. rewrite Q3. auto.
  Qed.

  Lemma swap_star_run_ok s rs r1 r2 :
    holds s rs -> caches s rs -> r1 < nv -> r2 < nv -> r1 <> r2 ->
    exists s1, prepared s s1 /\ caches s1 rs /\
      ((swap_star_run p pen s r1 r2 = Ok (s1, false)) \/
       (exists s' b l1 l2 d, swap_star_run p pen s r1 r2 = Ok (s', true) /\
          star s1 rs r1 r2 b l1 l2 d /\ approx_gte d f0 = false /\
          stepped (set_count s1 (s_count s1 + 1)%Z) s' (nupd (nupd rs r1 l1) r2 l2) r1 r2)).
  Proof.
    intros H C H1 H2 NE.
    destruct (swap_star_run_full s rs r1 r2 H C H1 H2 NE)
      as (s1 & P & C1 & [E|(s' & b & l1 & l2 & d & E & _ & _ & ST & L & SP)]); exists s1; split; auto; split; auto.
    right. eauto 10.
  Qed.
End Star.
