(** The search loop: it never fails, every step it takes is an improving move, and when it
    stops no pair of neighbours has an improving move left. *)
From Coq Require Import List Arith ZArith Bool Lia Permutation.
From Verif.Model Require Import Num Prelude Evaluate Config Sector Matrix LinkedList LocalSearch.
From Verif.Spec Require Import Solution LocalSearch.
From Verif.Proofs Require Import Lists LinkFacts MatrixFacts EvalThms LsState LsMoves LsEffect LsStar LsLocal.
Import ListNotations.
Open Scope nat_scope.

(** [foldm] with an invariant about the part of the list already processed *)
Lemma foldm_prefix {A S} (f : S -> A -> res S) (P : list A -> S -> Prop) l s :
  (forall d a r s, l = d ++ a :: r -> P d s -> exists s', f s a = Ok s' /\ P (d ++ [a]) s') ->
  P [] s -> exists s', foldm f l s = Ok s' /\ P l s'.
Proof.
  intros Hs. assert (G : forall r d s, l = d ++ r -> P d s -> exists s', foldm f r s = Ok s' /\ P l s').
  { induction r as [|a r IH]; intros d s0 E H; cbn [foldm].
    - rewrite app_nil_r in E. subst. eauto.
    - destruct (Hs d a r s0 E H) as (s1 & -> & H1). apply (IH (d ++ [a])); auto. rewrite <- app_assoc. auto. }
  intros H. apply (G l []); auto.
Qed.

Section Search.
  Context {N : Num}.
  Variable p : problem.
  Variable c : config.
  Variable pen : F.
  Notation nv := (c_num_vehicles c).
  Notation holds := (holds p c pen).
  Notation stepped := (stepped p c pen).
  Notation caches := (caches p c).
  Notation delta := (delta p pen).
  Notation dim := (p_dim p).
  Notation near := (near c).
  Notation mods := (neighbor_moves c).
  Hypothesis zero_not_lt : approx_lt f0 f0 = false.

  (** ** The steps taken *)

  Inductive gstep (rs rs' : nat -> list nat) : Prop :=
  | gs_move s m u v r1 r2 l1 l2 d :
      holds s rs -> applicable p c rs m (PN u) v -> r1 < nv -> r2 < nv ->
      effect p c pen s rs m u v r1 r2 l1 l2 d -> approx_lt d f0 = true ->
      rs' = nupd (nupd rs r1 l1) r2 l2 -> gstep rs rs'
  | gs_star s r1 r2 b l1 l2 d :
      holds s rs -> r1 < nv -> r2 < nv -> r1 <> r2 ->
      star p pen s rs r1 r2 b l1 l2 d -> approx_gte d f0 = false ->
      rs' = nupd (nupd rs r1 l1) r2 l2 -> gstep rs rs'.

  Inductive trace : nat -> (nat -> list nat) -> (nat -> list nat) -> Prop :=
  | tr_nil rs : trace 0 rs rs
  | tr_snoc n rs rs1 rs2 : trace n rs rs1 -> gstep rs1 rs2 -> trace (S n) rs rs2.

  Lemma trace_app n m rs rs1 rs2 : trace n rs rs1 -> trace m rs1 rs2 -> trace (m + n) rs rs2.
  Proof using. intros T. induction 1; cbn; auto. eapply tr_snoc; eauto. Qed.

  (** ** Nothing improves *)

  Definition calm (rs : nat -> list nat) (ms : list move) (u v : ptr) : Prop :=
    forall s, holds s rs -> forall m, In m ms -> exists d, delta m s u v = Ok d /\ approx_lt d f0 = false.
  Definition quiet (rs : nat -> list nat) (u v : nat) : Prop := calm rs mods (PN u) (PN v).

  Definition sector_of (l : list nat) : sector := fold_left extend (map (o_polar p) l) sector_new.
  Definition squiet (rs : nat -> list nat) (r1 r2 : nat) : Prop :=
    forall s, holds s rs -> caches s rs -> rs r1 <> [] -> rs r2 <> [] ->
    overlaps (sector_of (rs r1)) (sector_of (rs r2)) = true ->
    exists q, swap_star_run p pen s r1 r2 = Ok (q, false).

  (** The pair has nothing improving as long as its routes have not changed since [t]. *)
  Definition settled (s : lsearch) (rs : nat -> list nat) (u v : nat) (t : Z) : Prop :=
    forall ru rv, ru < nv -> rv < nv -> In u (rs ru) -> In v (rs rv) ->
      (r_mod (s_routes s ru) <= t)%Z -> (r_mod (s_routes s rv) <= t)%Z -> quiet rs u v.

  Record base (s : lsearch) (rs : nat -> list nat) : Prop := {
    b_holds : holds s rs;
    b_caches : caches s rs;
    b_cust : Permutation (s_cust s) (seq 1 (dim - 1));
    b_corr : neighbours_ok p c (s_corr s);
    b_tested : forall u, (n_tested (s_info s (PN u)) <= s_count s)%Z;
    b_tss : forall r, r < nv -> (r_tss (s_routes s r) <= s_count s)%Z
  }.

  Definition stars (s : lsearch) (rs : nat -> list nat) : Prop :=
    forall r1 r2, r1 < r2 -> r2 < nv -> (s_count s <= r_tss (s_routes s r1))%Z -> squiet rs r1 r2.

  Record inv (s : lsearch) (rs : nat -> list nat) : Prop := {
    i_base : base s rs;
    i_pairs : forall u v, 0 < u < dim -> In v (near (s_corr s) u) ->
      settled s rs u v (n_tested (s_info s (PN u)));
    i_stars : stars s rs
  }.

  (** What a performed move does to the state *)
  Definition advance (s : lsearch) (rs : nat -> list nat) (s' : lsearch) (rs' : nat -> list nat) (r1 r2 : nat) : Prop :=
    gstep rs rs' /\ stepped (set_count s (s_count s + 1)%Z) s' rs' r1 r2 /\ r1 < nv /\ r2 < nv /\
    (forall r, r <> r1 -> r <> r2 -> rs' r = rs r).

  Lemma advance_base s rs s' rs' r1 r2 : base s rs -> advance s rs s' rs' r1 r2 ->
    base s' rs' /\ s_count s' = (s_count s + 1)%Z /\ s_corr s' = s_corr s /\ s_cust s' = s_cust s /\
    (forall a, n_tested (s_info s' a) = n_tested (s_info s a)) /\
    (forall r, r_tss (s_routes s' r) = r_tss (s_routes s r)).
  Proof using.
    intros [B1 B2 B3 B4 B5 B6] (G & ST & H1 & H2 & O). pose proof ST as (HH & (E1 & E2 & E3 & E4 & E5 & E6) & R1 & R2).
    cbn [set_count s_cust s_corr s_count s_best s_hash s_info s_routes] in *.
    assert (TS : forall r, r_tss (s_routes s' r) = r_tss (s_routes s r)).
    { intros r. destruct (Nat.eq_dec r r1) as [X|X]; [|destruct (Nat.eq_dec r r2) as [Y|Y]].
      1,2: apply R2; auto.
      rewrite R1 by auto. auto. }
    split; [|auto 10]. constructor; auto.
    - eapply caches_stepped; eauto.
    - rewrite E1. auto.
    - rewrite E2. auto.
    - intros u. rewrite E6, E3. specialize (B5 u). lia.
    - intros r Hr. rewrite TS, E3. specialize (B6 r Hr). lia.
  Qed.

  Lemma quiet_local s s' rs rs' u v r1 r2 : holds s rs -> holds s' rs' -> r1 < nv -> r2 < nv ->
    In u (rs r1) -> In v (rs r2) -> rs' r1 = rs r1 -> rs' r2 = rs r2 -> quiet rs u v -> quiet rs' u v.
  Proof using.
    intros H H' H1 H2 I1 I2 E1 E2 Q z Hz m Hm. destruct (Q s H m Hm) as (d & D & L). exists d. split; auto.
    rewrite <- D. apply (delta_local p c pen s z rs rs' H Hz m (PN u) (PN v) r1 r2); auto.
    - apply in_stops. right. right. eauto.
    - apply in_stops. right. right. eauto.
  Qed.

  Lemma advance_settled s rs s' rs' r1 r2 u v t : base s rs -> advance s rs s' rs' r1 r2 ->
    (t <= s_count s)%Z -> settled s rs u v t -> settled s' rs' u v t.
  Proof using.
    intros [B1 _ _ _ _ _] (G & ST & H1 & H2 & O) T Q ru rv Hu Hv Iu Iv Mu Mv. destruct ST as (HH & SR & R1 & R2).
    cbn [set_count s_count s_routes] in *.
    assert (NR : forall r, (r_mod (s_routes s' r) <= t)%Z -> r <> r1 /\ r <> r2).
    { intros r M. split; intros ->; [destruct (R2 r1) as [X _]|destruct (R2 r2) as [X _]]; auto; lia. }
    destruct (NR ru Mu) as [N1 N2]. destruct (NR rv Mv) as [N3 N4].
    rewrite O in Iu, Iv by auto. rewrite R1 in Mu, Mv by auto.
    apply (quiet_local s s' rs rs' u v ru rv); auto. apply (Q ru rv); auto.
  Qed.

  Lemma advance_stars s rs s' rs' r1 r2 : base s rs -> advance s rs s' rs' r1 r2 -> stars s' rs'.
  Proof using.
    intros B A. destruct (advance_base _ _ _ _ _ _ B A) as (_ & E & _ & _ & _ & T). destruct B.
    intros a b L Hb X. exfalso. rewrite E, T in X. specialize (b_tss0 a ltac:(lia)). lia.
  Qed.

  (** ** Moves *)

  Lemma effect_in s rs m u v r1 r2 l1 l2 d : effect p c pen s rs m u v r1 r2 l1 l2 d ->
    r1 < nv /\ r2 < nv /\ In u (rs r1).
  Proof using.
    intros EF.
    destruct EF as [u v r1 r2 l1 l2 up x y R|u v r1 r2 l1 l2 up x xn y R|u v r1 r2 l1 l2 up x xn y R
                   |u v r1 r2 l1 l2 up x vp y R|u v r1 r2 l1 l2 up x xn vp y R|u v r1 r2 l1 l2 up x xn vp y yn R
                   |u v r A M x M' D Hr EM NM EV E|u v r1 r2 A B C D x y H1 H2 NE E1 E2 EX EY
                   |u v r1 r2 A B C D x y H1 H2 NE E1 E2 EV EX EY];
      try (destruct R as [? ? ? ? ? ? ? ? ? E|? ? ? ? ? ? E|? ? ? ? ? ? E]; split; auto; split; auto; rewrite E;
           rewrite ?in_app_iff; cbn; auto 10).
    - split; auto. split; auto. rewrite E. auto with datatypes.
    - split; auto. split; auto. rewrite E1. auto with datatypes.
    - split; auto. split; auto. rewrite E1. auto with datatypes.
  Qed.

  Lemma try_moves_ok u v rs s : holds s rs -> forall ms, (forall m, In m ms -> applicable p c rs m (PN u) v) ->
    (try_moves p pen ms s (PN u) v = Ok None /\ calm rs ms (PN u) v) \/
    (exists s' rs' r1 r2, try_moves p pen ms s (PN u) v = Ok (Some s') /\
       advance s rs s' rs' r1 r2 /\ In u (rs r1)).
  Proof using zero_not_lt.
    intros H. induction ms as [|m ms IH]; intros AP.
    - left. split; auto. intros ? ? ? [].
    - cbn [try_moves].
      set (s1 := set_count s (s_count s + 1)%Z).
      assert (HS : holds s1 rs) by (apply (holds_view p c pen s); auto; unfold same_view; cbn; auto 10).
      replace (LocalSearch.delta p pen m s (PN u) v) with (LocalSearch.delta p pen m s1 (PN u) v)
        by (destruct m; reflexivity).
      assert (APm : applicable p c rs m (PN u) v) by (apply AP; left; auto).
      (* the delta is the same in every state that holds [rs] *)
      assert (SAME : forall z, holds z rs -> LocalSearch.delta p pen m z (PN u) v = LocalSearch.delta p pen m s1 (PN u) v).
      { intros z Hz. inversion APm as [? ? n HU HN NE|? ? k HU HK EK IM]; subst.
        - destruct (serves_find p c rs (h_serves _ _ _ _ _ H) u HU) as (a & Ha & Ia).
          destruct (serves_find p c rs (h_serves _ _ _ _ _ H) n HN) as (b & Hb & Ib).
          apply (delta_local p c pen s1 z rs rs HS Hz m _ _ a b); auto; apply in_stops; right; right; eauto.
        - destruct (serves_find p c rs (h_serves _ _ _ _ _ H) u HU) as (a & Ha & Ia).
          apply (delta_local p c pen s1 z rs rs HS Hz m _ _ a k); auto; apply in_stops; eauto 6. }
      assert (C : (exists d, LocalSearch.delta p pen m s1 (PN u) v = Ok d /\ approx_lt d f0 = false) \/
                  (exists r1 r2 l1 l2 d, LocalSearch.delta p pen m s1 (PN u) v = Ok d /\ approx_lt d f0 = true /\
                     effect p c pen s1 rs m u v r1 r2 l1 l2 d)).
      { destruct (delta_cases p c pen s1 rs HS m u v APm) as [E|(r1 & r2 & l1 & l2 & d & E & EF)].
        - left. exists f0. auto.
        - destruct (approx_lt d f0) eqn:L; [right|left]; eauto 10. }
      destruct C as [(d & E & L)|(r1 & r2 & l1 & l2 & d & E & L & EF)]; rewrite E; cbn [rbind]; rewrite L.
      + destruct IH as [(E1 & C)|IH]; [intros m' I; apply AP; right; auto| |right; auto].
        left. split; auto. intros z Hz m' [<-|I].
        * exists d. rewrite SAME by auto. auto.
        * apply C; auto.
      + destruct (effect_in _ _ _ _ _ _ _ _ _ _ EF) as (H1 & H2 & IU).
        destruct (perform_ok p c pen s1 rs HS m u v r1 r2 l1 l2 d EF) as (s' & PF & ST).
        fold s1. rewrite PF. cbn [rbind]. right. exists s', (nupd (nupd rs r1 l1) r2 l2), r1, r2.
        split; auto. split; auto. split; [|split; [exact ST|split; [auto|split; [auto|]]]].
        * apply (gs_move rs _ s1 m u v r1 r2 l1 l2 d); auto.
        * intros r N1 N2. rewrite !nupd_other; auto.
  Qed.

  (** ** One customer and its neighbours *)

  Definition went (k0 : Z) (rs0 : nat -> list nat) (s : lsearch) (rs : nat -> list nat) (imp : bool) : Prop :=
    exists n, trace n rs0 rs /\ s_count s = (k0 + Z.of_nat n)%Z /\ imp = negb (n =? 0).

  Lemma went_advance k0 rs0 s rs imp s' rs' r1 r2 : base s rs -> went k0 rs0 s rs imp ->
    advance s rs s' rs' r1 r2 -> went k0 rs0 s' rs' true.
  Proof using.
    intros B (n & T & K & _) A. exists (S n). split; [|split; auto].
    - eapply tr_snoc; eauto. apply A.
    - destruct (advance_base _ _ _ _ _ _ B A) as (_ & -> & _). lia.
  Qed.

  Lemma read_n_route s rs r u : holds s rs -> r < nv -> In u (rs r) -> n_route (s_info s (PN u)) = Some r.
  Proof using.
    intros H Hr I. destruct (h_cached _ _ _ _ _ H r Hr) as [C _].
    assert (J : In (PN u) (stops r (rs r))) by (apply in_stops; eauto).
    apply in_split in J. destruct J as (A & B & E). apply (C _ _ _ E).
  Qed.

  Section Customer.
    Variables (lc : nat) (corr : matrix nat) (u : nat) (t0 last : Z) (k0 : Z) (rs0 : nat -> list nat).
    Hypothesis Hu : 0 < u < dim.

    Record vinv (d : list nat) (s : lsearch) (rs : nat -> list nat) : Prop := {
      v_base : base s rs;
      v_corr : s_corr s = corr;
      v_time : n_tested (s_info s (PN u)) = t0;
      v_pairs : forall u' v, 0 < u' < dim -> u' <> u -> In v (near corr u') ->
        settled s rs u' v (n_tested (s_info s (PN u')));
      v_done : forall v, In v d -> settled s rs u v t0;
      v_old : forall v, In v (near corr u) -> settled s rs u v last;
      v_last : (last <= s_count s)%Z;
      v_stars : stars s rs
    }.

    Lemma vinv_advance d s rs s' rs' r1 r2 v : vinv d s rs -> advance s rs s' rs' r1 r2 -> In u (rs r1) ->
      vinv (d ++ [v]) s' rs'.
    Proof using Hu.
      intros [V1 V2 V3 V4 V5 V6 V7 V8] A IU.
      destruct (advance_base _ _ _ _ _ _ V1 A) as (B & E1 & E2 & E3 & E4 & E5).
      assert (T0 : (t0 <= s_count s)%Z) by (rewrite <- V3; apply (b_tested _ _ V1)).
      constructor; auto.
      - congruence.
      - rewrite E4. auto.
      - intros u' v' H1 H2 H3. rewrite E4. eapply (advance_settled s rs s' rs'); eauto. apply (b_tested _ _ V1).
      - intros v' I. apply in_app_or in I. destruct I as [I|[<-|[]]].
        + eapply (advance_settled s rs s' rs'); eauto.
        + intros ru rv Hru Hrv Iu Iv Mu Mv. exfalso.
          destruct A as (G & (HH & _ & R1 & R2) & H1 & H2 & O). cbn [set_count s_count] in R2.
          assert (ru = r1 \/ ru = r2) as RR.
          { destruct (Nat.eq_dec ru r1) as [X|X]; auto. destruct (Nat.eq_dec ru r2) as [Y|Y]; auto. exfalso.
            rewrite O in Iu by auto.
            revert IU. apply (serves_apart p c rs (h_serves _ _ _ _ _ (b_holds _ _ V1)) ru r1); auto. }
          destruct (R2 ru RR) as [M _]. lia.
      - intros v' I. eapply (advance_settled s rs s' rs'); eauto.
      - lia.
      - eapply (advance_stars s rs s' rs'); eauto.
    Qed.

    Lemma try_v_ok d s rs imp v : vinv d s rs -> went k0 rs0 s rs imp -> In v (near corr u) ->
      exists s' rs' imp',
        try_v p c pen lc (PN u) last (s, n_route (s_info s (PN u)), imp) v
        = Ok (s', n_route (s_info s' (PN u)), imp') /\
        vinv (d ++ [v]) s' rs' /\ went k0 rs0 s' rs' imp' /\
        (imp' = false -> imp = false /\ s' = s /\ rs' = rs).
    Proof using zero_not_lt Hu.
      intros V W I. pose proof (v_base _ _ _ V) as B. pose proof (b_holds _ _ B) as H.
      assert (Vv : 0 < v < dim /\ v <> u).
      { destruct (b_corr _ _ B) as (_ & _ & NO). apply NO; auto. rewrite (v_corr _ _ _ V). auto. }
      destruct Vv as [Hv NE].
      destruct (serves_find p c rs (h_serves _ _ _ _ _ H) u Hu) as (ru & Hru & Iu).
      destruct (serves_find p c rs (h_serves _ _ _ _ _ H) v Hv) as (rv & Hrv & Iv).
      assert (ADD : quiet rs u v -> vinv (d ++ [v]) s rs).
      { intros Q. destruct V as [V1 V2 V3 V4 V5 V6 V7 V8]. constructor; auto.
        intros v' J. apply in_app_or in J. destruct J as [J|[<-|[]]]; auto. intros ? ? _ _ _ _ _ _. auto. }
      unfold try_v, node_at.
      replace (v <? dim) with true by (symmetry; apply Nat.ltb_lt; lia). cbn [rbind].
      rewrite (read_n_route s rs ru u), (read_n_route s rs rv v) by auto. cbn [deref rbind].
      assert (GO : exists go, (if lc =? 0 then Ok true
           else Ok (last <? Z.max (r_mod (s_routes s ru)) (r_mod (s_routes s rv)))%Z) = Ok go /\
           (go = false -> quiet rs u v)).
      { destruct (lc =? 0); [exists true; split; auto; discriminate|].
        eexists. split; [reflexivity|]. intros L. apply Z.ltb_ge in L.
        apply (v_old _ _ _ V v I ru rv); auto; lia. }
      destruct GO as (go & -> & QG). cbn [rbind]. destruct go.
      - destruct (try_moves_ok (u) (PN v) rs s H mods) as [(E & C)|(s' & rs' & r1 & r2 & E & A & IA)].
        { intros m _. apply app_customers; auto. }
        + rewrite E. cbn [rbind].
          assert (STAY : exists s' rs' imp', Ok (s, Some ru, imp) = Ok (s', n_route (s_info s' (PN u)), imp') /\
                   vinv (d ++ [v]) s' rs' /\ went k0 rs0 s' rs' imp' /\
                   (imp' = false -> imp = false /\ s' = s /\ rs' = rs)).
          { exists s, rs, imp. rewrite (read_n_route s rs ru u) by auto. specialize (ADD C). auto 6. }
          destruct (in_split _ _ Iv) as (X & Y & EV).
          destruct (read_u p c pen s rs H rv X v Y Hrv EV) as (-> & _ & _). cbn [rbind].
          destruct (is_depot (last0 (pre rv X))); [|exact STAY].
          destruct (try_moves_ok u (PN v) rs s H (depot_moves c)) as [(E' & C')|(s' & rs' & r1 & r2 & E' & A & IA)].
          { intros m _. apply app_customers; auto. }
          * rewrite E'. cbn [rbind]. exact STAY.
          * rewrite E'. cbn [rbind]. exists s', rs', true. split; auto. split; [eapply vinv_advance; eauto|].
            split; [eapply went_advance; eauto|discriminate].
        + rewrite E. cbn [rbind]. exists s', rs', true. split; auto. split; [eapply vinv_advance; eauto|].
          split; [eapply went_advance; eauto|discriminate].
      - specialize (ADD (QG eq_refl)). exists s, rs, imp. rewrite (read_n_route s rs ru u) by auto. auto 6.
    Qed.
  End Customer.

  (** ** Empty routes *)

  Definition calm_empty (rs : nat -> list nat) (u : nat) : Prop :=
    forall r, r < nv -> rs r = [] -> calm rs (empty_moves c) (PN u) (PS r).

  Lemma empty_in m : In m (empty_moves c) ->
    In m [RelocateSingle; RelocateDouble; RelocateDoubleReverse; TwoOptInter].
  Proof using.
    unfold empty_moves, keep. rewrite !in_app_iff. cbn [In].
    destruct (c_relocate_single c), (c_relocate_double c), (c_relocate_double_reverse c), (c_two_opt_inter c);
      cbn [In]; intuition congruence.
  Qed.

  Lemma delta_empty_same s rs u r r' m : holds s rs -> 0 < u < dim -> r < nv -> r' < nv ->
    rs r = [] -> rs r' = [] -> In m (empty_moves c) -> delta m s (PN u) (PS r') = delta m s (PN u) (PS r).
  Proof using.
    intros H Hu Hr Hr' E E' Im. apply empty_in in Im.
    destruct (serves_find p c rs (h_serves _ _ _ _ _ H) u Hu) as (a & Ha & Ia).
    assert (NA : a <> r /\ a <> r') by (split; intros ->; [rewrite E in Ia|rewrite E' in Ia]; destruct Ia).
    destruct NA as [N1 N2]. apply Nat.eqb_neq in N1, N2.
    assert (RD : forall q, q < nv -> rs q = [] ->
      succ_ s (PS q) = Ok (PE q) /\ route_ s (PS q) = Ok q /\ n_cumd (s_info s (PS q)) = f0 /\
      n_cuml (s_info s (PS q)) = f0 /\ n_cumd (s_info s (PE q)) = f0 +: p_dist p 0 0 /\
      r_dist (s_routes s q) = f0 +: p_dist p 0 0 /\ r_load (s_routes s q) = f0 +: p_demand p 0 /\
      r_over (s_routes s q) = f0 +: p_demand p 0 -: p_cap p /\
      r_cost (s_routes s q) = route_cost (f0 +: p_dist p 0 0) (f0 +: p_demand p 0 -: p_cap p) pen).
    { intros q Hq Eq. destruct (h_cached _ _ _ _ _ H q Hq) as [C (C1 & C2 & C3 & C4 & C5 & _)].
      rewrite Eq in *.
      destruct (C [] (PS q) [PE q] eq_refl) as (D1 & _ & D2 & D3).
      destruct (C [PS q] (PE q) [] eq_refl) as (_ & _ & D4 & _).
      destruct (h_runs _ _ _ _ _ H q Hq) as [R _]. rewrite Eq in R.
      destruct (R [] (PS q) (PE q) [] eq_refl) as [S1 _].
      unfold succ_, route_. rewrite S1, D1, D2, D3, D4, C5, C4, C2, C3.
      cbn [deref]. repeat split. }
    destruct (RD r Hr E) as (A1 & A2 & A3 & A4 & A5 & A6 & A7 & A8 & A9).
    destruct (RD r' Hr' E') as (B1 & B2 & B3 & B4 & B5 & B6 & B7 & B8 & B9).
    assert (RU : route_ s (PN u) = Ok a).
    { unfold route_. rewrite (read_n_route s rs a u) by auto. auto. }
    cbn [In] in Im. destruct Im as [<-|[<-|[<-|[<-|[]]]]]; cbn [LocalSearch.delta];
      unfold delta_relocate_single, delta_relocate_double, delta_relocate_double_reverse, delta_two_opt_inter, cost_change;
      rewrite A1, A2, B1, B2, RU; cbn [rbind];
      destruct (pred_ s (PN u)); cbn [rbind]; auto; destruct (succ_ s (PN u)) as [x|]; cbn [rbind]; auto;
      try (destruct (is_depot x); auto; destruct (succ_ s x); cbn [rbind]; auto);
      rewrite N1, N2, ?A3, ?A4, ?A5, ?A6, ?A7, ?A8, ?A9, ?B3, ?B4, ?B5, ?B6, ?B7, ?B8, ?B9; reflexivity.
  Qed.

  Lemma calm_empty_one rs u r : 0 < u < dim -> r < nv -> rs r = [] ->
    calm rs (empty_moves c) (PN u) (PS r) -> calm_empty rs u.
  Proof using.
    intros Hu Hr E C r' Hr' E' s Hs m Hm. destruct (C s Hs m Hm) as (d & D & L). exists d. split; auto.
    rewrite <- D. eapply delta_empty_same; eauto.
  Qed.

  Lemma base_hash s rs h : base s rs -> base (set_hash s h) rs.
  Proof using.
    intros [B1 [C1 C2 C3] B3 B4 B5 B6]. constructor; auto.
    - apply (holds_view p c pen s); auto. unfold same_view. cbn. auto 10.
    - constructor; auto.
  Qed.

  Lemma try_empty_ok lc s rs u : base s rs -> 0 < u < dim ->
    exists s1 h, (s1 = s \/ s1 = set_hash s h) /\
      ((try_empty p c pen lc s (PN u) = Ok (s1, false) /\ (0 < lc -> calm_empty rs u)) \/
       (exists s' rs' r1 r2, try_empty p c pen lc s (PN u) = Ok (s', true) /\
          advance s1 rs s' rs' r1 r2 /\ In u (rs r1))).
  Proof using zero_not_lt.
    intros B Hu. unfold try_empty.
    pose proof (b_holds _ _ B) as H. pose proof (h_empty _ _ _ _ _ H) as HE.
    destruct (0 <? lc) eqn:L; cbn [andb].
    2:{ exists s, (s_hash s). split; auto. left. split; auto. apply Nat.ltb_ge in L. lia. }
    destruct (s_empty s) as [|e es] eqn:EE.
    { exists s, (s_hash s). split; auto. left. split; auto. intros _ r Hr E.
      assert (In r []) as [] by (apply HE; auto). }
    rewrite <- EE in *. replace (0 <? length (s_empty s)) with true by (rewrite EE; reflexivity).
    destruct (range_usize_ok 0 (length (s_empty s)) (s_hash s)) as (k & h & RU); [rewrite EE; cbn; lia|].
    rewrite RU. cbn [rbind]. apply range_usize_spec in RU.
    destruct (nth_error (s_empty s) k) as [r|] eqn:NR; [|apply nth_error_None in NR; lia].
    unfold geti. rewrite NR. cbn [rbind].
    assert (IR : In r (s_empty s)) by (eapply nth_error_In; eauto). apply HE in IR. destruct IR as [Hr Er].
    replace (r <? nv) with true by (symmetry; apply Nat.ltb_lt; auto).
    pose proof (base_hash s rs h B) as B'.
    exists (set_hash s h), h. split; auto.
    destruct (try_moves_ok u (PS r) rs (set_hash s h) (b_holds _ _ B') (empty_moves c))
      as [(E & C)|(s' & rs' & r1 & r2 & E & A & IA)].
    { intros m Im. apply app_empty; auto. apply empty_in; auto. }
    - left. rewrite E. cbn [rbind]. split; auto. intros _. eapply calm_empty_one; eauto.
    - right. rewrite E. cbn [rbind]. exists s', rs', r1, r2. auto.
  Qed.

  (** ** The neighbour rows *)

  Lemma near_slice m u : neighbours_ok p c m -> u < dim -> m_slice m u 0 (c_granularity c) = Ok (near m u).
  Proof using.
    intros (G & L & _) Hu. unfold m_slice. rewrite Nat.add_0_r, L.
    assert (u * m_cols m + m_cols m <= dim * m_cols m).
    { replace (u * m_cols m + m_cols m) with (S u * m_cols m) by lia. apply Nat.mul_le_mono_r. lia. }
    destruct (Nat.leb_spec (u * m_cols m + c_granularity c) (dim * m_cols m)); [auto|lia].
  Qed.

  Lemma near_length m u : neighbours_ok p c m -> u < dim -> length (near m u) = c_granularity c.
  Proof using.
    intros (G & L & _) Hu. unfold LocalSearch.near. rewrite firstn_length, skipn_length, L.
    assert (u * m_cols m + m_cols m <= dim * m_cols m).
    { replace (u * m_cols m + m_cols m) with (S u * m_cols m) by lia. apply Nat.mul_le_mono_r. lia. }
    lia.
  Qed.

  Definition mrow (m : matrix nat) (u : nat) : list nat := firstn (m_cols m) (skipn (u * m_cols m) (m_data m)).

  Lemma near_write m u l : neighbours_ok p c m -> u < dim -> length l = c_granularity c ->
    exists m', m_write m u 0 l = Ok m' /\ m_cols m' = m_cols m /\ length (m_data m') = length (m_data m) /\
      near m' u = l /\ (forall u', u' <> u -> near m' u' = near m u') /\
      (Permutation l (near m u) -> forall u', Permutation (mrow m' u') (mrow m u')).
  Proof using.
    intros (G & L & _) Hu Ll. unfold m_write. rewrite Nat.add_0_r.
    assert (B : u * m_cols m + m_cols m <= length (m_data m)).
    { rewrite L. replace (u * m_cols m + m_cols m) with (S u * m_cols m) by lia. apply Nat.mul_le_mono_r. lia. }
    destruct (Nat.leb_spec (u * m_cols m + length l) (length (m_data m))); [|lia].
    eexists. split; [reflexivity|]. cbn [m_cols m_data]. split; auto. split.
    { rewrite !app_length, firstn_length, skipn_length. lia. }
    set (i := u * m_cols m) in *. set (dt := m_data m) in *.
    assert (Fi : length (firstn i dt) = i) by (rewrite firstn_length; lia).
    assert (NI0 : forall u' k, u' <> u -> k < m_cols m -> u' * m_cols m + k < i \/ i + length l <= u' * m_cols m + k).
    { intros u' k NE K. destruct (Nat.lt_ge_cases u' u) as [X|X].
      - left. assert (X1 : S u' * m_cols m <= i) by (apply Nat.mul_le_mono_r; lia). cbn in X1. lia.
      - right. assert (X1 : S u * m_cols m <= u' * m_cols m) by (apply Nat.mul_le_mono_r; lia). cbn in X1. fold i in X1. lia. }
    split; [|split].
    - unfold LocalSearch.near. cbn [m_cols m_data]. fold i. rewrite skipn_app, Fi, Nat.sub_diag.
      rewrite skipn_all2 by lia. cbn [app skipn]. rewrite <- Ll, firstn_app, Nat.sub_diag, firstn_all.
      cbn [firstn]. apply app_nil_r.
    - intros u' NE. unfold LocalSearch.near. cbn [m_cols m_data].
      apply nth_error_ext. intros k. destruct (Nat.lt_ge_cases k (c_granularity c)) as [K|K].
      2:{ rewrite !(proj2 (nth_error_None _ _)); auto; rewrite firstn_length; lia. }
      rewrite !nth_error_firstn_lt, !nth_error_skipn' by auto.
      assert (NI := NI0 u' k NE ltac:(lia)).
      destruct NI as [NI|NI].
      + rewrite nth_error_app1 by lia. apply nth_error_firstn_lt. auto.
      + rewrite nth_error_app2 by lia. rewrite nth_error_app2 by lia. rewrite nth_error_skipn'. f_equal. lia.
    - intros PL u'. unfold mrow. cbn [m_cols m_data]. destruct (Nat.eq_dec u' u) as [->|NE].
      + fold i. fold dt. rewrite skipn_app, Fi, Nat.sub_diag. rewrite skipn_all2 by lia. cbn [app skipn].
        unfold LocalSearch.near in PL. fold i dt in PL.
        set (tail := skipn (i + length l) dt) in *.
        assert (SP : skipn i dt = firstn (c_granularity c) (skipn i dt) ++ tail).
        { rewrite <- (firstn_skipn (c_granularity c) (skipn i dt)) at 1. f_equal. unfold tail. rewrite Ll.
          apply nth_error_ext. intros k. rewrite !nth_error_skipn'. f_equal. lia. }
        rewrite SP at 1. rewrite !firstn_app.
        assert (L2 : length (firstn (c_granularity c) (skipn i dt)) = length l)
          by (rewrite firstn_length, skipn_length; lia).
        rewrite (firstn_all2 l) by lia. rewrite (firstn_all2 (firstn _ _)) by lia. rewrite L2.
        apply Permutation_app_tail. exact PL.
      + fold dt. match goal with |- Permutation ?a ?b => assert (EQ : a = b); [|rewrite EQ; apply Permutation_refl] end.
        apply nth_error_ext. intros k. destruct (Nat.lt_ge_cases k (m_cols m)) as [K|K].
        2:{ rewrite !(proj2 (nth_error_None _ _)); auto; rewrite firstn_length; lia. }
        rewrite !nth_error_firstn_lt, !nth_error_skipn' by auto.
        destruct (NI0 u' k NE K) as [NI|NI].
        * rewrite nth_error_app1 by lia. apply nth_error_firstn_lt. auto.
        * rewrite nth_error_app2 by lia. rewrite nth_error_app2 by lia. rewrite nth_error_skipn'. f_equal. lia.
  Qed.

  Lemma base_set_corr s rs m : base s rs -> neighbours_ok p c m -> base (set_corr s m) rs.
  Proof using.
    intros [B1 [C1 C2 C3] B3 B4 B5 B6] NO. constructor; auto.
    - apply (holds_view p c pen s); auto. unfold same_view. cbn. auto 10.
    - constructor; auto.
  Qed.

  Lemma inv_set_corr s rs m : inv s rs -> neighbours_ok p c m ->
    (forall u, 0 < u < dim -> incl (near m u) (near (s_corr s) u)) -> inv (set_corr s m) rs.
  Proof using.
    intros [B1 B2 B3] NO S. constructor; auto.
    - apply base_set_corr; auto.
    - intros u v Hu I. apply (B2 u v Hu (S u Hu v I)).
  Qed.

  (** Every row keeps its neighbours, in some order. *)
  Record same_near (s s' : lsearch) : Prop := {
    sn_near : forall u, Permutation (near (s_corr s') u) (near (s_corr s) u);
    sn_cols : m_cols (s_corr s') = m_cols (s_corr s);
    sn_size : length (m_data (s_corr s')) = length (m_data (s_corr s));
    sn_row : forall u, Permutation (mrow (s_corr s') u) (mrow (s_corr s) u)
  }.
  Lemma same_near_refl s s' : s_corr s' = s_corr s -> same_near s s'.
  Proof using. intros E. constructor; rewrite ?E; auto. Qed.
  Lemma same_near_trans s1 s2 s3 : same_near s1 s2 -> same_near s2 s3 -> same_near s1 s3.
  Proof using.
    intros [A1 A2 A3 A4] [B1 B2 B3 B4]. constructor; [|congruence|congruence|]; intros u.
    - rewrite B1. auto.
    - rewrite B4. auto.
  Qed.

  (** ** One customer *)

  Hypothesis gran_pos : 0 < c_granularity c.

  Lemma try_u_ok lc k0 rs0 s rs imp r u : inv s rs -> went k0 rs0 s rs imp -> 0 < u < dim ->
    exists s' rs' imp' r', try_u p c pen lc (s, imp, r) u = Ok (s', imp', r') /\
      inv s' rs' /\ went k0 rs0 s' rs' imp' /\ same_near s s' /\
      (imp' = false -> imp = false /\ rs' = rs /\ s_count s' = s_count s /\
         n_tested (s_info s' (PN u)) = s_count s /\
         (forall u', u' <> u -> n_tested (s_info s' (PN u')) = n_tested (s_info s (PN u'))) /\
         (0 < lc -> calm_empty rs u)).
  Proof using zero_not_lt gran_pos.
    intros I W Hu. unfold try_u.
    pose proof (b_corr _ _ (i_base _ _ I)) as NO.
    rewrite near_slice by (auto; lia). cbn [rbind].
    destruct (range_usize_ok 0 (c_granularity c) r gran_pos) as (k & r1 & ->). cbn [rbind].
    (* the possibly shuffled row *)
    assert (SH : exists s1 cor r2,
      (if k =? 0 then
          let '(cor, r) := shuffle (near (s_corr s) u) r1 in
          m <- m_write (s_corr s) u 0 cor ;;
          Ok (set_corr s m, cor, r)
        else Ok (s, near (s_corr s) u, r1)) = Ok (s1, cor, r2) /\
      inv s1 rs /\ near (s_corr s1) u = cor /\ s_info s1 = s_info s /\ s_count s1 = s_count s /\ same_near s s1).
    { destruct (k =? 0); [|exists s, (near (s_corr s) u), r1; pose proof (same_near_refl s s eq_refl); auto 7].
      destruct (shuffle (near (s_corr s) u) r1) as [cor r2] eqn:ES. apply shuffle_perm in ES.
      destruct (near_write (s_corr s) u cor) as (m' & -> & M1 & M2 & M3 & M4 & M5); auto; [lia| |].
      { rewrite (Permutation_length ES). apply near_length; auto. lia. }
      cbn [rbind]. exists (set_corr s m'), cor, r2. split; auto.
      assert (IN : forall u', 0 < u' < dim -> incl (near m' u') (near (s_corr s) u')).
      { intros u' Hu' v Iv. destruct (Nat.eq_dec u' u) as [->|NE]; [|rewrite M4 in Iv; auto].
        rewrite M3 in Iv. apply (Permutation_in _ ES). auto. }
      assert (SN : same_near s (set_corr s m')).
      { constructor; cbn [set_corr s_corr]; auto. intros u'. destruct (Nat.eq_dec u' u) as [->|NE]; [rewrite M3; auto|rewrite M4; auto]. }
      split; [|auto]. apply inv_set_corr; auto.
      destruct NO as (G & L & NO). split; [lia|]. split; [congruence|].
      intros u' v Hu' Iv. apply NO; auto. apply IN; auto. }
    destruct SH as (s1 & cor & r2 & -> & I1 & EC & EI & EN & SN). cbn [rbind].
    unfold node_at. replace (u <? dim) with true by (symmetry; apply Nat.ltb_lt; lia). cbn [rbind].
    set (s2 := set_info s1 (pupd (s_info s1) (PN u) (set_tested (s_info s1 (PN u)) (s_count s1)))).
    set (last := n_tested (s_info s1 (PN u))).
    destruct I1 as [B1 P1 S1].
    assert (OTH : forall u', u' <> u -> n_tested (s_info s2 (PN u')) = n_tested (s_info s1 (PN u'))).
    { intros u' NE. unfold s2. cbn [set_info s_info]. rewrite pupd_other; auto. congruence. }
    assert (TU : n_tested (s_info s2 (PN u)) = s_count s1).
    { unfold s2. cbn [set_info s_info]. rewrite pupd_same. auto. }
    assert (VW : same_view s1 s2).
    { unfold same_view, s2. cbn [set_info s_links s_empty s_routes s_info]. do 3 (split; [auto 10|]).
      intros a. destruct (ptr_dec a (PN u)) as [->|NE]; [rewrite pupd_same|rewrite pupd_other by auto]; auto 10. }
    assert (B2 : base s2 rs).
    { destruct B1 as [C1 [C21 C22 C23] C3 C4 C5 C6]. constructor; auto.
      - apply (holds_view p c pen s1); auto.
      - constructor; auto.
      - intros u'. change (s_count s2) with (s_count s1). destruct (Nat.eq_dec u' u) as [->|NE].
        + rewrite TU. lia.
        + rewrite OTH; auto. }
    assert (V2 : vinv (s_corr s1) u (s_count s1) last [] s2 rs).
    { constructor; auto.
      - intros u' v Hu' NE Iv. rewrite OTH by auto. apply (P1 u' v); auto.
      - intros v [].
      - intros v Iv. apply (P1 u v); auto.
      - apply (b_tested _ _ B1). }
    assert (W2 : went k0 rs0 s2 rs imp).
    { destruct W as (n & T & K & Q). exists n. split; auto. split; auto. change (s_count s2) with (s_count s1). congruence. }
    assert (NR : n_route (s_info s1 (PN u)) = n_route (s_info s2 (PN u))).
    { destruct VW as (_ & _ & _ & X). symmetry. apply X. }
    rewrite NR.
    destruct (foldm_prefix (try_v p c pen lc (PN u) last)
      (fun d st => exists s' rs' imp', st = (s', n_route (s_info s' (PN u)), imp') /\
          vinv (s_corr s1) u (s_count s1) last d s' rs' /\ went k0 rs0 s' rs' imp' /\
          (imp' = false -> imp = false /\ s' = s2 /\ rs' = rs)) cor
      (s2, n_route (s_info s2 (PN u)), imp)) as (st & -> & (s3 & rs3 & imp3 & -> & V3 & W3 & F3)).
    { intros d v rest st EQ (s' & rs' & imp' & -> & V & W' & F).
      destruct (try_v_ok lc (s_corr s1) u (s_count s1) last k0 rs0 Hu d s' rs' imp' v)
        as (s'' & rs'' & imp'' & E & V'' & W'' & F''); auto.
      { rewrite EC, EQ. auto with datatypes. }
      eexists. split; [exact E|]. exists s'', rs'', imp''. split; auto. split; auto. split; auto.
      intros X. destruct (F'' X) as (Y & -> & ->). apply F. auto. }
    { exists s2, rs, imp. auto 6. }
    cbn [rbind].
    destruct (try_empty_ok lc s3 rs3 u) as (s4 & h & ES & T); [apply V3|auto|].
    (* the hash oracle does not matter *)
    assert (V4 : vinv (s_corr s1) u (s_count s1) last cor s4 rs3).
    { destruct ES as [->| ->]; auto. destruct V3 as [X1 X2 X3 X4 X5 X6 X7 X8]. constructor; auto.
      apply base_hash. auto. }
    assert (W4 : went k0 rs0 s4 rs3 imp3) by (destruct ES as [->| ->]; auto).
    assert (CI : s_count s4 = s_count s3 /\ s_info s4 = s_info s3) by (destruct ES as [->| ->]; auto).
    assert (DONE : forall dd s' rs', vinv (s_corr s1) u (s_count s1) last (cor ++ dd) s' rs' -> inv s' rs').
    { intros dd s' rs' V. destruct V as [X1 X2 X3 X4 X5 X6 X7 X8]. constructor; auto.
      intros u' v Hu' Iv. rewrite X2 in Iv. destruct (Nat.eq_dec u' u) as [->|NE]; [|auto].
      rewrite X3. apply X5. rewrite EC in Iv. apply in_or_app. auto. }
    destruct T as [(E & C)|(s5 & rs5 & q1 & q2 & E & A & IA)]; rewrite E; cbn [rbind].
    - exists s4, rs3, imp3, r2. rewrite orb_false_r. split; auto. split; [apply (DONE []); rewrite app_nil_r; auto|].
      split; auto. split; [eapply same_near_trans; [exact SN|apply same_near_refl; apply (v_corr _ _ _ _ _ _ _ V4)]|]. intros X. destruct (F3 X) as (Y1 & -> & ->). destruct CI as [CI1 CI2]. rewrite CI1, CI2.
      change (s_count s2) with (s_count s1). split; auto. split; auto. split; auto. split; [congruence|].
      split; [|auto]. intros u' NE. rewrite OTH by auto. rewrite EI. auto.
    - exists s5, rs5, true, r2. rewrite orb_true_r. split; auto.
      assert (V5 : vinv (s_corr s1) u (s_count s1) last (cor ++ [0]) s5 rs5)
        by (apply (vinv_advance (s_corr s1) u (s_count s1) last Hu cor s4 rs3 s5 rs5 q1 q2); auto).
      split; [apply (DONE [0]); auto|].
      split; [apply (went_advance k0 rs0 s4 rs3 imp3 s5 rs5 q1 q2); auto; apply V4|].
      split; [eapply same_near_trans; [exact SN|apply same_near_refl; apply (v_corr _ _ _ _ _ _ _ V5)]|discriminate].
  Qed.

  (** ** SWAP* *)

  Lemma star_advance s rs s' r1 r2 b l1 l2 d : holds s rs -> r1 < nv -> r2 < nv -> r1 <> r2 ->
    star p pen s rs r1 r2 b l1 l2 d -> approx_gte d f0 = false ->
    stepped (set_count s (s_count s + 1)%Z) s' (nupd (nupd rs r1 l1) r2 l2) r1 r2 ->
    advance s rs s' (nupd (nupd rs r1 l1) r2 l2) r1 r2.
  Proof using gran_pos.
    intros H H1 H2 NE ST L SP. split; [|split; [exact SP|split; [auto|split; [auto|]]]].
    - apply (gs_star rs _ s r1 r2 b l1 l2 d); auto.
    - intros r N1 N2. rewrite !nupd_other; auto.
  Qed.

  Section Row.
    Variables (lc r1 : nat) (t0 last : Z) (k0 : Z) (rs0 : nat -> list nat).
    Hypothesis H1 : r1 < nv.

    Record rinv (d : list nat) (s : lsearch) (rs : nat -> list nat) : Prop := {
      q_base : base s rs;
      q_pairs : forall u v, 0 < u < dim -> In v (near (s_corr s) u) ->
        settled s rs u v (n_tested (s_info s (PN u)));
      q_time : r_tss (s_routes s r1) = t0;
      q_others : forall a b, a < b -> b < nv -> a <> r1 ->
        (s_count s <= r_tss (s_routes s a))%Z -> squiet rs a b;
      q_done : forall b, In b d -> (s_count s <= t0)%Z -> squiet rs r1 b;
      q_old : forall b, r1 < b -> b < nv -> (s_count s <= last)%Z -> squiet rs r1 b;
      q_last : (last <= s_count s)%Z
    }.

    Lemma rinv_advance d d' s rs s' rs' a b : rinv d s rs -> advance s rs s' rs' a b -> rinv d' s' rs'.
    Proof using H1 gran_pos.
      intros [V1 V2 V3 V4 V5 V6 V7] A. destruct (advance_base _ _ _ _ _ _ V1 A) as (B & E1 & E2 & E3 & E4 & E5).
      pose proof (b_tss _ _ V1) as TS.
      constructor; auto.
      - intros u v Hu Iv. rewrite E4. rewrite E2 in Iv. apply (advance_settled s rs s' rs' a b); auto.
        apply (b_tested _ _ V1).
      - rewrite E5. auto.
      - intros x y L1 L2 NE. rewrite E1, E5. intros L. exfalso. specialize (TS x ltac:(lia)). lia.
      - intros y _ L. exfalso. specialize (TS r1 H1). lia.
      - intros y _ _ L. exfalso. lia.
      - lia.
    Qed.

    Lemma base_prepared s s' rs : prepared s s' -> caches s' rs -> base s rs -> base s' rs.
    Proof using gran_pos.
      intros P C [B1 B2 B3 B4 B5 B6]. pose proof P as (P1 & P2 & P3 & P4 & P5 & P6 & P7 & P8). constructor; auto.
      - apply (holds_view p c pen s); auto. apply prepared_view. auto.
      - rewrite P3. auto.
      - rewrite P4. auto.
      - intros u. rewrite P5. destruct (P8 (PN u)) as (_ & _ & _ & _ & ->). auto.
      - intros r Hr. rewrite P5, P2. auto.
    Qed.

    Lemma rinv_prepared d s s' rs : prepared s s' -> caches s' rs -> rinv d s rs -> rinv d s' rs.
    Proof using gran_pos.
      intros P C [V1 V2 V3 V4 V5 V6 V7]. pose proof P as (P1 & P2 & P3 & P4 & P5 & P6 & P7 & P8).
      constructor; rewrite ?P5, ?P2; auto.
      - eapply base_prepared; eauto.
      - intros u v Hu Iv. rewrite P4 in Iv. destruct (P8 (PN u)) as (_ & _ & _ & _ & ->).
        intros ru rv Hru Hrv Iu Iv' Mu Mv. rewrite P2 in Mu, Mv. apply (V2 u v Hu Iv ru rv); auto.
    Qed.

    Lemma rinv_add d s rs r2 : rinv d s rs -> squiet rs r1 r2 \/ ~ (s_count s <= t0)%Z -> rinv (d ++ [r2]) s rs.
    Proof using gran_pos.
      intros [V1 V2 V3 V4 V5 V6 V7] Q. constructor; auto.
      intros b I L. apply in_app_or in I. destruct I as [I|[<-|[]]]; [auto|]. destruct Q as [Q|Q]; [auto|contradiction].
    Qed.

    Definition still (s s' : lsearch) : Prop :=
      s_count s' = s_count s /\ (forall a, n_tested (s_info s' a) = n_tested (s_info s a)) /\
      (forall r, r_tss (s_routes s' r) = r_tss (s_routes s r)).

    Lemma swap_star_pair_ok d s rs imp r2 : rinv d s rs -> went k0 rs0 s rs imp -> r1 < r2 < nv ->
      exists s' rs' imp', swap_star_pair p pen lc r1 last (s, imp) r2 = Ok (s', imp') /\
        rinv (d ++ [r2]) s' rs' /\ went k0 rs0 s' rs' imp' /\ s_corr s' = s_corr s /\
        (imp' = false -> imp = false /\ rs' = rs /\ still s s').
    Proof using H1 gran_pos.
      intros V W [L12 H2]. pose proof (q_base _ _ _ V) as B. pose proof (b_holds _ _ B) as H.
      assert (STAY : squiet rs r1 r2 \/ ~ (s_count s <= t0)%Z ->
        exists s' rs' imp', Ok (s, imp) = Ok (s', imp') /\
        rinv (d ++ [r2]) s' rs' /\ went k0 rs0 s' rs' imp' /\ s_corr s' = s_corr s /\
        (imp' = false -> imp = false /\ rs' = rs /\ still s s')).
      { intros Q. exists s, rs, imp. split; auto. split; [apply rinv_add; auto|]. split; auto. split; auto.
        unfold still. auto 8. }
      destruct (h_cached _ _ _ _ _ H r1 H1) as [_ (C1 & _ & _ & _ & _ & S1)].
      destruct (h_cached _ _ _ _ _ H r2 H2) as [_ (C2 & _ & _ & _ & _ & S2)].
      unfold swap_star_pair. unfold lr_empty at 1 2. rewrite C1, C2, S1, S2.
      destruct (rs r1) as [|x1 t1] eqn:E1; cbn [length Nat.eqb negb andb].
      { apply STAY. left. intros z _ _ NE. congruence. }
      destruct (rs r2) as [|x2 t2] eqn:E2; cbn [length Nat.eqb negb andb].
      { apply STAY. left. intros z _ _ _ NE. congruence. }
      rewrite <- E1, <- E2 in *.
      replace (r1 <? r2) with true by (symmetry; apply Nat.ltb_lt; auto). cbn [andb].
      destruct ((lc =? 0) || (last <? Z.max (r_tss (s_routes s r1)) (r_tss (s_routes s r2)))%Z) eqn:GO.
      2:{ apply STAY. apply orb_false_iff in GO. destruct GO as [_ GO]. apply Z.ltb_ge in GO.
          rewrite (q_time _ _ _ V) in GO.
          destruct (Z_le_dec (s_count s) t0) as [X|X]; auto. left. apply (q_old _ _ _ V); auto. lia. }
      fold (sector_of (rs r1)). fold (sector_of (rs r2)).
      destruct (overlaps (sector_of (rs r1)) (sector_of (rs r2))) eqn:OV.
      2:{ apply STAY. left. intros z _ _ _ _ X. congruence. }
      destruct (swap_star_run_ok p c pen s rs r1 r2) as (s1 & P & CA & [E|(s' & b & l1 & l2 & dd & E & ST & L & SP)]);
        auto; [apply B|lia| |].
      - rewrite E. cbn [rbind]. rewrite orb_false_r.
        exists s1, rs, imp. split; auto. split.
        { apply rinv_add; [apply (rinv_prepared d s s1); auto|]. left. intros z Hz Cz _ _ _.
          apply (swap_star_quiet p c pen s z rs r1 r2 s1); auto; [apply B|lia]. }
        pose proof P as (P1 & P2 & P3 & P4 & P5 & P6 & P7 & P8).
        split; [destruct W as (n & T & K & Q); exists n; rewrite P5; auto|]. split; auto.
        intros X. split; auto. split; auto. split; auto. split; [intros a; apply P8|]. intros r. rewrite P2. auto.
      - rewrite E. cbn [rbind]. rewrite orb_true_r.
        pose proof (rinv_prepared d s s1 rs P CA V) as V1.
        assert (A : advance s1 rs s' (nupd (nupd rs r1 l1) r2 l2) r1 r2).
        { apply (star_advance s1 rs s' r1 r2 b l1 l2 dd); auto; [apply V1|lia]. }
        assert (W1 : went k0 rs0 s1 rs imp).
        { destruct P as (_ & _ & _ & _ & P5 & _). destruct W as (n & T & K & Q). exists n. rewrite P5. auto. }
        exists s', (nupd (nupd rs r1 l1) r2 l2), true. split; auto.
        split; [apply (rinv_advance d _ s1 rs s' _ r1 r2); auto|].
        split; [apply (went_advance k0 rs0 s1 rs imp s' _ r1 r2); auto; apply V1|].
        split; [|discriminate].
        destruct (advance_base s1 rs s' _ r1 r2 (q_base _ _ _ V1) A) as (_ & _ & -> & _).
        destruct P as (_ & _ & _ & P4 & _). auto.
    Qed.
  End Row.

  Lemma swap_star_row_ok lc k0 rs0 s rs imp r1 : inv s rs -> went k0 rs0 s rs imp -> r1 < nv ->
    exists s' rs' imp', swap_star_row p c pen lc (s, imp) r1 = Ok (s', imp') /\
      inv s' rs' /\ went k0 rs0 s' rs' imp' /\ s_corr s' = s_corr s /\
      (imp' = false -> imp = false /\ rs' = rs /\ s_count s' = s_count s /\
         (forall a, n_tested (s_info s' a) = n_tested (s_info s a)) /\
         r_tss (s_routes s' r1) = s_count s /\
         (forall r, r <> r1 -> r_tss (s_routes s' r) = r_tss (s_routes s r))).
  Proof using gran_pos.
    intros [B P S] W H1. unfold swap_star_row.
    set (last := r_tss (s_routes s r1)).
    set (s1 := set_routes s (nupd (s_routes s) r1 (set_tss (s_routes s r1) (s_count s)))).
    assert (RT : forall r, r_mod (s_routes s1 r) = r_mod (s_routes s r)).
    { intros r. unfold s1. cbn [set_routes s_routes]. unfold nupd. destruct (r =? r1) eqn:E; auto.
      apply Nat.eqb_eq in E. subst. auto. }
    assert (TO : forall r, r <> r1 -> r_tss (s_routes s1 r) = r_tss (s_routes s r)).
    { intros r NE. unfold s1. cbn [set_routes s_routes]. rewrite nupd_other; auto. }
    assert (TS : r_tss (s_routes s1 r1) = s_count s).
    { unfold s1. cbn [set_routes s_routes]. rewrite nupd_same. auto. }
    assert (B1 : base s1 rs).
    { destruct B as [C1 [C21 C22 C23] C3 C4 C5 C6]. constructor; auto.
      - apply (holds_view p c pen s); auto. unfold same_view. cbn [s1 set_routes s_links s_empty s_routes s_info].
        do 2 (split; [auto|]). split; [|auto 10]. intros r. unfold s1. cbn [set_routes s_routes]. unfold nupd.
        destruct (r =? r1) eqn:E; [apply Nat.eqb_eq in E; subst|]; cbn; auto 10.
      - constructor; intros; rewrite ?RT in *; [apply C21|apply C22|apply C23]; auto.
      - intros r Hr. change (s_count s1) with (s_count s).
        destruct (Nat.eq_dec r r1) as [->|NE]; [rewrite TS; lia|rewrite TO; auto]. }
    destruct (foldm_prefix (swap_star_pair p pen lc r1 last)
      (fun d st => exists s' rs' imp', st = (s', imp') /\ rinv r1 (s_count s) last d s' rs' /\
         went k0 rs0 s' rs' imp' /\ s_corr s' = s_corr s /\ (imp' = false -> imp = false /\ rs' = rs /\ still s1 s'))
      (seq (r1 + 1) (nv - (r1 + 1))) (s1, imp)) as (st & -> & (s' & rs' & imp' & -> & V & W' & EC & F)).
    { intros d r2 rest st EQ (s' & rs' & imp' & -> & V & W' & EC & F).
      assert (I2 : In r2 (seq (r1 + 1) (nv - (r1 + 1)))) by (rewrite EQ; auto with datatypes).
      apply in_seq in I2.
      destruct (swap_star_pair_ok lc r1 (s_count s) last k0 rs0 H1 d s' rs' imp' r2)
        as (s'' & rs'' & imp'' & E & V'' & W'' & EC'' & F''); auto; [lia|].
      eexists. split; [exact E|]. exists s'', rs'', imp''. split; auto. split; auto. split; auto. split; [congruence|].
      intros X. destruct (F'' X) as (Y & -> & (Z1 & Z2 & Z3)). destruct (F Y) as (Q1 & Q2 & (Q3 & Q4 & Q5)).
      split; auto. split; auto. split; [congruence|]. split; intros; [rewrite Z2|rewrite Z3]; auto. }
    { exists s1, rs, imp. split; auto. split; [|split; auto; split; auto; unfold still; auto 8].
      constructor; auto.
      - intros u v Hu Iv ru rv Hru Hrv Iu Iv' Mu Mv. rewrite RT in Mu, Mv. apply (P u v Hu Iv ru rv); auto.
      - intros a b L1 L2 NE. rewrite TO by auto. intros L. apply (S a b); auto.
      - intros b [].
      - apply (b_tss _ _ B). auto. }
    exists s', rs', imp'. split; auto. split.
    { destruct V as [V1 V2 V3 V4 V5 V6 V7]. constructor; auto.
      intros a b L1 L2 L. destruct (Nat.eq_dec a r1) as [->|NE]; [|apply (V4 a b); auto].
      apply V5; [apply in_seq; lia|lia]. }
    split; auto. split; auto. intros X. destruct (F X) as (Q1 & Q2 & (Q3 & Q4 & Q5)).
    split; auto. split; auto. split; auto. split; auto. split; [rewrite Q5; auto|].
    intros r NE. rewrite Q5. auto.
  Qed.

  (** ** The passes *)

  (** No pair of neighbours, and (if it was looked at) no empty route and no pair of routes, has
      an improving move. *)
  Record optimal (lc : nat) (m : matrix nat) (rs : nat -> list nat) : Prop := {
    op_pairs : forall u v, 0 < u < dim -> In v (near m u) -> quiet rs u v;
    op_empty : 0 < lc -> forall u, 0 < u < dim -> calm_empty rs u;
    op_stars : c_swap_star c = true -> forall r1 r2, r1 < r2 < nv -> squiet rs r1 r2
  }.

  Definition next_lc (lc : nat) : nat := if c_swap_star c then S lc else lc.

  Lemma base_set_cust s rs l : base s rs -> Permutation l (seq 1 (dim - 1)) -> base (set_cust s l) rs.
  Proof using gran_pos.
    intros [B1 [C1 C2 C3] B3 B4 B5 B6] NO. constructor; auto.
    - apply (holds_view p c pen s); auto. unfold same_view. cbn. auto 10.
    - constructor; auto.
  Qed.

  Lemma search_pass_ok lc s rs r : inv s rs ->
    exists s' rs' imp r', search_pass p c pen lc s r = Ok (s', imp, next_lc lc, r') /\
      inv s' rs' /\ went (s_count s) rs s' rs' imp /\ same_near s s' /\
      (imp = false -> optimal lc (s_corr s) rs').
  Proof using zero_not_lt gran_pos.
    intros I. unfold search_pass. destruct (shuffle (s_cust s) r) as [cust r1] eqn:ES. apply shuffle_perm in ES.
    assert (PC : Permutation cust (seq 1 (dim - 1))).
    { rewrite ES. apply (b_cust _ _ (i_base _ _ I)). }
    set (s1 := set_cust s cust).
    assert (I1 : inv s1 rs).
    { destruct I as [B P S]. constructor; auto. apply base_set_cust; auto. }
    assert (IC : forall u, In u cust <-> 0 < u < dim).
    { intros u. rewrite PC, in_seq. lia. }
    destruct (foldm_prefix (try_u p c pen lc)
      (fun d st => exists s' rs' imp r', st = (s', imp, r') /\ inv s' rs' /\ went (s_count s) rs s' rs' imp /\
         same_near s s' /\
         (imp = false -> rs' = rs /\ s_count s' = s_count s /\
            forall u, In u d -> n_tested (s_info s' (PN u)) = s_count s /\ (0 < lc -> calm_empty rs u)))
      cust (s1, false, r1)) as (st & -> & (s2 & rs2 & imp2 & r2 & -> & I2 & W2 & N2 & F2)).
    { intros d u rest st EQ (s' & rs' & imp & r' & -> & I' & W' & N' & F').
      assert (Hu : 0 < u < dim) by (apply IC; rewrite EQ; auto with datatypes).
      destruct (try_u_ok lc (s_count s) rs s' rs' imp r' u I' W' Hu)
        as (s'' & rs'' & imp'' & r'' & E & I'' & W'' & N'' & F'').
      eexists. split; [exact E|]. exists s'', rs'', imp'', r''. split; auto. split; auto. split; auto.
      split; [eapply same_near_trans; eauto|].
      intros X. destruct (F'' X) as (Y & -> & Z1 & Z2 & Z3 & Z4). destruct (F' Y) as (-> & Q1 & Q2).
      split; auto. split; [congruence|]. intros x Ix.
      destruct (Nat.eq_dec x u) as [->|NE]; [split; [congruence|auto]|].
      rewrite Z3 by auto. apply Q2. apply in_app_or in Ix. destruct Ix as [Ix|[->|[]]]; [auto|congruence]. }
    { exists s1, rs, false, r1. split; auto. split; auto. split; [exists 0; split; [apply tr_nil|split; [cbn; lia|auto]]|].
      split; [apply same_near_refl; auto|]. intros _. split; auto. split; auto. intros u []. }
    cbn [rbind].
    (* what a pass without improvement says about the pairs *)
    assert (QP : forall s', inv s' rs -> s_count s' = s_count s -> same_near s s' ->
              (forall u, In u cust -> n_tested (s_info s' (PN u)) = s_count s) ->
              forall u v, 0 < u < dim -> In v (near (s_corr s) u) -> quiet rs u v).
    { intros s' I' K' N' T' u v Hu Iv.
      assert (Iv' : In v (near (s_corr s') u)) by (apply (Permutation_in _ (Permutation_sym (sn_near _ _ N' u))); auto).
      pose proof (i_base _ _ I') as B'. pose proof (b_holds _ _ B') as H'.
      destruct (serves_find p c rs (h_serves _ _ _ _ _ H') u Hu) as (ru & Hru & Iu).
      assert (Hv : 0 < v < dim) by (destruct (b_corr _ _ B') as (_ & _ & NO); apply (NO u v); auto).
      destruct (serves_find p c rs (h_serves _ _ _ _ _ H') v Hv) as (rv & Hrv & Ivv).
      apply (i_pairs _ _ I' u v Hu Iv' ru rv); auto; rewrite T' by (apply IC; auto); rewrite <- K';
        apply (ca_mod _ _ _ _ (b_caches _ _ B')); auto. }
    unfold next_lc. destruct (c_swap_star c) eqn:SW.
    - destruct (foldm_prefix (swap_star_row p c pen lc)
        (fun d st => exists s' rs' imp', st = (s', imp') /\ inv s' rs' /\ went (s_count s) rs s' rs' imp' /\
           s_corr s' = s_corr s2 /\
           (imp' = false -> imp2 = false /\ rs' = rs2 /\ s_count s' = s_count s2 /\
              (forall a, n_tested (s_info s' a) = n_tested (s_info s2 a)) /\
              forall r, In r d -> r_tss (s_routes s' r) = s_count s2))
        (seq 0 nv) (s2, imp2)) as (st & -> & (s3 & rs3 & imp3 & -> & I3 & W3 & EC3 & F3)).
      { intros d a rest st EQ (s' & rs' & imp' & -> & I' & W' & EC' & F').
        assert (Ha : In a (seq 0 nv)) by (rewrite EQ; auto with datatypes). apply in_seq in Ha.
        destruct (swap_star_row_ok lc (s_count s) rs s' rs' imp' a I' W') as (s'' & rs'' & imp'' & E & I'' & W'' & EC'' & F'');
          [lia|].
        eexists. split; [exact E|]. exists s'', rs'', imp''. split; auto. split; auto. split; auto. split; [congruence|].
        intros X. destruct (F'' X) as (Y & -> & Z1 & Z2 & Z3 & Z4). destruct (F' Y) as (Q0 & -> & Q1 & Q2 & Q3).
        split; auto. split; auto. split; [congruence|]. split; [intros z; rewrite Z2; auto|].
        intros x Ix. destruct (Nat.eq_dec x a) as [->|NE]; [congruence|]. rewrite Z4 by auto. apply Q3.
        apply in_app_or in Ix. destruct Ix as [Ix|[->|[]]]; [auto|congruence]. }
      { exists s2, rs2, imp2. split; auto. split; auto. split; auto. split; auto. intros X.
        split; auto. split; auto. split; auto. split; auto. intros x []. }
      cbn [rbind]. exists s3, rs3, imp3, r2. split; auto. split; auto. split; auto.
      assert (N3 : same_near s s3) by (eapply same_near_trans; [exact N2|apply same_near_refl; auto]).
      split; auto. intros X. destruct (F3 X) as (Y & -> & Q1 & Q2 & Q3). destruct (F2 Y) as (-> & Z1 & Z2).
      constructor.
      + apply (QP s3); auto; [congruence|]. intros u Iu. rewrite Q2. apply Z2. auto.
      + intros L u Hu. apply Z2; auto. apply IC. auto.
      + intros _ a b [L1 L2]. apply (i_stars _ _ I3 a b); auto. rewrite Q3; [lia|apply in_seq; lia].
    - exists s2, rs2, imp2, r2. split; auto. split; auto. split; auto. split; auto.
      intros X. destruct (F2 X) as (-> & Z1 & Z2). constructor.
      + apply (QP s2); auto. intros u Iu. apply Z2. auto.
      + intros L u Hu. apply Z2; auto. apply IC. auto.
      + congruence.
  Qed.

  Lemma optimal_near lc m m' rs : (forall u, Permutation (near m u) (near m' u)) -> optimal lc m rs -> optimal lc m' rs.
  Proof using gran_pos.
    intros P [A B C]. constructor; auto. intros u v Hu I. apply A; auto.
    apply (Permutation_in _ (Permutation_sym (P u))). auto.
  Qed.

  Theorem search_ok fuel : forall lc s rs r, inv s rs ->
    (exists s' r' rs' n lc', search p c pen fuel lc s r = Ok (s', r') /\ inv s' rs' /\ trace n rs rs' /\
       s_count s' = (s_count s + Z.of_nat n)%Z /\ same_near s s' /\ optimal lc' (s_corr s) rs' /\
       lc <= lc' /\ (c_swap_star c = true -> 0 < n -> 0 < lc')) \/
    (search p c pen fuel lc s r = Err EFuel /\ exists rs' n s', trace n rs rs' /\ fuel <= n /\ holds s' rs').
  Proof using zero_not_lt gran_pos.
    induction fuel as [|fuel IH]; intros lc s rs r I; cbn [search].
    - right. split; auto. exists rs, 0, s. split; [apply tr_nil|]. split; [auto|exact (b_holds _ _ (i_base _ _ I))].
    - destruct (search_pass_ok lc s rs r I) as (s1 & rs1 & imp & r1 & -> & I1 & (n & T & K & Q) & N1 & F).
      cbn [rbind]. destruct imp.
      + destruct n as [|n]; [discriminate|].
        destruct (IH (next_lc lc) s1 rs1 r1 I1) as [(s2 & r2 & rs2 & m & lc2 & E & I2 & T2 & K2 & N2 & O & L1 & L2)
                                                   |(E & rs2 & m & s2 & T2 & L & H2)].
        * left. exists s2, r2, rs2, (m + S n), lc2. split; auto. split; auto. split; [eapply trace_app; eauto|].
          split; [lia|]. split; [eapply same_near_trans; eauto|].
          split; [apply (optimal_near lc2 (s_corr s1)); [apply (sn_near _ _ N1)|auto]|].
          unfold next_lc in L1. split; [destruct (c_swap_star c); lia|].
          intros SW _. rewrite SW in L1. lia.
        * right. split; auto. exists rs2, (m + S n), s2. split; [eapply trace_app; eauto|]. split; [lia|exact H2].
      + left. destruct n as [|n]; [|discriminate]. exists s1, r1, rs1, 0, lc. split; auto. split; auto. split; auto.
        split; auto. split; auto. split; auto. split; [auto|lia].
  Qed.
End Search.
