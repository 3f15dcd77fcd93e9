(** Loading a solution into the local search, reading it back, and the whole run. *)
From Coq Require Import List Arith ZArith Bool Permutation Lia.
From Verif.Model Require Import Num Prelude Evaluate Individual Config Sector Random Matrix LinkedList LocalSearch.
From Verif.Spec Require Import Solution LocalSearch.
From Verif.Proofs Require Import Lists EvalFacts SplitStruct LinkFacts LsState LsMoves LsStar LsSearch.
Import ListNotations.
Open Scope nat_scope.
Open Scope res_scope.

Section Run.
  Context {N : Num}.
  Variable p : problem.
  Variable c : config.
  Variable pen : F.
  Notation dim := (p_dim p).
  Notation nv := (c_num_vehicles c).
  Notation cached := (cached p pen).

  (** What a search must keep between runs: a new one has it, and every run leaves it. *)
  Record ls_ready (s : lsearch) : Prop := {
    lr_end : forall r, r < nv -> l_succ (s_links s) (PE r) = None;
    lr_start : forall r, r < nv -> n_cumd (s_info s (PS r)) = f0 /\ n_cuml (s_info s (PS r)) = f0;
    lr_cust : Permutation (s_cust s) (seq 1 (dim - 1));
    lr_corr : neighbours_ok p c (s_corr s);
    lr_set : forall r, In r (s_empty s) -> r < nv
  }.

  Lemma ls_new_ready corr hash : neighbours_ok p c corr -> ls_ready (ls_new p corr hash).
  Proof. intros H. constructor; cbn; auto. intros r []. Qed.

  Lemma link_route_eq r route : forall h, (forall n, In n route -> n < dim) ->
    link_route p h r route = Ok (do_links h (pairs (stops r route))).
  Proof.
    intros h H. unfold link_route, stops. generalize (PS r) as a. revert h.
    induction route as [|n route IH]; intros h a.
    - reflexivity.
    - cbn [foldm rbind]. unfold node_at at 1. rewrite (proj2 (Nat.ltb_lt n dim)) by (apply H; left; auto).
      cbn [rbind]. rewrite IH by (intros; apply H; right; auto). reflexivity.
  Qed.

  Lemma runs_frame h h' r l :
    (forall a, In a (stops r l) -> l_succ h' a = l_succ h a /\ l_pred h' a = l_pred h a) ->
    runs h r l -> runs h' r l.
  Proof.
    intros F (R1 & R2 & R3). split; [|split].
    - intros A a b B E. destruct (R1 A a b B E) as [G1 G2].
      destruct (F a) as [F1 _]; [rewrite E, in_app_iff; right; left; auto|].
      destruct (F b) as [_ F2]; [rewrite E, in_app_iff; right; right; left; auto|].
      rewrite F1, F2; auto.
    - destruct (F (PS r)) as [_ ->]; auto. apply in_stops; auto.
    - destruct (F (PE r)) as [-> _]; auto. apply in_stops; auto.
  Qed.

  (** Routes [0..k) have been loaded. *)
  Record loaded_upto (s : lsearch) (rs : nat -> list nat) (k : nat) : Prop := {
    ld_ready : ls_ready s;
    ld_runs : forall r, r < k -> runs (s_links s) r (rs r);
    ld_cached : forall r, r < k -> cached s r (rs r);
    ld_mod : forall r, r < k -> r_mod (s_routes s r) = 0%Z;
    ld_tss : forall r, r < k -> r_tss (s_routes s r) = (-1)%Z;
    ld_calc : forall r n, r < k -> t_calc (s_best s r n) = (-1)%Z;
    ld_empty : forall r, r < k -> (In r (s_empty s) <-> rs r = []);
    ld_tested : forall u, n_tested (s_info s (PN u)) = (-1)%Z;
    ld_count : s_count s = 0%Z
  }.

  Lemma load_route_ok s rs k :
    k < nv -> (forall r n, r < nv -> In n (rs r) -> 0 < n < dim) ->
    (forall r, r < nv -> NoDup (rs r)) ->
    (forall r r' n, r < nv -> r' < nv -> r <> r' -> In n (rs r) -> ~ In n (rs r')) ->
    loaded_upto s rs k ->
    exists s', load_route p c pen s (k, rs k) = Ok s' /\ loaded_upto s' rs (S k) /\ s_corr s' = s_corr s.
  Proof.
    intros Hk HB HN HD [[E1 E2 E3 E4 E5] L1 L2 L3 L4 L5 L6 L7 L8]. unfold load_route.
    rewrite (proj2 (Nat.ltb_lt _ _) Hk).
    rewrite link_route_eq by (intros n I; apply (HB k n); auto). cbn [rbind].
    set (h := do_links (s_links s) (pairs (stops k (rs k)))).
    set (s1 := set_best _ _).
    assert (NDS := stops_NoDup k (rs k) (HN k Hk)).
    assert (SG : seg h (stops k (rs k))) by (apply do_links_pairs; auto).
    assert (HS : forall z, ~ In z (pre k (rs k)) -> l_succ h z = l_succ (s_links s) z).
    { intros z Z. apply do_links_succ. rewrite pairs_fst. rewrite stops_pre, removelast_last. auto. }
    assert (HP : forall z, ~ In z (suf k (rs k)) -> l_pred h z = l_pred (s_links s) z).
    { intros z Z. apply do_links_pred. rewrite pairs_snd. rewrite stops_nil_suf. auto. }
    assert (OUT : forall r a, r < nv -> r <> k -> In a (stops r (rs r)) -> ~ In a (stops k (rs k))).
    { intros r a Hr NE. apply stops_disjoint; auto. intros n. apply (HD r k); auto. }
    assert (NPE : forall r, ~ In (PE r) (pre k (rs k))).
    { intros r I. unfold pre in I. destruct I as [I|I]; [discriminate|].
      apply in_map_iff in I. destruct I as (? & ? & _). discriminate. }
    assert (HE : forall r, r < nv -> l_succ h (PE r) = None).
    { intros r Hr. rewrite HS; auto. }
    assert (LEN : length (rs k) <= dim).
    { apply Nat.le_trans with (length (seq 0 dim)); [|rewrite seq_length; auto].
      apply NoDup_incl_length; auto. intros n I. apply in_seq. specialize (HB k n Hk I). lia. }
    destruct (update_route_ok p pen s1 k (rs k)) as (s2 & -> & U); auto.
    { change (s_links s1) with h. apply seg_fpath; auto. }
    { intros n I. apply (HB k n); auto. }
    { apply (E2 k Hk). }
    { apply (E2 k Hk). }
    destruct U as [U1 U2 U3 U4 U5 U6 U7 U8 U9 U10 U11 U12 U13].
    change (s_links s1) with h in U1.
    assert (QS : forall z, l_succ (s_links s2) z = if ptr_eqb z (PE k) then None else l_succ h z) by (rewrite U1; reflexivity).
    assert (QP : forall z, l_pred (s_links s2) z = if ptr_eqb z (PS k) then None else l_pred h z) by (rewrite U1; reflexivity).
    exists s2. split; auto. split; [|rewrite U8; auto].
    assert (RN : forall r, r < k -> r < nv) by (intros; lia).
    constructor.
    - constructor.
      + intros r Hr. rewrite QS. destruct (ptr_eqb _ _); auto.
      + intros r Hr. destruct (Nat.eq_dec r k) as [->|NE].
        * apply (cached_start p pen _ _ (rs k)); auto.
        * rewrite U2; [apply (E2 r Hr)|]. apply (OUT r); auto. apply in_stops; auto.
      + rewrite U7; auto.
      + rewrite U8; auto.
      + intros r I. apply U13 in I. destruct I as [[-> _]|[_ I]]; auto.
    - intros r Hr. destruct (Nat.eq_dec r k) as [->|NE].
      + apply runs_seg. rewrite QS, QP, !ptr_eqb_refl. split; auto. apply seg_pairs. intros a b I.
        destruct (proj1 (seg_pairs _ _) SG a b I) as [G1 G2].
        assert (I1 : In a (pre k (rs k))).
        { apply (in_map fst) in I. rewrite pairs_fst, stops_pre, removelast_last in I. auto. }
        assert (I2 : In b (suf k (rs k))).
        { apply (in_map snd) in I. rewrite pairs_snd, stops_nil_suf in I. auto. }
        split; rewrite ?QS, ?QP, (proj2 (ptr_eqb_neq _ _)); auto; intros ->.
        * apply (NPE k); auto.
        * rewrite stops_nil_suf in NDS. inversion NDS; auto.
      + apply (runs_frame (s_links s)); [|apply L1; lia]. intros a I.
        assert (NI : ~ In a (stops k (rs k))) by (apply (OUT r); auto; lia).
        rewrite QS, QP, HS, HP.
        * rewrite !(proj2 (ptr_eqb_neq _ _)); auto; intros ->; apply NI, in_stops; auto.
        * intros J. apply NI. rewrite stops_nil_suf. right; auto.
        * intros J. apply NI. rewrite stops_pre, in_app_iff. left; auto.
    - intros r Hr. destruct (Nat.eq_dec r k) as [->|NE]; auto.
      apply (cached_frame p pen s); auto; [|rewrite U4 by auto|apply L2; lia].
      + intros a I. rewrite U2; auto. apply (OUT r); auto; lia.
      + unfold s1. cbn. apply nupd_other; auto.
    - intros r Hr. destruct (Nat.eq_dec r k) as [->|NE]; [rewrite U5; exact L8|].
      rewrite U4 by auto. unfold s1. cbn. rewrite nupd_other by auto. apply L3; lia.
    - intros r Hr. destruct (Nat.eq_dec r k) as [->|NE].
      + rewrite U6. unfold s1. cbn. rewrite nupd_same. reflexivity.
      + rewrite U4 by auto. unfold s1. cbn. rewrite nupd_other by auto. apply L4; lia.
    - intros r n Hr. rewrite U10. unfold s1. cbn. destruct (Nat.eq_dec r k) as [->|NE].
      + rewrite nupd_same. reflexivity.
      + rewrite nupd_other by auto. apply L5; lia.
    - intros r Hr. rewrite U13. destruct (Nat.eq_dec r k) as [->|NE]; [split; [tauto|auto]; intros [[_ ?]|[? _]]; tauto|].
      split.
      + intros [[? _]|[_ I]]; [tauto|]. apply L6; auto; lia.
      + intros I. right. split; auto. apply L6; auto; lia.
    - intros u. rewrite U12. apply L7.
    - rewrite U9. exact L8.
  Qed.
  Lemma foldm_combine {A S} (f : S -> nat * A -> res S) (P : S -> nat -> Prop) (d : A) (l : list A) :
    (forall s k, k < length l -> P s k -> exists s', f s (k, nth k l d) = Ok s' /\ P s' (Datatypes.S k)) ->
    forall s, P s 0 -> exists s', foldm f (combine (seq 0 (length l)) l) s = Ok s' /\ P s' (length l).
  Proof using.
    intros Hstep s H0.
    assert (G : forall m k s, P s k -> k + length m = length l -> skipn k l = m ->
              exists s', foldm f (combine (seq k (length m)) m) s = Ok s' /\ P s' (length l)).
    { induction m as [|a m IH]; intros k s1 HP HL HS; cbn [length seq combine foldm].
      - exists s1. split; auto. cbn in HL. rewrite Nat.add_0_r in HL. subst; auto.
      - assert (HN : nth k l d = a).
        { rewrite <- (firstn_skipn k l), HS, app_nth2; rewrite firstn_length_le by (cbn in HL; lia); auto.
          rewrite Nat.sub_diag. auto. }
        destruct (Hstep s1 k) as (s2 & E & P2); auto; [cbn in HL; lia|]. rewrite HN in E. rewrite E. cbn [rbind].
        apply IH; auto; [cbn in HL; lia|]. 
        clear - HS. revert k HS. induction l as [|b l IHl]; intros [|k] HS; try discriminate; cbn in *; [congruence|auto]. }
    apply (G l 0); auto.
  Qed.

  Lemma map_nth_seq {A} (l : list A) d n : length l = n -> map (fun r => nth r l d) (seq 0 n) = l.
  Proof using.
    intros <-. apply (nth_ext _ _ d d); rewrite map_length, seq_length; auto.
    intros k Hk. rewrite (nth_indep _ d (nth 0 l d)) by (rewrite map_length, seq_length; auto).
    rewrite (map_nth (fun r => nth r l d)). rewrite seq_nth; auto.
  Qed.

  Notation inv := (inv p c pen).

  Lemma load_ok s pheno : ls_ready s -> length pheno = nv -> serves_all_once dim pheno ->
    let rs r := nth r pheno [] in
    all_routes c rs = pheno /\
    exists s', load_individual p c pen (ls_reset s) pheno = Ok s' /\ inv s' rs /\ s_corr s' = s_corr s /\
      s_count s' = 0%Z.
  Proof.
    intros R HL SV rs.
    assert (AR : all_routes c rs = pheno) by (apply map_nth_seq; auto).
    split; auto. rewrite <- AR in SV.
    assert (L0 : loaded_upto (ls_reset s) rs 0).
    { destruct R as [R1 R2 R3 R4 R5]. constructor; try (intros; lia); auto. constructor; auto. }
    destruct (foldm_combine (load_route p c pen) (fun s' k => loaded_upto s' rs k /\ s_corr s' = s_corr s) [] pheno)
      with (s := ls_reset s) as (s' & E & [[Q1 Q2 Q3 Q4 Q5 Q6 Q7 Q8 Q9] Q10]); auto.
    { intros s1 k Hk [LD EC].
      destruct (load_route_ok s1 rs k) as (s2 & E & LD' & EC'); auto.
      - lia.
      - intros r n Hr I. apply (serves_bound p c rs SV r n); auto.
      - intros r Hr. apply (serves_nodup p c rs SV); auto.
      - intros r r' n Hr Hr' NE I. apply (serves_apart p c rs SV r r' n); auto.
      - exists s2. split; auto. split; auto. congruence. }
    exists s'. split; [exact E|]. rewrite HL in *. split; [|auto].
    destruct Q1 as [R1 R2 R3 R4 R5].
    constructor.
    - constructor; auto.
      + constructor; auto. intros r. split.
        * intros I. assert (r < nv) by auto. split; auto. apply Q7; auto.
        * intros [Hr HE]. apply Q7; auto.
      + constructor.
        * intros r n Hr. rewrite Q4, Q6 by auto. lia.
        * intros r n Hr. rewrite Q6, Q9 by auto. lia.
        * intros r Hr. rewrite Q4, Q9 by auto. lia.
      + intros u. rewrite Q8, Q9. lia.
      + intros r Hr. rewrite Q5, Q9 by auto. lia.
    - intros u v Hu Hv ru rv H1 H2 I1 I2 M1 M2. rewrite Q4, Q8 in M1 by auto. lia.
    - intros r1 r2 H1 H2 M. rewrite Q5, Q9 in M by lia. lia.
  Qed.

  Lemma inv_ready s rs : inv s rs -> ls_ready s.
  Proof.
    intros [[H C1 C2 C3 _ _] _ _]. constructor; auto.
    - intros r Hr. apply (h_runs _ _ _ _ _ H r Hr).
    - intros r Hr. apply (cached_start p pen _ _ (rs r)). apply (h_cached _ _ _ _ _ H r Hr).
    - intros r I. apply (h_empty _ _ _ _ _ H) in I. tauto.
  Qed.

  (** ** Reading the routes back *)

  Lemma collect_path h l : forall fuel a, length l < fuel -> fpath h a l ->
    collect fuel h (Some a) = Ok (map num (filter (fun b => negb (is_depot b)) (a :: l))).
  Proof using.
    induction l as [|b l IH]; intros fuel a HL P; (destruct fuel; [cbn in HL; lia|]); cbn [collect].
    - cbn [fpath] in P. rewrite P. destruct fuel; cbn [collect rbind filter]; destruct (is_depot a); auto.
    - destruct P as [P1 P2]. rewrite P1. rewrite (IH fuel b) by (cbn in HL; auto; lia). cbn [rbind].
      cbn [filter]. destruct (is_depot a); auto.
  Qed.

  Lemma collect_runs h r l : runs h r l -> (forall n, In n l -> 0 < n < dim) -> NoDup l ->
    collect (S (walk_fuel p)) h (Some (PS r)) = Ok l.
  Proof using.
    intros R HB ND. rewrite (collect_path h (suf r l)).
    - f_equal. change (PS r :: suf r l) with (stops r l). unfold stops. cbn [filter is_depot num Nat.eqb negb].
      rewrite filter_app, map_app. cbn. rewrite app_nil_r.
      induction l as [|n l IH]; auto. cbn [map filter]. unfold is_depot at 1. cbn [num].
      destruct (Nat.eqb_spec n 0) as [->|NZ]; [specialize (HB 0 (or_introl eq_refl)); lia|].
      cbn [negb map num]. f_equal. clear - HB. assert (forall m, In m l -> 0 < m) by (intros m I; apply (HB m); right; auto).
      clear HB. induction l as [|m l IH]; auto. cbn [map filter]. unfold is_depot at 1. cbn [num].
      destruct (Nat.eqb_spec m 0) as [->|NZ]; [specialize (H 0 (or_introl eq_refl)); lia|].
      cbn [negb map num]. f_equal. apply IH. intros; apply H; right; auto.
    - unfold suf, walk_fuel. rewrite app_length, map_length. cbn.
      assert (LEN : length l <= dim).
      { apply Nat.le_trans with (length (seq 0 dim)); [|rewrite seq_length; auto].
        apply NoDup_incl_length; auto. intros n I. apply in_seq. specialize (HB n I). lia. }
      lia.
    - apply runs_fpath; auto.
  Qed.

  Lemma upd_mid {A} (l1 l2 : list A) x a : upd (l1 ++ x :: l2) (length l1) a = l1 ++ a :: l2.
  Proof using. induction l1; cbn; auto. f_equal; auto. Qed.

  Lemma unload_ok s rs ph : holds p c pen s rs -> length ph = nv ->
    foldm (unload_route p s) (seq 0 nv) ([], ph) = Ok (concat (all_routes c rs), all_routes c rs).
  Proof.
    intros H HL. pose proof (h_serves _ _ _ _ _ H) as SV.
    assert (G : forall m k ph2, k + m = nv -> length ph2 = m ->
      foldm (unload_route p s) (seq k m) (concat (map rs (seq 0 k)), map rs (seq 0 k) ++ ph2)
      = Ok (concat (all_routes c rs), all_routes c rs)).
    { induction m as [|m IH]; intros k ph2 E L.
      - cbn [seq foldm]. destruct ph2; [|discriminate]. rewrite app_nil_r. unfold all_routes.
        replace nv with k by lia. auto.
      - destruct ph2 as [|x ph2]; [discriminate|]. cbn [seq foldm].
        unfold unload_route at 1. rewrite (collect_runs _ _ (rs k)).
        + cbn [rbind]. rewrite seti_ok by (rewrite app_length, map_length, seq_length; cbn; lia).
          cbn [rbind].
          assert (EU : upd (map rs (seq 0 k) ++ x :: ph2) k (rs k) = map rs (seq 0 k) ++ rs k :: ph2).
          { rewrite <- (upd_mid (map rs (seq 0 k)) ph2 x (rs k)), map_length, seq_length. auto. }
          rewrite EU. specialize (IH (S k) ph2). rewrite seq_S, map_app, concat_app in IH. cbn [map concat Nat.add] in IH.
          rewrite app_nil_r, <- app_assoc in IH. cbn [app] in IH. apply IH; [lia|]. cbn in L. lia.
        + apply (h_runs _ _ _ _ _ H); lia.
        + intros n I. apply (serves_bound p c rs SV k n); auto; lia.
        + apply (serves_nodup p c rs SV); lia. }
    apply (G nv 0 ph); auto.
  Qed.

  (** ** The whole run *)

  Hypothesis zero_not_lt : approx_lt f0 f0 = false.
  Hypothesis gran_pos : 0 < c_granularity c.
  Hypothesis dim_pos : 0 < dim.
  Notation trace := (trace p c pen).

  (** The individual read back from a state holding [rs] *)
  Definition read_back (epen : F) (i i' : individual) (rs : nat -> list nat) : Prop :=
    Permutation (i_pheno i') (all_routes c rs) /\ length (i_pheno i') = nv /\
    serves_all_once dim (i_pheno i') /\ i_geno i' = concat (i_pheno i') /\
    i_eval i' = geval p epen (i_eval i) (i_pheno i') /\
    i_number i' = i_number i /\ i_fitness i' = i_fitness i.

  Lemma update_individual_ok epen s rs i i' : holds p c pen s rs -> length (i_pheno i) = nv ->
    update_individual p c epen s i = Ok i' -> read_back epen i i' rs.
  Proof using dim_pos gran_pos.
    intros H HL E. unfold update_individual in E. rewrite (unload_ok s rs) in E by auto. cbn [rbind] in E.
    destruct (sort_routes p _) as [i1|] eqn:ES; [|discriminate]. cbn [rbind] in E.
    apply sort_routes_spec in ES; [|reflexivity]. cbn [i_pheno i_geno set_geno set_pheno i_number i_fitness i_eval] in ES.
    destruct ES as (P1 & P2 & P3 & P4 & P5).
    assert (SV : serves_all_once dim (i_pheno i1)).
    { unfold serves_all_once. rewrite (concat_perm _ _ P1). apply (h_serves _ _ _ _ _ H). }
    unfold ind_evaluate in E. rewrite evaluate_eq in E; auto.
    2:{ intros m Hm. eapply Permutation_in in Hm; [|exact SV]. apply in_seq in Hm. lia. }
    cbn [rbind] in E. injection E as <-. unfold read_back. cbn [i_geno i_pheno i_eval i_number i_fitness set_eval].
    split; auto. split.
    { rewrite (Permutation_length P1). unfold all_routes. rewrite map_length, seq_length. auto. }
    rewrite P5. auto.
  Qed.

  Lemma update_individual_total epen s rs i : angles_ok p -> holds p c pen s rs -> length (i_pheno i) = nv ->
    exists i', update_individual p c epen s i = Ok i'.
  Proof using dim_pos gran_pos.
    intros AO H HL. unfold update_individual. rewrite (unload_ok s rs) by auto. cbn [rbind].
    destruct (sort_routes p _) as [i1|] eqn:ES.
    - apply sort_routes_spec in ES; [|reflexivity]. destruct ES as (P1 & _ & _ & _ & P5). cbn [i_pheno set_geno set_pheno] in P1.
      cbn [rbind]. unfold ind_evaluate. rewrite evaluate_eq; auto.
      + cbn [rbind]. eauto.
      + intros m Hm. rewrite (concat_perm _ _ P1) in Hm. eapply Permutation_in in Hm; [|apply (h_serves _ _ _ _ _ H)].
        apply in_seq in Hm. lia.
    - exfalso. edestruct (sort_routes_total p) as (ind' & ES'); [exact AO| | |rewrite ES' in ES; discriminate];
        cbn [i_geno i_pheno set_geno set_pheno]; [reflexivity|]. apply (h_serves _ _ _ _ _ H).
  Qed.

  (** The outcome of a run: the improving steps taken, the local optimum reached. *)
  Definition outcome (epen : F) (s : lsearch) (i : individual) (s' : lsearch) (i' : individual) : Prop :=
    ls_ready s' /\ same_near c s s' /\
    exists rs n lc, trace n (fun r => nth r (i_pheno i) []) rs /\ s_count s' = Z.of_nat n /\
      read_back epen i i' rs /\ optimal p c pen lc (s_corr s) rs /\
      (c_swap_star c = true -> 0 < n -> 0 < lc).

  Theorem ls_run_ok fuel epen s i r :
    ls_ready s -> length (i_pheno i) = nv -> serves_all_once dim (i_pheno i) -> angles_ok p ->
    (exists s' i' r', ls_run p c pen fuel epen s i r = Ok (s', i', r') /\ outcome epen s i s' i') \/
    (ls_run p c pen fuel epen s i r = Err EFuel /\
     exists rs n s', trace n (fun r => nth r (i_pheno i) []) rs /\ fuel <= n /\ holds p c pen s' rs).
  Proof using zero_not_lt gran_pos dim_pos.
    intros R HL SV AO. destruct (load_ok s (i_pheno i) R HL SV) as (AR & s1 & E1 & I1 & C1 & K1).
    unfold ls_run. rewrite E1. cbn [rbind].
    destruct (search_ok p c pen zero_not_lt gran_pos fuel 0 s1 _ r I1)
      as [(s2 & r2 & rs & n & lc & E2 & I2 & T & K2 & N2 & O & _ & L)|(E2 & rs & n & s2 & T & L & H2)]; rewrite E2; cbn [rbind].
    - left. pose proof (b_holds _ _ _ _ _ (i_base _ _ _ _ _ I2)) as H2.
      destruct (update_individual_total epen s2 rs i AO H2 HL) as (i' & E3).
      pose proof (update_individual_ok epen s2 rs i i' H2 HL E3) as RB.
      rewrite E3. cbn [rbind]. exists s2, i', r2. split; auto. split; [eapply inv_ready; eauto|].
      split; [eapply same_near_trans; [apply same_near_refl; exact C1|exact N2]|]. exists rs, n, lc. rewrite <- C1.
      split; auto. split; [rewrite K2, K1; auto|]. auto.
    - right. split; auto. exists rs, n, s2. auto.
  Qed.

  (** Without the assumption on angles: whenever the run returns *)
  Theorem ls_run_partial_ok fuel epen s i r s' i' r' :
    ls_ready s -> length (i_pheno i) = nv -> serves_all_once dim (i_pheno i) ->
    ls_run p c pen fuel epen s i r = Ok (s', i', r') -> outcome epen s i s' i'.
  Proof using zero_not_lt gran_pos dim_pos.
    intros R HL SV E. destruct (load_ok s (i_pheno i) R HL SV) as (AR & s1 & E1 & I1 & C1 & K1).
    unfold ls_run in E. rewrite E1 in E. cbn [rbind] in E.
    destruct (search_ok p c pen zero_not_lt gran_pos fuel 0 s1 _ r I1)
      as [(s2 & r2 & rs & n & lc & E2 & I2 & T & K2 & N2 & O & _ & L)|(E2 & _)]; rewrite E2 in E; cbn [rbind] in E;
      [|discriminate].
    pose proof (b_holds _ _ _ _ _ (i_base _ _ _ _ _ I2)) as H2.
    destruct (update_individual p c epen s2 i) as [i2|] eqn:E3; [|discriminate]. cbn [rbind] in E.
    injection E as <- <- <-.
    pose proof (update_individual_ok epen s2 rs i i2 H2 HL E3) as RB.
    split; [eapply inv_ready; eauto|].
    split; [eapply same_near_trans; [apply same_near_refl; exact C1|exact N2]|]. exists rs, n, lc. rewrite <- C1.
    split; auto. split; [rewrite K2, K1; auto|]. auto.
  Qed.
End Run.
