(** All states of the local search, over any history of loads, moves and SWAP* runs. *)
From Coq Require Import List Arith ZArith Bool Permutation Lia.
From Verif.Model Require Import Num Prelude Evaluate Individual Config Sector Random Matrix LinkedList LocalSearch.
From Verif.Spec Require Import Solution LocalSearch.
From Verif.Proofs Require Import Lists EvalFacts LinkFacts LsState LsMoves LsEffect LsStar LsSearch LsRun.
Import ListNotations.
Open Scope nat_scope.
Open Scope res_scope.

Section History.
  Context {N : Num}.
  Variable p : problem.
  Variable c : config.
  Notation nv := (c_num_vehicles c).
  Hypothesis zero_not_lt : approx_lt f0 f0 = false.

  (** A performed move *)
  Lemma move_step pen s rs m u v d :
    holds p c pen s rs -> applicable p c rs m (PN u) v ->
    delta p pen m s (PN u) v = Ok d -> approx_lt d f0 = true ->
    exists r1 r2 l1 l2 s', let rs' := nupd (nupd rs r1 l1) r2 l2 in
      holds p c pen (set_count s (s_count s + 1)%Z) rs /\
      effect p c pen (set_count s (s_count s + 1)%Z) rs m u v r1 r2 l1 l2 d /\ r1 < nv /\ r2 < nv /\
      perform p pen m (set_count s (s_count s + 1)%Z) (PN u) v = Ok s' /\
      stepped p c pen (set_count s (s_count s + 1)%Z) s' rs' r1 r2 /\
      moved c rs rs' m (PN u) v.
  Proof.
    intros H AP ED L.
    set (s1 := set_count s (s_count s + 1)%Z).
    assert (H1 : holds p c pen s1 rs).
    { apply (holds_view p c pen s); auto. unfold same_view. cbn. auto 10. }
    assert (ED1 : delta p pen m s1 (PN u) v = Ok d) by (rewrite <- ED; destruct m; reflexivity).
    destruct (delta_cases p c pen s1 rs H1 m u v AP) as [E|(r1 & r2 & l1 & l2 & d' & E & EF1)]; [congruence|].
    assert (d' = d) by congruence. subst d'. exists r1, r2, l1, l2.
    destruct (effect_in p c pen _ _ _ _ _ _ _ _ _ _ EF1) as (I1 & I2 & _).
    destruct (perform_ok p c pen s1 rs H1 m u v r1 r2 l1 l2 d EF1) as (s' & E' & ST).
    exists s'. cbv zeta. split; auto. split; auto. split; auto. split; auto. split; auto. split; auto.
    eapply effect_moved; eauto. apply (h_serves _ _ _ _ _ H).
  Qed.

  Lemma star_exchanged pen s rs r1 r2 b l1 l2 d : r1 <> r2 -> star p pen s rs r1 r2 b l1 l2 d ->
    let rs' := nupd (nupd rs r1 l1) r2 l2 in exchanged c rs rs' r1 r2 \/ exchanged c rs rs' r2 r1.
  Proof.
    intros NE ST rs'.
    assert (E1 : rs' r1 = l1) by (unfold rs'; rewrite nupd_other, nupd_same; auto).
    assert (E2 : rs' r2 = l2) by (unfold rs'; rewrite nupd_same; auto).
    assert (E3 : forall k, k <> r1 -> k <> r2 -> rs' k = rs k) by (intros; unfold rs'; rewrite !nupd_other; auto).
    destruct ST as [A u B C v D pu l2 iu pv l1 iv EU EV PU PV R1 R2 p1 p2 d
                   |A u B X Y EU EX R1 R2 p1 p2 d|C v D X Y EV EX R1 R2 p1 p2 d].
    - left. apply place_cut in PU, PV.
      destruct PU as (C1 & D1 & X & Y & Q1 & Q2 & _ & Q3). destruct PV as (A1 & B1 & X' & Y' & W1 & W2 & _ & W3).
      eapply (ex_both _ _ _ _ _ u v A1 B1 C1 D1 X' Y' X Y); eauto; congruence.
    - left. eapply ex_one; eauto.
    - right. eapply ex_one; eauto.
  Qed.

  (** What holds in every state of the search *)
  Definition sound (pen : F) (s : lsearch) : Prop :=
    ls_ready p c s /\ exists rs, holds p c pen s rs /\ caches p c s rs.

  Lemma ready_of pen s rs : holds p c pen s rs -> Permutation (s_cust s) (seq 1 (p_dim p - 1)) ->
    neighbours_ok p c (s_corr s) -> ls_ready p c s.
  Proof.
    intros H H1 H2. constructor; auto.
    - intros r Hr. apply (h_runs _ _ _ _ _ H r Hr).
    - intros r Hr. apply (cached_start p pen _ _ (rs r)). apply (h_cached _ _ _ _ _ H r Hr).
    - intros r I. apply (h_empty _ _ _ _ _ H) in I. tauto.
  Qed.

  Lemma load_sound pen s pheno s' : ls_ready p c s -> length pheno = nv -> serves_all_once (p_dim p) pheno ->
    load_individual p c pen (ls_reset s) pheno = Ok s' -> sound pen s'.
  Proof.
    intros R HL SV E. destruct (load_ok p c pen s pheno R HL SV) as (_ & s1 & E1 & I1 & _).
    assert (s1 = s') by congruence. subst s1. split; [eapply inv_ready; eauto|].
    eexists. split; [apply (b_holds _ _ _ _ _ (i_base _ _ _ _ _ I1))|apply (b_caches _ _ _ _ _ (i_base _ _ _ _ _ I1))].
  Qed.

  Lemma holds_same pen s rs rs' : holds p c pen s rs -> holds p c pen s rs' -> forall r, r < nv -> rs r = rs' r.
  Proof.
    intros H H' r Hr.
    assert (G : forall z, holds p c pen s z -> collect (S (walk_fuel p)) (s_links s) (Some (PS r)) = Ok (z r)).
    { intros z Hz. apply (collect_runs p); [apply (h_runs _ _ _ _ _ Hz r Hr)| |].
      - intros n I. apply (serves_bound p c z (h_serves _ _ _ _ _ Hz) r n); auto.
      - apply (serves_nodup p c z (h_serves _ _ _ _ _ Hz)); auto. }
    pose proof (G _ H) as G1. rewrite (G _ H') in G1. congruence.
  Qed.

  Theorem reached_sound pen s : reached p c pen s -> sound pen s.
  Proof.
    induction 1 as [pen corr hash pheno s NO HL SV E|pen0 s0 pen pheno s R IH HL SV E
                   |pen s rs m u v d s' R IH H AP ED L EP|pen s r1 r2 s' b R IH H1 H2 NE E|pen s s' R IH B].
    - eapply load_sound; eauto. apply ls_new_ready; auto.
    - destruct IH as [IH _]. eapply load_sound; eauto.
    - destruct IH as (RD & rs0 & H0 & C0).
      destruct (move_step pen s rs m u v d H AP ED L) as (r1 & r2 & l1 & l2 & s1 & _ & EF & I1 & I2 & E1 & ST & _).
      assert (s1 = s') by congruence. subst s1.
      destruct ST as (HH & (S1 & S2 & S3 & S4 & S5 & S6) & R1 & R2).
      assert (C : caches p c s rs).
      { destruct C0 as [C1 C2 C3]. constructor; auto. intros r n Hr M.
        rewrite (holds_same pen s rs rs0 H H0 r Hr). auto. }
      split.
      + eapply ready_of; eauto; [rewrite S1; apply (lr_cust _ _ _ RD)|rewrite S2; apply (lr_corr _ _ _ RD)].
      + eexists. split; [exact HH|]. eapply (caches_stepped p c pen s s' rs _ r1 r2); eauto.
        * split; auto. split; [|auto]. unfold same_rest. auto 10.
        * intros r Hr X Y. rewrite !nupd_other; auto.
    - destruct IH as (RD & rs & H & C).
      destruct (swap_star_run_ok p c pen s rs r1 r2 H C H1 H2 NE) as (s1 & P & C1 & [E'|(s2 & b' & l1 & l2 & d & E' & ST & L & SP)]).
      + rewrite E' in E. injection E as <- <-. pose proof P as (_ & _ & P3 & P4 & _).
        assert (H' : holds p c pen s1 rs) by (eapply holds_view; [apply prepared_view|]; eauto).
        split; [|eauto]. eapply ready_of; eauto; [rewrite P3; apply (lr_cust _ _ _ RD)|rewrite P4; apply (lr_corr _ _ _ RD)].
      + rewrite E' in E. injection E as <- <-. pose proof P as (_ & _ & P3 & P4 & _).
        pose proof SP as (HH & (S1 & S2 & S3 & S4 & S5 & S6) & R1 & R2). cbn [set_count s_cust s_corr] in S1, S2.
        split.
        * eapply ready_of; eauto; [rewrite S1, P3; apply (lr_cust _ _ _ RD)|rewrite S2, P4; apply (lr_corr _ _ _ RD)].
        * eexists. split; [exact HH|]. eapply (caches_stepped p c pen s1 s2 rs _ r1 r2); eauto.
          intros r Hr X Y. rewrite !nupd_other; auto.
    - destruct IH as (RD & rs & H & C). destruct B as (B1 & B2 & B3 & B4 & B5 & B6 & B7 & B8).
      assert (RT : forall r, r_mod (s_routes s' r) = r_mod (s_routes s r)).
      { intros r. specialize (B8 r). destruct (s_routes s' r), (s_routes s r). cbn in *. injection B8; intros; subst; auto. }
      assert (H' : holds p c pen s' rs).
      { apply (holds_view p c pen s); auto. unfold same_view. split; auto. split; auto. split.
        - intros r. specialize (B8 r). destruct (s_routes s' r), (s_routes s r). cbn in *. injection B8; intros; subst. auto 10.
        - intros a. specialize (B7 a). destruct (s_info s' a), (s_info s a). cbn in *. injection B7; intros; subst. auto 10. }
      split.
      + eapply ready_of; eauto; [rewrite B5; apply (lr_cust _ _ _ RD)|apply B6, (lr_corr _ _ _ RD)].
      + exists rs. split; auto. destruct C as [C1 C2 C3]. constructor; intros; rewrite ?B2, ?B4, ?RT in *; auto.
  Qed.

  Theorem usable_ready s : 0 < p_dim p -> 0 < c_granularity c -> usable p c s -> ls_ready p c s.
  Proof.
    intros HD HG. induction 1 as [corr hash NO|s pen fuel epen i r s' i' r' U IH HL SV E].
    - apply ls_new_ready; auto.
    - apply (ls_run_partial_ok p c pen zero_not_lt HG HD) in E; auto. apply E.
  Qed.
End History.
