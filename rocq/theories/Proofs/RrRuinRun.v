(** The whole ruin step. *)
From Coq Require Import List Arith NArith ZArith Bool Lia Permutation.
From Verif.Model Require Import Num Prelude Evaluate Individual Config Matrix World Schedule RuinRecreate.
From Verif.Spec Require Import Solution RuinRecreate.
From Verif.Proofs Require Import Lists EvalThms MatrixFacts RrRuin.
Import ListNotations.
Local Open Scope nat_scope.

Lemma map_upd {A B} (f : A -> B) l i a : map f (upd l i a) = upd (map f l) i (f a).
Proof. revert i; induction l; intros [|i]; cbn; auto. now rewrite IHl. Qed.

Lemma nth_error_map' {A B} (f : A -> B) l i : nth_error (map f l) i = option_map f (nth_error l i).
Proof. revert i; induction l; intros [|i]; cbn; auto. Qed.

Section RuinRun.
  Context {N : Num}.
  Variable p : problem.
  Variable c : config.
  Notation dim := (p_dim p).
  Notation nv := (c_num_vehicles c).

  Variable good : rroute -> Prop.
  Hypothesis good_remove : forall ro i n ro', good ro -> ro_remove p ro i = Ok (n, ro') -> good ro'.
  Hypothesis below : reals_below_one p.

  (** The state while strings are being removed. *)
  Record mid (s : rsol) : Prop := {
    mi_routes : length (so_routes s) = nv;
    mi_len : length (so_loc s) = dim;
    mi_all : all_customers p s;
    mi_route : forall r i nodes n, nth_error (routes_of s) r = Some nodes -> nth_error nodes i = Some n ->
      exists j, nth_error (so_loc s) n = Some (r, j);
    mi_loc : located_on (fun r => ~ In r (so_ruined s)) s;
    mi_lt : forall r, In r (so_ruined s) -> r < nv;
    mi_nodup : NoDup (so_ruined s);
    mi_good : Forall good (so_routes s)
  }.

  Lemma settled_mid s : settled_sol p c s -> Forall good (so_routes s) -> mid s.
  Proof using.
    intros [A1 A2 A3 A4 A5 A6] G. constructor; auto.
    - unfold all_customers. rewrite A4, app_nil_r. exact A3.
    - intros r i nodes n H1 H2. exists i. eapply A6; eauto.
    - intros r i nodes n _. apply A6. exact I.
    - rewrite A5. intros r [].
    - rewrite A5. constructor.
  Qed.

  Lemma routes_nth s r : nth_error (routes_of s) r = option_map ro_nodes (nth_error (so_routes s) r).
  Proof using. apply nth_error_map'. Qed.

  Lemma removed_routes r s s1 nodes' rem : removed good r s s1 nodes' rem ->
    routes_of s1 = upd (routes_of s) r nodes'.
  Proof using.
    intros [A1 (ro & A2 & A3 & _) A4 _ _ _ _]. apply nth_error_ext. intro k.
    assert (LL : length (routes_of s) = length (so_routes s1)) by (unfold routes_of; now rewrite map_length).
    rewrite nth_error_upd, LL.
    destruct (r =? k) eqn:Z.
    - apply Nat.eqb_eq in Z. subst k. rewrite routes_nth, A2. cbn [option_map]. rewrite A3.
      assert (L : r < length (so_routes s1)) by (apply nth_error_Some; congruence).
      apply Nat.ltb_lt in L. now rewrite L.
    - apply Nat.eqb_neq in Z. rewrite !routes_nth, A4; auto.
  Qed.

  Lemma concat_upd {A} (l : list (list A)) r x y : nth_error l r = Some x ->
    exists a b, concat l = a ++ x ++ b /\ concat (upd l r y) = a ++ y ++ b.
  Proof using.
    intro H. apply nth_error_split in H. destruct H as (l1 & l2 & -> & <-).
    exists (concat l1), (concat l2). rewrite upd_app_mid, !concat_app. auto.
  Qed.

  Lemma concat_upd_perm {A} (l : list (list A)) r x y rem : nth_error l r = Some x ->
    Permutation x (y ++ rem) -> Permutation (concat l) (concat (upd l r y) ++ rem).
  Proof using.
    intros H P. destruct (concat_upd l r x y H) as (a & b & -> & ->).
    rewrite <- !app_assoc. apply Permutation_app_head. rewrite P, <- app_assoc.
    apply Permutation_app_head. apply Permutation_app_comm.
  Qed.

  Lemma in_routes s r nodes n : nth_error (routes_of s) r = Some nodes -> In n nodes ->
    In n (concat (routes_of s)).
  Proof using. intros H1 H2. apply in_concat. exists nodes. split; auto. eapply nth_error_In; eauto. Qed.

  Lemma mid_customer s n : mid s -> 0 < n < dim -> ~ In n (so_un s) ->
    exists r i nodes, nth_error (routes_of s) r = Some nodes /\ nth_error nodes i = Some n.
  Proof using.
    intros M H1 H2.
    assert (I : In n (concat (routes_of s) ++ so_un s)).
    { eapply Permutation_in; [symmetry; apply (mi_all s M)|]. apply in_seq. lia. }
    apply in_app_or in I. destruct I as [I|I]; [|tauto].
    apply in_concat in I. destruct I as (nodes & I1 & I2).
    apply In_nth_error in I1. destruct I1 as [r I1]. apply In_nth_error in I2. destruct I2 as [i I2].
    eauto.
  Qed.

  Lemma mid_ruined s r s' lt node nodes nodes' rem : mid s -> ~ In r (so_ruined s) ->
    nth_error (routes_of s) r = Some nodes -> cut node lt nodes nodes' rem ->
    ruined_at good r s s' nodes' rem -> mid s' /\
    routes_of s' = upd (routes_of s) r nodes' /\ so_ruined s' = so_ruined s ++ [r] /\ so_un s' = so_un s ++ rem.
  Proof using.
    intros M Hr Hn C (s1 & R & ->).
    pose proof (removed_routes _ _ _ _ _ R) as ER.
    assert (Ei : set_insert r (so_ruined s) = so_ruined s ++ [r]).
    { unfold set_insert. apply mem_not in Hr. now rewrite Hr. }
    assert (Lr : r < nv).
    { rewrite <- (mi_routes s M), <- (map_length ro_nodes). apply nth_error_Some. fold (routes_of s). congruence. }
    assert (ER' : routes_of (so_set_ruined s1 (set_insert r (so_ruined s))) = upd (routes_of s) r nodes') by exact ER.
    split; [|split; [exact ER'|split; [exact Ei|exact (rm_un _ _ _ _ _ _ R)]]].
    assert (OTH : forall k, k <> r -> nth_error (routes_of s1) k = nth_error (routes_of s) k).
    { intros k Hk. rewrite !routes_nth, (rm_other _ _ _ _ _ _ R k Hk). auto. }
    assert (SELF : nth_error (routes_of s1) r = Some nodes').
    { destruct (rm_node _ _ _ _ _ _ R) as (ro & E1 & E2 & _). rewrite routes_nth, E1. cbn. now rewrite E2. }
    constructor; cbn [so_routes so_un so_ruined so_loc so_cost so_set_ruined].
    - rewrite (rm_len _ _ _ _ _ _ R). apply (mi_routes s M).
    - rewrite (rm_loc _ _ _ _ _ _ R). apply (mi_len s M).
    - unfold all_customers. rewrite ER'. cbn [so_un so_set_ruined]. rewrite (rm_un _ _ _ _ _ _ R).
      etransitivity; [|apply (mi_all s M)].
      rewrite (concat_upd_perm _ _ _ nodes' rem Hn (cut_perm _ _ _ _ _ C)).
      rewrite <- !app_assoc. apply Permutation_app_head. apply Permutation_app_comm.
    - intros k i nd n H1 H2. rewrite (rm_loc _ _ _ _ _ _ R).
      change (nth_error (routes_of s1) k = Some nd) in H1.
      destruct (Nat.eq_dec k r) as [->|Ne].
      + rewrite SELF in H1. injection H1 as <-.
        assert (In n nodes).
        { eapply Permutation_in; [symmetry; eapply cut_perm; eauto|]. apply in_or_app. left.
          eapply nth_error_In; eauto. }
        apply In_nth_error in H. destruct H as [j Hj]. eapply (mi_route s M); eauto.
      + rewrite OTH in H1 by auto. eapply (mi_route s M); eauto.
    - intros k i nd n H1 H2 H3. cbn [so_loc so_set_ruined so_ruined] in *. rewrite (rm_loc _ _ _ _ _ _ R).
      change (nth_error (routes_of s1) k = Some nd) in H2.
      rewrite set_insert_In in H1.
      rewrite OTH in H2 by tauto. eapply (mi_loc s M); eauto.
    - intros k. rewrite set_insert_In. intros [->|H]; auto. now apply (mi_lt s M).
    - apply set_insert_NoDup. apply (mi_nodup s M).
    - apply Forall_forall. intros ro Hin. apply In_nth_error in Hin. destruct Hin as [k Hk].
      destruct (Nat.eq_dec k r) as [->|Ne].
      + destruct (rm_node _ _ _ _ _ _ R) as (ro' & E1 & _ & E3). rewrite Hk in E1. injection E1 as <-.
        rewrite routes_nth in Hn. destruct (nth_error (so_routes s) r) as [ro0|] eqn:E0; [|discriminate].
        apply (E3 ro0); auto. pose proof (mi_good s M) as G. rewrite Forall_forall in G. apply G.
        eapply nth_error_In; eauto.
      + rewrite (rm_other _ _ _ _ _ _ R k Ne) in Hk. pose proof (mi_good s M) as G.
        rewrite Forall_forall in G. apply G. eapply nth_error_In; eauto.
  Qed.

  Lemma ruin_loop_ok lsmax ks : forall nbs s r, mid s -> (forall n, In n nbs -> 0 < n < dim) ->
    exists s' r', ruin_loop p lsmax ks nbs s r = Ok (s', r') /\ mid s' /\ so_cost s' = so_cost s /\
      ruins ks nbs (routes_of s) (so_ruined s) (so_un s) (routes_of s') (so_ruined s') (so_un s').
  Proof using good_remove below.
    induction nbs as [|n nbs IH]; intros s r M Hn; cbn [ruin_loop].
    { exists s, r. repeat (split; auto). constructor. }
    assert (Hn0 : 0 < n < dim) by (apply Hn; now left).
    assert (Ln : n < length (so_loc s)) by (rewrite (mi_len s M); lia).
    destruct (nth_error (so_loc s) n) as [[rn j]|] eqn:EL; [|apply nth_error_None in EL; lia].
    rewrite (geti_some _ _ _ EL). cbn [rbind fst].
    assert (SKIP : (In n (so_un s) \/ (exists r nodes, In r (so_ruined s) /\ nth_error (routes_of s) r = Some nodes /\ In n nodes)) ->
      exists s' r', ruin_loop p lsmax ks nbs s r = Ok (s', r') /\ mid s' /\ so_cost s' = so_cost s /\
      ruins ks (n :: nbs) (routes_of s) (so_ruined s) (so_un s) (routes_of s') (so_ruined s') (so_un s')).
    { intro K. destruct (IH s r M) as (s2 & r2 & G2 & M2 & C2 & R2); [intros; apply Hn; now right|].
      exists s2, r2. split; auto. split; auto. split; auto. apply ruins_skip; auto. }
    destruct (mem n (so_un s)) eqn:E1; [cbn [orb]; apply SKIP; left; now apply mem_In|]. apply mem_not in E1.
    destruct (mid_customer s n M Hn0 E1) as (r0 & i & nodes & F1 & F2).
    destruct (mi_route s M _ _ _ _ F1 F2) as (j' & F3). rewrite EL in F3. injection F3 as <- <-.
    destruct (mem rn (so_ruined s)) eqn:E2.
    { cbn [orb]. apply SKIP. right. exists rn, nodes. apply mem_In in E2. split; auto. split; auto. eapply nth_error_In; eauto. }
    cbn [orb]. apply mem_not in E2.
    pose proof (mi_loc s M rn i nodes n E2 F1 F2) as F4. rewrite EL in F4. injection F4 as ->.
    pose proof F1 as F5. rewrite routes_nth in F5.
    destruct (nth_error (so_routes s) rn) as [ro|] eqn:ER; [|discriminate]. cbn in F5. injection F5 as F5.
    rewrite (geti_some _ _ _ ER). cbn [rbind].
    destruct (real p r) as [x r1] eqn:RE.
    assert (Lpos : 0 < length (ro_nodes ro)).
    { rewrite F5. destruct nodes; [destruct i; discriminate|cbn; lia]. }
    assert (Lmax : length (ro_nodes ro) < dim).
    { pose proof (Permutation_length (mi_all s M)) as PL. rewrite app_length, seq_length in PL.
      assert (length (ro_nodes ro) <= length (concat (routes_of s))); [|lia].
      rewrite F5. clear -F1. revert rn F1. induction (routes_of s) as [|a l IHl]; intros [|k] H; try discriminate; cbn [concat]; rewrite app_length.
      - injection H as ->. lia.
      - apply IHl in H. lia. }
    set (lt := ffloor (x *: fmin lsmax (fnat (length (ro_nodes ro)))) + 1).
    assert (Hlt : 1 <= lt <= length (ro_nodes ro)).
    { unfold lt. split; [lia|]. unfold real, draw in RE. injection RE as <- _.
      pose proof (below (rdraw r (rpos r)) lsmax (length (ro_nodes ro)) (conj Lpos Lmax)). lia. }
    destruct (ruin_route_ok p good good_remove s n rn lt r1 ro i) as (s' & r2 & nodes' & rem & G & C & R);
      auto; try lia; [now rewrite F5|].
    rewrite G. cbn [rbind].
    pose proof (mid_ruined s rn s' lt n nodes nodes' rem M E2 F1 ltac:(now rewrite <- F5) R) as (M' & Q1 & Q2 & Q3).
    assert (Cs : so_cost s' = so_cost s).
    { destruct R as (s1 & R & ->). exact (rm_cost _ _ _ _ _ _ R). }
    assert (Lq : length (so_ruined s') = length (so_ruined s) + 1) by (rewrite Q2, app_length; reflexivity).
    rewrite <- F5 in *.
    assert (In n (ro_nodes ro)) by (eapply nth_error_In; eauto).
    destruct (ks <=? length (so_ruined s')) eqn:KS.
    - apply Nat.leb_le in KS. exists s', r2. split; auto. split; auto. split; auto. rewrite Q1, Q2, Q3.
      eapply ruins_last with (lt := lt); eauto. lia.
    - apply Nat.leb_gt in KS. destruct (IH s' r2 M') as (s2 & r3 & G2 & M2 & C2 & R2); [intros; apply Hn; now right|].
      exists s2, r3. rewrite G2. split; auto. split; auto. split; [congruence|]. rewrite Q1, Q2, Q3 in R2.
      eapply ruins_one with (lt := lt); eauto. lia.
  Qed.

  Lemma ruin_run_ok corr s r : mid s -> rows_ok p corr -> 2 <= dim ->
    exists s' r', ruin_run p c corr s r = Ok (s', r') /\ mid s' /\ so_cost s' = so_cost s /\
      exists ks seed, 1 <= ks /\ 0 < seed < dim /\
      ruins ks (row corr seed) (routes_of s) (so_ruined s) (so_un s) (routes_of s') (so_ruined s') (so_un s').
  Proof using good_remove below.
    intros M [RL RO] D. unfold ruin_run. cbv zeta.
    destruct (real p r) as [x r1].
    destruct (range_usize_ok 1 dim r1) as (seed & r2 & G); [lia|]. rewrite G. cbn [rbind].
    apply range_usize_spec in G. destruct G as [S1 S2].
    unfold m_slice. rewrite Nat.add_0_r.
    destruct (seed * m_cols corr + m_cols corr <=? length (m_data corr)) eqn:Z.
    - cbn [rbind].
      match goal with |- context [ruin_loop p ?a ?b ?l s r2] =>
        destruct (ruin_loop_ok a b l s r2) as (s' & r3 & H1 & H2 & H3 & H4); auto end.
      { intros n Hn. apply (RO seed); auto. }
      exists s', r3. split; auto. split; auto. split; auto. eexists _, seed. split; [|split; [|exact H4]]; lia.
    - apply Nat.leb_gt in Z. rewrite RL in Z.
      assert (seed * m_cols corr + m_cols corr <= dim * m_cols corr).
      { replace (seed * m_cols corr + m_cols corr) with (S seed * m_cols corr) by lia.
        apply Nat.mul_le_mono_r. lia. }
      lia.
  Qed.
End RuinRun.
