(** The local optimum: a move of the neighbourhood is one whose change the search computes. *)
From Coq Require Import List Arith ZArith QArith Qround Bool Lia Lqa Permutation.
From Verif.Model Require Import Num Prelude Evaluate Individual Config Sector Random Matrix LinkedList LocalSearch.
From Verif.Spec Require Import Solution LocalSearch LocalOptimum.
From Verif.Proofs Require Import Lists LinkFacts QNum EvalFacts EvalThms SplitStruct LsState LsMoves LsDelta LsStar LsStarQ
  LsLocal LsSearch LsRun LsRunQ.
Import ListNotations.
Open Scope nat_scope.

Lemma num_suf r D : num (hd0 (suf r D)) = hd 0 D.
Proof. destruct D; reflexivity. Qed.
Lemma num_pre r A : num (last0 (pre r A)) = last A 0.
Proof.
  destruct A as [|a A] using rev_ind; [reflexivity|]. clear IHA. rewrite last0_pre_snoc, last_last. auto.
Qed.
Lemma num_hd M : M <> [] -> num (hd0 (map PN M)) = hd 0 M.
Proof. destruct M; [congruence|auto]. Qed.
Lemma num_last M : M <> [] -> num (last0 (map PN M)) = last M 0.
Proof.
  destruct M as [|a M] using rev_ind; [congruence|]. intros _. clear IHM. rewrite last0_map_snoc, last_last. auto.
Qed.
Lemma hd_or (l : list nat) : hd 0 l = 0 \/ In (hd 0 l) l.
Proof. destruct l; cbn; auto. Qed.
Lemma last_or (l : list nat) : last l 0 = 0 \/ In (last l 0) l.
Proof. destruct l as [|a l] using rev_ind; [auto|]. rewrite last_last, in_app_iff. cbn. auto. Qed.

Section Computes.
  Context {N : Num}.
  Variable p : problem.
  Variable c : config.
  Variable pen : F.
  Notation nv := (c_num_vehicles c).
  Variable s : lsearch.
  Variable rs : nat -> list nat.
  Hypothesis H : holds p c pen s rs.
  Let S := h_serves _ _ _ _ _ H.

  Definition computes m u v r1 r2 l1 l2 : Prop :=
    exists d, delta p pen m s (PN u) v = Ok d /\ effect p c pen s rs m u v r1 r2 l1 l2 d.

  Lemma inside r n : r < nv -> In n (rs r) -> 0 < n.
  Proof using H. intros Hr I. apply (serves_bound p c rs S r n) in I; auto. tauto. Qed.

  (** A stop that is a depot or another customer of the solution *)
  Lemma gate_diff r1 r2 P Q b z : r1 < nv -> r2 < nv -> r1 <> r2 -> rs r1 = P -> rs r2 = Q ->
    In b P -> z = 0 \/ In z Q -> z <> b.
  Proof using H.
    intros H1 H2 NE <- <- I [->|J] E; [|subst; exact (serves_apart p c rs S r1 r2 _ H1 H2 NE I J)].
    apply inside in I; auto. lia.
  Qed.
  Lemma gate_same r P Q b z : r < nv -> Permutation (rs r) (P ++ Q) -> In b P -> z = 0 \/ In z Q -> z <> b.
  Proof using H.
    intros Hr E I [->|J] EQ.
    - assert (I' : In b (rs r)) by (eapply Permutation_in; [apply Permutation_sym, E|apply in_or_app; auto]).
      apply inside in I'; auto. lia.
    - subst. pose proof (serves_nodup p c rs S r Hr) as ND. apply (Permutation_NoDup E) in ND.
      apply NoDup_app_inv in ND. destruct ND as (_ & _ & D). apply (D b); auto.
  Qed.

  Lemma reloc_gate blk ins v r1 r2 l1 l2 up xn y b :
    reloc c rs blk ins v r1 r2 l1 l2 up xn y -> In b blk -> num y <> b /\ num v <> b.
  Proof using H.
    intros R I. destruct R as [r1 r2 A B C D H1 H2 NE E1 E2 EV|r A M D H1 NM E EV|r C M B H1 NM E EV]; subst v.
    - rewrite num_suf, num_pre. assert (I' : In b (A ++ blk ++ B)) by (rewrite !in_app_iff; auto).
      split; eapply (gate_diff r1 r2); eauto.
      + destruct (hd_or D); rewrite in_app_iff; auto.
      + destruct (last_or C); rewrite in_app_iff; auto.
    - rewrite num_suf, num_last by auto.
      assert (Permutation (rs r) (blk ++ (A ++ M ++ D))).
      { rewrite E. apply Permutation_app_swap_app. }
      split; eapply (gate_same r); eauto.
      + destruct (hd_or D); rewrite !in_app_iff; auto.
      + destruct (last_or M); rewrite !in_app_iff; auto.
    - rewrite num_pre, num_hd by auto.
      assert (Permutation (rs r) (blk ++ (C ++ M ++ B))).
      { rewrite E, (app_assoc C), Permutation_app_swap_app, <- app_assoc. auto. }
      split; eapply (gate_same r); eauto.
      + destruct (hd_or M); rewrite !in_app_iff; auto.
      + destruct (last_or C); rewrite !in_app_iff; auto.
  Qed.

  Lemma swp_gate ub vb r1 r2 l1 l2 up xn vp yn b :
    swp c rs ub vb r1 r2 l1 l2 up xn vp yn -> In b ub ->
    num vp <> b /\ num yn <> b /\ (forall a, In a vb -> a <> b).
  Proof using H.
    intros R I. destruct R as [r1 r2 A B C D H1 H2 NE E1 E2|r A M D H1 NM E|r A M D H1 NM E].
    - rewrite num_suf, num_pre. assert (I' : In b (A ++ ub ++ B)) by (rewrite !in_app_iff; auto).
      split; [|split]; [| |intros a Ha]; eapply (gate_diff r1 r2); eauto.
      + destruct (last_or C); rewrite !in_app_iff; auto.
      + destruct (hd_or D); rewrite !in_app_iff; auto.
      + right. rewrite !in_app_iff; auto.
    - rewrite num_suf, num_last by auto.
      assert (Permutation (rs r) (ub ++ (A ++ M ++ vb ++ D))).
      { rewrite E. apply Permutation_app_swap_app. }
      split; [|split]; [| |intros a Ha]; eapply (gate_same r); eauto.
      + destruct (last_or M); rewrite !in_app_iff; auto.
      + destruct (hd_or D); rewrite !in_app_iff; auto.
      + right. rewrite !in_app_iff; auto.
    - rewrite num_pre, num_hd by auto.
      assert (Permutation (rs r) (ub ++ (A ++ vb ++ M ++ D))).
      { rewrite E, (app_assoc vb M), (app_assoc A (vb ++ M)), Permutation_app_swap_app, <- !app_assoc. auto. }
      split; [|split]; [| |intros a Ha]; eapply (gate_same r); eauto.
      + destruct (last_or A); rewrite !in_app_iff; auto.
      + destruct (hd_or M); rewrite !in_app_iff; auto.
      + right. rewrite !in_app_iff; auto.
  Qed.

  Lemma succ_inside r A u x B : r < nv -> rs r = A ++ u :: x :: B -> succ_ s (PN u) = Ok (PN x).
  Proof using H. intros Hr E. apply (read_u p c pen s rs H r A u (x :: B) Hr E). Qed.

  Lemma depot_no r A u x B : r < nv -> rs r = A ++ u :: x :: B -> is_depot (PN x) = false.
  Proof using H.
    intros Hr E. assert (I : In x (rs r)) by (rewrite E, in_app_iff; right; right; left; auto).
    apply inside in I; auto. apply Nat.eqb_neq. cbn [num]. lia.
  Qed.

  Lemma reloc_inside blk ins v r1 r2 l1 l2 up xn y : reloc c rs blk ins v r1 r2 l1 l2 up xn y ->
    exists A B, rs r1 = A ++ blk ++ B /\ r1 < nv.
  Proof using.
    intros R. destruct R as [r1 r2 A B C D H1 H2 NE E1 E2 EV|r A M D H1 NM E EV|r C M B H1 NM E EV]; eauto.
    exists (C ++ M), B. rewrite <- app_assoc. auto.
  Qed.
  Lemma swp_inside ub vb r1 r2 l1 l2 up xn vp yn : swp c rs ub vb r1 r2 l1 l2 up xn vp yn ->
    exists A B, rs r1 = A ++ ub ++ B /\ r1 < nv.
  Proof using.
    intros R. destruct R as [r1 r2 A B C D H1 H2 NE E1 E2|r A M D H1 NM E|r A M D H1 NM E]; eauto.
    exists (A ++ vb ++ M), D. rewrite <- !app_assoc. auto.
  Qed.

  Lemma eqb_no a b : a <> b -> (a =? b) = false.
  Proof using. apply Nat.eqb_neq. Qed.

  Lemma computes_relocate_single u v r1 r2 l1 l2 up x y :
    reloc c rs [u] [u] v r1 r2 l1 l2 up x y -> computes RelocateSingle u v r1 r2 l1 l2.
  Proof using H.
    intros R. destruct (reloc_read p c pen _ _ _ _ _ _ _ _ _ _ _ _ H R ltac:(discriminate))
      as (P1 & P2 & P3 & P4 & P5 & _). cbn [map hd last] in P1, P2.
    destruct (reloc_gate _ _ _ _ _ _ _ _ _ _ u R ltac:(left; auto)) as [G1 G2].
    eexists. split; [|apply ef_relocate_single; exact R].
    cbn [delta]. unfold delta_relocate_single. rewrite P1, P2, P3, (P4 u), P5 by (left; auto). cbn [rbind].
    rewrite eqb_no by (cbn [num]; auto). reflexivity.
  Qed.

  Lemma computes_relocate_double u x v r1 r2 l1 l2 up xn y :
    reloc c rs [u; x] [u; x] v r1 r2 l1 l2 up xn y -> computes RelocateDouble u v r1 r2 l1 l2.
  Proof using H.
    intros R. destruct (reloc_read p c pen _ _ _ _ _ _ _ _ _ _ _ _ H R ltac:(discriminate))
      as (P1 & P2 & P3 & P4 & P5 & _). cbn [map hd last] in P1, P2.
    destruct (reloc_gate _ _ _ _ _ _ _ _ _ _ u R ltac:(left; auto)) as [G1 G2].
    destruct (reloc_gate _ _ _ _ _ _ _ _ _ _ x R ltac:(right; left; auto)) as [G3 G4].
    destruct (reloc_inside _ _ _ _ _ _ _ _ _ _ R) as (A & B & E & Hr).
    eexists. split; [|eapply ef_relocate_double; exact R].
    cbn [delta]. unfold delta_relocate_double. rewrite P1, (succ_inside _ _ _ _ _ Hr E). cbn [rbind]. rewrite (depot_no _ _ _ _ _ Hr E).
    rewrite P2, P3, (P4 u), P5 by (left; auto). cbn [rbind].
    cbn [num]. rewrite !eqb_no by (cbn [num]; auto). reflexivity.
  Qed.

  Lemma computes_relocate_double_reverse u x v r1 r2 l1 l2 up xn y :
    reloc c rs [u; x] [x; u] v r1 r2 l1 l2 up xn y -> computes RelocateDoubleReverse u v r1 r2 l1 l2.
  Proof using H.
    intros R. destruct (reloc_read p c pen _ _ _ _ _ _ _ _ _ _ _ _ H R ltac:(discriminate))
      as (P1 & P2 & P3 & P4 & P5 & _). cbn [map hd last] in P1, P2.
    destruct (reloc_gate _ _ _ _ _ _ _ _ _ _ u R ltac:(left; auto)) as [G1 G2].
    destruct (reloc_gate _ _ _ _ _ _ _ _ _ _ x R ltac:(right; left; auto)) as [G3 G4].
    destruct (reloc_inside _ _ _ _ _ _ _ _ _ _ R) as (A & B & E & Hr).
    eexists. split; [|eapply ef_relocate_double_reverse; exact R].
    cbn [delta]. unfold delta_relocate_double_reverse. rewrite P1, (succ_inside _ _ _ _ _ Hr E). cbn [rbind]. rewrite (depot_no _ _ _ _ _ Hr E).
    rewrite P2, P3, (P4 u), P5 by (left; auto). cbn [rbind].
    cbn [num]. rewrite !eqb_no by (cbn [num]; auto). reflexivity.
  Qed.

  Lemma computes_swap_one_one u v r1 r2 l1 l2 up x vp y :
    swp c rs [u] [v] r1 r2 l1 l2 up x vp y -> computes SwapOneWithOne u (PN v) r1 r2 l1 l2.
  Proof using H.
    intros R. destruct (swp_read p c pen _ _ _ _ _ _ _ _ _ _ _ _ H R ltac:(discriminate) ltac:(discriminate))
      as (P1 & P2 & P3 & _ & P5 & P6 & P7 & _). cbn [map hd last] in P1, P2, P5, P6.
    destruct (swp_gate _ _ _ _ _ _ _ _ _ _ u R ltac:(left; auto)) as (G1 & G2 & _).
    eexists. split; [|eapply ef_swap_one_one; exact R].
    cbn [delta]. unfold delta_swap_one_one. rewrite P1, P2, P5, P6, (P3 u), (P7 v) by (left; auto). cbn [rbind num].
    rewrite !eqb_no by auto. reflexivity.
  Qed.

  Lemma computes_swap_two_one u x v r1 r2 l1 l2 up xn vp y :
    swp c rs [u; x] [v] r1 r2 l1 l2 up xn vp y -> computes SwapTwoWithOne u (PN v) r1 r2 l1 l2.
  Proof using H.
    intros R. destruct (swp_read p c pen _ _ _ _ _ _ _ _ _ _ _ _ H R ltac:(discriminate) ltac:(discriminate))
      as (P1 & P2 & P3 & _ & P5 & P6 & P7 & _). cbn [map hd last] in P1, P2, P5, P6.
    destruct (swp_gate _ _ _ _ _ _ _ _ _ _ u R ltac:(left; auto)) as (G1 & G2 & _).
    destruct (swp_gate _ _ _ _ _ _ _ _ _ _ x R ltac:(right; left; auto)) as (G3 & G4 & _).
    destruct (swp_inside _ _ _ _ _ _ _ _ _ _ R) as (A & B & E & Hr).
    eexists. split; [|eapply ef_swap_two_one; exact R].
    cbn [delta]. unfold delta_swap_two_one. rewrite P1, (succ_inside _ _ _ _ _ Hr E). cbn [rbind]. rewrite (depot_no _ _ _ _ _ Hr E).
    rewrite P2, P5, P6, (P3 u), (P7 v) by (left; auto). cbn [rbind num].
    rewrite !eqb_no by auto. reflexivity.
  Qed.

  Lemma computes_swap_two_two u x v y r1 r2 l1 l2 up xn vp yn :
    swp c rs [u; x] [v; y] r1 r2 l1 l2 up xn vp yn -> computes SwapTwoWithTwo u (PN v) r1 r2 l1 l2.
  Proof using H.
    intros R. destruct (swp_read p c pen _ _ _ _ _ _ _ _ _ _ _ _ H R ltac:(discriminate) ltac:(discriminate))
      as (P1 & P2 & P3 & _ & P5 & P6 & P7 & _). cbn [map hd last] in P1, P2, P5, P6.
    pose proof (swp_sym c _ _ _ _ _ _ _ _ _ _ _ R) as R'.
    destruct (swp_gate _ _ _ _ _ _ _ _ _ _ u R ltac:(left; auto)) as (_ & _ & G1).
    destruct (swp_gate _ _ _ _ _ _ _ _ _ _ x R ltac:(right; left; auto)) as (_ & _ & G2).
    destruct (swp_gate _ _ _ _ _ _ _ _ _ _ v R' ltac:(left; auto)) as (_ & G3 & _).
    destruct (swp_gate _ _ _ _ _ _ _ _ _ _ y R' ltac:(right; left; auto)) as (G4 & _ & _).
    destruct (swp_inside _ _ _ _ _ _ _ _ _ _ R) as (A & B & E & Hr).
    destruct (swp_inside _ _ _ _ _ _ _ _ _ _ R') as (C & D & E' & Hr').
    eexists. split; [|eapply ef_swap_two_two; exact R].
    cbn [delta]. unfold delta_swap_two_two. rewrite P1, (succ_inside _ _ _ _ _ Hr E). cbn [rbind]. rewrite (depot_no _ _ _ _ _ Hr E).
    rewrite P2, P5, (succ_inside _ _ _ _ _ Hr' E'). cbn [rbind]. rewrite (depot_no _ _ _ _ _ Hr' E').
    rewrite P6, (P3 u), (P7 v) by (left; auto). cbn [rbind num].
    rewrite (eqb_no u y), (eqb_no v x), (eqb_no y (num up)), (eqb_no v (num xn)); [reflexivity|auto..|].
    - apply G2. left; auto.
    - intros ->. apply (G1 y); auto. right; left; auto.
  Qed.

  Lemma computes_two_opt_intra u v r A M D : r < nv -> M <> [] -> rs r = A ++ u :: M ++ v :: D ->
    computes TwoOptIntraReverse u (PN v) r r (A ++ u :: v :: rev M ++ D) (A ++ u :: v :: rev M ++ D).
  Proof using H.
    intros Hr NM E. destruct M as [|x M]; [congruence|].
    assert (E' : rs r = A ++ u :: (x :: M ++ [v]) ++ D) by (rewrite E; cbn; rewrite <- app_assoc; auto).
    assert (EL : A ++ u :: v :: rev (x :: M) ++ D = A ++ u :: rev (x :: M ++ [v]) ++ D).
    { cbn [rev]. rewrite rev_app_distr. reflexivity. }
    rewrite EL.
    destruct (read_u p c pen s rs H r A u (x :: M ++ v :: D) Hr E) as (_ & Q1 & Q2).
    destruct (read_u p c pen s rs H r (A ++ u :: x :: M) v D Hr) as (_ & Q3 & Q4).
    { rewrite E, <- app_assoc. auto. }
    destruct (read_stop p c pen s rs H r (pre r A) (PN u) (suf r (x :: M ++ v :: D)) Hr) as (_ & _ & _ & Q5 & _).
    { rewrite E. apply stops_mid. }
    destruct (read_stop p c pen s rs H r (pre r (A ++ u :: x :: M)) (PN v) (suf r D) Hr) as (_ & _ & _ & Q6 & _).
    { rewrite E. replace (A ++ u :: (x :: M) ++ v :: D) with ((A ++ u :: x :: M) ++ v :: D) by (rewrite <- app_assoc; auto).
      apply stops_mid. }
    assert (NX : x <> v).
    { apply (gate_same r (A ++ u :: M ++ v :: D) [x]); [auto|..|right; left; auto].
      - rewrite E. change (A ++ u :: (x :: M) ++ v :: D) with (A ++ [u] ++ [x] ++ M ++ v :: D).
        rewrite (app_assoc A), Permutation_app_swap_app, <- app_assoc.
        rewrite (Permutation_app_comm [x]). auto.
      - rewrite in_app_iff. right. right. rewrite in_app_iff. right. left. auto. }
    eexists. split; [|eapply (ef_two_opt_intra p c pen s rs u v r A (x :: M ++ [v]) x (M ++ [v]) D); eauto].
    - cbn [delta]. unfold delta_two_opt_intra. rewrite Q2, Q4. cbn [rbind]. rewrite Nat.eqb_refl. cbn [negb].
      rewrite Q1, Q3. cbn [rbind]. rewrite suf_cons. cbn [hd num]. rewrite Q5, Q6, (eqb_no x v NX).
      replace (length (pre r (A ++ u :: x :: M)) <? length (pre r A)) with false; [reflexivity|].
      symmetry. apply Nat.ltb_ge. unfold pre. cbn [length]. rewrite !map_length, app_length. lia.
    - destruct M; discriminate.
    - apply last_last.
  Qed.

  Lemma computes_two_opt_inter_reverse u v r1 r2 A B C D : r1 < nv -> r2 < nv -> r1 <> r2 ->
    rs r1 = A ++ u :: B -> rs r2 = C ++ v :: D ->
    computes TwoOptInterReverse u (PN v) r1 r2 (A ++ u :: v :: rev C) (rev B ++ D).
  Proof using H.
    intros H1 H2 NE E1 E2. eexists. split; [|eapply ef_two_opt_inter_reverse; eauto].
    cbn [delta]. unfold delta_two_opt_inter_reverse.
    destruct (read_u p c pen s rs H r1 A u B H1 E1) as (_ & -> & ->).
    destruct (read_u p c pen s rs H r2 C v D H2 E2) as (_ & -> & ->). cbn [rbind].
    rewrite eqb_no by auto. reflexivity.
  Qed.

  Lemma computes_two_opt_inter u v r1 r2 A B C D : r1 < nv -> r2 < nv -> r1 <> r2 ->
    rs r1 = A ++ u :: B -> rs r2 = C ++ D -> last0 (pre r2 C) = v ->
    computes TwoOptInter u v r1 r2 (A ++ u :: D) (C ++ B).
  Proof using H.
    intros H1 H2 NE E1 E2 EV. eexists. split; [|eapply ef_two_opt_inter; eauto].
    cbn [delta]. unfold delta_two_opt_inter.
    destruct (read_u p c pen s rs H r1 A u B H1 E1) as (_ & -> & ->).
    destruct (read_v p c pen s rs H r2 C D v H2 E2 EV) as (-> & ->). cbn [rbind].
    rewrite eqb_no by auto. reflexivity.
  Qed.
End Computes.

Lemma pick2 {N : Num} (c : config) (rs : nat -> list nat) x y rest :
  Permutation (all_routes c rs) (x :: y :: rest) ->
  exists r1 r2, r1 < c_num_vehicles c /\ r2 < c_num_vehicles c /\ r1 <> r2 /\ rs r1 = x /\ rs r2 = y.
Proof.
  intros P. apply Permutation_sym in P. apply Permutation_map_inv in P. destruct P as (l & E & P).
  destruct l as [|r1 [|r2 l]]; try discriminate. cbn [map] in E. injection E as E1 E2 _.
  assert (ND : NoDup (r1 :: r2 :: l)) by (eapply Permutation_NoDup; [exact P|apply seq_NoDup]).
  assert (IN : forall r, In r (r1 :: r2 :: l) -> r < c_num_vehicles c).
  { intros r I. eapply Permutation_in in I; [|apply Permutation_sym, P]. apply in_seq in I. lia. }
  exists r1, r2. split; [apply IN; left; auto|]. split; [apply IN; right; left; auto|]. split; auto.
  intros ->. inversion ND as [|? ? NI _]. apply NI. left; auto.
Qed.
Lemma pick1 {N : Num} (c : config) (rs : nat -> list nat) x rest :
  Permutation (all_routes c rs) (x :: rest) -> exists r, r < c_num_vehicles c /\ rs r = x.
Proof.
  intros P. assert (I : In x (all_routes c rs)).
  { eapply Permutation_in; [apply Permutation_sym, P|left; auto]. }
  apply in_map_iff in I. destruct I as (r & E & I). apply in_seq in I. exists r. split; auto. lia.
Qed.

Lemma enabled_in {N : Num} (c : config) m : enabled c m = true -> In m (neighbor_moves c).
Proof.
  intros E. unfold neighbor_moves. rewrite !in_app_iff.
  destruct m; cbn [enabled] in E; rewrite E; cbn [keep In]; auto 12.
Qed.
Lemma enabled_empty {N : Num} (c : config) m sol sol' u :
  enabled c m = true -> opens sol sol' m u -> In m (empty_moves c).
Proof.
  intros E O. unfold empty_moves. rewrite !in_app_iff.
  destruct m; cbn [opens] in O; try contradiction; cbn [enabled] in E; rewrite E; cbn [keep In]; auto 12.
Qed.

Section Optimum.
  Variable p : @problem NumQ.
  Variable c : @config NumQ.
  Variable pen : @F NumQ.
  Notation nv := (c_num_vehicles c).
  Notation dim := (p_dim p).
  Local Open Scope Q_scope.
  Notation cost sol := (total_penalized (p_dist p) (p_demand p) (p_cap p) pen sol).
  Notation cost1 := (route_penalized (p_dist p) (p_demand p) (p_cap p) pen).
  Notation eps := (1 # 1000000).

  Hypothesis dem0 : p_demand p 0%nat == 0.
  Hypothesis sym : forall i j, (i < dim)%nat -> (j < dim)%nat -> p_dist p i j == p_dist p j i.
  Hypothesis dim_pos : (0 < dim)%nat.

  Variable s : @lsearch NumQ.
  Variable rs : nat -> list nat.
  Hypothesis H : holds p c pen s rs.

  Lemma not_lower (d : @F NumQ) : approx_lt d f0 = false -> - eps <= d.
  Proof using.
    intros L. apply approx_lt_Q_false in L. numq. lra.
  Qed.

  Lemma optimum_two m ms u v r1 r2 l1 l2 rest sol' :
    calm p c pen rs ms (PN u) v -> In m ms -> computes p c pen s rs m u v r1 r2 l1 l2 ->
    (r1 < nv)%nat -> (r2 < nv)%nat -> r1 <> r2 ->
    Permutation (all_routes c rs) (rs r1 :: rs r2 :: rest) -> Permutation sol' (l1 :: l2 :: rest) ->
    cost (all_routes c rs) <= cost sol' + eps.
  Proof using dem0 sym dim_pos H.
    intros Q Im (d & D & EF) H1 H2 NE P1 P2. destruct (Q s H m Im) as (d' & D' & L). rewrite D in D'. injection D' as <-.
    apply not_lower in L. pose proof (effect_exact p c pen dem0 sym dim_pos _ _ _ _ _ _ _ _ _ _ H EF) as E.
    rewrite (total_two p c pen rs r1 r2 l1 l2 H1 H2 NE) in E.
    pose proof (cost_perm p pen _ _ P1) as C1. pose proof (cost_perm p pen _ _ P2) as C2.
    unfold total, total_penalized in *. cbn [map Qsum] in C1, C2. lra.
  Qed.
  Lemma optimum_one m ms u v r l rest sol' :
    calm p c pen rs ms (PN u) v -> In m ms -> computes p c pen s rs m u v r r l l ->
    (r < nv)%nat -> Permutation (all_routes c rs) (rs r :: rest) -> Permutation sol' (l :: rest) ->
    cost (all_routes c rs) <= cost sol' + eps.
  Proof using dem0 sym dim_pos H.
    intros Q Im (d & D & EF) H1 P1 P2. destruct (Q s H m Im) as (d' & D' & L). rewrite D in D'. injection D' as <-.
    apply not_lower in L. pose proof (effect_exact p c pen dem0 sym dim_pos _ _ _ _ _ _ _ _ _ _ H EF) as E.
    rewrite (total_same p c pen rs r l H1) in E.
    pose proof (cost_perm p pen _ _ P1) as C1. pose proof (cost_perm p pen _ _ P2) as C2.
    unfold total, total_penalized in *. cbn [map Qsum] in C1, C2. lra.
  Qed.

  Lemma optimum_reloc m ms u blk ins v sol' :
    calm p c pen rs ms (PN u) (PN v) -> In m ms ->
    (forall r1 r2 l1 l2 up x y, reloc c rs blk ins (PN v) r1 r2 l1 l2 up x y ->
       computes p c pen s rs m u (PN v) r1 r2 l1 l2) ->
    relocated (all_routes c rs) sol' blk ins v -> cost (all_routes c rs) <= cost sol' + eps.
  Proof using dem0 sym dim_pos H.
    intros Q Im K [A B C D rest P1 P2|A M D rest P1 P2|C M B rest NM P1 P2].
    - destruct (pick2 _ _ _ _ _ P1) as (r1 & r2 & H1 & H2 & NE & E1 & E2). rewrite <- E1, <- E2 in P1.
      eapply (optimum_two m ms u (PN v) r1 r2); eauto. eapply K.
      replace (C ++ v :: ins ++ D) with ((C ++ [v]) ++ ins ++ D) by (rewrite <- app_assoc; auto).
      eapply rl_diff; eauto; [rewrite E2, <- app_assoc; auto|apply last0_pre_snoc].
    - destruct (pick1 _ _ _ _ P1) as (r & H1 & E1). rewrite <- E1 in P1.
      eapply (optimum_one m ms u (PN v) r); eauto. eapply K.
      replace (A ++ M ++ v :: ins ++ D) with (A ++ (M ++ [v]) ++ ins ++ D) by (rewrite <- app_assoc; auto).
      eapply rl_before; eauto; [destruct M; discriminate|rewrite E1, <- app_assoc; auto|apply last0_map_snoc].
    - destruct (pick1 _ _ _ _ P1) as (r & H1 & E1). rewrite <- E1 in P1.
      eapply (optimum_one m ms u (PN v) r); eauto. eapply K.
      replace (C ++ v :: ins ++ M ++ B) with ((C ++ [v]) ++ ins ++ M ++ B) by (rewrite <- app_assoc; auto).
      eapply rl_after; eauto; [rewrite E1, <- app_assoc; auto|apply last0_pre_snoc].
  Qed.
  Lemma optimum_swap m ms u ub vb v sol' :
    calm p c pen rs ms (PN u) (PN v) -> In m ms ->
    (forall r1 r2 l1 l2 up x vp y, swp c rs ub vb r1 r2 l1 l2 up x vp y ->
       computes p c pen s rs m u (PN v) r1 r2 l1 l2) ->
    swapped (all_routes c rs) sol' ub vb -> cost (all_routes c rs) <= cost sol' + eps.
  Proof using dem0 sym dim_pos H.
    intros Q Im K [A B C D rest P1 P2|A M D rest NM P1 P2|A M D rest NM P1 P2].
    - destruct (pick2 _ _ _ _ _ P1) as (r1 & r2 & H1 & H2 & NE & E1 & E2). rewrite <- E1, <- E2 in P1.
      eapply (optimum_two m ms u (PN v) r1 r2); eauto. eapply K. eapply sw_diff; eauto.
    - destruct (pick1 _ _ _ _ P1) as (r & H1 & E1). rewrite <- E1 in P1.
      eapply (optimum_one m ms u (PN v) r); eauto. eapply K. eapply sw_before; eauto.
    - destruct (pick1 _ _ _ _ P1) as (r & H1 & E1). rewrite <- E1 in P1.
      eapply (optimum_one m ms u (PN v) r); eauto. eapply K. eapply sw_after; eauto.
  Qed.

  Lemma optimum_pair m u v sol' : quiet p c pen rs u v -> enabled c m = true ->
    neighbour (all_routes c rs) sol' m u v -> cost (all_routes c rs) <= cost sol' + eps.
  Proof using dem0 sym dim_pos H.
    intros Q En NB. pose proof (enabled_in _ _ En) as Im. unfold quiet in Q.
    destruct m; cbn [neighbour] in NB.
    - eapply optimum_reloc; eauto. intros. eapply computes_relocate_single; eauto.
    - destruct NB as (x & NB). eapply optimum_reloc; eauto. intros. eapply computes_relocate_double; eauto.
    - destruct NB as (x & NB). eapply optimum_reloc; eauto. intros. eapply computes_relocate_double_reverse; eauto.
    - eapply optimum_swap; eauto. intros. eapply computes_swap_one_one; eauto.
    - destruct NB as (x & NB). eapply optimum_swap; eauto. intros. eapply computes_swap_two_one; eauto.
    - destruct NB as (x & y & NB). eapply optimum_swap; eauto. intros. eapply computes_swap_two_two; eauto.
    - destruct NB as (A & M & D & rest & NM & P1 & P2).
      destruct (pick1 _ _ _ _ P1) as (r & H1 & E1). rewrite <- E1 in P1.
      eapply optimum_one; eauto. eapply computes_two_opt_intra; eauto.
    - destruct NB as (A & B & C & D & rest & P1 & P2).
      destruct (pick2 _ _ _ _ _ P1) as (r1 & r2 & H1 & H2 & NE & E1 & E2). rewrite <- E1, <- E2 in P1.
      eapply (optimum_two _ _ _ _ r1 r2); eauto. eapply computes_two_opt_inter_reverse; eauto.
    - destruct NB as (A & B & C & D & rest & P1 & P2).
      destruct (pick2 _ _ _ _ _ P1) as (r1 & r2 & H1 & H2 & NE & E1 & E2). rewrite <- E1, <- E2 in P1.
      eapply (optimum_two _ _ _ _ r1 r2); eauto.
      replace (C ++ v :: B) with ((C ++ [v]) ++ B) by (rewrite <- app_assoc; auto).
      eapply computes_two_opt_inter; eauto; [rewrite E2, <- app_assoc; auto|apply last0_pre_snoc].
  Qed.

  Lemma optimum_empty m u sol' : calm_empty p c pen rs u -> enabled c m = true ->
    opens (all_routes c rs) sol' m u -> cost (all_routes c rs) <= cost sol' + eps.
  Proof using dem0 sym dim_pos H.
    intros Q En NB. pose proof (enabled_empty _ _ _ _ _ En NB) as Im.
    destruct m; cbn [opens] in NB; try contradiction.
    - destruct NB as (A & B & rest & P1 & P2).
      destruct (pick2 _ _ _ _ _ P1) as (r1 & r2 & H1 & H2 & NE & E1 & E2). rewrite <- E1, <- E2 in P1.
      eapply (optimum_two _ _ _ (PS r2) r1 r2); [apply (Q r2); auto|exact Im| |auto..|exact P1|exact P2].
      eapply computes_relocate_single; eauto. eapply (rl_diff c rs [u] [u] (PS r2) r1 r2 A B [] []); auto.
    - destruct NB as (A & x & B & rest & P1 & P2).
      destruct (pick2 _ _ _ _ _ P1) as (r1 & r2 & H1 & H2 & NE & E1 & E2). rewrite <- E1, <- E2 in P1.
      eapply (optimum_two _ _ _ (PS r2) r1 r2); [apply (Q r2); auto|exact Im| |auto..|exact P1|exact P2].
      eapply computes_relocate_double; eauto. eapply (rl_diff c rs [u; x] [u; x] (PS r2) r1 r2 A B [] []); auto.
    - destruct NB as (A & x & B & rest & P1 & P2).
      destruct (pick2 _ _ _ _ _ P1) as (r1 & r2 & H1 & H2 & NE & E1 & E2). rewrite <- E1, <- E2 in P1.
      eapply (optimum_two _ _ _ (PS r2) r1 r2); [apply (Q r2); auto|exact Im| |auto..|exact P1|exact P2].
      eapply computes_relocate_double_reverse; eauto.
      eapply (rl_diff c rs [u; x] [x; u] (PS r2) r1 r2 A B [] []); auto.
    - destruct NB as (A & B & rest & P1 & P2).
      destruct (pick2 _ _ _ _ _ P1) as (r1 & r2 & H1 & H2 & NE & E1 & E2). rewrite <- E1, <- E2 in P1.
      eapply (optimum_two _ _ _ (PS r2) r1 r2); [apply (Q r2); auto|exact Im| |auto..|exact P1|exact P2].
      eapply (computes_two_opt_inter p c pen s rs H u (PS r2) r1 r2 A B [] []); auto.
  Qed.
End Optimum.

(** ** SWAP* misses nothing *)

Lemma overlaps_sym s o : overlaps s o = overlaps o s.
Proof. unfold overlaps. apply orb_comm. Qed.

(** What holds after each step of a fold and is kept by later steps holds at the end. *)
Lemma foldm_covers {A S} (f : S -> A -> res S) (R : S -> S -> Prop) (P : A -> S -> Prop) l :
  (forall s, R s s) -> (forall a b d, R a b -> R b d -> R a d) ->
  (forall a s s', P a s -> R s s' -> P a s') ->
  forall s s', (forall s a s', In a l -> f s a = Ok s' -> R s s' /\ P a s') ->
  foldm f l s = Ok s' -> R s s' /\ forall a, In a l -> P a s'.
Proof.
  intros R1 R2 K. induction l as [|a l IH]; intros s s' Hf E; cbn [foldm] in E.
  - injection E as <-. split; [auto|intros ? []].
  - destruct (f s a) as [s1|] eqn:E1; [|discriminate]. cbn [rbind] in E.
    destruct (Hf s a s1) as [Q1 Q2]; [left; auto|auto|].
    destruct (IH s1 s') as [Q3 Q4]; [intros; apply Hf; auto; right; auto|auto|].
    split; [eapply R2; eauto|]. intros x [->|I]; eauto.
Qed.

Section Complete.
  Variable p : @problem NumQ.
  Variable c : @config NumQ.
  Variable pen : @F NumQ.
  Notation nv := (c_num_vehicles c).
  Notation dim := (p_dim p).
  Local Open Scope Q_scope.
  Notation eps := (1 # 1000000).
  Hypothesis dem0 : p_demand p 0%nat == 0.
  Hypothesis dim_pos : (0 < dim)%nat.
  Hypothesis triangle : forall i j k, (i < dim)%nat -> (j < dim)%nat -> (k < dim)%nat ->
    p_dist p i k <= p_dist p i j + p_dist p j k.

  Definition below (b : @bss NumQ) (x : Q) : Prop := exists y : Q, b_cost b = Some (y : @F NumQ) /\ y <= x.
  Definition lower (b b' : @bss NumQ) : Prop := forall x, below b x -> below b' x.
  (** A change [d] has been looked at, up to tolerance [t], or need not be. *)
  Definition seen (t : Q) (b : @bss NumQ) (d : Q) : Prop := below b (d + t) \/ 0 <= d.
  Lemma lower_refl b : lower b b.
  Proof using. intros x. auto. Qed.
  Lemma lower_trans a b d : lower a b -> lower b d -> lower a d.
  Proof using. intros Q1 Q2 x X. auto. Qed.
  Lemma seen_lower t b b' d : seen t b d -> lower b b' -> seen t b' d.
  Proof using. intros [X|X] L; [left; auto|right; auto]. Qed.

  Section Choice.
    Variable s : @lsearch NumQ.
    Variable rs : nat -> list nat.
    Hypothesis H : holds p c pen s rs.
    Variables r1 r2 : nat.
    Hypothesis H1 : (r1 < nv)%nat.
    Hypothesis H2 : (r2 < nv)%nat.
    Hypothesis R12 : ready p s rs r1 r2.
    Hypothesis R21 : ready p s rs r2 r1.

    Lemma num_bound r a : (r < nv)%nat -> In a (stops r (rs r)) -> (num a < dim)%nat.
    Proof using H dim_pos.
      intros Hr I. apply in_stops in I. destruct I as [->|[->|(n & -> & I)]]; auto.
      apply (serves_bound p c rs (h_serves _ _ _ _ _ H) r n Hr I).
    Qed.
    Lemma extra_pos a u b : (num a < dim)%nat -> (num u < dim)%nat -> (num b < dim)%nat -> 0 <= extra p a u b.
    Proof using triangle.
      intros Ha Hu Hb. unfold extra. change (@dist NumQ p) with (dq p). unfold dq. numq.
      pose proof (triangle _ _ _ Ha Hu Hb). lra.
    Qed.
    Lemma place_pos r x u pos l' e : (r < nv)%nat -> (u < dim)%nat -> place p r (rs r) x u pos l' e -> 0 <= e.
    Proof using H dim_pos triangle.
      intros Hr Hu PL. destruct PL as [A B E|A0 A1 B E NA|A B0 B1 E NB]; apply extra_pos; auto;
        apply (num_bound r); auto; rewrite E.
      - rewrite stops_app. apply in_or_app. left. apply last0_In. nepos.
      - rewrite stops_app, suf_cons. apply in_or_app. right. right. apply hd0_In. nepos.
      - rewrite stops_app. apply in_or_app. left. apply last0_In. nepos.
      - rewrite stops_app, suf_app. apply in_or_app. right. apply in_or_app. left. apply hd0_In. nepos.
      - rewrite stops_app, suf_cons, suf_app. apply in_or_app. right. right. apply in_or_app. left. apply last0_In. nepos.
      - rewrite stops_app, suf_cons, suf_app. apply in_or_app. right. right. apply in_or_app. right. apply hd0_In. nepos.
    Qed.

    Lemma olt_cases (x : Q) (b : @bss NumQ) bu bv pu pv :
      (@olt NumQ (Some (x : @F NumQ)) (b_cost b) = true ->
         lower b (mkBSS (Some (x : @F NumQ)) bu bv pu pv) /\ below (@mkBSS NumQ (Some (x : @F NumQ)) bu bv pu pv) x) /\
      (@olt NumQ (Some (x : @F NumQ)) (b_cost b) = false -> below b x).
    Proof using.
      unfold olt, below, lower. split.
      - intros L. split; [|exists x; split; [auto|lra]].
        intros z (y & E & LE). rewrite E in L. numq. apply Qltb_lt in L. exists x. split; [auto|lra].
      - destruct (b_cost b) as [y|]; [|discriminate]. intros L. exists y. split; auto. numq. apply Qltb_ge in L. auto.
    Qed.
    Lemma oapprox_cases (x : Q) (b : @bss NumQ) bu bv pu pv :
      (@oapprox_lt NumQ (Some (x : @F NumQ)) (b_cost b) = true ->
         lower b (mkBSS (Some (x : @F NumQ)) bu bv pu pv) /\ below (@mkBSS NumQ (Some (x : @F NumQ)) bu bv pu pv) x) /\
      (@oapprox_lt NumQ (Some (x : @F NumQ)) (b_cost b) = false -> below b (x + eps)).
    Proof using.
      unfold oapprox_lt, below, lower. split.
      - intros L. split; [|exists x; split; [auto|lra]].
        intros z (y & E & LE). rewrite E in L. apply approx_lt_Q in L. exists x. split; [auto|lra].
      - destruct (b_cost b) as [y|]; [|discriminate]. intros L. exists y. split; auto. apply approx_lt_Q_false in L. numq. lra.
    Qed.

    Lemma below_le (b : @bss NumQ) (x y : Q) : x <= y -> below b x -> below b y.
    Proof using. intros L (z & E & LE). exists z. split; [auto|lra]. Qed.

    Lemma swap_pair_seen u v b b' : In u (rs r1) -> In v (rs r2) ->
      swap_pair p pen r1 r2 s (PN u) b (PN v) = Ok b' ->
      lower b b' /\
      forall pu pv l1 l2 d, star p pen s rs r1 r2 (mkBSS (Some d) (Some (PN u)) (Some (PN v)) (Some pu) (Some pv)) l1 l2 d ->
        seen (2 * eps) b' d.
    Proof using H H1 H2 R12 R21 dim_pos triangle.
      intros IU IV. unfold swap_pair. pose proof IU as IU'. pose proof IV as IV'.
      pose proof (proj2 (serves_bound p c rs (h_serves _ _ _ _ _ H) _ _ H1 IU)) as BU'.
      pose proof (proj2 (serves_bound p c rs (h_serves _ _ _ _ _ H) _ _ H2 IV)) as BV'.
      apply in_split in IU, IV. destruct IU as (A & B & EU), IV as (C & D & EV).
      destruct R12 as [DU FU]. destruct R21 as [DV FV].
      destruct (FU u IU') as (cu & BU). destruct (FV v IV') as (cv & BV).
      rewrite (DU A u B EU), (DV C v D EV).
      pose proof (serves_nodup p c rs (h_serves _ _ _ _ _ H) r1 H1) as ND1.
      pose proof (serves_nodup p c rs (h_serves _ _ _ _ _ H) r2 H2) as ND2.
      assert (ST : forall pu pv l1 l2 d,
        star p pen s rs r1 r2 (mkBSS (Some d) (Some (PN u)) (Some (PN v)) (Some pu) (Some pv)) l1 l2 d ->
        exists iu iv, place p r2 (rs r2) v u pu l2 iu /\ place p r1 (rs r1) u v pv l1 iv /\
          d = removal p r1 A u B
              +: penalty_change pen (r_over (s_routes s r1) -: dem p (PN u) +: dem p (PN v)) (r_over (s_routes s r1))
              +: iu +: removal p r2 C v D
              +: penalty_change pen (r_over (s_routes s r2) +: dem p (PN u) -: dem p (PN v)) (r_over (s_routes s r2))
              +: iv).
      { intros pu pv l1 l2 d ST. inversion ST; subst.
        assert (Q1 : A = A0 /\ B = B0) by (apply (split_unique A B A0 B0 u); congruence).
        assert (Q2 : C = C0 /\ D = D0) by (apply (split_unique C D C0 D0 v); congruence).
        destruct Q1 as [<- <-], Q2 as [<- <-]. eauto. }
      revert ST.
      generalize (penalty_change pen (r_over (s_routes s r1) -: dem p (PN u) +: dem p (PN v)) (r_over (s_routes s r1))).
      generalize (penalty_change pen (r_over (s_routes s r2) +: dem p (PN u) -: dem p (PN v)) (r_over (s_routes s r2))).
      generalize (removal p r1 A u B). generalize (removal p r2 C v D). intros m2 m1 p2 p1 ST.
      destruct (approx_lte (m1 +: m2 +: p1 +: p2) f0) eqn:G.
      2:{ intros E. injection E as <-. split; [apply lower_refl|]. intros pu pv l1 l2 d SD.
          destruct (ST _ _ _ _ _ SD) as (iu & iv & PU & PV & ->). right. apply approx_lte_Q_false in G.
          pose proof (place_pos r2 v u pu l2 iu H2 BU' PU) as X1.
          pose proof (place_pos r1 u v pv l1 iv H1 BV' PV) as X2. numq. lra. }
      destruct (cheapest_optimal p c pen s rs r2 C D v u cu H H2 EV BU) as (qu & xu & k2 & Q1 & _ & O1).
      destruct (cheapest_optimal p c pen s rs r1 A B u v cv H H1 EU BV) as (qv & xv & k1 & Q2 & _ & O2).
      rewrite Q1, Q2. cbn [rbind oadd].
      set (x := m1 +: p1 +: xu +: m2 +: p2 +: xv).
      assert (SX : forall pu pv l1 l2 d, star p pen s rs r1 r2
        (mkBSS (Some d) (Some (PN u)) (Some (PN v)) (Some pu) (Some pv)) l1 l2 d -> x <= d + 2 * eps).
      { intros pu pv l1 l2 d SD. destruct (ST _ _ _ _ _ SD) as (iu & iv & PU & PV & ->).
        specialize (O1 _ _ _ PU). specialize (O2 _ _ _ PV). unfold x. numq. lra. }
      destruct (olt_cases x b (Some (PN u)) (Some (PN v)) (Some qu) (Some qv)) as [T F]. fold x.
      destruct (olt (Some x) (b_cost b)); intros E; injection E as <-.
      - destruct T as [T1 T2]; auto. split; auto. intros. left. eapply below_le; [|exact T2]. eauto.
      - split; [apply lower_refl|]. intros. left. eapply below_le; [|apply F; auto]. eauto.
    Qed.

    Lemma fresh_least r n calc : exists e X, t_one (fresh p r (rs r) n calc) = (Some e, Some X) /\
      forall Y Z, rs r = Y ++ Z -> e <= extra p (last0 (pre r Y)) (PN n) (hd0 (suf r Z)).
    Proof using.
      destruct (offered_best (positions p r (rs r) (PN n)) calc) as (sl & R & S & P & SS & CR & LL).
      fold (fresh p r (rs r) n calc) in S. rewrite positions_length in LL.
      destruct sl as [|[x a] sl]; [discriminate LL|].
      exists x, a. split; [apply S|]. intros Y Z E.
      assert (I : In (extra p (last0 (pre r Y)) (PN n) (hd0 (suf r Z)), last0 (pre r Y)) (positions p r (rs r) (PN n))).
      { unfold positions. apply in_map_iff. exists (last0 (pre r Y), hd0 (suf r Z)). split; auto. rewrite E. apply cut_pair. }
      apply (Permutation_in _ (Permutation_sym P)) in I. destruct I as [I|I].
      - injection I as -> _. apply Qle_refl.
      - apply in_app_or in I. destruct I as [I|I].
        + inversion SS as [|? ? _ FA]; subst. rewrite Forall_forall in FA. apply (FA _ I).
        + apply (CR (x, a) _ ltac:(left; auto) I).
    Qed.

    Lemma swap_relocate_u_seen u b b' : In u (rs r1) -> swap_relocate_u p pen r1 r2 s b (PN u) = Ok b' ->
      lower b b' /\
      forall pu l1 l2 d, star p pen s rs r1 r2 (mkBSS (Some d) (Some (PN u)) None (Some pu) None) l1 l2 d -> seen (2 * eps) b' d.
    Proof using H H1 R12.
      intros IU. unfold swap_relocate_u. pose proof IU as IU'. apply in_split in IU. destruct IU as (A & B & EU).
      destruct R12 as [DU FU]. destruct (FU u IU') as (cu & BU). cbn [num]. rewrite BU.
      pose proof (serves_nodup p c rs (h_serves _ _ _ _ _ H) r1 H1) as ND1.
      destruct (fresh_least r2 u cu) as (e & X & -> & LE). rewrite (DU A u B EU). cbn [oadd].
      set (x := _ +: _ +: _ +: _).
      assert (SX : forall pu l1 l2 d,
        star p pen s rs r1 r2 (mkBSS (Some d) (Some (PN u)) None (Some pu) None) l1 l2 d -> x <= d).
      { intros pu l1 l2 d SD. inversion SD; subst.
        assert (Q1 : A = A0 /\ B = B0) by (apply (split_unique A B A0 B0 u); congruence). destruct Q1 as [<- <-].
        match goal with Z : rs r2 = _ |- _ => specialize (LE _ _ Z) end.
        clear - LE. repeat match goal with z := _ |- _ => subst z end.
        repeat match goal with |- context [penalty_change ?a ?b ?k] => generalize (penalty_change a b k); intros end.
        repeat match goal with |- context [removal ?a ?b ?k ?l ?m] => generalize (removal a b k l m); intros end.
        numq. lra. }
      destruct (oapprox_cases x b (Some (PN u)) None (Some X) None) as [T F].
      destruct (oapprox_lt (Some x) (b_cost b)); intros E; injection E as <-.
      - destruct T as [T1 T2]; auto. split; auto. intros pu l1 l2 d SD. left. eapply below_le; [|exact T2].
        apply SX in SD. numq. lra.
      - split; [apply lower_refl|]. intros pu l1 l2 d SD. left. eapply below_le; [|apply F; auto].
        apply SX in SD. numq. lra.
    Qed.

    Lemma swap_relocate_v_seen v b b' : In v (rs r2) -> swap_relocate_v p pen r1 r2 s b (PN v) = Ok b' ->
      lower b b' /\
      forall pv l1 l2 d, star p pen s rs r1 r2 (mkBSS (Some d) None (Some (PN v)) None (Some pv)) l1 l2 d -> seen (2 * eps) b' d.
    Proof using H H2 R21.
      intros IV. unfold swap_relocate_v. pose proof IV as IV'. apply in_split in IV. destruct IV as (C & D & EV).
      destruct R21 as [DV FV]. destruct (FV v IV') as (cv & BV). cbn [num]. rewrite BV.
      pose proof (serves_nodup p c rs (h_serves _ _ _ _ _ H) r2 H2) as ND2.
      destruct (fresh_least r1 v cv) as (e & X & -> & LE). rewrite (DV C v D EV). cbn [oadd].
      set (x := _ +: _ +: _ +: _).
      assert (SX : forall pv l1 l2 d,
        star p pen s rs r1 r2 (mkBSS (Some d) None (Some (PN v)) None (Some pv)) l1 l2 d -> x <= d).
      { intros pv l1 l2 d SD. inversion SD; subst.
        assert (Q1 : C = C0 /\ D = D0) by (apply (split_unique C D C0 D0 v); congruence). destruct Q1 as [<- <-].
        match goal with Z : rs r1 = _ |- _ => specialize (LE _ _ Z) end.
        clear - LE. repeat match goal with z := _ |- _ => subst z end.
        repeat match goal with |- context [penalty_change ?a ?b ?k] => generalize (penalty_change a b k); intros end.
        repeat match goal with |- context [removal ?a ?b ?k ?l ?m] => generalize (removal a b k l m); intros end.
        numq. lra. }
      destruct (oapprox_cases x b None (Some (PN v)) None (Some X)) as [T F].
      destruct (oapprox_lt (Some x) (b_cost b)); intros E; injection E as <-.
      - destruct T as [T1 T2]; auto. split; auto. intros pv l1 l2 d SD. left. eapply below_le; [|exact T2].
        apply SX in SD. numq. lra.
      - split; [apply lower_refl|]. intros pv l1 l2 d SD. left. eapply below_le; [|apply F; auto].
        apply SX in SD. numq. lra.
    Qed.
  End Choice.

  Lemma star_seen s rs r1 r2 s' b : holds p c pen s rs -> caches p c s rs ->
    (r1 < nv)%nat -> (r2 < nv)%nat -> r1 <> r2 -> swap_star_best p pen s r1 r2 = Ok (s', b) ->
    holds p c pen s' rs /\ forall b0 l1 l2 d, star p pen s' rs r1 r2 b0 l1 l2 d -> seen (2 * eps) b d.
  Proof using dim_pos triangle.
    intros H C H1 H2 NE. unfold swap_star_best.
    destruct (preprocess_ok p c pen s rs r1 r2) as (s1 & E1 & P1 & C1 & R1 & _ & _); auto.
    rewrite E1. cbn [rbind].
    assert (HH1 : holds p c pen s1 rs) by (eapply holds_view; [apply prepared_view|]; eauto).
    destruct (preprocess_ok p c pen s1 rs r2 r1) as (s2 & E2 & P2 & C2 & R2 & I2 & B2); auto.
    rewrite E2. cbn [rbind].
    assert (HH2 : holds p c pen s2 rs) by (eapply holds_view; [apply prepared_view|]; eauto).
    assert (R1' : ready p s2 rs r1 r2).
    { destruct R1 as [Q1 Q2]. split.
      - intros A u B E. rewrite I2; [auto|]. rewrite in_map_iff. intros (k & K & I). injection K as ->.
        revert I. apply (serves_apart p c rs (h_serves _ _ _ _ _ H) r1 r2); auto. rewrite E. auto with datatypes.
      - intros u I. rewrite B2 by auto. auto. }
    rewrite (customers_of_ok p c pen s2 rs HH2 r1), (customers_of_ok p c pen s2 rs HH2 r2) by auto. cbn [rbind].
    destruct (foldm _ (map PN (rs r1)) bss_new) as [b1|] eqn:F1; [|discriminate]. cbn [rbind].
    destruct (foldm _ (map PN (rs r1)) b1) as [b2|] eqn:F2; [|discriminate]. cbn [rbind].
    destruct (foldm _ (map PN (rs r2)) b2) as [b3|] eqn:F3; [|discriminate]. cbn [rbind].
    intros E. injection E as <- <-. split; [exact HH2|].
    apply (foldm_covers _ lower (fun a b' => forall u, a = PN u -> forall v, In v (rs r2) -> forall pu pv l1 l2 d,
      star p pen s2 rs r1 r2 (mkBSS (Some d) (Some (PN u)) (Some (PN v)) (Some pu) (Some pv)) l1 l2 d ->
      seen (2 * eps) b' d)) in F1; [|apply lower_refl|apply lower_trans|intros; eapply seen_lower; eauto|].
    2:{ intros b a b' Ia Fa. apply in_map_iff in Ia. destruct Ia as (u & <- & Iu).
        apply (foldm_covers _ lower (fun a b' => forall v, a = PN v -> forall pu pv l1 l2 d,
          star p pen s2 rs r1 r2 (mkBSS (Some d) (Some (PN u)) (Some (PN v)) (Some pu) (Some pv)) l1 l2 d ->
          seen (2 * eps) b' d)) in Fa; [|apply lower_refl|apply lower_trans|intros; eapply seen_lower; eauto|].
        - destruct Fa as [L Fa]. split; auto. intros u' EU v Iv. injection EU as <-. apply (Fa (PN v)); auto. apply in_map; auto.
        - intros b'' a' b''' Ia' Fa'. apply in_map_iff in Ia'. destruct Ia' as (v & <- & Iv).
          destruct (swap_pair_seen s2 rs HH2 r1 r2 H1 H2 R1' R2 u v _ _ Iu Iv Fa') as [L Q]. split; auto.
          intros v' EV. injection EV as <-. exact Q. }
    apply (foldm_covers _ lower (fun a b' => forall u, a = PN u -> forall pu l1 l2 d,
      star p pen s2 rs r1 r2 (mkBSS (Some d) (Some (PN u)) None (Some pu) None) l1 l2 d ->
      seen (2 * eps) b' d)) in F2; [|apply lower_refl|apply lower_trans|intros; eapply seen_lower; eauto|].
    2:{ intros b a b' Ia Fa. apply in_map_iff in Ia. destruct Ia as (u & <- & Iu).
        destruct (swap_relocate_u_seen s2 rs HH2 r1 r2 H1 R1' u _ _ Iu Fa) as [L Q]. split; auto.
        intros u' EU. injection EU as <-. exact Q. }
    apply (foldm_covers _ lower (fun a b' => forall v, a = PN v -> forall pv l1 l2 d,
      star p pen s2 rs r1 r2 (mkBSS (Some d) None (Some (PN v)) None (Some pv)) l1 l2 d ->
      seen (2 * eps) b' d)) in F3; [|apply lower_refl|apply lower_trans|intros; eapply seen_lower; eauto|].
    2:{ intros b a b' Ia Fa. apply in_map_iff in Ia. destruct Ia as (v & <- & Iv).
        destruct (swap_relocate_v_seen s2 rs HH2 r1 r2 H2 R2 v _ _ Iv Fa) as [L Q]. split; auto.
        intros v' EV. injection EV as <-. exact Q. }
    destruct F1 as [_ F1], F2 as [L2 F2], F3 as [L3 F3].
    intros b0 l1 l2 d ST. pose proof ST as ST'.
    destruct ST as [A u B C' v D pu l2 iu pv l1 iv EU EV PU PV ? ? ? ? d
                   |A u B X Y EU EX ? ? ? ? d|C' v D X Y EV EX ? ? ? ? d].
    - eapply seen_lower; [|exact (lower_trans _ _ _ L2 L3)]. eapply (F1 (PN u)); eauto.
      + apply in_map. rewrite EU. auto with datatypes.
      + rewrite EV. auto with datatypes.
    - eapply seen_lower; [|exact L3]. eapply (F2 (PN u)); eauto. apply in_map. rewrite EU. auto with datatypes.
    - eapply (F3 (PN v)); eauto. apply in_map. rewrite EV. auto with datatypes.
  Qed.

  Lemma star_optimal s rs r1 r2 q : holds p c pen s rs -> caches p c s rs ->
    (r1 < nv)%nat -> (r2 < nv)%nat -> r1 <> r2 -> swap_star_run p pen s r1 r2 = Ok (q, false) ->
    exists s', holds p c pen s' rs /\
      forall b0 l1 l2 d, star p pen s' rs r1 r2 b0 l1 l2 d -> - (3 * eps) <= d.
  Proof using dim_pos triangle.
    intros H C H1 H2 NE. unfold swap_star_run.
    destruct (swap_star_best p pen s r1 r2) as [[s' b]|] eqn:E; [|discriminate]. cbn [rbind].
    destruct (star_seen s rs r1 r2 s' b H C H1 H2 NE E) as [H' S].
    destruct (not_improving (b_cost b)) eqn:NI.
    2:{ destruct (move_to _ _ _); [|discriminate]. cbn [rbind]. destruct (move_to _ _ _); [|discriminate]. cbn [rbind].
        destruct (update_route _ _ _ _); [|discriminate]. cbn [rbind]. destruct (update_route _ _ _ _); discriminate. }
    intros _. exists s'. split; auto. intros b0 l1 l2 d ST. destruct (S _ _ _ _ ST) as [(y & EY & L)|L]; [|lra].
    rewrite EY in NI. cbn [not_improving] in NI. apply approx_gte_Q in NI. numq. lra.
  Qed.

  (** Every place is offered. *)
  Lemma place_any r l x a A B A' B' : l = A ++ x :: B -> A ++ B = A' ++ B' ->
    exists pos e, place p r l x a pos (A' ++ a :: B') e.
  Proof using.
    intros E E'. apply app_eq_app in E'. destruct E' as (M & [[EA EB]|[EA EB]]).
    - destruct M as [|m M].
      + rewrite app_nil_r in EA. cbn [app] in EB. subst A' B'. do 2 eexists. eapply pl_same; eauto.
      + subst A B'. do 2 eexists. apply (pl_before p r l x a A' (m :: M) B); [|discriminate]. rewrite E, <- app_assoc. auto.
    - destruct M as [|m M].
      + rewrite app_nil_r in EA. cbn [app] in EB. subst A' B'. do 2 eexists. eapply pl_same; eauto.
      + subst A' B. do 2 eexists. rewrite <- app_assoc. apply (pl_after p r l x a A (m :: M) B'); [auto|discriminate].
  Qed.
End Complete.

Section StarOptimum.
  Variable p : @problem NumQ.
  Variable c : @config NumQ.
  Variable pen : @F NumQ.
  Notation nv := (c_num_vehicles c).
  Notation dim := (p_dim p).
  Local Open Scope Q_scope.
  Notation cost sol := (total_penalized (p_dist p) (p_demand p) (p_cap p) pen sol).
  Notation eps := (1 # 1000000).
  Hypothesis dem0 : p_demand p 0%nat == 0.
  Hypothesis dim_pos : (0 < dim)%nat.
  Hypothesis triangle : forall i j k, (i < dim)%nat -> (j < dim)%nat -> (k < dim)%nat ->
    p_dist p i k <= p_dist p i j + p_dist p j k.

  Variable s : @lsearch NumQ.
  Variable rs : nat -> list nat.
  Hypothesis H : holds p c pen s rs.
  Hypothesis CA : caches p c s rs.
  Hypothesis Q : forall r1 r2, (r1 < r2 < nv)%nat -> squiet p c pen rs r1 r2.

  Lemma optimum_star r1 r2 s' b l1 l2 d rest sol' : (r1 < nv)%nat -> (r2 < nv)%nat -> r1 <> r2 ->
    holds p c pen s' rs -> star p pen s' rs r1 r2 b l1 l2 d -> - (3 * eps) <= d ->
    Permutation (all_routes c rs) (rs r1 :: rs r2 :: rest) -> Permutation sol' (l1 :: l2 :: rest) ->
    cost (all_routes c rs) <= cost sol' + 3 * eps.
  Proof using dem0.
    intros H1 H2 NE HS ST L P1 P2. pose proof (star_exact p c pen dem0 _ _ _ _ _ _ _ _ HS H1 H2 NE ST) as E.
    rewrite (total_two p c pen rs r1 r2 l1 l2 H1 H2 NE) in E.
    pose proof (cost_perm p pen _ _ P1) as C1. pose proof (cost_perm p pen _ _ P2) as C2.
    unfold total, total_penalized in *. cbn [map Qsum] in C1, C2. lra.
  Qed.

  Lemma optimum_exchange l1 l2 sol' : l1 <> [] -> l2 <> [] ->
    overlaps (sector_of p l1) (sector_of p l2) = true ->
    exchange (all_routes c rs) sol' l1 l2 -> cost (all_routes c rs) <= cost sol' + 3 * eps.
  Proof using H CA Q dem0 dim_pos triangle.
    intros N1 N2 OV EX.
    assert (P : exists rest, Permutation (all_routes c rs) (l1 :: l2 :: rest)) by (destruct EX; eauto).
    destruct P as (rest0 & P0). destruct (pick2 _ _ _ _ _ P0) as (r1 & r2 & H1 & H2 & NE & E1 & E2).
    assert (SW : forall A B rest (x y : list nat), Permutation A (x :: y :: rest) -> B = y :: x :: rest -> Permutation A B).
    { intros A B rest x y PA ->. rewrite PA. apply perm_swap. }
    destruct (Nat.lt_total r1 r2) as [LT|[LT|LT]]; [|congruence|].
    - destruct (Q r1 r2 ltac:(lia) s H CA) as (q & R); try congruence.
      destruct (star_optimal p c pen dim_pos triangle s rs r1 r2 q H CA H1 H2 NE R) as (s' & HS & O).
      destruct EX as [u v A B C D A' B' C' D' rest P1 EA EC EA' EC' P2|u A B C D rest P1 EA EC P2].
      + destruct (place_any p r1 (rs r1) u v A B A' B') as (pv & iv & PV); [congruence|auto|].
        destruct (place_any p r2 (rs r2) v u C D C' D') as (pu & iu & PU); [congruence|auto|].
        rewrite <- E1, <- E2 in P1. eapply (optimum_star r1 r2 s'); eauto; [|eapply O];
          eapply (st_swap p pen s' rs r1 r2 A u B C v D); eauto; congruence.
      + rewrite <- E1, <- E2 in P1. eapply (optimum_star r1 r2 s'); eauto; [|eapply O];
          eapply (st_u p pen s' rs r1 r2 A u B C D); eauto; congruence.
    - destruct (Q r2 r1 ltac:(lia) s H CA) as (q & R); [congruence|congruence|rewrite overlaps_sym; congruence|].
      assert (NE' : r2 <> r1) by auto.
      destruct (star_optimal p c pen dim_pos triangle s rs r2 r1 q H CA H2 H1 NE' R) as (s' & HS & O).
      destruct EX as [u v A B C D A' B' C' D' rest P1 EA EC EA' EC' P2|u A B C D rest P1 EA EC P2].
      + destruct (place_any p r1 (rs r1) u v A B A' B') as (pv & iv & PV); [congruence|auto|].
        destruct (place_any p r2 (rs r2) v u C D C' D') as (pu & iu & PU); [congruence|auto|].
        rewrite <- E1, <- E2 in P1. pose proof (SW _ _ _ _ _ P1 eq_refl) as P3. pose proof (SW _ _ _ _ _ P2 eq_refl) as P4.
        eapply (optimum_star r2 r1 s'); eauto; [|eapply O]; eapply (st_swap p pen s' rs r2 r1 C v D A u B); eauto; congruence.
      + rewrite <- E1, <- E2 in P1. pose proof (SW _ _ _ _ _ P1 eq_refl) as P3. pose proof (SW _ _ _ _ _ P2 eq_refl) as P4.
        eapply (optimum_star r2 r1 s'); eauto; [|eapply O]; eapply (st_v p pen s' rs r2 r1 A u B C D); eauto; congruence.
  Qed.
End StarOptimum.

(** ** A whole run *)
Section Perm.
  Variables sol1 sol2 sol' : list (list nat).
  Hypothesis P : Permutation sol1 sol2.

  Lemma relocated_perm blk ins v : relocated sol1 sol' blk ins v -> relocated sol2 sol' blk ins v.
  Proof using P. pose proof (Permutation_sym P) as P'. intros []; [eapply re_other|eapply re_later|eapply re_earlier]; eauto; etransitivity; eauto. Qed.
  Lemma swapped_perm ub vb : swapped sol1 sol' ub vb -> swapped sol2 sol' ub vb.
  Proof using P. pose proof (Permutation_sym P) as P'. intros []; [eapply sw_other|eapply sw_later|eapply sw_earlier]; eauto; etransitivity; eauto. Qed.
  Lemma neighbour_perm m u v : neighbour sol1 sol' m u v -> neighbour sol2 sol' m u v.
  Proof using P.
    pose proof (Permutation_sym P) as P'. destruct m; cbn [neighbour].
    - apply relocated_perm.
    - intros (x & X). exists x. apply relocated_perm; auto.
    - intros (x & X). exists x. apply relocated_perm; auto.
    - apply swapped_perm.
    - intros (x & X). exists x. apply swapped_perm; auto.
    - intros (x & y & X). exists x, y. apply swapped_perm; auto.
    - intros (A & M & D & rest & X & Y & Z). exists A, M, D, rest. split; auto. split; auto. etransitivity; eauto.
    - intros (A & B & C & D & rest & X & Y). exists A, B, C, D, rest. split; auto. etransitivity; eauto.
    - intros (A & B & C & D & rest & X & Y). exists A, B, C, D, rest. split; auto. etransitivity; eauto.
  Qed.
  Lemma opens_perm m u : opens sol1 sol' m u -> opens sol2 sol' m u.
  Proof using P.
    pose proof (Permutation_sym P) as P'. destruct m; cbn [opens]; auto.
    - intros (A & B & rest & X & Y). exists A, B, rest. split; auto. etransitivity; eauto.
    - intros (A & x & B & rest & X & Y). exists A, x, B, rest. split; auto. etransitivity; eauto.
    - intros (A & x & B & rest & X & Y). exists A, x, B, rest. split; auto. etransitivity; eauto.
    - intros (A & B & rest & X & Y). exists A, B, rest. split; auto. etransitivity; eauto.
  Qed.
  Lemma exchange_perm l1 l2 : exchange sol1 sol' l1 l2 -> exchange sol2 sol' l1 l2.
  Proof using P.
    pose proof (Permutation_sym P) as P'. intros [];
      [eapply (ex_two _ _ _ _ u v A B C D A' B' C' D')|eapply (ex_single _ _ _ _ u A B C D)]; eauto; etransitivity; eauto.
  Qed.
End Perm.

(** The state at the end of a run, with what the run has settled *)
Theorem ls_run_settled (N : Num) (p : problem) (c : config) (pen : F) fuel epen s i r s' i' r' :
  approx_lt f0 f0 = false -> 0 < c_granularity c -> 0 < p_dim p ->
  ls_ready p c s -> length (i_pheno i) = c_num_vehicles c -> serves_all_once (p_dim p) (i_pheno i) ->
  ls_run p c pen fuel epen s i r = Ok (s', i', r') ->
  exists rs n lc, holds p c pen s' rs /\ caches p c s' rs /\ Permutation (i_pheno i') (all_routes c rs) /\
    s_count s' = Z.of_nat n /\ optimal p c pen lc (s_corr s) rs /\ (c_swap_star c = true -> 0 < n -> 0 < lc).
Proof.
  intros Z0 GP DP R HL SV E. destruct (load_ok p c pen s (i_pheno i) R HL SV) as (AR & s1 & E1 & I1 & C1 & K1).
  unfold ls_run in E. rewrite E1 in E. cbn [rbind] in E.
  destruct (search_ok p c pen Z0 GP fuel 0 s1 _ r I1)
    as [(s2 & r2 & rs & n & lc & E2 & I2 & T & K2 & N2 & O & _ & L)|(E2 & _)]; rewrite E2 in E; cbn [rbind] in E;
    [|discriminate].
  pose proof (b_holds _ _ _ _ _ (i_base _ _ _ _ _ I2)) as H2.
  destruct (update_individual p c epen s2 i) as [i2|] eqn:E3; [|discriminate]. cbn [rbind] in E.
  injection E as <- <- <-.
  destruct (update_individual_ok p c pen GP DP epen s2 rs i i2 H2 HL E3) as (P & _).
  exists rs, n, lc. rewrite <- C1. split; auto. split; [apply (b_caches _ _ _ _ _ (i_base _ _ _ _ _ I2))|]. split; auto.
  split; [rewrite K2, K1; auto|]. auto.
Qed.

(** The moves tried for a place directly behind a depot are among those that have just failed. *)
Lemma try_moves_none {N : Num} p pen ms s u v : try_moves p pen ms s u v = Ok None <->
  (forall m, In m ms -> exists d, delta p pen m s u v = Ok d /\ approx_lt d f0 = false).
Proof.
  induction ms as [|m ms IH]; cbn [try_moves].
  - split; auto. intros _ m [].
  - split.
    + destruct (delta p pen m s u v) as [d|] eqn:E; [|discriminate]. cbn [rbind]. destruct (approx_lt d f0) eqn:L.
      * destruct (perform _ _ _ _ _ _); discriminate.
      * intros H m' [<-|I]; [eauto|]. apply IH; auto.
    + intros H. destruct (H m (or_introl eq_refl)) as (d & -> & L). cbn [rbind]. rewrite L. apply IH. intros m' I. apply H; right; auto.
Qed.
Lemma depot_in {N : Num} (c : config) m : In m (depot_moves c) -> In m (neighbor_moves c).
Proof.
  unfold depot_moves, neighbor_moves. rewrite !in_app_iff. intuition.
Qed.
