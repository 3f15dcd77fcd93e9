(** The ruin and recreate search: loading, moves, reading the result back. *)
From Coq Require Import List Arith NArith ZArith Bool Lia Permutation.
From Verif.Model Require Import Num Prelude Evaluate Individual Config Matrix World Schedule RuinRecreate.
From Verif.Spec Require Import Solution Population RuinRecreate.
From Verif.Proofs Require Import Lists EvalFacts EvalThms SplitStruct MatrixFacts RrRuin RrRuinRun RrRecreate.
Import ListNotations.
Local Open Scope nat_scope.

Lemma mapm_geti {A} (l : list A) : mapm (geti l) (seq 0 (length l)) = Ok l.
Proof.
  apply mapm_spec.
  assert (G : forall (l2 l1 : list A), Forall2 (fun i b => geti (l1 ++ l2) i = Ok b) (seq (length l1) (length l2)) l2).
  { induction l2 as [|x l2 IH]; intros l1; cbn [length seq]; constructor.
    - apply geti_some, nth_error_mid.
    - specialize (IH (l1 ++ [x])). rewrite app_length in IH. cbn [length] in IH. rewrite Nat.add_1_r in IH.
      rewrite <- app_assoc in IH. exact IH. }
  exact (G l []).
Qed.

Section Run.
  Context {N : Num}.
  Variable p : problem.
  Variable c : config.
  Variable E : env.
  Notation dim := (p_dim p).
  Notation nv := (c_num_vehicles c).

  Variable good : rroute -> Prop.
  Hypothesis good_remove : forall ro i n ro', good ro -> ro_remove p ro i = Ok (n, ro') -> good ro'.
  Hypothesis good_add : forall ro i n ro', good ro -> ro_add p ro i n = Ok ro' -> proper p (ro_nodes ro') -> good ro'.
  Hypothesis good_eval : forall nodes, proper p nodes -> good (mkRoute nodes (gdist p f0 0 nodes) (gover p nodes)).
  Hypothesis below : reals_below_one p.
  Hypothesis dim2 : 2 <= dim.
  Hypothesis nv_pos : 0 < nv.

  Definition shaped (s : rsol) : Prop :=
    length (so_routes s) = nv /\ length (so_loc s) = dim /\ so_un s = [] /\ so_ruined s = [].
  Definition sound (s : rsol) : Prop := settled_sol p c s /\ Forall good (so_routes s).
  Definition priced (pen : F) (s : rsol) : Prop := so_cost s = Some (so_total pen s).

  Lemma sound_shaped s : sound s -> shaped s.
  Proof using. intros [[A1 A2 A3 A4 A5 A6] _]. repeat split; auto. Qed.

  Lemma so_from_ok s o : shaped s -> shaped o -> so_from s o = Ok o.
  Proof.
    intros (A1 & A2 & A3 & A4) (B1 & B2 & B3 & B4). unfold so_from.
    rewrite A2, <- B2, mapm_geti. cbn [rbind]. rewrite A1, <- B1, mapm_geti. cbn [rbind].
    rewrite A3, A4. destruct o; cbn in *. now subst.
  Qed.

  (** ** Loading *)
  Lemma finished_routes i : finished p i -> exists pen e, i_eval i = geval p pen e (i_pheno i).
  Proof using c dim2 nv_pos.
    intros (H1 & H2 & pen & e & H3). exists pen, e. rewrite evaluate_eq in H3; [congruence| |lia].
    intros n Hn. eapply Permutation_in in Hn; [|exact H1]. apply in_seq in Hn. lia.
  Qed.

  Lemma load_steps i pen e : finished p i -> i_eval i = geval p pen e (i_pheno i) ->
    forall k l1 l2 loc0, i_pheno i = l1 ++ l2 -> length l2 = k -> length loc0 = dim ->
    (forall r j nodes n, nth_error l1 r = Some nodes -> nth_error nodes j = Some n -> nth_error loc0 n = Some (r, j)) ->
    exists loc, foldm (load_one i) (seq (length l1) k) (map (fun nodes => mkRoute nodes (gdist p f0 0 nodes) (gover p nodes)) l1, loc0)
      = Ok (map (fun nodes => mkRoute nodes (gdist p f0 0 nodes) (gover p nodes)) (i_pheno i), loc) /\
      length loc = dim /\
      (forall r j nodes n, nth_error (i_pheno i) r = Some nodes -> nth_error nodes j = Some n -> nth_error loc n = Some (r, j)).
  Proof using c dim2 nv_pos.
    intros (SV & _) EV. induction k as [|k IH]; intros l1 l2 loc0 EP L2 LL HL.
    - destruct l2; [|discriminate]. rewrite app_nil_r in EP. subst l1. exists loc0. cbn [seq foldm]. auto.
    - destruct l2 as [|nodes l2]; [discriminate|]. cbn [seq foldm]. unfold load_one at 1.
      assert (G1 : geti (i_pheno i) (length l1) = Ok nodes) by (rewrite EP; apply geti_some, nth_error_mid).
      rewrite G1. cbn [rbind]. rewrite EV. cbn [se_routes geval].
      assert (G2 : geti (map (fun r => mkRE (gdist p f0 0 r) (gover p r) (gcost p pen r)) (i_pheno i)) (length l1)
                   = Ok (mkRE (gdist p f0 0 nodes) (gover p nodes) (gcost p pen nodes))).
      { apply geti_some. rewrite nth_error_map', EP, nth_error_mid. reflexivity. }
      rewrite G2. cbn [rbind re_distance re_overload].
      pose proof (serves_NoDup _ _ SV) as ND.
      assert (NE : nth_error (i_pheno i) (length l1) = Some nodes) by now apply geti_inv.
      destruct (place_route_ok (length l1) nodes 0 loc0) as (loc1 & G & L & K1 & K2).
      { intros n Hn. rewrite LL. assert (In n (concat (i_pheno i))).
        { apply in_concat. exists nodes. split; auto. eapply nth_error_In; eauto. }
        eapply Permutation_in in H; [|exact SV]. apply in_seq in H. lia. }
      { eapply nodup_route; eauto. }
      unfold place_route. rewrite G. cbn [rbind].
      destruct (IH (l1 ++ [nodes]) l2 loc1) as (loc & F1 & F2 & F3).
      { rewrite EP, <- app_assoc. auto. }
      { cbn in L2. lia. }
      { congruence. }
      { intros r j nd n H1 H2. destruct (Nat.eq_dec r (length l1)) as [->|Ne].
        - rewrite nth_error_mid in H1. injection H1 as <-. rewrite (K1 j n H2). reflexivity.
        - assert (r < length l1).
          { assert (r < length (l1 ++ [nodes])) by (apply nth_error_Some; congruence).
            rewrite app_length in H. cbn in H. lia. }
          rewrite nth_error_app1 in H1 by auto. rewrite K2; [eapply HL; eauto|].
          intro I. apply Ne. apply (nodup_routes_disjoint (i_pheno i) _ _ nd nodes n ND); auto.
          + rewrite EP. now rewrite nth_error_app1.
          + eapply nth_error_In; eauto. }
      exists loc. split; [|auto]. rewrite app_length in F1. cbn [length] in F1.
      rewrite Nat.add_1_r in F1. rewrite map_app in F1. cbn [map] in F1. exact F1.
  Qed.

  Lemma so_load_ok s i : shaped s -> finished p i -> length (i_pheno i) = nv ->
    exists s', so_load s i = Ok s' /\ sound s' /\ routes_of s' = i_pheno i /\ so_cost s' = so_cost s.
  Proof using c dim2 nv_pos good_eval.
    intros (A1 & A2 & A3 & A4) HF HL. unfold so_load. rewrite HL, A1, Nat.eqb_refl.
    destruct (finished_routes i HF) as (pen & e & EV).
    destruct (load_steps i pen e HF EV nv [] (i_pheno i) (so_loc s)) as (loc & G & L & K); auto.
    { intros r j nodes n H. destruct r; discriminate. }
    cbn [length map] in G. rewrite G. cbn [rbind]. eexists. split; [reflexivity|].
    assert (R : routes_of (so_set_loc (so_set_routes s (map (fun nodes => mkRoute nodes (gdist p f0 0 nodes) (gover p nodes)) (i_pheno i))) loc) = i_pheno i).
    { unfold routes_of. cbn [so_routes so_set_loc so_set_routes]. rewrite map_map. cbn [ro_nodes]. apply map_id. }
    split; [|auto]. split.
    - constructor; auto.
      + cbn [so_routes so_set_loc so_set_routes]. now rewrite map_length.
      + rewrite R. apply HF.
      + intros r j nodes n _ H1 H2. rewrite R in H1. eapply K; eauto.
    - cbn [so_routes so_set_loc so_set_routes]. apply Forall_forall. intros ro H. apply in_map_iff in H.
      destruct H as (nodes & <- & IN). apply good_eval. apply (perm_proper p (i_pheno i) []); [rewrite app_nil_r; apply HF|exact IN].
  Qed.

  Lemma located_ext s s' : so_routes s' = so_routes s -> so_loc s' = so_loc s -> located s -> located s'.
  Proof using. intros E1 E2 H r i nodes n. unfold routes_of. rewrite E1, E2. apply H. Qed.

  Lemma so_evaluate_ok pen s : sound s -> exists s',
    so_evaluate pen (seq 0 (length (so_routes s))) s = Ok s' /\ sound s' /\ so_routes s' = so_routes s /\
    priced pen s'.
  Proof.
    intros [S G]. unfold so_evaluate. cbn [so_routes so_set_cost so_loc].
    destruct (place_routes_ok s (seq 0 (length (so_routes s))) (so_loc s)) as (loc & K & L & KL).
    { intros r Hr. apply in_seq in Hr. lia. }
    { eapply serves_NoDup. apply (ss_serves _ _ _ S). }
    { intros n Hn. rewrite (ss_loc _ _ _ S). eapply Permutation_in in Hn; [|apply (ss_serves _ _ _ S)].
      apply in_seq in Hn. lia. }
    rewrite K. cbn [rbind]. eexists. split; [reflexivity|]. split; [|split; [reflexivity|reflexivity]].
    split; [|exact G]. destruct S as [A1 A2 A3 A4 A5 A6]. constructor; auto.
    - cbn [so_loc so_set_loc]. congruence.
    - intros r j nodes n _ H1 H2. apply (KL r j nodes n H1 H2). right. eapply A6; eauto.
  Qed.

  (** ** Reading back *)
  Definition rr_read (pen : F) (s : rsol) (i i' : individual) : Prop :=
    Permutation (i_pheno i') (routes_of s) /\ length (i_pheno i') = nv /\
    serves_all_once dim (i_pheno i') /\ i_geno i' = concat (i_pheno i') /\
    i_eval i' = geval p pen (i_eval i) (i_pheno i') /\ i_number i' = i_number i /\ i_fitness i' = i_fitness i.

  Lemma rr_read_finished pen s i i' : rr_read pen s i i' -> finished p i'.
  Proof using c dim2 nv_pos.
    intros (P & L & S & G & Ev & _). split; [exact S|]. split; [exact G|]. exists pen, (i_eval i).
    rewrite Ev. apply evaluate_eq; [|lia]. intros n Hn. eapply Permutation_in in Hn; [|exact S]. apply in_seq in Hn. lia.
  Qed.

  Lemma write_routes_ok : forall (rs : list rroute) (g1 : list nat) (l1 ph : list (list nat)), length ph = length rs ->
    foldm write_route (combine (seq (length l1) (length rs)) rs) (g1, l1 ++ ph) =
    Ok (g1 ++ concat (map ro_nodes rs), l1 ++ map ro_nodes rs).
  Proof.
    induction rs as [|ro rs IH]; intros g1 l1 ph L.
    - destruct ph; [|discriminate]. cbn. now rewrite !app_nil_r.
    - destruct ph as [|x ph]; [discriminate|]. cbn [length seq combine foldm]. unfold write_route at 1.
      cbn [fst snd]. rewrite seti_ok by (rewrite app_length; cbn; lia). cbn [rbind].
      rewrite upd_app_mid. specialize (IH (g1 ++ ro_nodes ro) (l1 ++ [ro_nodes ro]) ph ltac:(cbn in L; lia)).
      rewrite app_length in IH. cbn [length] in IH. rewrite Nat.add_1_r in IH.
      rewrite <- app_assoc in IH. cbn [app] in IH. rewrite IH. cbn [map concat]. now rewrite <- !app_assoc.
  Qed.

  Lemma rr_update_individual_eq pen s i : sound s -> length (i_pheno i) = nv ->
    rr_update_individual p pen s i =
    rbind (sort_routes p (set_geno (set_pheno i (routes_of s)) (concat (routes_of s)))) (ind_evaluate p pen).
  Proof.
    intros [S _] L. unfold rr_update_individual. rewrite (ss_un _ _ _ S).
    pose proof (write_routes_ok (so_routes s) [] [] (i_pheno i)) as W. cbn [length app] in W.
    rewrite W by (rewrite L, (ss_routes _ _ _ S); auto). reflexivity.
  Qed.

  Lemma rr_update_individual_ok pen s i i' : sound s -> length (i_pheno i) = nv ->
    rr_update_individual p pen s i = Ok i' -> rr_read pen s i i'.
  Proof using c dim2 nv_pos.
    intros S L. rewrite rr_update_individual_eq by auto. destruct S as [S _].
    destruct (sort_routes p _) as [i1|] eqn:ES; [|discriminate]. cbn [rbind].
    apply sort_routes_spec in ES; [|reflexivity]. cbn [i_pheno i_geno set_geno set_pheno i_number i_fitness i_eval] in ES.
    destruct ES as (P1 & P2 & P3 & P4 & P5).
    assert (SV : serves_all_once dim (i_pheno i1)).
    { unfold serves_all_once. rewrite (concat_perm _ _ P1). apply (ss_serves _ _ _ S). }
    unfold ind_evaluate. rewrite evaluate_eq; [| |lia].
    2:{ intros m Hm. eapply Permutation_in in Hm; [|exact SV]. apply in_seq in Hm. lia. }
    cbn [rbind]. intro H. injection H as <-. unfold rr_read. cbn [i_geno i_pheno i_eval i_number i_fitness set_eval].
    split; auto. split.
    { rewrite (Permutation_length P1). unfold routes_of. rewrite map_length. apply (ss_routes _ _ _ S). }
    rewrite P5. auto.
  Qed.

  Lemma rr_update_individual_total pen s i : angles_ok p -> sound s -> length (i_pheno i) = nv ->
    exists i', rr_update_individual p pen s i = Ok i'.
  Proof using c dim2 nv_pos.
    intros NN S L. rewrite rr_update_individual_eq by auto. destruct S as [S _].
    destruct (sort_routes p _) as [i1|] eqn:ES.
    - apply sort_routes_spec in ES; [|reflexivity]. destruct ES as (P1 & _). cbn [i_pheno set_geno set_pheno] in P1.
      cbn [rbind]. unfold ind_evaluate. rewrite evaluate_eq; [cbn [rbind]; eauto| |lia].
      intros m Hm. rewrite (concat_perm _ _ P1) in Hm. eapply Permutation_in in Hm; [|apply (ss_serves _ _ _ S)].
      apply in_seq in Hm. lia.
    - exfalso. edestruct (sort_routes_total p) as (ind' & ES'); [exact NN| | |rewrite ES' in ES; discriminate];
        cbn [i_geno i_pheno set_geno set_pheno]; [reflexivity|]. apply (ss_serves _ _ _ S).
  Qed.

  (** ** Moves *)

  (** A new best solution is written to the history. *)
  Definition rr_recorded (pen : F) (h : history) (cand : rsol) (h' : history) : Prop :=
    so_feasible cand = true /\ oapprox_lt (so_cost cand) (h_best h) = true /\
    exists i0 i, i_number i0 = 0 /\ rr_read pen cand i0 i /\ h' = hist_add h i.

  Lemma ind_random_pheno n k r i r' : ind_random p n k r = (i, r') -> i_pheno i = repeat [] n /\ i_number i = k.
  Proof using. unfold ind_random. destruct (shuffle _ _). intro H. injection H as <- _. auto. Qed.

  Lemma rr_update_best_ok cand w w' : sound cand -> rr_update_best p c cand w = Ok w' ->
    w_pen w' = w_pen w /\ w_iter w' = w_iter w /\ w_clock w' = w_clock w /\
    ((w_hist w' = w_hist w /\ (so_feasible cand && oapprox_lt (so_cost cand) (h_best (w_hist w)) = false))
     \/ rr_recorded (w_pen w) (w_hist w) cand (w_hist w')).
  Proof using c dim2 nv_pos.
    intros S. unfold rr_update_best.
    destruct (so_feasible cand && oapprox_lt (so_cost cand) (h_best (w_hist w))) eqn:C.
    - apply andb_true_iff in C. destruct C as [C1 C2].
      destruct (ind_random p nv 0 (w_rng w)) as [i0 r] eqn:ER. apply ind_random_pheno in ER. destruct ER as [E0 E1].
      destruct (rr_update_individual p (w_pen w) cand i0) as [i|] eqn:EU; [|discriminate]. cbn [rbind].
      intro H. injection H as <-. cbn. split; auto. split; auto. split; auto. right.
      split; auto. split; auto. exists i0, i. split; auto. split; auto.
      apply rr_update_individual_ok; auto. rewrite E0. apply repeat_length.
    - intro H. injection H as <-. repeat split; auto.
  Qed.
  Lemma rr_update_best_total cand w : angles_ok p -> sound cand -> exists w', rr_update_best p c cand w = Ok w'.
  Proof using c dim2 nv_pos.
    intros NN S. unfold rr_update_best. destruct (_ && _); eauto.
    destruct (ind_random p nv 0 (w_rng w)) as [i0 r] eqn:ER. apply ind_random_pheno in ER. destruct ER as [E0 E1].
    destruct (rr_update_individual_total (w_pen w) cand i0 NN S) as (i & ->); [rewrite E0; apply repeat_length|].
    cbn [rbind]. eauto.
  Qed.

  (** A state of the search after at least one solution has been loaded. *)
  Definition ready (st : rrstate) : Prop :=
    sound (rr_sol st) /\ sound (rr_cur st) /\ exists b, rr_best st = Some b /\ sound b.

  (** What one move does: [cand] is the solution obtained from the current one. *)
  Record step (corr : matrix nat) (st : rrstate) (w : world) (st' : rrstate) (w' : world) (cand : rsol) : Prop := {
    st_cand : sound cand;
    st_from : exists s1, mid p c good s1 /\
      ruined_around p corr (routes_of (rr_cur st)) (routes_of s1) (so_ruined s1) (so_un s1) /\
      recreated p c good (w_pen w) s1 cand;
    st_priced : priced (w_pen w) cand;
    st_cur : rr_cur st' = rr_sol st';
    st_up : rr_update_penalty st' = rr_update_penalty st;
    st_pen : w_pen w' = w_pen w;
    st_iter : w_iter w' = w_iter w;
    st_acc : exists w1, acc_update E (rr_acc st) w1 = (rr_acc st', w');
    st_cases : exists r0,
      let ok := fst (accepts p (rr_acc st) (so_cost cand) (so_cost (rr_cur st)) r0) in
      (ok = false /\ rr_sol st' = rr_sol st /\ rr_best st' = rr_best st /\ w_hist w' = w_hist w)
      \/ (ok = true /\ rr_sol st' = cand /\
          ((exists b, rr_best st = Some b /\ oapprox_lt (so_cost cand) (so_cost b) = false /\
              rr_best st' = rr_best st /\ w_hist w' = w_hist w)
           \/ (rr_best st' = Some cand /\
               (forall b, rr_best st = Some b -> oapprox_lt (so_cost cand) (so_cost b) = true) /\
               ((w_hist w' = w_hist w /\ so_feasible cand && oapprox_lt (so_cost cand) (h_best (w_hist w)) = false)
                \/ rr_recorded (w_pen w) (w_hist w) cand (w_hist w')))))
  }.

  Lemma acc_update_world a w a' w' : acc_update E a w = (a', w') ->
    w_pen w' = w_pen w /\ w_iter w' = w_iter w /\ w_hist w' = w_hist w.
  Proof.
    unfold acc_update, ts_update, now. destruct a; intro H.
    - injection H as _ <-. auto.
    - destruct (_ =? _); injection H as _ <-; auto.
  Qed.

  Lemma rr_move_ok corr st w : ready st -> rows_ok p corr ->
    (exists st' w' cand, rr_move p c E corr st w = Ok (st', w') /\ ready st' /\ step corr st w st' w' cand)
    \/ (exists e, rr_move p c E corr st w = Err e /\ ~ (angles_ok p /\ keys_ok p /\ room p good (w_pen w))).
  Proof using good_remove good_add below dim2 nv_pos.
    intros (S1 & S2 & b & EB & SB) RO. unfold rr_move.
    pose proof (settled_mid p c good (rr_cur st) (proj1 S2) (proj2 S2)) as M.
    destruct (ruin_run_ok p c good good_remove below corr (rr_cur st) (w_rng w) M RO dim2)
      as (s1 & r1 & G1 & M1 & C1 & R1).
    rewrite G1. cbn [rbind].
    assert (Z2 : so_ruined (rr_cur st) = []) by apply (proj1 S2).
    assert (Z3 : so_un (rr_cur st) = []) by apply (proj1 S2).
    rewrite Z2, Z3 in R1.
    destruct (recreate_run p (w_pen w) s1 r1 (rr_hash st)) as [[[cand r2] h2]|e] eqn:ER.
    2:{ right. cbn [rbind]. exists e. split; auto. intros (_ & NN & FM).
        destruct (recreate_run_total p c good good_add (w_pen w) s1 r1 (rr_hash st) M1 nv_pos NN FM) as (? & ? & ? & K).
        congruence. }
    cbn [rbind]. apply (recreate_run_partial p c good good_add) in ER; auto.
    assert (SC : sound cand) by (split; apply ER).
    assert (PC : priced (w_pen w) cand) by apply ER.
    destruct (accepts p (rr_acc st) (so_cost cand) (so_cost (rr_cur st)) r2) as [ok r3] eqn:EA.
    assert (EA' : fst (accepts p (rr_acc st) (so_cost cand) (so_cost (rr_cur st)) r2) = ok) by now rewrite EA.
    destruct ok.
    - rewrite EB. destruct (oapprox_lt (so_cost cand) (so_cost b)) eqn:EL.
      + destruct (rr_update_best p c cand (set_w_rng w r3)) as [w1|e] eqn:EU.
        2:{ right. cbn [rbind]. exists e. split; auto. intros [NN _].
            destruct (rr_update_best_total cand (set_w_rng w r3) NN SC) as (w' & K). congruence. }
        cbn [rbind]. apply rr_update_best_ok in EU; auto. destruct EU as (U1 & U2 & U3 & U4).
        cbn [w_pen w_hist w_iter set_w_rng] in U1, U2, U4.
        rewrite so_from_ok by now apply sound_shaped. cbn [rbind].
        rewrite so_from_ok by now apply sound_shaped. cbn [rbind].
        destruct (acc_update E (rr_acc st) w1) as [acc w2] eqn:EC.
        pose proof (acc_update_world _ _ _ _ EC) as (V1 & V2 & V3).
        left. exists (mkRR cand cand (Some cand) acc (rr_update_penalty st) h2), w2, cand. split; [reflexivity|]. split.
        { split; [exact SC|]. split; [exact SC|]. exists cand. auto. }
        constructor; cbn [rr_cur rr_sol rr_best rr_acc rr_update_penalty]; auto; try congruence.
        * exists s1. auto.
        * exists w1. exact EC.
        * exists r2. rewrite EA'. right. split; auto. split; auto. right. split; auto. split.
          { intros b0 H0. rewrite EB in H0. injection H0 as <-. exact EL. }
          rewrite V3. exact U4.
      + cbn [rbind].
        rewrite so_from_ok by now apply sound_shaped. cbn [rbind].
        rewrite so_from_ok by now apply sound_shaped. cbn [rbind].
        destruct (acc_update E (rr_acc st) (set_w_rng w r3)) as [acc w2] eqn:EC.
        pose proof (acc_update_world _ _ _ _ EC) as (V1 & V2 & V3).
        left. exists (mkRR cand cand (Some b) acc (rr_update_penalty st) h2), w2, cand. split; [reflexivity|]. split.
        { split; [exact SC|]. split; [exact SC|]. exists b. auto. }
        constructor; cbn [rr_cur rr_sol rr_best rr_acc rr_update_penalty]; auto; try congruence.
        * exists s1. auto.
        * eexists. exact EC.
        * exists r2. rewrite EA'. right. split; auto. split; auto. left. exists b. auto.
    - cbn [rbind]. rewrite so_from_ok by now apply sound_shaped. cbn [rbind].
      destruct (acc_update E (rr_acc st) (set_w_rng w r3)) as [acc w2] eqn:EC.
      pose proof (acc_update_world _ _ _ _ EC) as (V1 & V2 & V3).
      left. exists (mkRR (rr_sol st) (rr_sol st) (rr_best st) acc (rr_update_penalty st) h2), w2, cand. split; [reflexivity|]. split.
      { split; [exact S1|]. split; [exact S1|]. exists b. auto. }
      constructor; cbn [rr_cur rr_sol rr_best rr_acc rr_update_penalty]; auto; try congruence.
      * exists s1. auto.
      * eexists. exact EC.
      * exists r2. rewrite EA'. left. auto.
  Qed.

  Lemma reevaluate_sound pen s : sound s -> sound (so_reevaluate pen s).
  Proof using. intros [[A1 A2 A3 A4 A5 A6] G]. split; [constructor; auto|exact G]. Qed.

  Lemma rr_penalty_ready st w st' w' : rr_penalty c st w = (st', w') -> ready st -> ready st'.
  Proof.
    unfold rr_penalty. destruct (rr_update_penalty st); intros H R; injection H as <- _; auto.
    destruct R as (S1 & S2 & b & EB & SB). split; [now apply reevaluate_sound|]. split; [now apply reevaluate_sound|].
    cbn [rr_best]. rewrite EB. cbn [option_map]. eexists. split; [reflexivity|]. now apply reevaluate_sound.
  Qed.
  Lemma rr_penalty_world st w st' w' : rr_penalty c st w = (st', w') ->
    w_hist w' = w_hist w /\ w_iter w' = w_iter w /\ rr_update_penalty st' = rr_update_penalty st.
  Proof.
    unfold rr_penalty. destruct (rr_update_penalty st) eqn:U; intro H; injection H as <- <-; cbn; auto.
  Qed.

  (** Any invariant of states and worlds kept by moves and by penalty updates is kept by a search. *)
  Variable Inv : rrstate -> world -> Prop.

  Lemma rr_loop_ok corr :
    (forall st w st' w' cand, ready st -> Inv st w -> ready st' -> step corr st w st' w' cand -> Inv st' w') ->
    (forall st w st' w', ready st -> Inv st w -> rr_penalty c st w = (st', w') -> Inv st' w') ->
    rows_ok p corr ->
    forall k st w, ready st -> Inv st w ->
    (exists st' w', rr_loop p c E corr k st w = Ok (st', w') /\ ready st' /\ Inv st' w')
    \/ (exists e, rr_loop p c E corr k st w = Err e /\ ~ (angles_ok p /\ keys_ok p /\ forall st w, Inv st w -> room p good (w_pen w))).
  Proof using good_remove good_add below dim2 nv_pos.
    intros HM HP RO. induction k as [|k IH]; intros st w R I; cbn [rr_loop]; [left; eauto|].
    destruct (match k with O => rr_penalty c st w | S _ => (st, w) end) as [st0 w0] eqn:EP.
    assert (R0 : ready st0 /\ Inv st0 w0).
    { destruct k; [|injection EP as <- <-; auto]. split; [eapply rr_penalty_ready; eauto|eapply HP; eauto]. }
    destruct R0 as [R0 I0].
    destruct (rr_move_ok corr st0 w0 R0 RO) as [(st1 & w1 & cand & G & R1 & S1)|(e & G & B)].
    - rewrite G. cbn [rbind]. assert (I1 : Inv st1 w1) by (eapply HM; [exact R0|exact I0|exact R1|exact S1]).
      destruct (acc_completed (rr_acc st1)); [left; eauto|]. apply IH; auto.
    - right. rewrite G. cbn [rbind]. exists e. split; [reflexivity|]. intros (X & Y & Z). apply B.
      split; [exact X|]. split; [exact Y|]. exact (Z _ _ I0).
  Qed.

  (** The same with the number of moves left: the penalty changes only before the last move, and only in a search
      that has not ended before. *)
  Lemma rr_loop_left (Left Mid : nat -> rrstate -> world -> Prop) corr :
    (forall k st w st' w' cand, ready st -> Mid k st w -> ready st' -> step corr st w st' w' cand -> Left k st' w') ->
    (forall st w st' w', ready st -> acc_completed (rr_acc st) = false -> Left 1 st w -> rr_penalty c st w = (st', w') -> Mid 0 st' w') ->
    (forall k st w, acc_completed (rr_acc st) = false -> Left (S (S k)) st w -> Mid (S k) st w) ->
    rows_ok p corr ->
    forall k st w, ready st -> acc_completed (rr_acc st) = false -> Left k st w ->
    (exists k' st' w', rr_loop p c E corr k st w = Ok (st', w') /\ ready st' /\ Left k' st' w' /\
       (k' = 0 \/ acc_completed (rr_acc st') = true))
    \/ (exists e, rr_loop p c E corr k st w = Err e /\ ~ (angles_ok p /\ keys_ok p /\ forall k st w, Mid k st w -> room p good (w_pen w))).
  Proof using good_remove good_add below dim2 nv_pos.
    intros HM HP HK RO. induction k as [|k IH]; intros st w R C I; cbn [rr_loop]; [left; exists 0, st, w; auto|].
    destruct (match k with O => rr_penalty c st w | S _ => (st, w) end) as [st0 w0] eqn:EP.
    assert (R0 : ready st0 /\ Mid k st0 w0).
    { destruct k; [|injection EP as <- <-; auto]. split; [eapply rr_penalty_ready; eauto|eapply HP; eauto]. }
    destruct R0 as [R0 I0].
    destruct (rr_move_ok corr st0 w0 R0 RO) as [(st1 & w1 & cand & G & R1 & S1)|(e & G & B)].
    - rewrite G. cbn [rbind]. assert (I1 : Left k st1 w1) by (eapply HM; [exact R0|exact I0|exact R1|exact S1]).
      destruct (acc_completed (rr_acc st1)) eqn:EC; [left; exists k, st1, w1; auto|]. apply IH; auto.
    - right. rewrite G. cbn [rbind]. exists e. split; [reflexivity|]. intros (X & Y & Z). apply B.
      split; [exact X|]. split; [exact Y|]. exact (Z _ _ _ I0).
  Qed.
End Run.
