(** Two customers far away, in double precision: every solution has a move that looks like an
    improvement, so the local search never ends. *)
From Coq Require Import List Arith ZArith Bool Lia Reals Permutation.
From Flocq Require Import Core BinarySingleNaN.
From Verif.Model Require Import Num NumFloat Prelude Evaluate Individual Config Split Sector Random Matrix LinkedList Population LocalSearch World Schedule RuinRecreate Genetic.
From Verif.Spec Require Import Solution LocalSearch Floats FloatSearch.
From Verif.Proofs Require Import Lists LinkFacts EvalFacts EvalThms SplitStruct LsState LsMoves LsEffect LsStar LsSearch LsRun.
Import ListNotations.
Open Scope nat_scope.

Section Hang.
  Variable p : @problem NumF.
  Variable c : @config NumF.
  Notation nv := (c_num_vehicles c).
  Notation pen := far_penalty.
  Hypothesis TF : two_far p.
  Hypothesis relocates : c_relocate_single c = true.
  Hypothesis gran_pos : 0 < c_granularity c.

  Definition other (a : nat) : nat := 3 - a.

  Lemma near_other m u : neighbours_ok p c m -> 0 < u < 3 -> In (other u) (near c m u).
  Proof.
    intros (G & L & NO) Hu. rewrite (tf_dim _ TF) in L, NO.
    unfold near in *. set (row := skipn (u * m_cols m) (m_data m)) in *.
    assert (LR : m_cols m <= length row) by (unfold row; rewrite skipn_length; nia).
    specialize (NO u). fold row in NO. destruct row as [|v row]; [cbn in LR; lia|].
    destruct (c_granularity c) as [|g]; [lia|]. cbn [firstn] in *.
    destruct (NO v Hu (or_introl eq_refl)) as [V1 V2]. left. unfold other. lia.
  Qed.

  Lemma routes_two rs : serves_all_once 3 (all_routes c rs) ->
    (exists r a, r < nv /\ 0 < a < 3 /\ rs r = [a; other a]) \/
    (exists r1 r2, r1 < nv /\ r2 < nv /\ r1 <> r2 /\ rs r1 = [1] /\ rs r2 = [2]).
  Proof.
    intros SV. assert (D : 0 < 3) by lia.
    assert (IN : forall n, 0 < n < 3 -> exists r, r < nv /\ In n (rs r)).
    { intros n Hn. assert (I : In n (concat (all_routes c rs))).
      { eapply Permutation_in; [apply Permutation_sym; exact SV|]. apply in_seq. lia. }
      apply in_concat in I as (l & I & J). unfold all_routes in I. apply in_map_iff in I as (r & <- & I). apply in_seq in I.
      exists r. split; [lia|exact J]. }
    destruct (IN 1 ltac:(lia)) as (r1 & H1 & I1). destruct (IN 2 ltac:(lia)) as (r2 & H2 & I2).
    rewrite <- (tf_dim _ TF) in SV.
    pose proof (serves_nodup p c rs SV) as ND. pose proof (serves_bound p c rs SV) as BD. rewrite (tf_dim _ TF) in BD.
    assert (ONLY : forall r, r < nv -> forall n, In n (rs r) -> n = 1 \/ n = 2) by (intros r Hr n I; pose proof (BD r n Hr I); lia).
    destruct (Nat.eq_dec r1 r2) as [<-|NE].
    - left. specialize (ND r1 H1). specialize (ONLY r1 H1).
      destruct (rs r1) as [|a [|b [|x l]]] eqn:E; cbn in *.
      + tauto.
      + exfalso. intuition congruence.
      + exists r1, a. split; [exact H1|]. inversion ND as [|? ? N1 _]; subst. cbn in N1.
        destruct (ONLY a (or_introl eq_refl)) as [-> | ->], (ONLY b (or_intror (or_introl eq_refl))) as [-> | ->];
          try (exfalso; apply N1; now left); rewrite E; (split; [lia|reflexivity]).
      + exfalso. inversion ND as [|? ? N1 ND2]; subst. inversion ND2 as [|? ? N2 ND3]; subst. cbn in N1, N2.
        destruct (ONLY a ltac:(auto)) as [-> | ->], (ONLY b ltac:(auto)) as [-> | ->], (ONLY x ltac:(auto)) as [-> | ->]; intuition.
    - right. exists r1, r2. split; [exact H1|]. split; [exact H2|]. split; [exact NE|].
      assert (DIS : forall n, In n (rs r1) -> In n (rs r2) -> False).
      { intros n A B. exact (serves_apart p c rs SV r1 r2 n H1 H2 NE A B). }
      assert (ONE : forall r n m, r < nv -> In n (rs r) -> ~ In m (rs r) -> (n = 1 /\ m = 2 \/ n = 2 /\ m = 1) -> rs r = [n]).
      { intros r n m Hr I NI C. specialize (ND r Hr). specialize (ONLY r Hr). destruct (rs r) as [|a [|b l]] eqn:E; cbn in *.
        - tauto.
        - destruct I as [->|[]]. reflexivity.
        - exfalso. inversion ND as [|? ? N1 _]; subst. cbn in N1.
          destruct (ONLY a ltac:(auto)) as [-> | ->], (ONLY b ltac:(auto)) as [-> | ->]; intuition (subst; tauto || lia). }
      split.
      + apply (ONE r1 1 2); auto. intros I. exact (DIS 2 I I2).
      + apply (ONE r2 2 1); auto. intros I. exact (DIS 1 I1 I).
  Qed.

  (** One customer moved behind the other in their route: nothing changes, but for rounding. *)
  Lemma turn_improves s rs r a : holds p c pen s rs -> r < nv -> 0 < a < 3 -> rs r = [a; other a] ->
    exists dl, delta p pen RelocateSingle s (PN a) (PN (other a)) = Ok dl /\ @approx_lt NumF dl f0 = true.
  Proof.
    intros H Hr Ha E. cbn [delta]. unfold delta_relocate_single.
    destruct (read_u p c pen s rs H r [] a [other a] Hr E) as (-> & -> & ->).
    destruct (read_v p c pen s rs H r [a; other a] [] (PN (other a)) Hr ltac:(now rewrite E) eq_refl) as (-> & ->).
    cbn [rbind]. assert (G : (num (hd0 (suf r [])) =? num (PN a)) = false) by (apply Nat.eqb_neq; cbn; lia).
    rewrite G. eexists. split; [reflexivity|]. rewrite Nat.eqb_refl. unfold cost_change.
    destruct (proj2 (h_cached _ _ _ _ _ H r Hr)) as (_ & RD & RL & RO & RC & _).
    rewrite RC, RO, RL, RD, E. unfold driven, carried, stops, loaded, dist, route_cost.
    assert (A : a = 1 \/ a = 2) by lia. destruct A as [-> | ->]; cbn [other Nat.sub map app tl drive fold_left num pre suf last hd];
      rewrite !(tf_dist _ TF) by lia; rewrite !(tf_demand _ TF) by lia; rewrite (tf_cap _ TF); vm_compute; reflexivity.
  Qed.

  (** A vehicle for each: one route for both is cheaper in spite of the overload. *)
  Lemma join_improves s rs r1 r2 : holds p c pen s rs -> r1 < nv -> r2 < nv -> r1 <> r2 -> rs r1 = [1] -> rs r2 = [2] ->
    exists dl, delta p pen RelocateSingle s (PN 1) (PN 2) = Ok dl /\ @approx_lt NumF dl f0 = true.
  Proof.
    intros H H1 H2 NE E1 E2. cbn [delta]. unfold delta_relocate_single.
    destruct (read_u p c pen s rs H r1 [] 1 [] H1 E1) as (-> & -> & ->).
    destruct (read_v p c pen s rs H r2 [2] [] (PN 2) H2 ltac:(now rewrite E2) eq_refl) as (-> & ->).
    cbn [rbind]. assert (G : (num (hd0 (suf r2 [])) =? num (PN 1)) = false) by reflexivity.
    rewrite G. eexists. split; [reflexivity|]. replace (r1 =? r2) with false by (symmetry; apply Nat.eqb_neq; auto). unfold cost_change.
    destruct (proj2 (h_cached _ _ _ _ _ H r1 H1)) as (_ & RD & RL & RO & RC & _).
    rewrite RC, RO, RL, RD, E1. clear RC RO RL RD.
    destruct (proj2 (h_cached _ _ _ _ _ H r2 H2)) as (_ & RD & RL & RO & RC & _).
    rewrite RC, RO, RL, RD, E2. unfold driven, carried, stops, loaded, dist, dem, route_cost.
    cbn [map app tl drive fold_left num pre suf last hd].
    rewrite !(tf_dist _ TF) by lia; rewrite !(tf_demand _ TF) by lia; rewrite (tf_cap _ TF); vm_compute; reflexivity.
  Qed.

  Lemma never_optimal lc m rs s : holds p c pen s rs -> neighbours_ok p c m -> ~ optimal p c pen lc m rs.
  Proof.
    intros H NO [OP _ _]. rewrite (tf_dim _ TF) in OP.
    assert (IM : In RelocateSingle (neighbor_moves c)) by (unfold neighbor_moves; rewrite relocates; left; reflexivity).
    assert (SV : serves_all_once 3 (all_routes c rs)) by (rewrite <- (tf_dim _ TF); exact (h_serves _ _ _ _ _ H)).
    destruct (routes_two rs SV) as [(r & a & Hr & Ha & E)|(r1 & r2 & H1 & H2 & NE & E1 & E2)].
    - destruct (OP a (other a) Ha (near_other m a NO Ha) s H _ IM) as (dl & E0 & L).
      destruct (turn_improves s rs r a H Hr Ha E) as (dl' & E' & L'). congruence.
    - destruct (OP 1 2 ltac:(lia) (near_other m 1 NO ltac:(lia)) s H _ IM) as (dl & E0 & L).
      destruct (join_improves s rs r1 r2 H H1 H2 NE E1 E2) as (dl' & E' & L'). congruence.
  Qed.

  Theorem ls_hangs fuel epen (s : @lsearch NumF) i r :
    ls_ready p c s -> length (i_pheno i) = nv -> serves_all_once 3 (i_pheno i) ->
    @ls_run NumF p c pen fuel epen s i r = Err EFuel.
  Proof.
    intros R HL SV. assert (Z0 : @approx_lt NumF f0 f0 = false) by (vm_compute; reflexivity).
    rewrite <- (tf_dim _ TF) in SV.
    destruct (load_ok p c pen s (i_pheno i) R HL SV) as (AR & s1 & E1 & I1 & C1 & K1).
    unfold ls_run. rewrite E1. cbn [rbind].
    destruct (search_ok p c pen Z0 gran_pos fuel 0 s1 _ r I1)
      as [(s2 & r2 & rs & n & lc & E2 & I2 & T & K2 & N2 & O & _ & L)|(E2 & _)]; rewrite E2; cbn [rbind]; [|reflexivity].
    exfalso. refine (never_optimal lc _ rs s2 (b_holds _ _ _ _ _ (i_base _ _ _ _ _ I2)) _ O).
    rewrite C1. exact (lr_corr _ _ _ R).
  Qed.

  (** ** The genetic algorithm *)
  Hypothesis searches : c_ls_enabled c = true.
  Hypothesis plain_start : c_elite_education c = false.
  Hypothesis initial_pos : 1 <= c_initial_individuals c.
  Hypothesis iterations_pos : match c_max_iterations c with Some m => 0 < m | None => True end.
  Hypothesis splits : forall geno, Permutation geno [1; 2] -> exists st i,
    @split_run NumF p c pen split_new (mkInd 0 geno (repeat [] nv) None se_new) nv = Ok (st, i) /\
    length (i_pheno i) = nv /\ serves_all_once 3 (i_pheno i).

  Lemma pen_once : @fmul NumF pen f1 = pen.
  Proof. apply B2SF_inj. vm_compute. reflexivity. Qed.

  Variable L : lib.
  Variable E : @env NumF.
  Variable li : nat.
  Variable md : option (@F NumF).
  Variable fuel : nat.
  Hypothesis time_left : forall k, k < 2 -> @ffloor NumF (e_clock E k) < c_time_limit c.

  Lemma goes_on (w : @world NumF) : w_clock w < 2 -> w_iter w = 0 ->
    terminate c E w = (false, mkWorld (w_pen w) (w_hist w) (w_iter w) (w_rng w) (S (w_clock w))).
  Proof.
    intros K I. unfold terminate, now. rewrite I. specialize (time_left _ K).
    replace (c_time_limit c <=? @ffloor NumF (e_clock E (w_clock w))) with false by (symmetry; apply Nat.leb_gt; exact time_left).
    destruct (c_max_iterations c) as [m|]; [|reflexivity]. cbn [w_iter]. replace (m <=? 0) with false by (symmetry; apply Nat.leb_gt; exact iterations_pos).
    reflexivity.
  Qed.

  Lemma init_hangs (g : @ga NumF) (w : @world NumF) corr hash : neighbours_ok p c corr -> ga_ls g = ls_new p corr hash -> ga_split g = split_new ->
    ga_num_init g = 0 -> w_pen w = pen -> it_init L p c E fuel g w = Err EFuel.
  Proof.
    intros NO GL GS GN WP. unfold it_init. rewrite GN. replace (0 <? c_initial_individuals c) with true by (symmetry; apply Nat.ltb_lt; lia).
    unfold create_initial_individual. rewrite GN. unfold ind_random. rewrite (tf_dim _ TF). change (seq 1 (3 - 1)) with [1; 2].
    destruct (shuffle [1; 2] (w_rng w)) as [geno r] eqn:ES. apply shuffle_perm in ES.
    unfold run_split. cbn [set_child ga_split ga_child set_w_rng w_pen]. rewrite GS, WP.
    destruct (splits geno ES) as (st & i & -> & HL & SV). cbn [rbind].
    unfold educate. rewrite searches. unfold run_ls. cbn [set_child set_split ga_ls ga_child set_w_rng w_pen w_rng]. rewrite WP, GL, pen_once.
    rewrite ls_hangs; auto. apply ls_new_ready. exact NO.
  Qed.

  Theorem run_hangs corr lh rh (w0 : @world NumF) g w k : neighbours_ok p c corr -> w_pen w0 = pen -> w_clock w0 = 0 -> w_iter w0 = 0 ->
    ga_new p c corr lh rh w0 = (g, w) -> solver_run L p c E li md fuel k g w = Err EFuel.
  Proof.
    intros NO WP WC WI GN. unfold ga_new in GN. destruct (ind_random p nv 0 (w_rng w0)) as [child r]. injection GN as <- <-.
    destruct k as [|k]; [reflexivity|]. cbn [solver_run ga_terminated ga_st].
    unfold ga_iterate at 1. rewrite goes_on by (cbn; lia). cbn [ga_st]. unfold it_created. rewrite plain_start. cbn [andb rbind].
    destruct k as [|k]; [reflexivity|]. cbn [solver_run ga_terminated ga_st set_st].
    unfold ga_iterate at 1. rewrite goes_on by (cbn; lia). cbn [ga_st set_st].
    rewrite (init_hangs _ _ corr lh); auto.
  Qed.
End Hang.
