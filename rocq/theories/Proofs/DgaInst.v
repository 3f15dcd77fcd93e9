(** The subproblem of a decomposition is an instance the genetic algorithm is made for. *)
From Coq Require Import List Arith NArith ZArith QArith Qround Bool Lia Lqa Permutation.
From Verif.Model Require Import Num Prelude Evaluate Individual Config Crossover Split Matrix Population
  LocalSearch World Schedule RuinRecreate Genetic Decomposition.
From Verif.Spec Require Import Solution Split Library Population LocalSearch RuinRecreate Genetic Decomposition.
From Verif.Proofs Require Import Lists QNum EvalFacts EvalThms SplitStruct SplitPart SplitThms MatrixFacts Fleet PopFacts PopQ PopMain
  LsRunQ RrRun RrRecreate RrQ RrMachine GaInv GaQ Decompose DecomposeQ.
Import ListNotations.
Open Scope nat_scope.

(** ** The correlation matrix of the whole problem *)
Section Corr.
  Context {N : Num}.
  Variable p : problem.
  Variable c : config.
  Variable sqrt_ round_ : F -> F.
  Variable lsort : list (nat * F) -> list (nat * F).
  Variable d : dmatrix.
  Variable g : nat -> nat -> F.
  Hypothesis Hs : sort_contract lsort.
  Hypothesis H2 : 2 <= p_dim p.
  Hypothesis Hd : dfun sqrt_ round_ d (p_dim p) g.
  Hypothesis Hn : no_nan g (p_dim p).

  Lemma correlation_rows : exists cm, correlation_new sqrt_ round_ lsort d = Ok cm /\ rows_distinct p (cm_store cm) /\
    rows_ok p (cm_store cm) /\ m_cols (cm_store cm) = Nat.min 200 (p_dim p - 2) /\
    forall u v, u < p_dim p -> In v (row (cm_store cm) u) -> v <> u.
  Proof.
    destruct (correlation_spec lsort sqrt_ round_ d _ g Hd Hs Hn H2) as (cm & E & Ew & Hm).
    exists cm. split; [exact E|]. pose proof Hm as (_ & Hc & Hl & _).
    assert (ER : forall u, u < p_dim p -> row (cm_store cm) u = nbrs lsort g (p_dim p) (cm_width cm) u).
    { intros u Hu. pose proof (mfun_row _ _ _ _ u (cm_width cm) Hm ltac:(lia) ltac:(lia)) as ER.
      unfold m_slice in ER. rewrite Nat.add_0_r in ER. destruct (_ <=? _); [|discriminate]. injection ER as ER.
      unfold row. rewrite Hc in *. rewrite ER.
      rewrite map_nth_seq by (rewrite nbrs_length; auto; lia).
      apply firstn_all2. rewrite nbrs_length; auto. lia. }
    assert (PR : forall u, u < p_dim p -> NoDup (row (cm_store cm) u) /\ forall v, In v (row (cm_store cm) u) -> 0 < v < p_dim p /\ v <> u).
    { intros u Hu. rewrite ER by auto.
      destruct (nbrs_props lsort g (p_dim p) (cm_width cm) u Hs Hn ltac:(lia) ltac:(lia)) as (HN & HB & _).
      split; [exact HN|]. intros v Hv. destruct (HB v Hv) as [B1 B2]. split; [lia|auto]. }
    split; [|split; [|split]].
    - split; [congruence|]. intros u Hu. destruct (PR u Hu) as [A B]. split; auto. intros v Hv. now apply B.
    - split; [congruence|]. intros u v Hu Hv. destruct (PR u) as [A B]; [lia|]. now apply B.
    - congruence.
    - intros u v Hu Hv. destruct (PR u Hu) as [A B]. now apply B.
  Qed.
End Corr.

(** ** The subproblem, in any arithmetic *)
Section Any.
  Context {N : Num}.
  Variable p : problem.
  Variable c : config.
  Hypothesis O1 : 2 <= p_dim p.
  Variable min_size : nat.
  Variable corr : matrix nat.
  Variable global sub rest : individual.
  Variable mapping : list nat.
  Variable rs : list (list nat).
  Hypothesis C : whole_solution (p_dim p) global.
  Hypothesis T : taken min_size corr global sub mapping rest rs.
  Notation sp := (sub_problem p mapping).

  Lemma any_at i : i < length mapping -> nth i mapping 0 < p_dim p.
  Proof.
    intros Hi. destruct i as [|i].
    - rewrite (taken_nth0 min_size corr global sub rest mapping rs T). lia.
    - destruct (taken_range p min_size corr global sub rest mapping rs O1 C T (S i)); [lia|assumption].
  Qed.

  Lemma any_length : length mapping = S (length (concat rs)).
  Proof. now rewrite (tk_mapping _ _ _ _ _ _ _ T). Qed.

  Lemma any_size : length mapping <= p_dim p.
  Proof.
    pose proof (Permutation_length (taken_split p min_size corr global sub rest mapping rs C T)) as PL.
    rewrite seq_length, app_length in PL. rewrite any_length. lia.
  Qed.

  Lemma get_max_ok (l : list F) : l <> [] -> (forall x, In x l -> fisnan x = false) -> exists y, get_max l = Ok y.
  Proof.
    destruct l as [|x l]; [contradiction|]. intros _ H. unfold get_max.
    assert (G : forall l (a : F), fisnan a = false -> (forall x, In x l -> fisnan x = false) ->
      exists y, foldm (fun best b => if fisnan best || fisnan b then Err EPanic else Ok (if flt b best then best else b)) l a = Ok y).
    { clear. induction l as [|b l IH]; intros a A H; cbn [foldm]; [eauto|]. rewrite A, (H b (or_introl eq_refl)). cbn [orb rbind].
      apply IH; [destruct (flt b a); auto; apply H; now left|intros; apply H; now right]. }
    apply G; [apply H; now left|intros; apply H; now right].
  Qed.

  Hypothesis some : 1 <= length (concat rs).

  (** Its matrices exist and its rows hold what the searches look at. *)
  Lemma any_matrices sqrt_ round_ lsort dm gd : sort_contract lsort -> dfun sqrt_ round_ dm (p_dim p) gd -> no_nan gd (p_dim p) ->
    c_granularity c < length (concat rs) -> c_granularity c <= 200 ->
    exists d cm, provider_from_mapping sqrt_ round_ lsort dm mapping = Ok (d, cm) /\
      neighbours_ok sp (sub_config c) (cm_store cm) /\ rows_ok sp (cm_store cm).
  Proof.
    intros SO DF NG GR G2. unfold provider_from_mapping, dm_from_mapping.
    assert (MR : Forall (fun i => (i < p_dim p)%nat) mapping).
    { apply Forall_forall. intros x Hx. apply In_nth with (d := 0%nat) in Hx as (k & Hk & <-). now apply any_at. }
    assert (LOC : exists loc, mapm (geti (dm_loc dm)) mapping = Ok loc /\ length loc = length mapping).
    { assert (ML : mapm (geti (dm_loc dm)) mapping = Ok (map (fun k => nth k (dm_loc dm) (f0, f0)) mapping)).
      { apply mapm_geti. intros k Hk. rewrite Forall_forall in MR. specialize (MR k Hk). destruct DF as [DS _]. unfold dm_size in DS. lia. }
      rewrite ML. eexists. split; [reflexivity|]. apply map_length. }
    destruct LOC as (loc & -> & LL). cbn [rbind].
    destruct (mapping_spec sqrt_ round_ dm (p_dim p) gd mapping DF MR) as (m & -> & Hm). cbn [rbind].
    assert (MX : exists mx, (if dm_pre dm then rbind (get_max (m_data m)) (fun x => Ok (Some x)) else Ok None) = Ok mx).
    { destruct (dm_pre dm); [|eauto]. destruct Hm as (_ & HC & HL & HG). destruct (get_max_ok (m_data m)) as (y & ->); [| |cbn [rbind]; eauto].
      - intro EM. rewrite EM in HL. cbn in HL. pose proof any_length. nia.
      - intros x Hx. apply In_nth_error in Hx as (k & Hk).
        assert (KL : k < length mapping * length mapping) by (rewrite <- HL; apply nth_error_Some; congruence).
        assert (M0 : length mapping <> 0) by nia.
        pose proof (Nat.div_mod_eq k (length mapping)) as DM. pose proof (Nat.mod_upper_bound k _ M0) as B2.
        assert (B1 : k / length mapping < length mapping) by (apply Nat.div_lt_upper_bound; auto).
        specialize (HG _ _ B1 B2). unfold m_get in HG. rewrite HC in HG.
        replace (k / length mapping * length mapping + k mod length mapping) with k in HG by lia.
        rewrite Hk in HG. injection HG as ->. apply NG; now apply any_at. }
    destruct MX as (mx & ->). cbn [rbind]. set (d' := mkDM loc m true (dm_rounded dm) mx).
    assert (DF' : dfun sqrt_ round_ d' (p_dim sp) (fun i j => gd (nth i mapping 0%nat) (nth j mapping 0%nat))).
    { split; [exact LL|exact Hm]. }
    assert (NN : no_nan (fun i j => gd (nth i mapping 0%nat) (nth j mapping 0%nat)) (p_dim sp)) by (intros ? ? ? ?; apply NG; now apply any_at).
    pose proof any_length as SL.
    destruct (correlation_rows sp sqrt_ round_ lsort d' _ SO ltac:(change (p_dim sp) with (length mapping); lia) DF' NN)
      as (cm & EC & RD & RO & MC & OT).
    rewrite EC. cbn [rbind]. exists d', cm. split; [reflexivity|]. split; [|exact RO].
    change (p_dim sp) with (length mapping) in *. change (c_granularity (sub_config c)) with (c_granularity c).
    assert (GC : (c_granularity c <= m_cols (cm_store cm))%nat) by lia.
    split; [exact GC|]. split; [exact (proj1 RO)|]. intros u v Hu Hv.
    assert (IR : In v (row (cm_store cm) u)).
    { unfold near in Hv. change (c_granularity (sub_config c)) with (c_granularity c) in Hv. unfold row.
      apply in_firstn with (k := c_granularity c). rewrite firstn_firstn. rewrite Nat.min_l by lia. exact Hv. }
    split; [apply (proj2 RO u v Hu IR)|]. apply (OT u v); [exact (proj2 Hu)|exact IR].
  Qed.
End Any.

(** What is known of the customers of a subproblem. *)
Record cutting (p : @problem NumQ) (mapping : list nat) : Prop := {
  cg_size : 3 <= length mapping <= p_dim p;
  cg_depot : nth 0 mapping 0 = 0;
  cg_range : forall i, i < length mapping -> nth i mapping 0 < p_dim p;
  cg_load : (route_load (p_demand (sub_problem p mapping)) (seq 1 (length mapping - 1)) <=
             route_load (p_demand p) (seq 1 (p_dim p - 1)))%Q
}.

Section Sub.
  Variable p : @problem NumQ.
  Variable c : @config NumQ.
  Hypothesis OK : instance_ok p c.
  Variable min_size : nat.
  Variable corr : matrix nat.
  Variable global sub rest : @individual NumQ.
  Variable mapping : list nat.
  Variable rs : list (list nat).
  Hypothesis C : whole_solution (p_dim p) global.
  Hypothesis T : taken min_size corr global sub mapping rest rs.
  Hypothesis some : 1 <= length (concat rs).
  Notation sp := (sub_problem p mapping).
  Local Open Scope Q_scope.

  Let at_ (i : nat) := nth i mapping 0%nat.

  Lemma sub_at i : (i < length mapping)%nat -> (at_ i < p_dim p)%nat.
  Proof. exact (any_at p (io_dim _ _ OK) min_size corr global sub rest mapping rs C T i). Qed.

  Lemma sub_length : length mapping = S (length (concat rs)).
  Proof. exact (any_length min_size corr global sub rest mapping rs T). Qed.

  Lemma sub_size : (length mapping <= p_dim p)%nat.
  Proof. exact (any_size p (io_dim _ _ OK) min_size corr global sub rest mapping rs C T). Qed.

  Lemma sub_load0 : route_load (p_demand sp) (seq 0 (length mapping)) <= route_load (p_demand p) (seq 0 (p_dim p)).
  Proof.
    pose proof (io_dim _ _ OK) as O1.
    assert (EQ : route_load (p_demand sp) (seq 0 (length mapping)) = route_load (p_demand p) mapping).
    { assert (EM : map at_ (seq 0 (length mapping)) = mapping) by (unfold at_; rewrite map_nth_seq by lia; apply firstn_all).
      unfold route_load. f_equal. transitivity (map (p_demand p) (map at_ (seq 0 (length mapping)))); [|now rewrite EM].
      rewrite map_map. reflexivity. }
    rewrite EQ, (tk_mapping _ _ _ _ _ _ _ T).
    replace (p_dim p) with (S (p_dim p - 1)) by lia. cbn [seq]. change (0%nat :: concat rs) with ([0%nat] ++ concat rs).
    change (0%nat :: seq 1 (p_dim p - 1)) with ([0%nat] ++ seq 1 (p_dim p - 1)). rewrite !Fleet.load_app.
    pose proof (taken_split p min_size corr global sub rest mapping rs C T) as P.
    rewrite (Fleet.load_perm _ _ _ P), Fleet.load_app.
    assert (0 <= route_load (p_demand p) (concat (i_pheno rest))); [|lra].
    apply load_nonneg. intros a Ha. apply (io_dem _ _ OK).
    assert (I : In a (seq 1 (p_dim p - 1))) by (eapply Permutation_in; [symmetry; exact P|apply in_or_app; now right]).
    apply in_seq in I. lia.
  Qed.

  Lemma sub_load : route_load (p_demand sp) (seq 1 (length mapping - 1)) <= route_load (p_demand p) (seq 1 (p_dim p - 1)).
  Proof.
    pose proof sub_load0 as H. pose proof (io_dim _ _ OK) as O1. pose proof sub_length as SL.
    replace (p_dim p) with (S (p_dim p - 1)) in H by lia. replace (length mapping) with (S (length mapping - 1)) in H by lia.
    cbn [seq] in H. change (0%nat :: seq 1 (p_dim p - 1)) with ([0%nat] ++ seq 1 (p_dim p - 1)) in H.
    change (0%nat :: seq 1 (length mapping - 1)) with ([0%nat] ++ seq 1 (length mapping - 1)) in H.
    rewrite !Fleet.load_app in H.
    assert (E0 : route_load (p_demand sp) [0%nat] = route_load (p_demand p) [0%nat]).
    { unfold route_load. cbn [map]. change (p_demand sp 0%nat) with (p_demand p (at_ 0)). unfold at_.
      now rewrite (taken_nth0 min_size corr global sub rest mapping rs T). }
    rewrite E0 in H. lra.
  Qed.

  Lemma sub_cutting : (2 <= length (concat rs))%nat -> cutting p mapping.
  Proof.
    intros H. constructor; [|exact (taken_nth0 min_size corr global sub rest mapping rs T)|exact sub_at|exact sub_load].
    pose proof sub_length. pose proof sub_size. lia.
  Qed.

  Local Notation nat2Q n := (inject_Z (Z.of_nat n)).
  Lemma sub_lower_bound : (@vehicle_lower_bound NumQ sp <= @vehicle_lower_bound NumQ p)%nat.
  Proof.
    pose proof (io_cap _ _ OK) as CP. pose proof (io_dem _ _ OK) as DM.
    destruct (lower_bound_Q p CP DM) as [A1 A2].
    assert (DM' : forall a, (a < p_dim sp)%nat -> 0 <= p_demand sp a).
    { intros a Ha. apply DM. now apply sub_at. }
    destruct (lower_bound_Q sp CP DM') as [B1 B2]. cbv zeta in *.
    change (p_dim sp) with (length mapping) in *. change (p_cap sp) with (p_cap p) in *.
    pose proof sub_load0 as LE.
    set (n := @vehicle_lower_bound NumQ p) in *. set (m := @vehicle_lower_bound NumQ sp) in *.
    destruct (le_lt_dec m n) as [?|LT]; [assumption|exfalso].
    assert (X : nat2Q n + 1 <= nat2Q m).
    { change (inject_Z (Z.of_nat n) + inject_Z 1 <= inject_Z (Z.of_nat m)). rewrite <- inject_Z_plus, <- Zle_Qle. lia. }
    set (x := nat2Q n) in *. set (y := nat2Q m) in *. clearbody x y.
    assert ((x + 1) * p_cap p <= y * p_cap p) by (apply Qmult_le_compat_r; lra). lra.
  Qed.

  Lemma sub_instance : instance_ok sp (sub_config c).
  Proof.
    pose proof OK as [O1 [O2 O2'] O3 O4 O5 O6 O7 (top & O8 & O9) O10 O11 O12].
    pose proof sub_length as SL. pose proof sub_size as SZ.
    pose proof (taken_nth0 min_size corr global sub rest mapping rs T) as N0.
    constructor; auto.
    - change (2 <= length mapping)%nat. lia.
    - split; [exact O2|]. pose proof sub_lower_bound. change (c_num_vehicles (sub_config c)) with (c_num_vehicles c). lia.
    - intros a Ha. apply O4. now apply sub_at.
    - intros a b Ha Hb. apply O5; now apply sub_at.
    - intros a Ha. change (p_dist sp 0%nat a) with (p_dist p (at_ 0) (at_ a)). change (p_dist sp a 0%nat) with (p_dist p (at_ a) (at_ 0)).
      unfold at_ at 1 4. rewrite N0. apply O6. now apply sub_at.
    - change (p_dist sp 0%nat 0%nat) with (p_dist p (at_ 0) (at_ 0)). unfold at_. rewrite N0. exact O7.
    - exists top. split.
      + intros a b Ha Hb. apply O8; now apply sub_at.
      + change (p_dim sp) with (length mapping).
        assert (T0 : 0 <= top). { assert (p_dist p 0%nat 0%nat <= top) by (apply O8; lia). lra. }
        pose proof sub_load as LE.
        assert (LN : inject_Z (Z.of_nat (length mapping)) <= inject_Z (Z.of_nat (p_dim p))) by (rewrite <- Zle_Qle; lia).
        assert (M1 : inject_Z (Z.of_nat (length mapping)) * top <= inject_Z (Z.of_nat (p_dim p)) * top) by (apply Qmult_le_compat_r; auto).
        assert (M2 : route_load (p_demand sp) (seq 1 (length mapping - 1)) * inject_Z (10 ^ 7) <=
                     route_load (p_demand p) (seq 1 (p_dim p - 1)) * inject_Z (10 ^ 7)).
        { apply Qmult_le_compat_r; auto. rewrite <- (Zle_Qle 0). apply Z.pow_nonneg. discriminate. }
        set (A := inject_Z (10 ^ 30)) in *. set (B7 := inject_Z (10 ^ 7)) in *. clearbody A B7. lra.
  Qed.

  (** Its matrices exist and its rows hold what the searches look at. *)
  Lemma sub_matrices sqrt_ round_ lsort dm gd : sort_contract lsort -> dfun sqrt_ round_ dm (p_dim p) gd ->
    (c_granularity c < length (concat rs))%nat -> (c_granularity c <= 200)%nat ->
    exists d cm, @provider_from_mapping NumQ sqrt_ round_ lsort dm mapping = Ok (d, cm) /\
      neighbours_ok sp (sub_config c) (cm_store cm) /\ rows_ok sp (cm_store cm).
  Proof.
    intros SO DF GR G2. apply (any_matrices p c (io_dim _ _ OK) min_size corr global sub rest mapping rs C T some sqrt_ round_ lsort dm gd); auto.
    intros ? ? _ _. apply nan_Q.
  Qed.
End Sub.
