(** C35 - C38: distance matrices, neighbour lists, subproblem extraction. *)
From Coq Require Import List Arith NArith ZArith QArith Bool Lia Lqa Permutation Sorted.
From Verif.Model Require Import Num Prelude Evaluate Matrix.
From Verif.Proofs Require Import Lists QNum MatrixFacts.
Import ListNotations.
Open Scope nat_scope.

(** ** C35 *)

(** Squares of differences do not depend on the order; true in exact arithmetic (below) and in
    IEEE arithmetic. *)
Definition square_symmetric (N : Num) : Prop :=
  forall a b : F, ((a -: b) *: (a -: b) = (b -: a) *: (b -: a))%num.

Theorem C35_square_symmetric_exact : square_symmetric NumQ.
Proof.
  intros [an ad] [bn bd]. cbn. unfold Qmult, Qminus, Qplus, Qopp. cbn. f_equal; [ring|].
  rewrite (Pos.mul_comm bd ad). reflexivity.
Qed.
Print Assumptions C35_square_symmetric_exact.

(** Any arithmetic, any square root and rounding function: both storages answer every query
    between different nodes with the same number, it does not depend on the order of the nodes,
    and it is the (rounded) Euclidean distance. *)
Theorem C35_storage_irrelevant (N : Num) (sqrt_ round_ : F -> F) (loc : list coord) (rounded : bool) :
  square_symmetric N ->
  exists dp dl,
    dm_build sqrt_ round_ loc true rounded None = Ok dp /\
    dm_build sqrt_ round_ loc false rounded None = Ok dl /\
    forall i j, i < length loc -> j < length loc -> i <> j ->
      exists x, dm_get sqrt_ round_ dp i j = Ok x /\ dm_get sqrt_ round_ dl i j = Ok x /\
                dm_get sqrt_ round_ dp j i = Ok x /\ dm_get sqrt_ round_ dl j i = Ok x /\
                let '(xi, yi) := nth i loc (f0, f0) in
                let '(xj, yj) := nth j loc (f0, f0) in
                let e := sqrt_ ((xj -: xi) *: (xj -: xi) +: (yj -: yi) *: (yj -: yi))%num in
                x = if rounded then round_ e else e.
Proof.
  intros Hsq.
  destruct (build_dfun_pre sqrt_ round_ loc rounded) as (dp & Ep & _ & Hp & _).
  destruct (build_dfun_lazy sqrt_ round_ loc rounded) as (dl & El & _ & Hl & _).
  exists dp, dl. split; [auto|split; [auto|]]. intros i j Hi Hj Hne.
  assert (Hs : forall i j, lazy_dist sqrt_ round_ rounded loc i j = lazy_dist sqrt_ round_ rounded loc j i).
  { intros a b. unfold lazy_dist, euclidian. cbv zeta.
    rewrite (Hsq (fst (nth b loc (f0, f0)))), (Hsq (snd (nth b loc (f0, f0)))). reflexivity. }
  assert (Hpl : pre_dist sqrt_ round_ rounded loc i j = lazy_dist sqrt_ round_ rounded loc i j).
  { unfold pre_dist. destruct (Nat.lt_ge_cases i j).
    - rewrite Nat.min_l, Nat.max_r by lia. reflexivity.
    - rewrite Nat.min_r, Nat.max_l by lia. apply Hs. }
  exists (lazy_dist sqrt_ round_ rounded loc i j).
  rewrite !(dfun_get sqrt_ round_ dp _ _ _ _ Hp), !(dfun_get sqrt_ round_ dl _ _ _ _ Hl) by auto.
  rewrite (proj2 (Nat.eqb_neq i j)), (proj2 (Nat.eqb_neq j i)) by auto.
  rewrite (pre_dist_sym sqrt_ round_ rounded loc j i), Hpl, (Hs j i).
  repeat split; auto. unfold lazy_dist, euclidian.
  destruct (nth i loc (f0, f0)) as [xi yi], (nth j loc (f0, f0)) as [xj yj]. cbn [fst snd].
  destruct rounded; reflexivity.
Qed.
Print Assumptions C35_storage_irrelevant.

(** The diagonal: stored matrices hold exactly 0.0; on demand it is zero in exact arithmetic. *)
Theorem C35_zero_diagonal (N : Num) (sqrt_ round_ : F -> F) loc rounded d i :
  dm_build sqrt_ round_ loc true rounded None = Ok d -> i < length loc ->
  dm_get sqrt_ round_ d i i = Ok f0.
Proof.
  intros E Hi. destruct (build_dfun_pre sqrt_ round_ loc rounded) as (dp & Ep & _ & Hp & _).
  rewrite E in Ep. injection Ep as <-. rewrite (dfun_get sqrt_ round_ d _ _ _ _ Hp) by auto.
  now rewrite Nat.eqb_refl.
Qed.
Print Assumptions C35_zero_diagonal.

Theorem C35_zero_diagonal_lazy (sqrt_ round_ : Q -> Q) loc rounded d i :
  (forall x, x == 0 -> sqrt_ x == 0)%Q -> (forall x, x == 0 -> round_ x == 0)%Q ->
  @dm_build NumQ sqrt_ round_ loc false rounded None = Ok d -> i < length loc ->
  exists x, @dm_get NumQ sqrt_ round_ d i i = Ok x /\ (x == 0)%Q.
Proof.
  intros Hs Hr E Hi. destruct (@build_dfun_lazy NumQ sqrt_ round_ loc rounded) as (dp & Ep & _ & Hp & _).
  rewrite E in Ep. injection Ep as <-. rewrite (@dfun_get NumQ sqrt_ round_ d _ _ _ _ Hp) by auto.
  eexists. split; [reflexivity|]. unfold lazy_dist, maybe_round, euclidian.
  destruct (nth i loc (f0, f0)) as [x y]. cbn [fst snd].
  assert (H0 : (sqrt_ ((x - x) * (x - x) + (y - y) * (y - y)) == 0)%Q) by (apply Hs; ring).
  destruct rounded; [apply Hr|]; exact H0.
Qed.
Print Assumptions C35_zero_diagonal_lazy.

(** Row queries ([get_vec], which may run over several rows) return the same numbers as single
    queries, for every way of storing the matrix. *)
Theorem C35_row_queries (N : Num) (sqrt_ round_ : F -> F) loc pre rounded input d row col number :
  match input with Some inp => lower_rows inp (length loc) | None => True end ->
  dm_build sqrt_ round_ loc pre rounded input = Ok d ->
  let n := length loc in
  col < n -> row * n + col + number <= n * n ->
  exists v, dm_get_vec sqrt_ round_ d row col number = Ok v /\ length v = number /\
    forall k, k < number ->
      exists x, nth_error v k = Some x /\
        dm_get sqrt_ round_ d ((row * n + col + k) / n) ((row * n + col + k) mod n) = Ok x.
Proof.
  intros Hin E n Hc Hle.
  assert (exists g, dfun sqrt_ round_ d n g) as [g Hd].
  { destruct input as [inp|].
    - destruct (build_dfun_input sqrt_ round_ loc pre rounded inp Hin) as (d' & E' & _ & H & _).
      rewrite E in E'. injection E' as <-. eauto.
    - destruct pre.
      + destruct (build_dfun_pre sqrt_ round_ loc rounded) as (d' & E' & _ & H & _).
        rewrite E in E'. injection E' as <-. eauto.
      + destruct (build_dfun_lazy sqrt_ round_ loc rounded) as (d' & E' & _ & H & _).
        rewrite E in E'. injection E' as <-. eauto. }
  rewrite (dfun_get_vec sqrt_ round_ d n g) by auto.
  eexists. split; [reflexivity|]. split; [now rewrite map_length, seq_length|].
  intros k Hk. rewrite nth_error_map, nth_error_seq by auto. cbn [option_map].
  eexists. split; [reflexivity|]. apply dfun_get with (n := n); auto.
  - apply Nat.div_lt_upper_bound; lia.
  - apply Nat.mod_upper_bound. lia.
Qed.
Print Assumptions C35_row_queries.

(** An explicit lower-row matrix is read back entry by entry: row [i] of the input holds the
    distances between node [i + 1] and the nodes [0 .. i]. *)
Theorem C35_lower_row_read_back (N : Num) (sqrt_ round_ : F -> F) loc pre rounded input :
  length input + 1 = length loc ->
  (forall i, i < length input -> length (nth i input []) = i + 1) ->
  exists d, dm_build sqrt_ round_ loc pre rounded (Some input) = Ok d /\
    (forall i row j x, nth_error input i = Some row -> nth_error row j = Some x ->
       let y := if rounded then round_ x else x in
       dm_get sqrt_ round_ d (i + 1) j = Ok y /\ dm_get sqrt_ round_ d j (i + 1) = Ok y) /\
    (forall i, i < length loc -> dm_get sqrt_ round_ d i i = Ok f0).
Proof.
  intros H1 H2.
  destruct (build_dfun_input sqrt_ round_ loc pre rounded input (conj H1 H2)) as (d & E & _ & Hd & _).
  exists d. split; auto. split.
  - intros i row j x Hi Hj. cbv zeta.
    assert (i < length input) by (apply nth_error_Some; congruence).
    assert (j < length row) by (apply nth_error_Some; congruence).
    pose proof (nth_error_nth _ _ [] Hi) as Hi'. pose proof (nth_error_nth _ _ f0 Hj) as Hj'.
    specialize (H2 i). rewrite Hi' in H2. rewrite H2 in * by auto.
    rewrite !(dfun_get sqrt_ round_ d _ _ _ _ Hd) by lia.
    rewrite (proj2 (Nat.eqb_neq (i + 1) j)), (proj2 (Nat.eqb_neq j (i + 1))) by lia.
    rewrite (in_dist_sym round_ rounded input j). unfold in_dist.
    rewrite Nat.min_r, Nat.max_l by lia. replace (i + 1 - 1) with i by lia. rewrite Hi', Hj'.
    split; destruct rounded; reflexivity.
  - intros i Hi. rewrite (dfun_get sqrt_ round_ d _ _ _ _ Hd) by auto. now rewrite Nat.eqb_refl.
Qed.
Print Assumptions C35_lower_row_read_back.

(** The reported maximum is one of the distances and no distance exceeds it by more than the
    tolerance. *)
Theorem C35_maximum (sqrt_ round_ : Q -> Q) loc rounded d :
  2 <= length loc ->
  @dm_build NumQ sqrt_ round_ loc true rounded None = Ok d ->
  exists mx : Q, dm_max d = Some mx /\
    (exists i j, i < j < length loc /\ @dm_get NumQ sqrt_ round_ d i j = Ok mx) /\
    (forall i j x, i < length loc -> j < length loc -> i <> j ->
       @dm_get NumQ sqrt_ round_ d i j = Ok x -> (x <= mx + (1 # 1000000))%Q).
Proof.
  intros H2 E. destruct (@build_dfun_pre NumQ sqrt_ round_ loc rounded) as (dp & Ep & _ & Hp & _ & _ & Hmx).
  rewrite E in Ep. injection Ep as <-.
  destruct (update_max_Q (map snd (@pre_writes NumQ sqrt_ round_ rounded loc)) None) as (mx & Em & Hin & Hmax & _).
  { right. intros Hnil. apply map_eq_nil in Hnil.
    assert (In (0, 1, @pre_dist NumQ sqrt_ round_ rounded loc 0 1) (@pre_writes NumQ sqrt_ round_ rounded loc))
      by (apply in_pre_writes; split; auto; lia).
    rewrite Hnil in H. destruct H. }
  exists mx. split; [rewrite Hmx; exact Em|]. split.
  - destruct Hin as [Hin|]; [|discriminate]. apply in_map_iff in Hin as ([[i j] x] & Ex & Hin). cbn in Ex. subst x.
    apply in_pre_writes in Hin as [Hij ->]. exists i, j. split; auto.
    rewrite (@dfun_get NumQ sqrt_ round_ d _ _ _ _ Hp) by lia. rewrite (proj2 (Nat.eqb_neq i j)) by lia. reflexivity.
  - intros i j x Hi Hj Hne Hx. rewrite (@dfun_get NumQ sqrt_ round_ d _ _ _ _ Hp) in Hx by lia.
    rewrite (proj2 (Nat.eqb_neq i j)) in Hx by lia. injection Hx as <-.
    apply Hmax. left. apply in_map_iff.
    destruct (Nat.lt_ge_cases i j).
    + exists (i, j, @pre_dist NumQ sqrt_ round_ rounded loc i j). split; auto. apply in_pre_writes. split; auto.
    + exists (j, i, @pre_dist NumQ sqrt_ round_ rounded loc j i). split.
      * cbn [snd]. apply pre_dist_sym.
      * apply in_pre_writes. split; auto. lia.
Qed.
Print Assumptions C35_maximum.

(** Concrete case: a 3-4-5 triangle and a point further out, with an exact root on squares. *)
Definition ex_sqrt (x : Q) : Q :=
  inject_Z (Z.sqrt (Qnum (Qred x))) / inject_Z (Z.sqrt (Zpos (Qden (Qred x)))).
Definition ex_loc : list (@coord NumQ) := [(0, 0); (3, 4); (6, 8); (0, 5)]%Q.
Example C35_nonvacuous :
  match @dm_build NumQ ex_sqrt (fun x => x) ex_loc true false None,
        @dm_build NumQ ex_sqrt (fun x => x) ex_loc false false None with
  | Ok dp, Ok dl =>
      match @dm_get NumQ ex_sqrt (fun x => x) dp 2 1, @dm_get NumQ ex_sqrt (fun x => x) dl 2 1, dm_max dp with
      | Ok a, Ok b, Some m => (a = b /\ a == 5 /\ m == 10)%Q
      | _, _, _ => False
      end
  | _, _ => False
  end.
Proof. vm_compute. repeat split. Qed.
Example C35_lower_row_nonvacuous :
  match @dm_build NumQ ex_sqrt (fun x => x) (firstn 3 ex_loc) false false (Some [[7]; [8; 9]]%Q) with
  | Ok d => @dm_get NumQ ex_sqrt (fun x => x) d 1 2 = Ok 9%Q /\ @dm_get NumQ ex_sqrt (fun x => x) d 2 0 = Ok 8%Q
  | _ => False
  end.
Proof. vm_compute. split; reflexivity. Qed.

(** ** C36 *)

(** For any arithmetic whose library sort returns a sorted permutation, and any matrix without
    NaN: the neighbour list of node [i]. *)
Theorem C36_nearest_neighbours (N : Num) (sqrt_ round_ : F -> F) lsort (d : dmatrix) (n : nat)
    (g : nat -> nat -> F) :
  sort_contract lsort -> 2 <= n -> dm_size d = n ->
  dfun sqrt_ round_ d n g -> no_nan g n ->
  exists c, correlation_new sqrt_ round_ lsort d = Ok c /\
    forall i, i < n -> exists l,
      cm_get c i = Ok l /\ length l = Nat.min 200 (n - 2) /\ NoDup l /\
      (forall j, In j l -> 1 <= j < n /\ j <> i) /\
      StronglySorted (fun a b => fle (g i a) (g i b) = true) l /\
      (forall j k, In j l -> 1 <= k < n -> k <> i -> ~ In k l -> fle (g i j) (g i k) = true).
Proof.
  intros Hs H2 _ Hd Hn. destruct (correlation_spec lsort sqrt_ round_ d n g Hd Hs Hn H2) as (c & E & Ew & Hm).
  exists c. split; auto. intros i Hi. exists (nbrs lsort g n (cm_width c) i).
  assert (Hw : cm_width c <= n - 2) by lia.
  pose proof (nbrs_length lsort g n (cm_width c) i Hs Hn Hi Hw) as Hl.
  split; [|split; [congruence|]].
  - unfold cm_get. pose proof (top_slice_spec lsort sqrt_ round_ d n g c i (cm_width c) Hd Hs Hn H2 E Hi (Nat.le_refl _)) as T.
    unfold cm_top_slice in T. rewrite T. f_equal. rewrite <- Hl at 1. apply firstn_all.
  - now apply nbrs_props.
Qed.
Print Assumptions C36_nearest_neighbours.

(** Every matrix the program builds has such entries; in exact arithmetic there is no NaN and
    insertion sort meets the contract, so the theorem applies. *)
Theorem C36_applies (sqrt_ round_ : Q -> Q) (loc : list (@coord NumQ)) (pre rounded : bool) :
  2 <= length loc ->
  exists d g c, @dm_build NumQ sqrt_ round_ loc pre rounded None = Ok d /\
    (forall i j, i < length loc -> j < length loc -> @dm_get NumQ sqrt_ round_ d i j = Ok (g i j)) /\
    @correlation_new NumQ sqrt_ round_ (isort (fun a b => @fle NumQ (snd a) (snd b))) d = Ok c /\
    forall i, i < length loc -> exists l, cm_get c i = Ok l /\
      length l = Nat.min 200 (length loc - 2) /\ NoDup l /\
      (forall j, In j l -> 1 <= j < length loc /\ j <> i) /\
      (forall j k, In j l -> 1 <= k < length loc -> k <> i -> ~ In k l -> (g i j <= g i k)%Q).
Proof.
  intros H2.
  assert (exists d g, @dm_build NumQ sqrt_ round_ loc pre rounded None = Ok d /\ @dfun NumQ sqrt_ round_ d (length loc) g)
    as (d & g & E & Hd).
  { destruct pre.
    - destruct (@build_dfun_pre NumQ sqrt_ round_ loc rounded) as (d & E & _ & H & _). eauto.
    - destruct (@build_dfun_lazy NumQ sqrt_ round_ loc rounded) as (d & E & _ & H & _). eauto. }
  destruct (C36_nearest_neighbours NumQ sqrt_ round_ _ d (length loc) g isort_contract_Q H2 (proj1 Hd) Hd)
    as (c & Ec & Hc).
  { intros i j _ _. apply nan_Q. }
  exists d, g, c. split; auto. split; [intros; now apply dfun_get with (n := length loc)|]. split; auto.
  intros i Hi. destruct (Hc i Hi) as (l & H3 & H4 & H5 & H6 & _ & H7). exists l. repeat split; auto.
  - now apply H6.
  - now apply H6.
  - now apply H6.
  - intros j k Hj Hk Hne Hnin. apply Qle_bool_iff. exact (H7 j k Hj Hk Hne Hnin).
Qed.
Print Assumptions C36_applies.

Definition ex_loc6 : list (@coord NumQ) := [(0, 0); (1, 0); (10, 0); (3, 0); (7, 0); (8, 0)]%Q.
Definition ex_corr : res cmatrix :=
  match @dm_build NumQ ex_sqrt (fun x => x) ex_loc6 true false None with
  | Ok d => @correlation_new NumQ ex_sqrt (fun x => x) (isort (fun a b => @fle NumQ (snd a) (snd b))) d
  | Err e => Err e
  end.
Example C36_nonvacuous :
  match ex_corr with
  | Ok c => cm_get c 4 = Ok [5; 2; 3; 1] /\ cm_get c 0 = Ok [1; 3; 4; 5]
  | _ => False
  end.
Proof. vm_compute. split; reflexivity. Qed.

(** ** C37 *)

(** With a granularity of at most the row width the slice is the beginning of the node's own
    list. *)
Theorem C37_slice_in_row_partial (N : Num) (sqrt_ round_ : F -> F) lsort d n g c i number :
  sort_contract lsort -> 2 <= n -> dfun sqrt_ round_ d n g -> no_nan g n ->
  correlation_new sqrt_ round_ lsort d = Ok c -> i < n -> number <= Nat.min 200 (n - 2) ->
  exists l, cm_get c i = Ok l /\ cm_top_slice c i number = Ok (firstn number l).
Proof.
  intros Hs H2 Hd Hn E Hi Hk.
  destruct (correlation_spec lsort sqrt_ round_ d n g Hd Hs Hn H2) as (c' & E' & Ew & _).
  rewrite E in E'. injection E' as <-.
  exists (firstn (cm_width c) (nbrs lsort g n (cm_width c) i)). split.
  - apply (top_slice_spec lsort sqrt_ round_ d n g c i (cm_width c)); auto.
  - rewrite firstn_firstn, Nat.min_l by lia. apply (top_slice_spec lsort sqrt_ round_ d n g); auto. lia.
Qed.
Print Assumptions C37_slice_in_row_partial.

(** The claim is false for a granularity beyond the row width: for EVERY such instance the
    slice of the last node runs out of the allocation.  With the default granularity 20 these
    are all instances with fewer than 22 nodes. *)
Theorem C37_slice_in_bounds_refuted (N : Num) (sqrt_ round_ : F -> F) lsort d n g c number :
  sort_contract lsort -> 2 <= n -> dfun sqrt_ round_ d n g -> no_nan g n ->
  correlation_new sqrt_ round_ lsort d = Ok c -> Nat.min 200 (n - 2) < number ->
  cm_top_slice c (n - 1) number = Err EUB.
Proof.
  intros Hs H2 Hd Hn E Hk.
  destruct (correlation_spec lsort sqrt_ round_ d n g Hd Hs Hn H2) as (c' & E' & Ew & _).
  rewrite E in E'. injection E' as <-.
  apply (top_slice_short lsort sqrt_ round_ d n g); auto. lia.
Qed.
Print Assumptions C37_slice_in_bounds_refuted.

(** Before the end of the allocation it reads the lists of the following nodes, which may
    contain the node itself. *)
Example C37_own_node_in_slice_refuted :
  match ex_corr with
  | Ok c => cm_top_slice c 1 8 = Ok [3; 4; 5; 2; 5; 4; 3; 1] /\ cm_top_slice c 5 20 = Err EUB
  | _ => False
  end.
Proof. vm_compute. split; reflexivity. Qed.

(** ** C38 *)

(** Extracting a subproblem keeps distances, coordinates and demands of the customers it maps
    to, for every matrix built by the program and every mapping into it. *)
Theorem C38_mapping_preserves (N : Num) (sqrt_ round_ : F -> F) (d d' : dmatrix) (n : nat)
    (g : nat -> nat -> F) (nodes nodes' : list node) (mapping : list nat) :
  dfun sqrt_ round_ d n g -> length nodes = n -> Forall (fun i => i < n) mapping ->
  dm_from_mapping sqrt_ round_ d mapping = Ok d' ->
  nodes_from_mapping nodes mapping = Ok nodes' ->
  dm_size d' = length mapping /\ length nodes' = length mapping /\
  (forall i j, i < length mapping -> j < length mapping ->
     dm_get sqrt_ round_ d' i j = dm_get sqrt_ round_ d (nth i mapping 0) (nth j mapping 0)) /\
  (forall i, i < length mapping ->
     nth_error nodes' i = nth_error nodes (nth i mapping 0)).
Proof.
  intros Hd Hlen Hmap E En. unfold dm_from_mapping, rbind in E.
  destruct (mapm (geti (dm_loc d)) mapping) as [loc'|] eqn:El; [|discriminate].
  destruct (mapping_spec sqrt_ round_ d n g mapping Hd Hmap) as (m & Em & Hm).
  rewrite Em in E. apply mapm_spec in El, En.
  destruct (if dm_pre d then _ else _) as [mx|] in E; [|discriminate]. injection E as <-.
  split; [unfold dm_size; cbn; symmetry; eapply Forall2_length; eauto|].
  split; [symmetry; eapply Forall2_length; eauto|]. split.
  - intros i j Hi Hj. unfold dm_get at 1. cbn [dm_pre dm_store]. destruct Hm as (_ & _ & _ & Hg).
    rewrite Hg by auto. rewrite Forall_forall in Hmap. symmetry.
    apply dfun_get with (n := n); auto; apply Hmap; now apply nth_In.
  - intros i Hi. pose proof (nth_error_nth' mapping 0 Hi) as Hi'.
    destruct (Forall2_nth_error _ _ _ _ _ En Hi') as (x & -> & Hx). symmetry. now apply geti_inv.
Qed.
Print Assumptions C38_mapping_preserves.

(** In exact arithmetic the extraction also succeeds, the new matrix has the structure used in
    C35-C37, and the reported maximum is the exact one. *)
Theorem C38_mapping_succeeds (sqrt_ round_ : Q -> Q) (d : @dmatrix NumQ) (n : nat) g (mapping : list nat) :
  @dfun NumQ sqrt_ round_ d n g -> Forall (fun i => i < n) mapping -> mapping <> [] ->
  exists d', @dm_from_mapping NumQ sqrt_ round_ d mapping = Ok d' /\
    @dfun NumQ sqrt_ round_ d' (length mapping) (fun i j => g (nth i mapping 0) (nth j mapping 0)) /\
    (dm_pre d = true -> exists mx : Q, dm_max d' = Some mx /\
       (exists i j, i < length mapping /\ j < length mapping /\ mx = g (nth i mapping 0) (nth j mapping 0)) /\
       (forall i j, i < length mapping -> j < length mapping -> Qle (g (nth i mapping 0) (nth j mapping 0)) mx)).
Proof.
  intros Hd Hmap Hne. unfold dm_from_mapping.
  destruct (mapm_ok (geti (dm_loc d)) mapping) as [loc' El].
  { intros a Ha. rewrite Forall_forall in Hmap. specialize (Hmap a Ha).
    assert (Hs : length (dm_loc d) = n) by apply Hd.
    exists (nth a (dm_loc d) (f0, f0)). apply geti_ok. lia. }
  rewrite El. cbn [rbind].
  destruct (@mapping_spec NumQ sqrt_ round_ d n g mapping Hd Hmap) as (m & Em & Hm). rewrite Em. cbn [rbind].
  assert (Hk : 0 < length mapping) by (destruct mapping as [|? ?]; [now elim Hne|cbn; lia]).
  destruct Hm as (Hr & Hc & Hl & Hg).
  assert (Hdata : forall x : @F NumQ, In x (m_data m) <-> exists i j, i < length mapping /\ j < length mapping /\
            x = g (nth i mapping 0) (nth j mapping 0)).
  { set (k := length mapping) in *. intros x. split.
    - intros Hx. apply In_nth_error in Hx as [t Ht].
      assert (Ht' : t < k * k) by (rewrite <- Hl; apply nth_error_Some; rewrite Ht; discriminate).
      exists (t / k), (t mod k).
      assert (H1 : t / k < k) by (apply Nat.div_lt_upper_bound; lia).
      assert (H2 : t mod k < k) by (apply Nat.mod_upper_bound; lia).
      specialize (Hg _ _ H1 H2). unfold m_get in Hg. rewrite Hc in Hg.
      replace (t / k * k + t mod k) with t in Hg by (rewrite Nat.mul_comm; apply Nat.div_mod; lia).
      replace (nth_error (m_data m) t) with (Some x) in Hg by (symmetry; exact Ht).
      injection Hg as Hg. split; [auto|split; [auto|exact Hg]].
    - intros (i & j & Hi & Hj & ->). specialize (Hg i j Hi Hj). unfold m_get in Hg.
      destruct (nth_error (m_data m) (i * m_cols m + j)) eqn:E; [|discriminate]. injection Hg as Hg.
      rewrite <- Hg. eapply nth_error_In. exact E. }
  assert (Hdf : forall mx, @dfun NumQ sqrt_ round_ (mkDM loc' m true (dm_rounded d) mx) (length mapping)
            (fun i j => g (nth i mapping 0) (nth j mapping 0))).
  { intros mx. split.
    - unfold dm_size. cbn [dm_loc]. apply mapm_spec in El. symmetry. eapply Forall2_length; eauto.
    - cbn [dm_pre dm_store]. repeat split; auto. }
  destruct (dm_pre d).
  - destruct (get_max_Q (m_data m)) as (x & Ex & Hin & Hmax).
    { intros Hnil. apply (f_equal (@length (@F NumQ))) in Hnil. cbn in Hnil, Hl. nia. }
    rewrite Ex. cbn [rbind]. eexists. split; [reflexivity|]. split; auto.
    intros _. exists x. cbn [dm_max]. split; auto. split; [now apply Hdata|].
    intros i j Hi Hj. apply Hmax, Hdata. eauto.
  - cbn [rbind]. eexists. split; [reflexivity|]. split; auto. discriminate.
Qed.
Print Assumptions C38_mapping_succeeds.

Example C38_nonvacuous :
  match @dm_build NumQ ex_sqrt (fun x => x) ex_loc6 false false None with
  | Ok d => match @dm_from_mapping NumQ ex_sqrt (fun x => x) d [0; 4; 2] with
            | Ok d' => match @dm_get NumQ ex_sqrt (fun x => x) d' 1 2, @dm_get NumQ ex_sqrt (fun x => x) d 4 2 with
                       | Ok a, Ok b => (a = b /\ a == 3)%Q
                       | _, _ => False end
            | _ => False end
  | _ => False end.
Proof. vm_compute. split; reflexivity. Qed.
