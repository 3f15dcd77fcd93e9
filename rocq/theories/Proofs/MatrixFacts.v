(** Facts about matrices. *)
From Coq Require Import List Arith NArith ZArith QArith Bool Lia Lqa Permutation Sorted.
From Verif.Model Require Import Num Prelude Evaluate Matrix.
From Verif.Proofs Require Import Lists QNum.
Import ListNotations.
Open Scope nat_scope.

(** ** Loops *)
Lemma foldm_ext {A S} (f g : S -> A -> res S) l s :
  (forall s a, In a l -> f s a = g s a) -> foldm f l s = foldm g l s.
Proof.
  revert s. induction l as [|a l IH]; intros s H; cbn; auto.
  rewrite H by now left. destruct (g s a); auto. apply IH. intros. apply H. now right.
Qed.

Lemma foldm_map {A B S} (f : S -> B -> res S) (g : A -> B) l s :
  foldm f (map g l) s = foldm (fun s a => f s (g a)) l s.
Proof. revert s. induction l as [|a l IH]; intros s; cbn; auto. destruct (f s (g a)); auto. Qed.

Lemma foldm_flat {A B S} (h : S -> B -> res S) (L : A -> list B) l s :
  foldm (fun s a => foldm h (L a) s) l s = foldm h (flat_map L l) s.
Proof.
  revert s. induction l as [|a l IH]; intros s; cbn; auto.
  rewrite foldm_app. unfold rbind. destruct (foldm h (L a) s); auto.
Qed.

Lemma in_combine_seq {A} (l : list A) : forall k i a,
  In (i, a) (combine (seq k (length l)) l) <-> k <= i /\ nth_error l (i - k) = Some a.
Proof.
  induction l as [|b l IH]; intros k i a; cbn [length seq combine In].
  - split; [intros []|]. intros [_ H]. destruct (i - k); discriminate.
  - rewrite IH. split.
    + intros [E|[H1 H2]]; [injection E as -> ->|].
      * rewrite Nat.sub_diag. auto.
      * split; [lia|]. replace (i - k) with (S (i - S k)) by lia. auto.
    + intros [H1 H2]. destruct (Nat.eq_dec i k) as [->|].
      * rewrite Nat.sub_diag in H2. cbn in H2. injection H2 as ->. now left.
      * right. split; [lia|]. replace (i - k) with (S (i - S k)) in H2 by lia. auto.
Qed.

Lemma mapm_spec {A B} (f : A -> res B) l l' : mapm f l = Ok l' <-> Forall2 (fun a b => f a = Ok b) l l'.
Proof.
  revert l'. induction l as [|a l IH]; intros l'; cbn.
  - split; [intros H; injection H as <-; constructor|]. intros H. inversion H. auto.
  - unfold rbind. split.
    + destruct (f a) eqn:E; [|discriminate]. destruct (mapm f l) eqn:E2; [|discriminate].
      intros H. injection H as <-. constructor; auto. now apply IH.
    + intros H. inversion H as [|? b ? t Hb Ht]. subst. rewrite Hb. apply IH in Ht. now rewrite Ht.
Qed.

Lemma Forall2_length {A B} (R : A -> B -> Prop) l l' : Forall2 R l l' -> length l = length l'.
Proof. induction 1; cbn; auto. Qed.

Lemma Forall2_nth_error {A B} (R : A -> B -> Prop) l l' i a : Forall2 R l l' -> nth_error l i = Some a ->
  exists b, nth_error l' i = Some b /\ R a b.
Proof.
  intros H. revert i. induction H as [|x y l l' Hxy H IH]; intros [|i] E; cbn in *; try discriminate; auto.
  injection E as <-. eauto.
Qed.

Lemma mapm_ok {A B} (f : A -> res B) l : (forall a, In a l -> exists b, f a = Ok b) ->
  exists l', mapm f l = Ok l'.
Proof.
  induction l as [|a l IH]; intros H; cbn; [eauto|].
  destruct (H a) as [b ->]; [now left|]. cbn.
  destruct IH as [l' ->]; [intros; apply H; now right|]. cbn. eauto.
Qed.

Lemma nth_error_ext {A} (l l' : list A) : (forall k, nth_error l k = nth_error l' k) -> l = l'.
Proof.
  revert l'. induction l as [|a l IH]; intros [|b l'] H; auto.
  - specialize (H 0). discriminate.
  - specialize (H 0). discriminate.
  - pose proof (H 0) as H0. cbn in H0. injection H0 as ->. f_equal. apply IH. intros k. apply (H (S k)).
Qed.
Lemma nth_error_firstn_lt {A} (l : list A) n k : k < n -> nth_error (firstn n l) k = nth_error l k.
Proof.
  revert n k. induction l as [|a l IH]; intros [|n] [|k] H; cbn; auto; try lia. apply IH. lia.
Qed.
Lemma nth_error_skipn' {A} (l : list A) n k : nth_error (skipn n l) k = nth_error l (n + k).
Proof. revert n. induction l as [|a l IH]; intros [|n]; cbn; auto. now destruct k. Qed.
Lemma nth_error_seq s n k : k < n -> nth_error (seq s n) k = Some (s + k).
Proof. revert s k. induction n as [|n IH]; intros s [|k] H; cbn; try lia; [f_equal; lia|]. rewrite IH by lia. f_equal. lia. Qed.

(** ** Cells *)
Lemma cell_inj c i j i' j' : j < c -> j' < c -> i * c + j = i' * c + j' -> i = i' /\ j = j'.
Proof.
  intros Hj Hj' E.
  assert (Ei : i = i').
  { assert (i = (i * c + j) / c) by (rewrite Nat.div_add_l by lia; rewrite (Nat.div_small j c) by lia; lia).
    assert (i' = (i' * c + j') / c) by (rewrite Nat.div_add_l by lia; rewrite (Nat.div_small j' c) by lia; lia).
    congruence. }
  subst. split; auto. lia.
Qed.

Lemma cell_lt r c i j : i < r -> j < c -> i * c + j < r * c.
Proof. intros. assert (i * c + c <= r * c); [|lia]. replace (i * c + c) with (S i * c) by lia. apply Nat.mul_le_mono_r. lia. Qed.

(** [m] is the [r] times [c] matrix with entries [g] *)
Definition mfun {A} (m : matrix A) (r c : nat) (g : nat -> nat -> A) : Prop :=
  m_rows m = r /\ m_cols m = c /\ length (m_data m) = r * c /\
  forall i j, i < r -> j < c -> m_get m i j = Ok (g i j).

Definition gupd {A} (g : nat -> nat -> A) a b v : nat -> nat -> A :=
  fun i j => if (i =? a) && (j =? b) then v else g i j.

Lemma mfun_new {A} (z : A) r c : mfun (m_new z r c) r c (fun _ _ => z).
Proof.
  unfold mfun, m_new. cbn. rewrite repeat_length. repeat split; auto.
  intros i j Hi Hj. unfold m_get. cbn. rewrite nth_error_repeat; auto. now apply cell_lt.
Qed.

Lemma mfun_set {A} (m : matrix A) r c g a b v : mfun m r c g -> a < r -> b < c ->
  exists m', m_set m a b v = Ok m' /\ mfun m' r c (gupd g a b v).
Proof.
  intros (Hr & Hc & Hl & Hg) Ha Hb. unfold m_set. rewrite Hc, Hl.
  pose proof (cell_lt r c a b Ha Hb). destruct (Nat.ltb_spec (a * c + b) (r * c)); [|lia].
  eexists. split; [reflexivity|]. unfold mfun. cbn. rewrite upd_length. repeat split; auto.
  intros i j Hi Hj. unfold m_get, gupd. cbn. rewrite nth_error_upd.
  destruct (Nat.eq_dec (i * c + j) (a * c + b)) as [E|E].
  - apply cell_inj in E as [-> ->]; auto. rewrite !Nat.eqb_refl. cbn [andb].
    destruct (Nat.ltb_spec (a * c + b) (length (m_data m))); auto. lia.
  - destruct (Nat.eqb_spec i a); [destruct (Nat.eqb_spec j b)|]; cbn; try congruence.
    + rewrite (proj2 (Nat.eqb_neq (a*c+b) (i*c+j))) by auto. specialize (Hg i j Hi Hj). unfold m_get in Hg. rewrite Hc in Hg. exact Hg.
    + rewrite (proj2 (Nat.eqb_neq (a*c+b) (i*c+j))) by auto. specialize (Hg i j Hi Hj). unfold m_get in Hg. rewrite Hc in Hg. exact Hg.
Qed.

Lemma mfun_ext {A} (m : matrix A) r c g g' : mfun m r c g -> (forall i j, i < r -> j < c -> g i j = g' i j) ->
  mfun m r c g'.
Proof. intros (H1 & H2 & H3 & H4) E. repeat split; auto. intros i j Hi Hj. rewrite H4 by auto. now rewrite E. Qed.

Lemma mfun_slice {A} (m : matrix A) r c g row col number : mfun m r c g -> 0 < c ->
  row * c + col + number <= r * c ->
  m_slice m row col number = Ok (map (fun k => g (k / c) (k mod c)) (seq (row * c + col) number)).
Proof.
  intros (Hr & Hc & Hl & Hg) Hc0 H. unfold m_slice. rewrite Hc, Hl.
  destruct (Nat.leb_spec (row * c + col + number) (r * c)); [|lia]. f_equal.
  set (s := row * c + col) in *. clearbody s.
  apply nth_error_ext. intros k. destruct (Nat.lt_ge_cases k number) as [Hk|Hk].
  - rewrite nth_error_firstn_lt by auto. rewrite nth_error_skipn'.
    rewrite nth_error_map, nth_error_seq by auto. cbn [option_map].
    assert (Hd : (s + k) / c < r) by (apply Nat.div_lt_upper_bound; lia).
    assert (Hm : (s + k) mod c < c) by (apply Nat.mod_upper_bound; lia).
    specialize (Hg _ _ Hd Hm). unfold m_get in Hg. rewrite Hc in Hg.
    replace ((s + k) / c * c + (s + k) mod c) with (s + k) in Hg
      by (rewrite Nat.mul_comm; apply Nat.div_mod; lia).
    destruct (nth_error (m_data m) (s + k)) eqn:E; congruence.
  - rewrite (proj2 (nth_error_None _ _)), (proj2 (nth_error_None _ _)); auto.
    + rewrite map_length, seq_length. auto.
    + rewrite firstn_length. lia.
Qed.

(** ** Building *)
Section Builder.
  Context {N : Num}.
  Variable sqrt_ round_ : F -> F.

  Definition write := (nat * nat * F)%type.
  Definition do_write (s : matrix F * option F) (w : write) : res (matrix F * option F) :=
    let '(i, j, d) := w in set_pair s i j d.
  Definition hits (i j : nat) (w : write) : bool :=
    let '(a, b, _) := w in ((a =? i) && (b =? j)) || ((b =? i) && (a =? j)).

  Lemma writes_spec (D : nat -> nat -> F) n ws : forall m mx g,
    (forall i j, D i j = D j i) -> mfun m n n g ->
    (forall i j d, In (i, j, d) ws -> i < n /\ j < n /\ d = D i j) ->
    exists m', foldm do_write ws (m, mx) = Ok (m', fold_left update_max (map snd ws) mx) /\
      mfun m' n n (fun i j => if existsb (hits i j) ws then D i j else g i j).
  Proof.
    induction ws as [|[[a b] d] ws IH]; intros m mx g Hsym Hm Hws; cbn [foldm map fold_left snd].
    - exists m. split; auto.
    - destruct (Hws a b d) as (Ha & Hb & Hd); [now left|].
      destruct (mfun_set m n n g a b d Hm Ha Hb) as (m1 & E1 & Hm1).
      destruct (mfun_set m1 n n _ b a d Hm1 Hb Ha) as (m2 & E2 & Hm2).
      cbn [do_write]. unfold set_pair. rewrite E1. cbn [rbind]. rewrite E2. cbn [rbind].
      destruct (IH m2 (update_max mx d) _ Hsym Hm2) as (m' & E & Hm').
      { intros i j d' Hin. apply Hws. now right. }
      exists m'. split; auto. eapply mfun_ext; [exact Hm'|]. cbv beta. intros i j Hi Hj.
      cbn [existsb hits]. destruct (existsb (hits i j) ws); [now rewrite orb_true_r|].
      rewrite orb_false_r. unfold gupd.
      destruct (Nat.eqb_spec a i), (Nat.eqb_spec b j), (Nat.eqb_spec b i), (Nat.eqb_spec a j);
        subst; cbn; rewrite ?Nat.eqb_refl; cbn; auto;
        repeat match goal with |- context [?x =? ?y] => destruct (Nat.eqb_spec x y); subst; cbn end; try congruence; auto.
  Qed.

  (** distance stored for a pair *)
  Definition pre_dist (rounded : bool) (loc : list coord) (i j : nat) : F :=
    maybe_round round_ rounded
      (euclidian sqrt_ (nth (Nat.min i j) loc (f0, f0)) (nth (Nat.max i j) loc (f0, f0))).

  Lemma pre_dist_sym rounded loc i j : pre_dist rounded loc i j = pre_dist rounded loc j i.
  Proof. unfold pre_dist. now rewrite Nat.min_comm, Nat.max_comm. Qed.

  Definition pre_writes (rounded : bool) (loc : list coord) : list write :=
    flat_map (fun i => map (fun j => (i, j, pre_dist rounded loc i j)) (seq (i + 1) (length loc - (i + 1))))
             (seq 0 (length loc)).

  Lemma in_pre_writes rounded loc i j d :
    In (i, j, d) (pre_writes rounded loc) <-> i < j < length loc /\ d = pre_dist rounded loc i j.
  Proof.
    unfold pre_writes. rewrite in_flat_map. split.
    - intros (i' & Hi & H). apply in_map_iff in H as (j' & E & Hj). injection E as -> -> <-.
      apply in_seq in Hi, Hj. split; [lia|auto].
    - intros [H ->]. exists i. split; [apply in_seq; lia|]. apply in_map_iff. exists j. split; auto.
      apply in_seq. lia.
  Qed.

  Lemma build_pre_eq rounded loc :
    build_pre sqrt_ round_ rounded loc =
    foldm do_write (pre_writes rounded loc) (m_new f0 (length loc) (length loc), None).
  Proof.
    unfold build_pre, pre_writes. rewrite <- foldm_flat. apply foldm_ext. intros s i Hi.
    apply in_seq in Hi. unfold build_pre_row. rewrite foldm_map. apply foldm_ext. intros s' j Hj.
    apply in_seq in Hj. rewrite (geti_ok loc i (f0, f0)), (geti_ok loc j (f0, f0)) by lia. cbn [rbind do_write].
    unfold pre_dist. rewrite Nat.min_l, Nat.max_r by lia. reflexivity.
  Qed.

  Lemma build_pre_spec rounded loc :
    exists m, build_pre sqrt_ round_ rounded loc =
        Ok (m, fold_left update_max (map snd (pre_writes rounded loc)) None) /\
      mfun m (length loc) (length loc) (fun i j => if i =? j then f0 else pre_dist rounded loc i j).
  Proof.
    rewrite build_pre_eq.
    destruct (writes_spec (pre_dist rounded loc) (length loc) (pre_writes rounded loc)
                (m_new f0 (length loc) (length loc)) None (fun _ _ => f0)) as (m & E & Hm).
    - apply pre_dist_sym.
    - apply mfun_new.
    - intros i j d H. apply in_pre_writes in H. lia || (destruct H as [? ->]; repeat split; lia).
    - exists m. split; auto. eapply mfun_ext; [exact Hm|]. cbv beta. intros i j Hi Hj.
      destruct (Nat.eqb_spec i j) as [->|Hne].
      + destruct (existsb (hits j j) (pre_writes rounded loc)) eqn:Ex; auto.
        apply existsb_exists in Ex as ([[a b] d] & Hin & Hh). apply in_pre_writes in Hin.
        cbn in Hh. destruct (Nat.eqb_spec a j), (Nat.eqb_spec b j); subst; cbn in Hh; try discriminate; lia.
      + replace (existsb (hits i j) (pre_writes rounded loc)) with true; auto. symmetry.
        apply existsb_exists. exists (Nat.min i j, Nat.max i j, pre_dist rounded loc (Nat.min i j) (Nat.max i j)).
        split; [apply in_pre_writes; split; auto; lia|]. cbn.
        destruct (Nat.lt_ge_cases i j).
        * rewrite Nat.min_l, Nat.max_r by lia. now rewrite !Nat.eqb_refl.
        * rewrite Nat.min_r, Nat.max_l by lia. rewrite !Nat.eqb_refl. apply orb_true_r.
  Qed.

  (** LOWER_ROW input: row [i] holds the distances of node [i + 1] to the nodes [0 .. i] *)
  Definition lower_rows (input : list (list F)) (n : nat) : Prop :=
    length input + 1 = n /\ forall i, i < length input -> length (nth i input []) = i + 1.
  Definition in_dist (rounded : bool) (input : list (list F)) (i j : nat) : F :=
    maybe_round round_ rounded (nth (Nat.min i j) (nth (Nat.max i j - 1) input []) f0).
  Lemma in_dist_sym rounded input i j : in_dist rounded input i j = in_dist rounded input j i.
  Proof. unfold in_dist. now rewrite Nat.min_comm, Nat.max_comm. Qed.

  Definition in_writes (rounded : bool) (input : list (list F)) : list write :=
    flat_map (fun ir : nat * list F =>
                map (fun jd : nat * F => (fst ir + 1, fst jd, maybe_round round_ rounded (snd jd)))
                    (combine (seq 0 (length (snd ir))) (snd ir)))
             (combine (seq 0 (length input)) input).

  Lemma build_input_eq rounded n input :
    build_input round_ rounded n input = foldm do_write (in_writes rounded input) (m_new f0 n n, None).
  Proof.
    unfold build_input, in_writes. rewrite <- foldm_flat. apply foldm_ext. intros s [i row] Hi.
    unfold build_input_row. rewrite foldm_map. reflexivity.
  Qed.

  Lemma in_in_writes rounded input n : lower_rows input n -> forall i j d,
    In (i, j, d) (in_writes rounded input) <-> j < i < n /\ d = in_dist rounded input i j.
  Proof.
    intros [Hn Hrow] i j d. unfold in_writes. rewrite in_flat_map. split.
    - intros ([i' row] & Hi & H). apply in_map_iff in H as ([j' d'] & E & Hj). cbn [fst snd] in *.
      injection E as <- <- <-. apply in_combine_seq in Hi as [_ Hi], Hj as [_ Hj].
      rewrite Nat.sub_0_r in Hi, Hj.
      assert (i' < length input) by (apply nth_error_Some; congruence).
      assert (j' < length row) by (apply nth_error_Some; congruence).
      pose proof (nth_error_nth _ _ [] Hi) as Hi'. pose proof (nth_error_nth _ _ f0 Hj) as Hj'.
      specialize (Hrow i'). rewrite Hi' in Hrow. rewrite Hrow in * by auto.
      split; [lia|]. unfold in_dist. rewrite Nat.min_r, Nat.max_l by lia.
      replace (i' + 1 - 1) with i' by lia. rewrite Hi', Hj'. reflexivity.
    - intros [H ->]. exists (i - 1, nth (i - 1) input []). split.
      + apply in_combine_seq. split; [lia|]. rewrite Nat.sub_0_r. apply nth_error_nth'. lia.
      + apply in_map_iff. exists (j, nth j (nth (i - 1) input []) f0). cbn [fst snd]. split.
        * unfold in_dist. rewrite Nat.min_r, Nat.max_l by lia. repeat f_equal; lia.
        * apply in_combine_seq. split; [lia|]. rewrite Nat.sub_0_r. apply nth_error_nth'. rewrite Hrow; lia.
  Qed.

  Lemma build_input_spec rounded n input : lower_rows input n ->
    exists m, build_input round_ rounded n input =
        Ok (m, fold_left update_max (map snd (in_writes rounded input)) None) /\
      mfun m n n (fun i j => if i =? j then f0 else in_dist rounded input i j).
  Proof.
    intros Hin. rewrite build_input_eq. pose proof (in_in_writes rounded input n Hin) as Hw.
    destruct (writes_spec (in_dist rounded input) n (in_writes rounded input)
                (m_new f0 n n) None (fun _ _ => f0)) as (m & E & Hm).
    - apply in_dist_sym.
    - apply mfun_new.
    - intros i j d H. apply Hw in H. destruct H as [? ->]. repeat split; lia.
    - exists m. split; auto. eapply mfun_ext; [exact Hm|]. cbv beta. intros i j Hi Hj.
      destruct (Nat.eqb_spec i j) as [->|Hne].
      + destruct (existsb (hits j j) (in_writes rounded input)) eqn:Ex; auto.
        apply existsb_exists in Ex as ([[a b] d] & Hi2 & Hh). apply Hw in Hi2.
        cbn in Hh. destruct (Nat.eqb_spec a j), (Nat.eqb_spec b j); subst; cbn in Hh; try discriminate; lia.
      + replace (existsb (hits i j) (in_writes rounded input)) with true; auto. symmetry.
        apply existsb_exists. exists (Nat.max i j, Nat.min i j, in_dist rounded input (Nat.max i j) (Nat.min i j)).
        split; [apply Hw; split; auto; lia|]. cbn.
        destruct (Nat.lt_ge_cases i j).
        * rewrite Nat.min_l, Nat.max_r by lia. rewrite !Nat.eqb_refl. apply orb_true_r.
        * rewrite Nat.min_r, Nat.max_l by lia. now rewrite !Nat.eqb_refl.
  Qed.

  (** ** A distance matrix with entries [g] *)
  Definition dfun (d : dmatrix) (n : nat) (g : nat -> nat -> F) : Prop :=
    dm_size d = n /\
    (if dm_pre d then mfun (dm_store d) n n g
     else forall i j, i < n -> j < n -> dm_get sqrt_ round_ d i j = Ok (g i j)).

  Lemma dfun_get d n g i j : dfun d n g -> i < n -> j < n -> dm_get sqrt_ round_ d i j = Ok (g i j).
  Proof.
    intros [_ H] Hi Hj. destruct (dm_pre d) eqn:E; auto.
    unfold dm_get. rewrite E. now apply H.
  Qed.

  Lemma lazy_vec_spec d n g : dfun d n g -> forall number row col, col < n ->
    row * n + col + number <= n * n ->
    lazy_vec sqrt_ round_ d number row col =
    Ok (map (fun k => g (k / n) (k mod n)) (seq (row * n + col) number)).
  Proof.
    intros Hd. induction number as [|k IH]; intros row col Hc H; cbn [lazy_vec seq map]; auto.
    assert (row < n).
    { destruct (Nat.lt_ge_cases row n); auto. exfalso.
      assert (n * n <= row * n) by (apply Nat.mul_le_mono_r; auto). lia. }
    rewrite (dfun_get d n g) by auto. cbn [rbind]. replace (dm_size d) with n by (symmetry; apply Hd).
    assert (Ed : (row * n + col) / n = row).
    { rewrite Nat.div_add_l by lia. rewrite (Nat.div_small col n) by auto. lia. }
    assert (Em : (row * n + col) mod n = col).
    { rewrite Nat.add_comm, Nat.mod_add by lia. now apply Nat.mod_small. }
    rewrite Ed, Em.
    destruct (Nat.ltb_spec col (n - 1)).
    - rewrite IH by lia. cbn [rbind]. repeat f_equal. lia.
    - replace (S (row * n + col)) with ((row + 1) * n + 0) by lia.
      destruct k as [|k].
      + cbn. reflexivity.
      + rewrite IH by lia. reflexivity.
  Qed.

  Lemma dfun_get_vec d n g row col number : dfun d n g -> col < n -> row * n + col + number <= n * n ->
    dm_get_vec sqrt_ round_ d row col number =
    Ok (map (fun k => g (k / n) (k mod n)) (seq (row * n + col) number)).
  Proof.
    intros Hd Hc H. unfold dm_get_vec. destruct (dm_pre d) eqn:E.
    - destruct Hd as [_ Hd]. rewrite E in Hd. apply mfun_slice with (r := n); auto. lia.
    - now apply lazy_vec_spec.
  Qed.

  Lemma dfun_row d n g i : dfun d n g -> i < n ->
    dm_get_vec sqrt_ round_ d i 0 n = Ok (map (g i) (seq 0 n)).
  Proof.
    intros Hd Hi. rewrite (dfun_get_vec d n g) by (auto; try lia; rewrite Nat.add_0_r; replace (i * n + n) with (S i * n) by lia; apply Nat.mul_le_mono_r; lia).
    f_equal. rewrite Nat.add_0_r. apply nth_error_ext. intros k.
    rewrite !nth_error_map. destruct (Nat.lt_ge_cases k n) as [Hk|Hk].
    - rewrite !nth_error_seq by auto. cbn [option_map]. f_equal. f_equal.
      + rewrite Nat.div_add_l by lia. rewrite (Nat.div_small k n) by auto. lia.
      + cbn. rewrite Nat.add_comm, Nat.mod_add by lia. now apply Nat.mod_small.
    - rewrite !(proj2 (nth_error_None _ _)) by (rewrite seq_length; auto). reflexivity.
  Qed.

  (** the distance of two nodes computed on demand *)
  Definition lazy_dist (rounded : bool) (loc : list coord) (i j : nat) : F :=
    maybe_round round_ rounded (euclidian sqrt_ (nth i loc (f0, f0)) (nth j loc (f0, f0))).

  Lemma build_dfun_pre loc rounded : exists d,
    dm_build sqrt_ round_ loc true rounded None = Ok d /\ dm_loc d = loc /\
    dfun d (length loc) (fun i j => if i =? j then f0 else pre_dist rounded loc i j) /\
    dm_pre d = true /\ dm_rounded d = rounded /\
    dm_max d = fold_left update_max (map snd (pre_writes rounded loc)) None.
  Proof.
    destruct (build_pre_spec rounded loc) as (m & E & Hm). cbn [dm_build]. rewrite E. cbn [rbind].
    eexists. repeat split; auto; cbn [dm_pre dm_store]; apply Hm.
  Qed.

  Lemma build_dfun_input loc pre rounded input : lower_rows input (length loc) -> exists d,
    dm_build sqrt_ round_ loc pre rounded (Some input) = Ok d /\ dm_loc d = loc /\
    dfun d (length loc) (fun i j => if i =? j then f0 else in_dist rounded input i j) /\
    dm_pre d = true /\ dm_rounded d = rounded /\
    dm_max d = fold_left update_max (map snd (in_writes rounded input)) None.
  Proof.
    intros Hin. destruct (build_input_spec rounded (length loc) input Hin) as (m & E & Hm).
    cbn [dm_build]. rewrite E. cbn [rbind].
    eexists. repeat split; auto; cbn [dm_pre dm_store]; apply Hm.
  Qed.

  Lemma build_dfun_lazy loc rounded : exists d,
    dm_build sqrt_ round_ loc false rounded None = Ok d /\ dm_loc d = loc /\
    dfun d (length loc) (lazy_dist rounded loc) /\ dm_pre d = false /\ dm_rounded d = rounded /\
    dm_max d = None.
  Proof.
    cbn [dm_build]. eexists. repeat split; auto. cbn [dm_pre]. intros i j Hi Hj. unfold dm_get. cbn [dm_pre dm_loc dm_rounded].
    rewrite (geti_ok loc i (f0, f0)), (geti_ok loc j (f0, f0)) by auto. reflexivity.
  Qed.

  (** ** from_mapping *)
  Lemma mset_row (val : nat -> F) n i (f : matrix F -> nat -> res (matrix F)) :
    i < n -> (forall m j, j < n -> f m j = m_set m i j (val j)) ->
    forall k m g, k <= n -> mfun m n n g ->
    exists m', foldm f (seq (n - k) k) m = Ok m' /\
      mfun m' n n (fun a b => if (a =? i) && (n - k <=? b) then val b else g a b).
  Proof.
    intros Hi Hf. induction k as [|k IH]; intros m g Hk Hm; cbn [seq foldm].
    - exists m. split; auto. eapply mfun_ext; [exact Hm|]. intros a b _ Hb.
      destruct (Nat.leb_spec (n - 0) b); [lia|]. now rewrite andb_false_r.
    - rewrite Hf by lia. destruct (mfun_set m n n g i (n - S k) (val (n - S k)) Hm) as (m1 & E1 & Hm1); [auto|lia|].
      rewrite E1. destruct (IH m1 _ ltac:(lia) Hm1) as (m' & E & Hm').
      replace (S (n - S k)) with (n - k) by lia. exists m'. split; auto.
      eapply mfun_ext; [exact Hm'|]. cbv beta. intros a b _ Hb. unfold gupd.
      destruct (Nat.eqb_spec a i); cbn; auto.
      destruct (Nat.leb_spec (n - k) b), (Nat.leb_spec (n - S k) b), (Nat.eqb_spec b (n - S k)); subst; auto; lia.
  Qed.

  Lemma mset_rows (val : nat -> nat -> F) n (f : matrix F -> nat -> res (matrix F)) :
    (forall m i g, i < n -> mfun m n n g -> exists m', f m i = Ok m' /\
       mfun m' n n (fun a b => if (a =? i) then val a b else g a b)) ->
    forall k m g, k <= n -> mfun m n n g ->
    exists m', foldm f (seq (n - k) k) m = Ok m' /\
      mfun m' n n (fun a b => if (n - k <=? a) then val a b else g a b).
  Proof.
    intros Hf. induction k as [|k IH]; intros m g Hk Hm; cbn [seq foldm].
    - exists m. split; auto. eapply mfun_ext; [exact Hm|]. intros a b Ha _.
      destruct (Nat.leb_spec (n - 0) a); [lia|]. auto.
    - destruct (Hf m (n - S k) g ltac:(lia) Hm) as (m1 & E1 & Hm1). rewrite E1.
      destruct (IH m1 _ ltac:(lia) Hm1) as (m' & E & Hm').
      replace (S (n - S k)) with (n - k) by lia. exists m'. split; auto.
      eapply mfun_ext; [exact Hm'|]. cbv beta. intros a b Ha Hb.
      destruct (Nat.leb_spec (n - k) a), (Nat.leb_spec (n - S k) a), (Nat.eqb_spec a (n - S k)); subst; auto; lia.
  Qed.

  Lemma mapping_spec d n g mapping : dfun d n g -> Forall (fun i => i < n) mapping ->
    exists m, foldm (mapping_row sqrt_ round_ d mapping) (seq 0 (length mapping))
                (m_new f0 (length mapping) (length mapping)) = Ok m /\
      mfun m (length mapping) (length mapping) (fun i j => g (nth i mapping 0) (nth j mapping 0)).
  Proof.
    intros Hd Hmap. set (k := length mapping).
    assert (Hin : forall i, i < k -> nth i mapping 0 < n).
    { intros i Hi. rewrite Forall_forall in Hmap. apply Hmap. now apply nth_In. }
    replace (seq 0 k) with (seq (k - k) k) by (f_equal; lia).
    destruct (mset_rows (fun i j => g (nth i mapping 0) (nth j mapping 0)) k
                (mapping_row sqrt_ round_ d mapping)) with (k := k) (m := m_new f0 k k) (g := fun _ _ : nat => f0)
      as (m & E & Hm).
    - intros m i g0 Hi Hm. unfold mapping_row. fold k.
      replace (seq 0 k) with (seq (k - k) k) by (f_equal; lia).
      destruct (mset_row (fun j => g (nth i mapping 0) (nth j mapping 0)) k i
        (fun m j => rbind (geti mapping i) (fun mi => rbind (geti mapping j) (fun mj =>
           rbind (dm_get sqrt_ round_ d mi mj) (fun v => m_set m i j v))))) with (k := k) (m := m) (g := g0)
        as (m' & E & Hm'); auto.
      + intros m0 j Hj. rewrite (geti_ok mapping i 0), (geti_ok mapping j 0) by auto. cbn [rbind].
        rewrite (dfun_get d n g) by auto. reflexivity.
      + exists m'. split; auto. eapply mfun_ext; [exact Hm'|]. cbv beta. intros a b Ha Hb.
        destruct (Nat.leb_spec (k - k) b); [|lia]. rewrite andb_true_r.
        destruct (Nat.eqb_spec a i); subst; auto.
    - lia.
    - apply mfun_new.
    - exists m. split; auto. eapply mfun_ext; [exact Hm|]. cbv beta. intros a b Ha Hb.
      destruct (Nat.leb_spec (k - k) a); auto. lia.
  Qed.
End Builder.

(** ** Maxima in exact arithmetic *)
Lemma update_max_Q (l : list Q) : forall (mx : option Q),
  (mx <> None \/ l <> []) ->
  exists x, fold_left (@update_max NumQ) l mx = Some x /\
    (In x l \/ mx = Some x) /\
    (forall y, In y l \/ mx = Some y -> (y <= x + (1 # 1000000))%Q) /\
    (forall y, mx = Some y -> (y <= x)%Q).
Proof.
  induction l as [|a l IH]; intros mx H; cbn [fold_left].
  - destruct H as [H|H]; [|congruence]. destruct mx as [x|]; [|congruence].
    exists x. split; auto. split; auto. split.
    + intros y [[]|E]. injection E as ->. lra.
    + intros y E. injection E as ->. lra.
  - destruct (IH (@update_max NumQ mx a)) as (x & E & Hin & Hmax & Hge).
    { left. unfold update_max. destruct mx; [destruct (approx_gt _ _)|]; congruence. }
    exists x. split; auto. unfold update_max in *.
    destruct mx as [m|].
    + destruct (@approx_gt NumQ a m) eqn:Eg.
      * apply approx_gt_Q in Eg. specialize (Hge a eq_refl). split; [|split].
        -- destruct Hin as [?|E']; [left; now right|]. injection E' as ->. left. now left.
        -- intros y [[->|Hy]|Ey]; [lra|apply Hmax; auto|]. injection Ey as ->. lra.
        -- intros y Ey. injection Ey as ->. lra.
      * apply approx_gt_Q_false in Eg. specialize (Hge m eq_refl). split; [|split].
        -- destruct Hin as [?|E']; [left; now right|]. now right.
        -- intros y [[->|Hy]|Ey]; [lra|apply Hmax; auto|]. injection Ey as ->. lra.
        -- intros y Ey. injection Ey as ->. lra.
    + specialize (Hge a eq_refl). split; [|split].
      -- destruct Hin as [?|E']; [left; now right|]. injection E' as ->. left. now left.
      -- intros y [[->|Hy]|Ey]; [lra|apply Hmax; auto|discriminate].
      -- discriminate.
Qed.

Lemma nan_Q (a : Q) : @fisnan NumQ a = false.
Proof. unfold fisnan. cbn. rewrite (proj2 (Qeq_bool_iff a a)); [reflexivity|]. apply Qeq_refl. Qed.

Lemma get_max_Q (l : list Q) : l <> [] ->
  exists x, @get_max NumQ l = Ok x /\ In x l /\ forall y, In y l -> (y <= x)%Q.
Proof.
  destruct l as [|a l]; [congruence|]. intros _. unfold get_max.
  revert a. induction l as [|b l IH]; intros a; cbn [foldm].
  - exists a. split; auto. split; [now left|]. intros y [->|[]]. lra.
  - rewrite !nan_Q. cbn [orb].
    destruct (IH (if @flt NumQ b a then a else b)) as (x & E & Hin & Hmax).
    exists x. split; auto. destruct (@flt NumQ b a) eqn:Eb.
    + apply Qltb_lt in Eb. split.
      * destruct Hin as [->|]; [now left|]. right. now right.
      * intros y [->|[->|Hy]]; [apply Hmax; now left| |apply Hmax; now right].
        pose proof (Hmax a (or_introl eq_refl)). lra.
    + apply Qltb_ge in Eb. split.
      * destruct Hin as [->|]; [right; now left|]. right. now right.
      * intros y [->|[->|Hy]]; [|apply Hmax; now left|apply Hmax; now right].
        pose proof (Hmax b (or_introl eq_refl)). lra.
Qed.

(** ** Correlation *)
Section Correlation.
  Context {N : Num}.
  Variable lsort : list (nat * F) -> list (nat * F).

  Definition sort_contract : Prop := forall l, Forall (fun a => fisnan (snd a) = false) l ->
    Permutation (lsort l) l /\ StronglySorted (fun a b => fle (snd a) (snd b) = true) (lsort l).

  Lemma mset_list {A} (m : matrix A) r c i (l : list A) (dflt : A) :
    i < r -> forall k g, k + length l <= c -> mfun m r c g ->
    exists m', foldm (fun m (nj : nat * A) => m_set m i (fst nj) (snd nj)) (combine (seq k (length l)) l) m = Ok m' /\
      mfun m' r c (fun a b => if (a =? i) && (k <=? b) && (b <? k + length l) then nth (b - k) l dflt else g a b).
  Proof.
    intros Hi. revert m. induction l as [|x l IH]; intros m k g Hk Hm; cbn [length seq combine foldm fst snd].
    - exists m. split; auto. eapply mfun_ext; [exact Hm|]. intros a b _ _.
      destruct (Nat.leb_spec k b), (Nat.ltb_spec b (k + 0)); cbn; rewrite ?andb_false_r; auto; lia.
    - cbn [length] in Hk. destruct (mfun_set m r c g i k x Hm) as (m1 & E1 & Hm1); [auto|lia|].
      rewrite E1. destruct (IH m1 (S k) _ ltac:(lia) Hm1) as (m' & E & Hm').
      exists m'. split; auto. eapply mfun_ext; [exact Hm'|]. cbv beta. intros a b _ Hb. unfold gupd.
      destruct (Nat.eqb_spec a i); cbn [andb]; auto.
      destruct (Nat.leb_spec (S k) b), (Nat.leb_spec k b), (Nat.ltb_spec b (S k + length l)),
        (Nat.ltb_spec b (k + S (length l))), (Nat.eqb_spec b k); cbn [andb]; subst; auto; try lia.
      + replace (b - k) with (S (b - S k)) by lia. reflexivity.
      + rewrite Nat.sub_diag. reflexivity.
  Qed.

  Definition cands (g : nat -> nat -> F) (n i : nat) : list (nat * F) :=
    filter (fun jd => (0 <? fst jd) && negb (fst jd =? i)) (map (fun j => (j, g i j)) (seq 0 n)).

  Lemma in_cands g n i j d : In (j, d) (cands g n i) <-> 1 <= j < n /\ j <> i /\ d = g i j.
  Proof.
    unfold cands. rewrite filter_In, in_map_iff. cbn [fst]. split.
    - intros [(x & E & Hx) H]. injection E as -> <-. apply in_seq in Hx.
      apply andb_true_iff in H as [H1 H2]. apply Nat.ltb_lt in H1. apply negb_true_iff, Nat.eqb_neq in H2.
      repeat split; auto; lia.
    - intros (H1 & H2 & ->). split; [exists j; split; auto; apply in_seq; lia|].
      apply andb_true_iff. split; [apply Nat.ltb_lt; lia|]. now apply negb_true_iff, Nat.eqb_neq.
  Qed.

  Lemma cands_fst g n i : map fst (cands g n i) = filter (fun j => (0 <? j) && negb (j =? i)) (seq 0 n).
  Proof.
    unfold cands. generalize (seq 0 n) as l. induction l as [|a l IH]; auto.
    cbn [map filter fst]. destruct ((0 <? a) && negb (a =? i)); cbn [map fst]; congruence.
  Qed.

  Lemma cands_nodup g n i : NoDup (map fst (cands g n i)).
  Proof. rewrite cands_fst. apply NoDup_filter, seq_NoDup. Qed.

  Lemma cands_length g n i : i < n -> length (cands g n i) = if i =? 0 then n - 1 else n - 2.
  Proof.
    intros Hi. rewrite <- (map_length fst), cands_fst.
    assert (P : Permutation (filter (fun j => (0 <? j) && negb (j =? i)) (seq 0 n))
                            (if i =? 0 then seq 1 (n - 1) else filter (fun j => negb (j =? i)) (seq 1 (n - 1)))).
    { apply NoDup_Permutation.
      - apply NoDup_filter, seq_NoDup.
      - destruct (i =? 0); [|apply NoDup_filter]; apply seq_NoDup.
      - intros x. rewrite filter_In, in_seq. destruct (Nat.eqb_spec i 0) as [->|].
        + rewrite in_seq, andb_true_iff, Nat.ltb_lt. split; [lia|]. intros H. split; [lia|].
          split; [lia|]. apply negb_true_iff, Nat.eqb_neq. lia.
        + rewrite filter_In, in_seq, andb_true_iff, Nat.ltb_lt. intuition lia. }
    rewrite (Permutation_length P). destruct (Nat.eqb_spec i 0); [apply seq_length|].
    assert (H : length (filter (fun j => negb (j =? i)) (seq 1 (n - 1))) + 1 = n - 1); [|lia].
    assert (P2 : Permutation (i :: filter (fun j => negb (j =? i)) (seq 1 (n - 1))) (seq 1 (n - 1))).
    { apply NoDup_Permutation.
      - constructor; [|apply NoDup_filter, seq_NoDup]. rewrite filter_In, Nat.eqb_refl. intros [_ ?]. discriminate.
      - apply seq_NoDup.
      - intros x. cbn [In]. rewrite filter_In, in_seq, negb_true_iff, Nat.eqb_neq. lia. }
    apply Permutation_length in P2. cbn [length] in P2. rewrite seq_length in P2. lia.
  Qed.

  Definition nbrs (g : nat -> nat -> F) (n width i : nat) : list nat :=
    map fst (firstn width (lsort (cands g n i))).

  Definition no_nan (g : nat -> nat -> F) (n : nat) : Prop :=
    forall i j, i < n -> j < n -> fisnan (g i j) = false.

  Lemma nbrs_length g n width i : sort_contract -> no_nan g n -> i < n -> width <= n - 2 ->
    length (nbrs g n width i) = width.
  Proof.
    intros Hs Hn Hi Hw. unfold nbrs. rewrite map_length, firstn_length.
    destruct (Hs (cands g n i)) as [P _].
    { apply Forall_forall. intros [j d] H. apply in_cands in H as (? & ? & ->). cbn. apply Hn; lia. }
    rewrite (Permutation_length P), cands_length by auto. destruct (i =? 0); lia.
  Qed.

  Lemma combine_seq_map (f : nat -> F) n k : combine (seq k n) (map f (seq k n)) = map (fun j => (j, f j)) (seq k n).
  Proof. revert k. induction n as [|n IH]; intros k; cbn; auto. now rewrite IH. Qed.

  Lemma correlation_row_spec (sqrt_ round_ : F -> F) d n g width i m gm : dfun sqrt_ round_ d n g -> sort_contract -> no_nan g n ->
    i < n -> width <= n - 2 -> mfun m n width gm ->
    exists m', correlation_row sqrt_ round_ lsort d n width m i = Ok m' /\
      mfun m' n width (fun a b => if a =? i then nth b (nbrs g n width i) 0 else gm a b).
  Proof.
    intros Hd Hs Hn Hi Hw Hm. unfold correlation_row.
    rewrite (dfun_row sqrt_ round_ d n g i Hd Hi). cbn [rbind].
    rewrite map_length, seq_length, combine_seq_map. fold (cands g n i).
    replace (existsb (fun jd : nat * F => fisnan (snd jd)) (cands g n i)) with false.
    2:{ symmetry. apply not_true_is_false. rewrite existsb_exists. intros ([j x] & Hin & E). cbn in E.
        apply in_cands in Hin as (? & ? & ->). rewrite Hn in E by lia. discriminate. }
    rewrite andb_false_r. fold (nbrs g n width i).
    destruct (mset_list m n width i (nbrs g n width i) 0 Hi 0 gm) as (m' & E & Hm').
    { rewrite nbrs_length by auto. lia. }
    { auto. }
    exists m'. split; auto. eapply mfun_ext; [exact Hm'|]. cbv beta. intros a b Ha Hb.
    rewrite nbrs_length by auto. destruct (Nat.leb_spec 0 b); [|lia]. destruct (Nat.ltb_spec b (0 + width)); [|lia].
    rewrite !andb_true_r, Nat.sub_0_r. reflexivity.
  Qed.

  Lemma mset_rows' {A} (val : nat -> nat -> A) n c (f : matrix A -> nat -> res (matrix A)) :
    (forall m i g, i < n -> mfun m n c g -> exists m', f m i = Ok m' /\
       mfun m' n c (fun a b => if (a =? i) then val i b else g a b)) ->
    forall k m g, k <= n -> mfun m n c g ->
    exists m', foldm f (seq (n - k) k) m = Ok m' /\
      mfun m' n c (fun a b => if (n - k <=? a) then val a b else g a b).
  Proof.
    intros Hf. induction k as [|k IH]; intros m g Hk Hm; cbn [seq foldm].
    - exists m. split; auto. eapply mfun_ext; [exact Hm|]. intros a b Ha _.
      destruct (Nat.leb_spec (n - 0) a); [lia|]. auto.
    - destruct (Hf m (n - S k) g ltac:(lia) Hm) as (m1 & E1 & Hm1). rewrite E1.
      destruct (IH m1 _ ltac:(lia) Hm1) as (m' & E & Hm').
      replace (S (n - S k)) with (n - k) by lia. exists m'. split; auto.
      eapply mfun_ext; [exact Hm'|]. cbv beta. intros a b Ha Hb.
      destruct (Nat.leb_spec (n - k) a), (Nat.leb_spec (n - S k) a), (Nat.eqb_spec a (n - S k)); subst; auto; lia.
  Qed.

  Lemma correlation_spec (sqrt_ round_ : F -> F) d n g : dfun sqrt_ round_ d n g -> sort_contract -> no_nan g n -> 2 <= n ->
    exists c, correlation_new sqrt_ round_ lsort d = Ok c /\ cm_width c = Nat.min 200 (n - 2) /\
      mfun (cm_store c) n (cm_width c) (fun i k => nth k (nbrs g n (cm_width c) i) 0).
  Proof.
    intros Hd Hs Hn H2. unfold correlation_new. replace (dm_size d) with n by (symmetry; apply Hd).
    destruct (Nat.ltb_spec n 2); [lia|]. unfold correlation_limit. remember (Nat.min 200 (n - 2)) as w eqn:Ew.
    assert (Hw : w <= n - 2) by lia.
    replace (seq 0 n) with (seq (n - n) n) by (f_equal; lia).
    destruct (mset_rows' (fun i k => nth k (nbrs g n w i) 0) n w (correlation_row sqrt_ round_ lsort d n w))
      with (k := n) (m := m_new 0 n w) (g := fun _ _ : nat => 0) as (m & E & Hm).
    - intros m i gm Hi Hm. now apply correlation_row_spec.
    - lia.
    - apply mfun_new.
    - rewrite E. cbn [rbind]. eexists. split; [reflexivity|]. cbn [cm_width cm_store]. split; auto.
      eapply mfun_ext; [exact Hm|]. cbv beta. intros a b Ha Hb. destruct (Nat.leb_spec (n - n) a); auto. lia.
  Qed.

  Lemma mfun_row {A} (m : matrix A) n c g i number : mfun m n c g -> i < n -> number <= c ->
    m_slice m i 0 number = Ok (map (g i) (seq 0 number)).
  Proof.
    intros Hm Hi Hk. destruct (Nat.eq_dec c 0) as [->|Hc].
    - assert (number = 0) as -> by lia. unfold m_slice. destruct Hm as (_ & Hc & Hl & _). rewrite Hc, Hl.
      destruct (Nat.leb_spec (i * 0 + 0 + 0) (n * 0)); [reflexivity|lia].
    - rewrite (mfun_slice m n c g) by (auto; try lia; assert (i * c + c <= n * c) by (replace (i * c + c) with (S i * c) by lia; apply Nat.mul_le_mono_r; lia); lia).
      f_equal. rewrite Nat.add_0_r. apply nth_error_ext. intros k.
      rewrite !nth_error_map. destruct (Nat.lt_ge_cases k number) as [Hk'|Hk'].
      + rewrite !nth_error_seq by auto. cbn [option_map]. f_equal. f_equal.
        * rewrite Nat.div_add_l by lia. rewrite (Nat.div_small k c) by lia. lia.
        * cbn. rewrite Nat.add_comm, Nat.mod_add by lia. apply Nat.mod_small. lia.
      + rewrite !(proj2 (nth_error_None _ _)) by (rewrite seq_length; auto). reflexivity.
  Qed.

  Lemma map_nth_seq {A} (l : list A) d k : k <= length l -> map (fun i => nth i l d) (seq 0 k) = firstn k l.
  Proof.
    revert k. induction l as [|a l IH]; intros [|k] H; auto; [cbn in H; lia|].
    cbn [seq map firstn nth]. f_equal. rewrite <- seq_shift, map_map. cbn in H. rewrite <- IH by lia. reflexivity.
  Qed.

  Lemma top_slice_spec (sqrt_ round_ : F -> F) d n g c i number : dfun sqrt_ round_ d n g -> sort_contract -> no_nan g n -> 2 <= n ->
    correlation_new sqrt_ round_ lsort d = Ok c -> i < n -> number <= cm_width c ->
    cm_top_slice c i number = Ok (firstn number (nbrs g n (cm_width c) i)).
  Proof.
    intros Hd Hs Hn H2 E Hi Hk.
    destruct (correlation_spec sqrt_ round_ d n g Hd Hs Hn H2) as (c' & E' & Ew & Hm).
    rewrite E in E'. injection E' as <-. unfold cm_top_slice.
    rewrite (mfun_row _ n (cm_width c) _ i number Hm Hi Hk). f_equal. cbv beta.
    apply map_nth_seq. rewrite nbrs_length; auto. lia.
  Qed.

  Lemma in_firstn {A} (x : A) k l : In x (firstn k l) -> In x l.
  Proof. revert k. induction l as [|a l IH]; intros [|k]; cbn [firstn In]; auto; [intros []|intros [H|H]; eauto]. Qed.

  Lemma StronglySorted_firstn {A} (R : A -> A -> Prop) k l : StronglySorted R l -> StronglySorted R (firstn k l).
  Proof.
    intros H. revert k. induction H as [|a l Hs IH Hf]; intros [|k]; cbn; constructor; auto.
    apply Forall_forall. intros x Hx. rewrite Forall_forall in Hf. apply Hf. now apply in_firstn in Hx.
  Qed.

  Lemma StronglySorted_split {A} (R : A -> A -> Prop) k l x y : StronglySorted R l ->
    In x (firstn k l) -> In y (skipn k l) -> R x y.
  Proof.
    intros H. revert k. induction H as [|a l Hs IH Hf]; intros [|k]; cbn; try tauto.
    intros [->|Hx] Hy; eauto. rewrite Forall_forall in Hf. apply Hf.
    rewrite <- (firstn_skipn k l). apply in_or_app. now right.
  Qed.

  Lemma nbrs_props g n width i : sort_contract -> no_nan g n -> i < n -> width <= n - 2 ->
    NoDup (nbrs g n width i) /\
    (forall j, In j (nbrs g n width i) -> 1 <= j < n /\ j <> i) /\
    StronglySorted (fun a b => fle (g i a) (g i b) = true) (nbrs g n width i) /\
    (forall j k, In j (nbrs g n width i) -> 1 <= k < n -> k <> i -> ~ In k (nbrs g n width i) ->
       fle (g i j) (g i k) = true).
  Proof.
    intros Hs Hn Hi Hw. unfold nbrs.
    destruct (Hs (cands g n i)) as [P S].
    { apply Forall_forall. intros [j d] H. apply in_cands in H as (? & ? & ->). cbn. apply Hn; lia. }
    set (l := lsort (cands g n i)) in *.
    assert (Hin : forall j d, In (j, d) l <-> 1 <= j < n /\ j <> i /\ d = g i j).
    { intros j d. rewrite <- in_cands. split; apply Permutation_in; [|symmetry]; auto. }
    split; [|split; [|split]].
    - rewrite <- firstn_map. apply NoDup_firstn_l. eapply Permutation_NoDup; [|apply (cands_nodup g n i)].
      apply Permutation_map. now symmetry.
    - intros j H. apply in_map_iff in H as ([j' d] & <- & H). apply in_firstn, Hin in H. cbn. tauto.
    - apply (StronglySorted_firstn _ width) in S.
      assert (Hall : forall a, In a (firstn width l) -> snd a = g i (fst a)).
      { intros [j d] Ha. apply in_firstn, Hin in Ha. cbn. tauto. }
      revert S Hall. generalize (firstn width l). intros l0 S. induction S as [|a l0 S IH Hf]; intros Hall; cbn; constructor.
      + apply IH. intros. apply Hall. now right.
      + apply Forall_forall. intros x Hx. apply in_map_iff in Hx as (b & <- & Hb).
        rewrite Forall_forall in Hf. specialize (Hf b Hb).
        rewrite <- (Hall a), <- (Hall b); auto; [now right|now left].
    - intros j k Hj Hk Hne Hnin. apply in_map_iff in Hj as ([j' d] & <- & Hj). cbn [fst].
      assert (Ed : d = g i j') by (apply in_firstn, Hin in Hj; tauto).
      assert (Hk' : In (k, g i k) (skipn width l)).
      { assert (Hl : In (k, g i k) l) by (apply Hin; auto).
        rewrite <- (firstn_skipn width l) in Hl. apply in_app_or in Hl as [Hl|Hl]; auto.
        exfalso. apply Hnin. apply in_map_iff. exists (k, g i k). auto. }
      pose proof (StronglySorted_split _ width l _ _ S Hj Hk') as R. cbn in R. now rewrite <- Ed.
  Qed.

  (** Reading more entries than a row has runs past the end in the last row. *)
  Lemma top_slice_short (sqrt_ round_ : F -> F) d n g c number : dfun sqrt_ round_ d n g -> sort_contract -> no_nan g n -> 2 <= n ->
    correlation_new sqrt_ round_ lsort d = Ok c -> cm_width c < number ->
    cm_top_slice c (n - 1) number = Err EUB.
  Proof.
    intros Hd Hs Hn H2 E Hk.
    destruct (correlation_spec sqrt_ round_ d n g Hd Hs Hn H2) as (c' & E' & Ew & Hm).
    rewrite E in E'. injection E' as <-. unfold cm_top_slice, m_slice.
    destruct Hm as (_ & Hc & Hl & _). rewrite Hc, Hl.
    destruct (Nat.leb_spec ((n - 1) * cm_width c + 0 + number) (n * cm_width c)) as [H|]; auto.
    exfalso. replace (n * cm_width c) with ((n - 1) * cm_width c + cm_width c) in H; [lia|].
    replace n with (S (n - 1)) at 3 by lia. lia.
  Qed.
End Correlation.

(** ** The stable sort satisfies the contract *)
Lemma isort_contract_Q : @sort_contract NumQ (isort (fun a b => @fle NumQ (snd a) (snd b))).
Proof.
  intros l _. split; [apply isort_perm|].
  apply Sorted_StronglySorted.
  - intros [i a] [j b] [k c] H1 H2. cbn in *. apply Qle_bool_iff in H1, H2. apply Qle_bool_iff. lra.
  - induction l as [|a l IH]; cbn [isort]; [constructor|].
    revert IH. generalize (isort (fun a0 b : nat * @F NumQ => @fle NumQ (snd a0) (snd b)) l). clear l.
    intros l IH. induction l as [|b l' IH']; cbn [insert_sorted]; [repeat constructor|].
    destruct (@fle NumQ (snd a) (snd b)) eqn:E.
    + constructor; [exact IH|]. constructor. exact E.
    + inversion IH as [|? ? Hs Hh]. subst. specialize (IH' Hs). constructor; auto.
      assert (Hba : @fle NumQ (snd b) (snd a) = true).
      { apply Qle_bool_iff. apply Qleb_gt in E. apply Qlt_le_weak. exact E. }
      destruct l' as [|c l']; cbn [insert_sorted].
      * constructor. exact Hba.
      * destruct (@fle NumQ (snd a) (snd c)); constructor; auto. inversion Hh. auto.
Qed.
