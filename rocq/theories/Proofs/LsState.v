(** The state of the local search: update_route, and how relinking two routes keeps the state
    consistent. *)
From Coq Require Import List Arith ZArith Bool Lia Permutation.
From Verif.Model Require Import Num Prelude Evaluate Config Sector Matrix LinkedList LocalSearch.
From Verif.Spec Require Import Solution LocalSearch.
From Verif.Proofs Require Import Lists LinkFacts EvalThms.
Import ListNotations.
Open Scope nat_scope.

Lemma nupd_same {A} (f : nat -> A) k a : nupd f k a k = a.
Proof. unfold nupd. rewrite Nat.eqb_refl. auto. Qed.
Lemma nupd_other {A} (f : nat -> A) k a j : j <> k -> nupd f k a j = f j.
Proof. intros H. unfold nupd. apply Nat.eqb_neq in H. rewrite H. auto. Qed.

(** ** The chain of a route *)

Definition pre (r : nat) (A : list nat) : list ptr := PS r :: map PN A.
Definition suf (r : nat) (B : list nat) : list ptr := map PN B ++ [PE r].

Lemma stops_app r A B : stops r (A ++ B) = pre r A ++ suf r B.
Proof. unfold stops, pre, suf. rewrite map_app, <- app_assoc. auto. Qed.
Lemma stops_mid r A u B : stops r (A ++ u :: B) = pre r A ++ PN u :: suf r B.
Proof. rewrite stops_app. auto. Qed.
Lemma stops_nil_suf r l : stops r l = PS r :: suf r l.
Proof. auto. Qed.
Lemma stops_pre r l : stops r l = pre r l ++ [PE r].
Proof. auto. Qed.
Lemma pre_app r A B : pre r (A ++ B) = pre r A ++ map PN B.
Proof. unfold pre. rewrite map_app. auto. Qed.
Lemma suf_app r A B : suf r (A ++ B) = map PN A ++ suf r B.
Proof. unfold suf. rewrite map_app, app_assoc. auto. Qed.
Lemma suf_cons r b B : suf r (b :: B) = PN b :: suf r B.
Proof. auto. Qed.

Lemma pre_last r A : exists L a, pre r A = L ++ [a].
Proof. destruct (exists_last (l := pre r A)) as (L & a & E); [discriminate|eauto]. Qed.
Lemma suf_head r B : exists b L, suf r B = b :: L.
Proof. destruct B; cbn; eauto. Qed.
Lemma pre_PS r A : In (PS r) (pre r A).
Proof. left; auto. Qed.
Lemma suf_PE r B : In (PE r) (suf r B).
Proof. apply in_or_app. right. left. auto. Qed.

Lemma in_stops r l a :
  In a (stops r l) <-> a = PS r \/ a = PE r \/ exists n, a = PN n /\ In n l.
Proof.
  unfold stops. cbn [In]. rewrite in_app_iff, in_map_iff. cbn [In]. split.
  - intros [H|[(n & H & I)|[H|[]]]]; auto. right; right; exists n; auto.
  - intros [->|[->|(n & -> & I)]]; auto. right. left. exists n; auto.
Qed.

Lemma stops_inj r l l' : stops r l = stops r l' -> l = l'.
Proof.
  unfold stops. intros E. injection E as E. apply app_inv_tail in E.
  revert l' E. induction l; intros [|b l'] E; cbn in E; try discriminate; auto.
  injection E as -> E. f_equal. auto.
Qed.

Lemma stops_NoDup r l : NoDup l -> NoDup (stops r l).
Proof.
  intros ND. unfold stops. constructor.
  - rewrite in_app_iff, in_map_iff. intros [(n & E & _)|[E|[]]]; discriminate.
  - apply NoDup_app_intro.
    + apply FinFun.Injective_map_NoDup; auto. intros a b E. injection E; auto.
    + constructor; [intros []|constructor].
    + intros a I. rewrite in_map_iff in I. destruct I as (n & <- & _). intros [E|[]]. discriminate.
Qed.

Lemma stops_disjoint r r' l l' a :
  r <> r' -> (forall n, In n l -> ~ In n l') -> In a (stops r l) -> ~ In a (stops r' l').
Proof.
  rewrite !in_stops. intros HR D [->|[->|(n & -> & I)]] [E|[E|(m & E & J)]];
    try discriminate; injection E; intros; subst; try congruence.
  eapply D; eauto.
Qed.

Lemma runs_seg h r l :
  runs h r l <-> seg h (stops r l) /\ l_pred h (PS r) = None /\ l_succ h (PE r) = None.
Proof.
  unfold runs. split; intros [H1 H2]; split; auto.
  - clear H2. revert H1. generalize (stops r l). intros L.
    induction L as [|a L IH]; intros H; [exact I|]. destruct L as [|b L]; [exact I|].
    split.
    + destruct (H [] a b L); auto. split; auto.
    + apply IH. intros A x y B E. apply (H (a :: A) x y B). rewrite E. auto.
  - intros A a b B E. rewrite E in H1. apply seg_mid in H1. destruct H1 as (_ & [L1 L2] & _). auto.
Qed.

Section State.
  Context {N : Num}.
  Variable p : problem.
  Variable c : config.
  Variable pen : F.
  Notation nv := (c_num_vehicles c).
  Notation holds := (holds p c pen).
  Notation cached := (cached p pen).
  Notation drive := (drive p).
  Notation loaded := (loaded p).
  Notation driven := (driven p).
  Notation carried := (carried p).
  Notation update_route := (update_route p pen).

  Lemma drive_app prev acc l m :
    drive prev acc (l ++ m) = drive (last l prev) (drive prev acc l) m.
  Proof.
    revert prev acc. induction l as [|a l IH]; intros prev acc; cbn [app LocalSearch.drive]; auto.
    rewrite IH. f_equal. symmetry. apply (EvalFacts.last_cons_default l a prev).
  Qed.
  Lemma loaded_app acc l m : loaded acc (l ++ m) = loaded (loaded acc l) m.
  Proof. apply fold_left_app. Qed.

  Definition walk_sector (sec : sector) (l : list ptr) : sector :=
    fold_left (fun s a => if is_depot a then s else extend s (angle p a)) l sec.
  Definition walk_count (l : list ptr) : nat := length (filter (fun a => negb (is_depot a)) l).

  Lemma route_walk_ok r h l : forall fuel inf sec d ld nc pos prev,
    length l <= fuel -> fpath h prev l -> NoDup l ->
    exists inf',
      route_walk p fuel h r (inf, sec, d, ld, nc, pos) prev (l_succ h prev)
      = Ok (inf', walk_sector sec l, drive prev d l, loaded ld l, nc + walk_count l, pos + length l) /\
      (forall a, ~ In a l -> inf' a = inf a) /\
      (forall A a B, l = A ++ a :: B ->
         n_route (inf' a) = Some r /\ n_pos (inf' a) = pos + length A /\
         n_cumd (inf' a) = drive prev d (A ++ [a]) /\ n_cuml (inf' a) = loaded ld (A ++ [a])) /\
      (forall a, n_tested (inf' a) = n_tested (inf a)).
  Proof.
    induction l as [|a l IH]; intros fuel inf sec d ld nc pos prev HF P ND.
    - cbn [fpath] in P. rewrite P. exists inf.
      destruct fuel; cbn [route_walk]; (split; [|split; auto; split; auto;
        intros [|? ?] ? ? E; discriminate]);
      unfold walk_count; cbn; rewrite !Nat.add_0_r; reflexivity.
    - destruct P as [P1 P2]. rewrite P1. destruct fuel as [|fuel]; [cbn in HF; lia|].
      inversion ND; subst. cbn [route_walk].
      set (inf1 := pupd inf a (set_cum (set_place (inf a) r pos) (d +: dist p prev a) (ld +: dem p a))).
      destruct (IH fuel inf1 (if is_depot a then sec else extend sec (angle p a))
                   (d +: dist p prev a) (ld +: dem p a) (if is_depot a then nc else S nc) (S pos) a)
        as (inf' & E & H3 & H4 & H5); auto; [cbn in HF; lia|].
      exists inf'. split; [|split; [|split]].
      + rewrite E. unfold walk_count. cbn [walk_sector fold_left LocalSearch.drive filter].
        f_equal. f_equal; [|cbn; lia]. f_equal.
        destruct (is_depot a); cbn; lia.
      + intros z Hz. rewrite H3; [|cbn in Hz; tauto]. apply pupd_other. cbn in Hz. intros ->. tauto.
      + intros [|a' A] z B EQ.
        * injection EQ as -> ->. rewrite H3 by auto. unfold inf1. rewrite pupd_same.
          cbn. repeat split; auto.
        * injection EQ as -> EQ. destruct (H4 A z B EQ) as (G1 & G2 & G3 & G4).
          split; auto. split; [rewrite G2; cbn; lia|]. split; auto.
      + intros z. rewrite H5. unfold inf1. destruct (ptr_dec z a) as [->|NE].
        * rewrite pupd_same. reflexivity.
        * rewrite pupd_other; auto.
  Qed.

  Lemma walk_sector_suf sec l r : (forall n, In n l -> n <> 0) ->
    walk_sector sec (suf r l) = fold_left extend (map (o_polar p) l) sec.
  Proof.
    unfold suf. revert sec. induction l as [|n l IH]; intros sec H; cbn; auto.
    destruct n as [|n]; [exfalso; apply (H 0); [left; auto|auto]|].
    cbn. apply IH. intros k I. apply H. right; auto.
  Qed.
  Lemma walk_count_suf l r : (forall n, In n l -> n <> 0) -> walk_count (suf r l) = length l.
  Proof.
    unfold suf, walk_count. induction l as [|n l IH]; intros H; cbn; auto.
    destruct n as [|n]; [exfalso; apply (H 0); [left; auto|auto]|].
    cbn. f_equal. apply IH. intros k I. apply H. right; auto.
  Qed.

  Lemma hs_insert_In k l j : In j (hs_insert k l) <-> j = k \/ In j l.
  Proof.
    unfold hs_insert. destruct (existsb (Nat.eqb k) l) eqn:E; cbn; [|intuition].
    apply existsb_exists in E. destruct E as (x & I & E). apply Nat.eqb_eq in E. subst. 
    split; auto. intros [->|H]; auto.
  Qed.
  Lemma hs_remove_In k l j : In j (hs_remove k l) <-> j <> k /\ In j l.
  Proof.
    unfold hs_remove. rewrite filter_In, negb_true_iff, Nat.eqb_neq. tauto.
  Qed.

  (** What update_route changes *)
  Record updated (s s' : lsearch) (r : nat) (l : list nat) : Prop := {
    u_links : s_links s' = mkLinks (pupd (l_succ (s_links s)) (PE r) None)
                                   (pupd (l_pred (s_links s)) (PS r) None);
    u_out : forall a, ~ In a (stops r l) -> s_info s' a = s_info s a;
    u_cached : cached s' r l;
    u_routes : forall k, k <> r -> s_routes s' k = s_routes s k;
    u_mod : r_mod (s_routes s' r) = s_count s;
    u_tss : r_tss (s_routes s' r) = r_tss (s_routes s r);
    u_cust : s_cust s' = s_cust s;
    u_corr : s_corr s' = s_corr s;
    u_count : s_count s' = s_count s;
    u_best : s_best s' = s_best s;
    u_hash : s_hash s' = s_hash s;
    u_tested : forall a, n_tested (s_info s' a) = n_tested (s_info s a);
    u_empty : forall k, In k (s_empty s') <-> (k = r /\ l = []) \/ (k <> r /\ In k (s_empty s))
  }.

  Lemma update_route_ok s r l :
    fpath (s_links s) (PS r) (suf r l) -> NoDup l -> (forall n, In n l -> 0 < n) ->
    length l <= p_dim p ->
    n_cumd (s_info s (PS r)) = f0 -> n_cuml (s_info s (PS r)) = f0 ->
    exists s', update_route s r = Ok s' /\ updated s s' r l.
  Proof.
    intros P ND H0 HL C1 C2. unfold LocalSearch.update_route.
    pose proof (stops_NoDup r l ND) as NDS. rewrite stops_nil_suf in NDS. inversion NDS as [|? ? NI0 NDsuf]; subst.
    set (inf0 := pupd (s_info s) (PS r) (set_place (s_info s (PS r)) r 0)).
    destruct (route_walk_ok r (s_links s) (suf r l) (walk_fuel p) inf0 sector_new f0 f0 0 1 (PS r))
      as (inf' & E & H3 & H4 & H5); auto.
    { unfold walk_fuel, suf. rewrite app_length, map_length. cbn. lia. }
    rewrite E. cbn [rbind].
    assert (NZ : forall n, In n l -> n <> 0) by (intros n I; specialize (H0 n I); lia).
    rewrite walk_sector_suf, walk_count_suf by auto. cbn [Nat.add].
    eexists. split; [reflexivity|].
    constructor; try reflexivity.
    - intros a Ha. cbn. rewrite stops_nil_suf in Ha. cbn [In] in Ha. rewrite H3 by tauto.
      apply pupd_other. intros ->. tauto.
    - split.
      + intros A a B EQ. cbn [set_empty set_routes set_info s_info]. rewrite stops_nil_suf in EQ.
        destruct A as [|a' A].
        * injection EQ as <- _. rewrite H3 by auto. unfold inf0. rewrite pupd_same.
          cbn. auto.
        * injection EQ as <- EQ. destruct (H4 A a B EQ) as (G1 & G2 & G3 & G4). auto.
      + cbn [set_empty set_routes s_routes]. rewrite nupd_same. cbn.
        repeat split; auto.
    - intros k Hk. cbn. apply nupd_other; auto.
    - cbn. rewrite nupd_same. auto.
    - cbn. rewrite nupd_same. auto.
    - intros a. cbn [set_empty set_routes set_info s_info]. rewrite H5. unfold inf0.
      destruct (ptr_dec a (PS r)) as [->|NE]; [rewrite pupd_same|rewrite pupd_other]; auto.
    - intros k. unfold lr_empty. cbn [set_empty s_empty r_ncust].
      destruct l as [|n l]; cbn [length Nat.eqb].
      + rewrite hs_insert_In. destruct (Nat.eq_dec k r); intuition.
      + rewrite hs_remove_In. intuition discriminate.
  Qed.

  (** ** Partition *)

  Lemma in_all_routes rs n : In n (concat (all_routes c rs)) <-> exists r, r < nv /\ In n (rs r).
  Proof.
    unfold all_routes. rewrite in_concat. split.
    - intros (l & I & J). rewrite in_map_iff in I. destruct I as (r & <- & K).
      apply in_seq in K. exists r. split; auto. lia.
    - intros (r & H & I). exists (rs r). split; auto. apply in_map. apply in_seq. lia.
  Qed.

  Lemma split_seq r n : r < n -> seq 0 n = seq 0 r ++ r :: seq (S r) (n - S r).
  Proof.
    intros H. replace n with (r + S (n - S r)) at 1 by lia. rewrite seq_app. cbn. auto.
  Qed.

  Lemma all_routes_ext rs rs' : (forall r, r < nv -> rs r = rs' r) -> all_routes c rs = all_routes c rs'.
  Proof.
    intros H. unfold all_routes. apply map_ext_in. intros r I. apply in_seq in I. apply H. lia.
  Qed.

  Lemma all_routes_one rs r : r < nv ->
    Permutation (concat (all_routes c rs)) (rs r ++ concat (all_routes c (nupd rs r []))).
  Proof.
    intros H. unfold all_routes. rewrite (split_seq r nv H), !map_app, !concat_app.
    cbn [map concat]. rewrite nupd_same. cbn [app].
    assert (E : forall l, ~ In r l -> map (nupd rs r []) l = map rs l).
    { intros l I. apply map_ext_in. intros k K. apply nupd_other. intros ->. auto. }
    rewrite !E; [|rewrite in_seq; lia|rewrite in_seq; lia].
    rewrite !app_assoc. apply Permutation_app_tail. apply Permutation_app_comm.
  Qed.

  Lemma all_routes_two rs r1 r2 : r1 < nv -> r2 < nv -> r1 <> r2 ->
    Permutation (concat (all_routes c rs))
                ((rs r1 ++ rs r2) ++ concat (all_routes c (nupd (nupd rs r1 []) r2 []))).
  Proof.
    intros H1 H2 H. rewrite (all_routes_one rs r1 H1), <- app_assoc.
    apply Permutation_app_head. rewrite (all_routes_one (nupd rs r1 []) r2 H2).
    rewrite nupd_other by auto. auto.
  Qed.

  Lemma serves_one rs rs' r : r < nv -> serves_all_once (p_dim p) (all_routes c rs) ->
    (forall k, k < nv -> k <> r -> rs' k = rs k) -> Permutation (rs' r) (rs r) ->
    serves_all_once (p_dim p) (all_routes c rs').
  Proof.
    unfold serves_all_once. intros H S O P.
    rewrite <- S. rewrite (all_routes_one rs r H), (all_routes_one rs' r H).
    apply Permutation_app; auto.
    rewrite (all_routes_ext (nupd rs' r []) (nupd rs r [])); auto.
    intros k Hk. destruct (Nat.eq_dec k r) as [->|NE]; [rewrite !nupd_same; auto|].
    rewrite !nupd_other by auto. auto.
  Qed.

  Lemma serves_two rs rs' r1 r2 : r1 < nv -> r2 < nv -> r1 <> r2 ->
    serves_all_once (p_dim p) (all_routes c rs) ->
    (forall k, k < nv -> k <> r1 -> k <> r2 -> rs' k = rs k) ->
    Permutation (rs' r1 ++ rs' r2) (rs r1 ++ rs r2) ->
    serves_all_once (p_dim p) (all_routes c rs').
  Proof.
    unfold serves_all_once. intros H1 H2 NE S O P.
    rewrite <- S. rewrite (all_routes_two rs r1 r2), (all_routes_two rs' r1 r2) by auto.
    apply Permutation_app; auto.
    rewrite (all_routes_ext (nupd (nupd rs' r1 []) r2 []) (nupd (nupd rs r1 []) r2 [])); auto.
    intros k Hk. unfold nupd. destruct (k =? r2) eqn:E2; auto. destruct (k =? r1) eqn:E1; auto.
    apply Nat.eqb_neq in E1, E2. auto.
  Qed.

  Section Serves.
    Variable rs : nat -> list nat.
    Hypothesis S : serves_all_once (p_dim p) (all_routes c rs).

    Lemma serves_bound r n : r < nv -> In n (rs r) -> 0 < n < p_dim p.
    Proof using S.
      intros H I. apply (serves_In _ _ n S). apply in_all_routes. eauto.
    Qed.
    Lemma serves_find n : 0 < n < p_dim p -> exists r, r < nv /\ In n (rs r).
    Proof using S. intros H. apply in_all_routes. apply (serves_In _ _ n S). auto. Qed.
    Lemma serves_nodup r : r < nv -> NoDup (rs r).
    Proof using S.
      intros H. pose proof (serves_NoDup _ _ S) as ND.
      apply (Permutation_NoDup (all_routes_one rs r H)) in ND. apply NoDup_app_inv in ND. tauto.
    Qed.
    Lemma serves_nodup2 r1 r2 : r1 < nv -> r2 < nv -> r1 <> r2 -> NoDup (rs r1 ++ rs r2).
    Proof using S.
      intros H1 H2 NE. pose proof (serves_NoDup _ _ S) as ND.
      apply (Permutation_NoDup (all_routes_two rs r1 r2 H1 H2 NE)) in ND.
      apply NoDup_app_inv in ND. tauto.
    Qed.
    Lemma serves_apart r1 r2 n : r1 < nv -> r2 < nv -> r1 <> r2 -> In n (rs r1) -> ~ In n (rs r2).
    Proof using S.
      intros H1 H2 NE I J. pose proof (serves_nodup2 r1 r2 H1 H2 NE) as ND.
      apply NoDup_app_inv in ND. destruct ND as (_ & _ & D). apply (D n); auto.
    Qed.
    Lemma serves_length r : r < nv -> length (rs r) <= p_dim p.
    Proof using S.
      intros H. pose proof (serves_nodup r H) as ND.
      assert (I : incl (rs r) (seq 0 (p_dim p))).
      { intros n I. pose proof (serves_bound r n H I). apply in_seq. lia. }
      apply NoDup_incl_length in I; auto. rewrite seq_length in I. auto.
    Qed.
    Lemma serves_stops_nodup r : r < nv -> NoDup (stops r (rs r)).
    Proof using S. intros H. apply stops_NoDup. apply serves_nodup; auto. Qed.
    Lemma serves_stops_apart r1 r2 a : r1 < nv -> r2 < nv -> r1 <> r2 ->
      In a (stops r1 (rs r1)) -> ~ In a (stops r2 (rs r2)).
    Proof using S.
      intros H1 H2 NE. apply stops_disjoint; auto. intros n. apply serves_apart; auto.
    Qed.
    Lemma serves_stops_nodup2 r1 r2 : r1 < nv -> r2 < nv -> r1 <> r2 ->
      NoDup (stops r1 (rs r1) ++ stops r2 (rs r2)).
    Proof using S.
      intros H1 H2 NE. apply NoDup_app_intro; try (apply serves_stops_nodup; auto).
      intros a I J. revert I J. apply serves_stops_apart; auto.
    Qed.
  End Serves.

  (** ** Relinking up to two routes *)

  Lemma cached_start s r l : cached s r l ->
    n_cumd (s_info s (PS r)) = f0 /\ n_cuml (s_info s (PS r)) = f0.
  Proof.
    intros [H _]. destruct (H [] (PS r) (map PN l ++ [PE r]) eq_refl) as (_ & _ & H1 & H2). auto.
  Qed.

  Lemma cached_frame s s' r l :
    (forall a, In a (stops r l) -> s_info s' a = s_info s a) -> s_routes s' r = s_routes s r ->
    cached s r l -> cached s' r l.
  Proof.
    intros H1 H2 [C1 C2]. split; [|rewrite H2; auto].
    intros A a B E. rewrite H1; [apply (C1 A a B E)|].
    rewrite E. apply in_or_app. right. left. auto.
  Qed.

  Lemma runs_fpath h r l : runs h r l -> fpath h (PS r) (suf r l).
  Proof. intros R. apply runs_seg in R. destruct R as (S & _ & E). apply seg_fpath; auto. Qed.

  (** Setting the two outer pointers to null again *)
  Lemma runs_null h r k l : runs h r l ->
    runs (mkLinks (pupd (l_succ h) (PE k) None) (pupd (l_pred h) (PS k) None)) r l.
  Proof.
    intros (H1 & H2 & H3). split; [|split]; cbn [l_succ l_pred].
    - intros A a b B E. destruct (H1 A a b B E) as [G1 G2].
      assert (X : a <> PE k).
      { intros ->. assert (J : In (PE k) (pre r l)).
        { rewrite stops_pre in E. assert (EL : removelast (pre r l ++ [PE r]) = removelast (A ++ PE k :: b :: B)) by (rewrite E; auto).
          rewrite removelast_last in EL. rewrite EL. 
          destruct (exists_last (l := b :: B)) as (L & z & EB); [discriminate|].
          rewrite EB. rewrite app_comm_cons, app_assoc, removelast_last. apply in_or_app. right. left. auto. }
        unfold pre in J. destruct J as [J|J]; [discriminate|]. apply in_map_iff in J.
        destruct J as (n & J & _). discriminate. }
      assert (Y : b <> PS k).
      { intros ->. assert (J : In (PS k) (suf r l)).
        { rewrite stops_nil_suf in E. destruct A as [|a' A].
          - injection E as _ E. rewrite E. left. auto.
          - injection E as _ E. rewrite E. apply in_or_app. right. right. left. auto. }
        unfold suf in J. apply in_app_or in J. destruct J as [J|[J|[]]]; [|discriminate].
        apply in_map_iff in J. destruct J as (n & J & _). discriminate. }
      rewrite !pupd_other by auto. auto.
    - unfold pupd. destruct (ptr_eqb (PS r) (PS k)); auto.
    - unfold pupd. destruct (ptr_eqb (PE r) (PE k)); auto.
  Qed.

  Definition same_rest (s s' : lsearch) : Prop :=
    s_cust s' = s_cust s /\ s_corr s' = s_corr s /\ s_count s' = s_count s /\
    s_best s' = s_best s /\ s_hash s' = s_hash s /\
    (forall a, n_tested (s_info s' a) = n_tested (s_info s a)).

  (** The state after relinking and updating the routes [r1] and [r2] *)
  Definition stepped (s s' : lsearch) (rs' : nat -> list nat) (r1 r2 : nat) : Prop :=
    holds s' rs' /\ same_rest s s' /\
    (forall r, r <> r1 -> r <> r2 -> s_routes s' r = s_routes s r) /\
    (forall r, r = r1 \/ r = r2 -> r_mod (s_routes s' r) = s_count s /\
                                   r_tss (s_routes s' r) = r_tss (s_routes s r)).

  Lemma relink_ok s rs rs' h r1 r2 :
    holds s rs -> r1 < nv -> r2 < nv ->
    serves_all_once (p_dim p) (all_routes c rs') ->
    (forall r, r < nv -> r <> r1 -> r <> r2 -> rs' r = rs r) ->
    (forall r, r < nv -> runs h r (rs' r)) ->
    exists s', update_two p pen (set_links s h) r1 r2 = Ok s' /\ stepped s s' rs' r1 r2.
  Proof.
    intros [HS HR HC HE] B1 B2 S' O R.
    assert (OUT : forall r a, r < nv -> r <> r1 -> r <> r2 -> In a (stops r (rs r)) ->
                  ~ In a (stops r1 (rs' r1)) /\ ~ In a (stops r2 (rs' r2))).
    { intros r a Hr N1 N2 I. rewrite <- O in I by auto.
      split; apply (serves_stops_apart rs' S' r); auto. }
    destruct (update_route_ok (set_links s h) r1 (rs' r1)) as (s1 & E1 & U1).
    { apply runs_fpath. apply R. auto. }
    { apply serves_nodup; auto. }
    { intros n I. apply (serves_bound rs' S' r1 n); auto. }
    { apply serves_length; auto. }
    1,2: destruct (cached_start s r1 (rs r1)); auto.
    unfold update_two. rewrite E1. cbn [rbind].
    destruct (r1 =? r2) eqn:E12.
    - apply Nat.eqb_eq in E12. subst r2. exists s1. split; auto.
      destruct U1. cbn [set_links s_links s_info s_routes s_count s_best s_cust s_corr s_hash s_empty] in *.
      split; [constructor; auto|split; [|split]].
      + intros r Hr. rewrite u_links0. apply runs_null. auto.
      + intros r Hr. destruct (Nat.eq_dec r r1) as [->|NE]; auto. rewrite O by auto.
        apply (cached_frame s); auto. intros a I. apply u_out0. apply (OUT r a); auto.
      + intros r. rewrite u_empty0, HE. destruct (Nat.eq_dec r r1) as [->|NE]; [intuition|].
        split; [intros [[-> _]|(_ & Hr & Q)]|]; [congruence|rewrite O; auto|].
        intros [Hr Q]. rewrite O in Q; auto.
      + unfold same_rest. auto 10.
      + auto.
      + intros r [->| ->]; auto.
    - apply Nat.eqb_neq in E12.
      destruct U1. cbn [set_links s_links s_info s_routes s_count s_best s_cust s_corr s_hash s_empty] in *.
      destruct (update_route_ok s1 r2 (rs' r2)) as (s2 & E2 & U2).
      { apply runs_fpath. rewrite u_links0. apply runs_null. apply R. auto. }
      { apply serves_nodup; auto. }
      { intros n I. apply (serves_bound rs' S' r2 n); auto. }
      { apply serves_length; auto. }
      1,2: rewrite u_out0; [destruct (cached_start s r2 (rs r2)); auto|];
           rewrite in_stops; intros [X|[X|(n & X & _)]]; try discriminate; injection X; auto.
      rewrite E2. exists s2. split; auto.
      destruct U2. 
      split; [constructor; auto|split; [|split]].
      + intros r Hr. rewrite u_links1, u_links0. apply runs_null, runs_null. auto.
      + intros r Hr. destruct (Nat.eq_dec r r2) as [->|NE2]; auto.
        apply (cached_frame s1).
        * intros a I. apply u_out1. apply (serves_stops_apart rs' S' r); auto.
        * auto.
        * destruct (Nat.eq_dec r r1) as [->|NE1]; auto. rewrite O by auto.
          apply (cached_frame s); auto. intros a I. apply u_out0. apply (OUT r a); auto.
      + intros r. rewrite u_empty1, u_empty0, HE.
        destruct (Nat.eq_dec r r2) as [->|NE2]; [intuition|].
        destruct (Nat.eq_dec r r1) as [->|NE1]; [intuition|].
        split.
        * intros [[-> _]|(_ & [[-> _]|(_ & Hr & Q)])]; [congruence|congruence|].
          rewrite O; auto.
        * intros [Hr Q]. rewrite O in Q by auto. auto 6.
      + unfold same_rest. rewrite u_cust1, u_corr1, u_count1, u_best1, u_hash1.
        do 5 (split; [auto|]). intros a. rewrite u_tested1. auto.
      + intros r N1 N2. rewrite u_routes1, u_routes0; auto.
      + intros r [->| ->].
        * rewrite u_routes1 by auto. auto.
        * rewrite u_mod1, u_tss1, u_count0, u_routes0 by auto. auto.
  Qed.
End State.
