(** The local search in double precision on integral data of moderate size: every move it applies
    lowers the true cost. *)
From Coq Require Import List Arith ZArith Bool Lia Reals Lra Psatz Permutation.
From Flocq Require Import Core BinarySingleNaN Relative.
From Verif.Model Require Import Num NumFloat Prelude Evaluate Config Sector Matrix LinkedList LocalSearch.
From Verif.Spec Require Import Solution LocalSearch Floats.
From Verif.Proofs Require Import Lists LinkFacts EvalFacts EvalThms SplitStruct FloatFacts FloatRun FloatMove LsState LsMoves LsEffect LsStar LsSearch.
Import ListNotations.
Open Scope nat_scope.

Section Walks.
  Variable d : nat -> nat -> Z.
  Variable q : nat -> Z.
  Local Open Scope Z_scope.

  Definition wz (L : list ptr) : Z := zwalk d (map num L).
  Definition dz (a b : ptr) : Z := d (num a) (num b).
  Notation load := (zload q).

  Lemma walk_appZ A B a b : zwalk d (A ++ a :: b :: B) = zwalk d (A ++ [a]) + d a b + zwalk d (b :: B).
  Proof.
    induction A as [|x A IH]; cbn [app].
    - cbn [zwalk]. ring.
    - destruct A as [|y A]; cbn [app] in *.
      + change (zwalk d (x :: a :: b :: B)) with (d x a + zwalk d (a :: b :: B)).
        rewrite IH. cbn [zwalk]. ring.
      + change (zwalk d (x :: y :: A ++ a :: b :: B)) with (d x y + zwalk d (y :: A ++ a :: b :: B)).
        change (zwalk d (x :: y :: A ++ [a])) with (d x y + zwalk d (y :: A ++ [a])).
        rewrite IH. ring.
  Qed.
  Lemma wz_app A B : A <> [] -> B <> [] -> wz (A ++ B) = wz A + dz (last0 A) (hd0 B) + wz B.
  Proof.
    intros NA NB. destruct (exists_last NA) as (A' & a & ->). destruct B as [|b B]; [congruence|].
    rewrite last_last. cbn [hd]. unfold wz, dz. rewrite <- app_assoc. cbn [app].
    rewrite !map_app. cbn [map]. apply walk_appZ.
  Qed.
  Lemma wz_one a : wz [a] = 0.
  Proof. reflexivity. Qed.
  Lemma wz_two a b : wz [a; b] = dz a b.
  Proof. unfold wz, dz. cbn. ring. Qed.
  Lemma tour_wz r l : ztour d l = wz (stops r l).
  Proof.
    unfold ztour, wz, stops. cbn [map num]. rewrite map_app, map_map. cbn [map num].
    rewrite map_id. auto.
  Qed.
  Lemma wz_num A B : map num A = map num B -> wz A = wz B.
  Proof. unfold wz. now intros ->. Qed.
  Lemma dz_num a b a' b' : num a = num a' -> num b = num b' -> dz a b = dz a' b'.
  Proof. unfold dz. now intros -> ->. Qed.
  Lemma load_appZ a b : load (a ++ b) = load a + load b.
  Proof. apply zload_app. Qed.
  Lemma load_consZ n l : load (n :: l) = q n + load l.
  Proof. reflexivity. Qed.
  Lemma load_nilZ : load [] = 0.
  Proof. reflexivity. Qed.
  Lemma load_permZ l l' : Permutation l l' -> load l = load l'.
  Proof. apply zload_perm. Qed.
  Lemma load_revZ l : load (rev l) = load l.
  Proof. apply load_permZ. symmetry. apply Permutation_rev. Qed.

  Definition ploadZ (L : list ptr) : Z := zsum (map (fun a => q (num a)) L).
  Lemma pload_PNZ l : ploadZ (map PN l) = load l.
  Proof. unfold ploadZ, zload. rewrite map_map. auto. Qed.
  Lemma pload_appZ A B : ploadZ (A ++ B) = ploadZ A + ploadZ B.
  Proof. unfold ploadZ. rewrite map_app. apply zsum_app. Qed.

  Variable c : @config NumF.
  Notation nv := (c_num_vehicles c).

  Ltac nepos := auto 6 with ne.
  Ltac wsimp :=
    repeat first [rewrite wz_app by nepos | rewrite hd0_app by nepos | rewrite last0_app by nepos].

  Lemma reloc_changeZ rs blk ins v r1 r2 l1 l2 up xn y :
    reloc c rs blk ins v r1 r2 l1 l2 up xn y -> blk <> [] -> ins <> [] ->
    Permutation ins blk ->
    let del := - dz up (hd0 (map PN blk)) - wz (map PN blk) - dz (last0 (map PN blk)) xn + dz up xn in
    let add := - dz v y + dz v (hd0 (map PN ins)) + wz (map PN ins) + dz (last0 (map PN ins)) y in
    (r1 < nv)%nat /\ (r2 < nv)%nat /\
    ((r1 <> r2 /\ wz (stops r1 l1) = wz (stops r1 (rs r1)) + del /\
                  wz (stops r2 l2) = wz (stops r2 (rs r2)) + add /\
                  load l1 = load (rs r1) - load blk /\ load l2 = load (rs r2) + load blk) \/
     (r1 = r2 /\ l1 = l2 /\ wz (stops r1 l1) = wz (stops r1 (rs r1)) + del + add /\
      Permutation l1 (rs r1))).
  Proof.
    intros R NB NI P del add. unfold del, add.
    destruct R as [r1 r2 A B C D H1 H2 NE E1 E2 EV|k A M D H1 NM E EV|k C M B H1 NM E EV]; subst v;
      (split; [auto|split; [auto|]]).
    - left. rewrite E1, E2. rewrite !stops_app, !suf_app.
      split; [auto|split; [wsimp; lia|split; [wsimp; lia|]]].
      rewrite !load_appZ, (load_permZ _ _ P). split; lia.
    - right. rewrite E. rewrite !stops_app, !suf_app.
      split; [auto|split; [auto|split; [wsimp; lia|]]].
      apply Permutation_app_head. rewrite P, !app_assoc.
      apply Permutation_app_tail. apply Permutation_app_comm.
    - right. rewrite E. rewrite !stops_app, !suf_app.
      split; [auto|split; [auto|split; [wsimp; lia|]]].
      apply Permutation_app_head. rewrite P, !app_assoc.
      apply Permutation_app_tail. apply Permutation_app_comm.
  Qed.

  Lemma swp_changeZ rs ub vb r1 r2 l1 l2 up xn vp yn :
    swp c rs ub vb r1 r2 l1 l2 up xn vp yn -> ub <> [] -> vb <> [] ->
    let chu := - dz up (hd0 (map PN ub)) - wz (map PN ub) - dz (last0 (map PN ub)) xn
               + dz up (hd0 (map PN vb)) + wz (map PN vb) + dz (last0 (map PN vb)) xn in
    let chv := - dz vp (hd0 (map PN vb)) - wz (map PN vb) - dz (last0 (map PN vb)) yn
               + dz vp (hd0 (map PN ub)) + wz (map PN ub) + dz (last0 (map PN ub)) yn in
    (r1 < nv)%nat /\ (r2 < nv)%nat /\
    ((r1 <> r2 /\ wz (stops r1 l1) = wz (stops r1 (rs r1)) + chu /\
                  wz (stops r2 l2) = wz (stops r2 (rs r2)) + chv /\
                  load l1 = load (rs r1) - load ub + load vb /\
                  load l2 = load (rs r2) - load vb + load ub) \/
     (r1 = r2 /\ l1 = l2 /\ wz (stops r1 l1) = wz (stops r1 (rs r1)) + chu + chv /\
      Permutation l1 (rs r1))).
  Proof.
    intros R NU NV chu chv. unfold chu, chv.
    destruct R as [r1 r2 A B C D H1 H2 NE E1 E2|k A M D H1 NM E|k A M D H1 NM E];
      (split; [auto|split; [auto|]]).
    - left. rewrite E1, E2. rewrite !stops_app, !suf_app.
      split; [auto|split; [wsimp; lia|split; [wsimp; lia|]]].
      rewrite !load_appZ. split; lia.
    - right. rewrite E. rewrite !stops_app, !suf_app.
      split; [auto|split; [auto|split; [wsimp; lia|]]].
      apply perm_swap_blocks.
    - right. rewrite E. rewrite !stops_app, !suf_app.
      split; [auto|split; [auto|split; [wsimp; lia|]]].
      apply perm_swap_blocks.
  Qed.

  Lemma wz_suf r r' D : wz (suf r D) = wz (suf r' D).
  Proof. apply wz_num. unfold suf. rewrite !map_app. auto. Qed.
  Lemma dz_suf r r' D a : dz a (hd0 (suf r D)) = dz a (hd0 (suf r' D)).
  Proof. apply dz_num; auto. destruct D; auto. Qed.

  Lemma removal_wz r A x B :
    wz (stops r (A ++ B)) = wz (stops r (A ++ x :: B)) +
      (dz (last0 (pre r A)) (hd0 (suf r B)) - dz (last0 (pre r A)) (PN x) - dz (PN x) (hd0 (suf r B))).
  Proof.
    change (x :: B) with ([x] ++ B). rewrite !stops_app, !suf_app. change (map PN [x]) with [PN x].
    wsimp. cbn [hd last]. rewrite wz_one. lia.
  Qed.
  Lemma extra_wz r X a Y :
    wz (stops r (X ++ a :: Y)) = wz (stops r (X ++ Y)) +
      (dz (last0 (pre r X)) (PN a) + dz (PN a) (hd0 (suf r Y)) - dz (last0 (pre r X)) (hd0 (suf r Y))).
  Proof.
    change (a :: Y) with ([a] ++ Y). rewrite !stops_app, !suf_app. change (map PN [a]) with [PN a].
    wsimp. cbn [hd last]. rewrite wz_one. lia.
  Qed.
End Walks.

Section Exact.
  Variable p : @problem NumF.
  Variable c : @config NumF.
  Variable d : nat -> nat -> Z.
  Variable q : nat -> Z.
  Variable cap : Z.
  Variable pen : dbl.
  Notation nv := (c_num_vehicles c).
  Notation dim := (p_dim p).
  Notation holds := (holds p c pen).
  Notation wz := (wz d).
  Notation dz := (dz d).
  Notation load := (zload q).
  Notation all := (load (seq 1 (dim - 1))).
  Hypothesis II : integral_instance p c d q cap.
  Hypothesis dem0 : q 0%nat = 0%Z.
  Hypothesis sym : forall i j, i < dim -> j < dim -> d i j = d j i.
  Local Open Scope Z_scope.
  Variable top : Z.
  Hypothesis dtop : forall a b, (a < dim)%nat -> (b < dim)%nat -> d a b <= top.
  Notation size := ((Z.of_nat dim + 8) * top).
  Hypothesis size_small : size <= 2 ^ 29.
  Hypothesis all_small : all <= 2 ^ 50.

  Lemma dim1 : (0 < dim)%nat.
  Proof. exact (dim_pos p c d q cap II). Qed.
  Lemma top_nonneg : 0 <= top.
  Proof. pose proof (dtop 0 0 dim1 dim1). destruct (dist_int p c d q cap II 0 0 dim1 dim1). lia. Qed.

  Definition okp (a : ptr) : Prop := (num a < dim)%nat.
  Lemma ok_PN n : (n < dim)%nat -> okp (PN n). Proof. auto. Qed.
  Lemma ok_list L : Forall okp L -> okp (hd0 L) /\ okp (last0 L).
  Proof.
    intro FL. pose proof dim1 as D. assert (D0 : okp d0) by exact D. split.
    - destruct FL; auto.
    - induction FL as [|a L H F IH]; auto. destruct L; auto.
  Qed.
  Lemma ok_map l : (forall n, In n l -> (n < dim)%nat) -> Forall okp (map PN l).
  Proof. intro H. apply Forall_forall. intros a I. apply in_map_iff in I. destruct I as (n & <- & I). apply H; auto. Qed.
  Lemma ok_pre r l : (forall n, In n l -> (n < dim)%nat) -> Forall okp (pre r l).
  Proof. intro H. constructor; [exact dim1|]. apply ok_map; auto. Qed.
  Lemma ok_suf r l : (forall n, In n l -> (n < dim)%nat) -> Forall okp (suf r l).
  Proof. intro H. apply Forall_app. split; [apply ok_map; auto|]. constructor; [exact dim1|constructor]. Qed.
  Lemma ok_stops r l : (forall n, In n l -> (n < dim)%nat) -> Forall okp (stops r l).
  Proof. intro H. constructor; [exact dim1|]. apply ok_suf; auto. Qed.

  Lemma dist_ok a b : okp a -> okp b -> is_int (@dist NumF p a b) (dz a b) /\ 0 <= dz a b <= top.
  Proof.
    intros A B. destruct (dist_int p c d q cap II (num a) (num b) A B) as [I N]. split; [exact I|].
    split; [exact N|]. apply dtop; auto.
  Qed.
  Lemma dem_ok n : (0 < n < dim)%nat -> is_int (@dem NumF p (PN n)) (q n) /\ 0 <= q n <= all.
  Proof.
    intros H. destruct (demand_int p c d q cap II n ltac:(lia)) as [I N]. split; [exact I|]. split; [exact N|].
    assert (P : proper p [n]). { split; [constructor; [auto|constructor]|]. intros m [<-|[]]. lia. }
    pose proof (proper_load p c d q cap II [n] P) as B. rewrite load_consZ, load_nilZ in B. lia.
  Qed.

  Lemma wz_bound L : Forall okp L -> 0 <= wz L <= Z.of_nat (length L - 1) * top.
  Proof.
    intro F. unfold wz. rewrite <- (map_length num L). apply (zwalk_bound p c d q cap II top); auto.
    - apply top_nonneg.
    - intros n I. apply in_map_iff in I. destruct I as (a & <- & I). rewrite Forall_forall in F. apply F; auto.
  Qed.
  Lemma proper_wz r l : proper p l -> 0 <= wz (stops r l) <= size - 8 * top.
  Proof.
    intro P. pose proof (wz_bound _ (ok_stops r l (proper_in p l P))) as B.
    pose proof (proper_length p c d q cap II l P) as L. pose proof top_nonneg.
    assert (E : length (stops r l) = (length l + 2)%nat) by (unfold stops; cbn [length]; rewrite app_length, map_length; cbn [length]; lia).
    rewrite E in B. nia.
  Qed.

  Lemma addN (x y : @F NumF) a b : is_int x a -> is_int y b -> Z.abs (a + b) < exact_bound -> is_int (x +: y) (a + b).
  Proof. apply int_add. Qed.
  Lemma subN (x y : @F NumF) a b : is_int x a -> is_int y b -> Z.abs (a - b) < exact_bound -> is_int (x -: y) (a - b).
  Proof. apply int_sub. Qed.
  Lemma int_eq x a b : is_int x a -> a = b -> is_int x b.
  Proof. now intros H <-. Qed.

  Lemma drive_int L : forall prev (acc : dbl) a, is_int acc a -> okp prev -> Forall okp L -> 0 <= a ->
    a + wz (prev :: L) < exact_bound -> is_int (@drive NumF p prev acc L) (a + wz (prev :: L)).
  Proof.
    induction L as [|b L IH]; intros prev acc a I O F A B; cbn [drive].
    - rewrite wz_one. eapply int_eq; eauto. lia.
    - inversion F as [|? ? O1 F1]; subst. destruct (dist_ok prev b O O1) as [DI DB].
      assert (W : wz (prev :: b :: L) = dz prev b + wz (b :: L)).
      { change (prev :: b :: L) with ([prev] ++ b :: L). rewrite wz_app by discriminate. rewrite wz_one. cbn [hd last]. lia. }
      rewrite W in *. pose proof (wz_bound (b :: L) F) as WB. pose proof top_nonneg.
      eapply int_eq; [apply (IH b _ (a + dz prev b))|]; auto; try lia.
      apply addN; auto. lia.
  Qed.
  Lemma driven_int L : Forall okp L -> wz L < exact_bound -> is_int (@driven NumF p L) (wz L).
  Proof.
    intros F B. destruct L as [|a L]; [exact int_zero|]. cbn [driven]. inversion F; subst.
    eapply int_eq; [apply (drive_int L a (@f0 NumF) 0)|]; auto; try exact int_zero; lia.
  Qed.
  Lemma pload_nonneg L : Forall okp L -> 0 <= ploadZ q L.
  Proof.
    induction 1 as [|a L O F IH]; [cbn; lia|]. unfold ploadZ in *. cbn [map zsum].
    destruct (demand_int p c d q cap II (num a) O). lia.
  Qed.
  Lemma loaded_int L : forall (acc : dbl) a, is_int acc a -> Forall okp L -> 0 <= a ->
    a + ploadZ q L < exact_bound -> is_int (@loaded NumF p acc L) (a + ploadZ q L).
  Proof.
    unfold loaded, ploadZ. induction L as [|b L IH]; intros acc a I F A B; cbn [fold_left map zsum] in *.
    - eapply int_eq; eauto. lia.
    - inversion F as [|? ? O1 F1]; subst. destruct (demand_int p c d q cap II (num b) O1) as [DI DB].
      pose proof (pload_nonneg L F1) as N. unfold ploadZ in N.
      eapply int_eq; [apply (IH _ (a + q (num b)))|]; auto; try lia. apply addN; auto. lia.
  Qed.
  Lemma carried_int L : Forall okp L -> ploadZ q (tl L) < exact_bound -> is_int (@carried NumF p L) (ploadZ q (tl L)).
  Proof.
    intros F B. unfold carried. eapply int_eq; [apply (loaded_int (tl L) (@f0 NumF) 0)|]; try exact int_zero; try lia.
    destruct F; cbn; auto.
  Qed.

  Lemma wz_rev L : Forall okp L -> wz (rev L) = wz L.
  Proof.
    intros I. induction L as [|a L IH]; [reflexivity|]. inversion I as [|? ? I1 I2]; subst.
    destruct L as [|b L]; [reflexivity|]. inversion I2 as [|? ? I3 I4]; subst.
    change (rev (a :: b :: L)) with (rev (b :: L) ++ [a]).
    rewrite wz_app; [|cbn; destruct (rev L); discriminate|discriminate].
    rewrite IH by auto. change (a :: b :: L) with ([a] ++ (b :: L)).
    rewrite wz_app by discriminate. cbn [rev]. rewrite last_last. cbn [hd last].
    rewrite !wz_one. unfold FloatDelta.dz. rewrite (sym (num b) (num a)) by auto. lia.
  Qed.

  Section State.
    Variable s : @lsearch NumF.
    Variable rs : nat -> list nat.
    Hypothesis H : holds s rs.

    Lemma route_proper r : (r < nv)%nat -> proper p (rs r).
    Proof.
      intro Hr. split; [apply (serves_nodup p c rs (h_serves _ _ _ _ _ H) r Hr)|].
      intros n I. pose proof (serves_bound p c rs (h_serves _ _ _ _ _ H) r n Hr I). lia.
    Qed.
    Lemma route_ok r n : (r < nv)%nat -> In n (rs r) -> (0 < n < dim)%nat.
    Proof. intros Hr I. apply (serves_bound p c rs (h_serves _ _ _ _ _ H) r n Hr I). Qed.
    Lemma two_loads r1 r2 : (r1 < nv)%nat -> (r2 < nv)%nat -> r1 <> r2 -> load (rs r1) + load (rs r2) <= all.
    Proof.
      intros H1 H2 NE. rewrite <- load_appZ. apply (proper_load p c d q cap II). split.
      - apply (serves_nodup2 p c rs (h_serves _ _ _ _ _ H)); auto.
      - intros n I. apply in_app_iff in I. destruct I as [I|I]; apply route_ok in I; auto; lia.
    Qed.
    Lemma load_bound r : (r < nv)%nat -> 0 <= load (rs r) <= all.
    Proof. intro Hr. apply (proper_load p c d q cap II). apply route_proper; auto. Qed.
    Lemma part_bound r A B : (r < nv)%nat -> rs r = A ++ B -> 0 <= load A <= load (rs r).
    Proof.
      intros Hr E. rewrite E, load_appZ.
      assert (forall l, (forall n, In n l -> In n (rs r)) -> 0 <= load l).
      { intros l HL. apply (zload_nonneg p d q cap (ii_data _ _ _ _ _ II) dim1). intros n I. apply HL, route_ok in I; auto; lia. }
      assert (0 <= load A) by (apply H0; intros; rewrite E; apply in_or_app; auto).
      assert (0 <= load B) by (apply H0; intros; rewrite E; apply in_or_app; auto). lia.
    Qed.

    Lemma cust_le r n : (r < nv)%nat -> In n (rs r) -> q n <= load (rs r).
    Proof.
      intros Hr I. apply in_split in I. destruct I as (A & B & E).
      assert (NN : forall l, (forall n, In n l -> In n (rs r)) -> 0 <= load l).
      { intros l HL. apply (zload_nonneg p d q cap (ii_data _ _ _ _ _ II) dim1). intros m J. apply HL, route_ok in J; auto; lia. }
      assert (0 <= load A) by (apply NN; intros; rewrite E; apply in_or_app; auto).
      assert (0 <= load B) by (apply NN; intros; rewrite E; apply in_or_app; cbn; auto).
      rewrite E, load_appZ, load_consZ. lia.
    Qed.

    Lemma small_size : size < exact_bound.
    Proof. unfold exact_bound. lia. Qed.

    Lemma read_distF r : (r < nv)%nat -> is_int (r_dist (s_routes s r)) (wz (stops r (rs r))).
    Proof.
      intros Hr. destruct (h_cached _ _ _ _ _ H r Hr) as [_ (_ & E & _)]. rewrite E.
      pose proof (proper_wz r _ (route_proper r Hr)). pose proof small_size. pose proof top_nonneg.
      apply driven_int; [|lia]. apply ok_stops. intros n I. apply route_ok in I; auto; lia.
    Qed.
    Lemma stops_load r : ploadZ q (tl (stops r (rs r))) = load (rs r).
    Proof. unfold stops. cbn [tl]. rewrite pload_appZ, pload_PNZ. unfold ploadZ. cbn. rewrite dem0. lia. Qed.
    Lemma read_loadF r : (r < nv)%nat -> is_int (r_load (s_routes s r)) (load (rs r)).
    Proof.
      intros Hr. destruct (h_cached _ _ _ _ _ H r Hr) as [_ (_ & _ & E & _)]. rewrite E.
      rewrite <- (stops_load r). apply carried_int.
      - apply ok_stops. intros n I. apply route_ok in I; auto; lia.
      - rewrite stops_load. pose proof (load_bound r Hr). unfold exact_bound. lia.
    Qed.
    Lemma cap_ok : is_int (p_cap p) cap /\ 0 <= cap < exact_bound.
    Proof. exact (ig_cap _ _ _ _ (ii_data _ _ _ _ _ II)). Qed.
    Lemma read_overF r : (r < nv)%nat -> is_int (r_over (s_routes s r)) (load (rs r) - cap).
    Proof.
      intros Hr. destruct (h_cached _ _ _ _ _ H r Hr) as [_ (_ & _ & _ & E & _)]. rewrite E.
      destruct cap_ok as [CI CB]. pose proof (load_bound r Hr).
      apply subN; auto; [apply read_loadF; auto|]. unfold exact_bound in *. lia.
    Qed.

    Lemma route_wz r : (r < nv)%nat -> 0 <= wz (stops r (rs r)) <= size - 8 * top.
    Proof. intro Hr. apply proper_wz, route_proper; auto. Qed.

    Lemma proper_loads l : proper p l -> 0 <= load l <= all.
    Proof. apply (proper_load p c d q cap II). Qed.

    (** The stops read by a move *)
    Lemma ok_sub r l : (r < nv)%nat -> (forall n, In n l -> In n (rs r)) -> forall n, In n l -> (n < dim)%nat.
    Proof. intros Hr I n J. apply I, (route_ok r n Hr) in J. lia. Qed.
    Ltac sub E := let J := fresh in intros ? J; rewrite E; rewrite ?in_app_iff in *; cbn [In] in *; rewrite ?in_app_iff in *; tauto.

    Lemma in_pre r k l : (r < nv)%nat -> (forall n, In n l -> In n (rs r)) -> okp (last0 (pre k l)).
    Proof. intros Hr I. apply ok_list, ok_pre. eapply ok_sub; eauto. Qed.
    Lemma in_suf r k l : (r < nv)%nat -> (forall n, In n l -> In n (rs r)) -> okp (hd0 (suf k l)).
    Proof. intros Hr I. apply ok_list, ok_suf. eapply ok_sub; eauto. Qed.
    Lemma in_map_hd r l : (r < nv)%nat -> (forall n, In n l -> In n (rs r)) -> okp (hd0 (map PN l)).
    Proof. intros Hr I. apply ok_list, ok_map. eapply ok_sub; eauto. Qed.
    Lemma in_map_last r l : (r < nv)%nat -> (forall n, In n l -> In n (rs r)) -> okp (last0 (map PN l)).
    Proof. intros Hr I. apply ok_list, ok_map. eapply ok_sub; eauto. Qed.
    Lemma in_cust r l : (r < nv)%nat -> (forall n, In n l -> In n (rs r)) -> forall n, In n l -> (0 < n < dim)%nat.
    Proof. intros Hr I n J. apply (route_ok r); auto. Qed.
    Ltac kp r E := first [apply (in_pre r)|apply (in_suf r)|apply (in_map_hd r)|apply (in_map_last r)|apply (in_cust r)]; [assumption|sub E].

    Lemma reloc_okp blk ins v r1 r2 l1 l2 up xn y : reloc c rs blk ins v r1 r2 l1 l2 up xn y ->
      okp up /\ okp xn /\ okp y /\ okp v /\ (forall n, In n blk -> (0 < n < dim)%nat).
    Proof.
      intros R. destruct R as [r1 r2 A B C D H1 H2 NE E1 E2 EV|k A M D H1 NM E EV|k C M B H1 NM E EV]; subst v.
      - split; [kp r1 E1|split; [kp r1 E1|split; [kp r2 E2|split; [kp r2 E2|kp r1 E1]]]].
      - split; [kp k E|split; [kp k E|split; [kp k E|split; [kp k E|kp k E]]]].
      - split; [kp k E|split; [kp k E|split; [kp k E|split; [kp k E|kp k E]]]].
    Qed.
    Lemma swp_okp ub vb r1 r2 l1 l2 up xn vp yn : swp c rs ub vb r1 r2 l1 l2 up xn vp yn ->
      okp up /\ okp xn /\ okp vp /\ okp yn /\ (forall n, In n ub -> (0 < n < dim)%nat) /\ (forall n, In n vb -> (0 < n < dim)%nat).
    Proof.
      intros R. destruct R as [r1 r2 A B C D H1 H2 NE E1 E2|k A M D H1 NM E|k A M D H1 NM E].
      - split; [kp r1 E1|split; [kp r1 E1|split; [kp r2 E2|split; [kp r2 E2|split; [kp r1 E1|kp r2 E2]]]]].
      - split; [kp k E|split; [kp k E|split; [kp k E|split; [kp k E|split; [kp k E|kp k E]]]]].
      - split; [kp k E|split; [kp k E|split; [kp k E|split; [kp k E|split; [kp k E|kp k E]]]]].
    Qed.

    Lemma suf_hdF r B : suf r B = hd0 (suf r B) :: tl (suf r B).
    Proof. destruct (suf_head r B) as (b & L & ->). auto. Qed.
    Lemma pre_snocF r A : exists L, pre r A = L ++ [last0 (pre r A)].
    Proof. destruct (pre_last r A) as (L & a & ->). exists L. rewrite last_last. auto. Qed.
    Lemma last0_pre_consF r A u : last0 (pre r (A ++ [u])) = PN u.
    Proof. unfold pre. rewrite map_app. cbn [map]. rewrite app_comm_cons. apply last_last. Qed.

    (** The cumulative data of the last stop of a prefix, and of the first stop of a suffix *)
    Lemma read_prefixF r A B : (r < nv)%nat -> rs r = A ++ B ->
      is_int (n_cumd (s_info s (last0 (pre r A)))) (wz (pre r A)) /\ 0 <= wz (pre r A) <= wz (stops r (rs r)) /\
      is_int (n_cuml (s_info s (last0 (pre r A)))) (load A) /\ 0 <= load A <= load (rs r).
    Proof.
      intros Hr E. destruct (pre_snocF r A) as (L & EL).
      assert (ES : stops r (rs r) = L ++ last0 (pre r A) :: suf r B).
      { rewrite E, stops_app, EL at 1. rewrite <- app_assoc. auto. }
      destruct (read_stop p c pen s rs H r _ _ _ Hr ES) as (_ & _ & _ & _ & CD & CL).
      rewrite CD, CL. rewrite <- EL.
      assert (OA : Forall okp (pre r A)).
      { apply ok_pre. apply (ok_sub r); auto. intros n I. rewrite E. apply in_or_app. auto. }
      assert (OB : Forall okp (suf r B)).
      { apply ok_suf. apply (ok_sub r); auto. intros n I. rewrite E. apply in_or_app. auto. }
      pose proof (wz_bound _ OA) as WA. pose proof (wz_bound _ OB) as WB.
      assert (ED : wz (stops r (rs r)) = wz (pre r A) + dz (last0 (pre r A)) (hd0 (suf r B)) + wz (suf r B)).
      { rewrite E, stops_app. apply wz_app; auto with ne. }
      destruct (dist_ok (last0 (pre r A)) (hd0 (suf r B))) as [_ DB]; [apply ok_list; auto|apply ok_list; auto|].
      pose proof (route_wz r Hr) as RW. pose proof (part_bound r A B Hr E) as PB. pose proof (load_bound r Hr) as LB.
      pose proof top_nonneg. pose proof small_size.
      assert (LA : ploadZ q (tl (pre r A)) = load A) by (unfold pre; cbn [tl]; apply pload_PNZ).
      split; [apply driven_int; auto; lia|]. split; [lia|]. split; [|lia].
      rewrite <- LA. apply carried_int; auto. rewrite LA. unfold exact_bound. lia.
    Qed.
    Lemma read_suffixF r A B : (r < nv)%nat -> rs r = A ++ B ->
      let z := wz (pre r A) + dz (last0 (pre r A)) (hd0 (suf r B)) in
      is_int (n_cumd (s_info s (hd0 (suf r B)))) z /\ 0 <= z <= wz (stops r (rs r)) /\
      wz (stops r (rs r)) = z + wz (suf r B).
    Proof.
      intros Hr E z.
      assert (ES : stops r (rs r) = pre r A ++ hd0 (suf r B) :: tl (suf r B)).
      { rewrite E, stops_app, <- suf_hdF. auto. }
      destruct (read_stop p c pen s rs H r _ _ _ Hr ES) as (_ & _ & _ & _ & CD & _).
      rewrite CD.
      assert (OA : Forall okp (pre r A)).
      { apply ok_pre. apply (ok_sub r); auto. intros n I. rewrite E. apply in_or_app. auto. }
      assert (OB : Forall okp (suf r B)).
      { apply ok_suf. apply (ok_sub r); auto. intros n I. rewrite E. apply in_or_app. auto. }
      pose proof (wz_bound _ OA) as WA. pose proof (wz_bound _ OB) as WB.
      assert (ED : wz (stops r (rs r)) = z + wz (suf r B)).
      { rewrite E, stops_app. apply wz_app; auto with ne. }
      destruct (dist_ok (last0 (pre r A)) (hd0 (suf r B))) as [_ DB]; [apply ok_list; auto|apply ok_list; auto|].
      pose proof (route_wz r Hr) as RW. pose proof top_nonneg. pose proof small_size.
      assert (EZ : wz (pre r A ++ [hd0 (suf r B)]) = z).
      { rewrite wz_app; auto with ne. rewrite wz_one. cbn [hd]. unfold z. lia. }
      unfold z in *. split; [|lia]. rewrite <- EZ. apply driven_int; [|lia].
      apply Forall_app. split; auto. constructor; [apply ok_list; auto|constructor].
    Qed.

    (** What the computed cost change is made of *)
    Inductive parts (r1 r2 : nat) (l1 l2 : list nat) : dbl -> Prop :=
    | pa_two (d1 d2 o1 o2 : dbl) : r1 <> r2 -> is_int d1 (wz (stops r1 l1)) -> is_int d2 (wz (stops r2 l2)) ->
        is_int o1 (load l1 - cap) -> is_int o2 (load l2 - cap) ->
        parts r1 r2 l1 l2 (@cost_change NumF pen s r1 r2 d1 d2 o1 o2)
    | pa_one (d1 d2 : dbl) z1 z2 : r1 = r2 -> l1 = l2 -> Permutation l1 (rs r1) -> is_int d1 z1 -> is_int d2 z2 ->
        z1 + z2 = wz (stops r1 l1) + wz (stops r1 (rs r1)) -> Z.abs z1 <= size -> Z.abs z2 <= size ->
        parts r1 r2 l1 l2 (@cost_change NumF pen s r1 r1 d1 d2 (r_over (s_routes s r1)) (r_over (s_routes s r1)))
    | pa_exact (x : dbl) : r1 = r2 -> l1 = l2 -> Permutation l1 (rs r1) ->
        is_int x (wz (stops r1 l1) - wz (stops r1 (rs r1))) -> parts r1 r2 l1 l2 x.

    Ltac bound := unfold exact_bound in *; lia.
    Ltac ints := repeat first [eassumption | exact int_zero | eapply addN | eapply subN]; try bound.
    Ltac facts :=
      repeat match goal with
        | |- context [@dist NumF p ?a ?b] =>
            let X := fresh "DI" in let Y := fresh "DB" in
            assert (X : is_int (@dist NumF p a b) (dz a b)) by (apply dist_ok; solve [auto | apply ok_PN; auto with arith | apply ok_PN; lia]);
            assert (Y : 0 <= dz a b <= top) by (apply dist_ok; solve [auto | apply ok_PN; lia]);
            let v := fresh "dd" in set (v := @dist NumF p a b) in *; clearbody v
        | |- context [@dem NumF p (PN ?a)] =>
            let X := fresh "QI" in let Y := fresh "QB" in
            assert (X : is_int (@dem NumF p (PN a)) (q a)) by (apply dem_ok; auto);
            assert (Y : 0 <= q a <= all) by (apply dem_ok; auto);
            let v := fresh "qq" in set (v := @dem NumF p (PN a)) in *; clearbody v
        end.
    Ltac finishF P NP1 :=
      let NE := fresh "NE" in
      destruct P as (HR1 & HR2 & [(NE & D1 & D2 & L1 & L2)|(-> & -> & D & PP)]);
      cbn [map hd last] in *; rewrite ?wz_one, ?wz_two in *;
      repeat match goal with x := _ |- _ => subst x end;
      [ apply Nat.eqb_neq in NE as NE'; rewrite NE';
        pose proof (read_distF _ HR1) as RD1; pose proof (read_distF _ HR2) as RD2;
        pose proof (read_overF _ HR1) as RO1; pose proof (read_overF _ HR2) as RO2;
        pose proof (load_bound _ HR1) as LB1; pose proof (load_bound _ HR2) as LB2;
        pose proof (route_wz _ HR1) as WB1; pose proof (route_wz _ HR2) as WB2;
        destruct cap_ok as [CI CB]; pose proof top_nonneg as TN; specialize (NP1 NE); apply proper_loads in NP1;
        rewrite ?load_consZ, ?load_nilZ in *; facts
      | rewrite Nat.eqb_refl;
        pose proof (read_distF _ HR2) as RD2;
        pose proof (route_wz _ HR2) as WB2; pose proof top_nonneg as TN; facts ].

    Ltac fin2 := apply pa_two; [assumption|eapply int_eq; [ints|lia]..].
    Ltac fin1 := eapply pa_one; [reflexivity|reflexivity|assumption|ints|ints|lia|lia|lia].

    Lemma new_routes s' r1 r2 l1 l2 : (r1 < nv)%nat -> (r2 < nv)%nat -> LocalSearch.holds p c pen s' (nupd (nupd rs r1 l1) r2 l2) ->
      (r1 <> r2 -> proper p l1) /\ proper p l2.
    Proof.
      intros H1 H2 H'. split.
      - intro NE. replace l1 with (nupd (nupd rs r1 l1) r2 l2 r1) by (rewrite nupd_other, nupd_same by auto; auto).
        split; [apply (serves_nodup p c _ (h_serves _ _ _ _ _ H') r1 H1)|].
        intros n I. pose proof (serves_bound p c _ (h_serves _ _ _ _ _ H') r1 n H1 I). lia.
      - replace l2 with (nupd (nupd rs r1 l1) r2 l2 r2) by (rewrite nupd_same by auto; auto).
        split; [apply (serves_nodup p c _ (h_serves _ _ _ _ _ H') r2 H2)|].
        intros n I. pose proof (serves_bound p c _ (h_serves _ _ _ _ _ H') r2 n H2 I). lia.
    Qed.
    Lemma effect_routes m u v r1 r2 l1 l2 dl : effect p c pen s rs m u v r1 r2 l1 l2 dl ->
      (r1 <> r2 -> proper p l1) /\ proper p l2.
    Proof.
      intros EF. destruct (effect_in p c pen _ _ _ _ _ _ _ _ _ _ EF) as (H1 & H2 & _).
      destruct (perform_ok p c pen s rs H _ _ _ _ _ _ _ _ EF) as (s' & _ & H' & _). eapply new_routes; eauto.
    Qed.

    Lemma parts_of m u v r1 r2 l1 l2 dl : effect p c pen s rs m u v r1 r2 l1 l2 dl -> parts r1 r2 l1 l2 dl.
    Proof.
      intros EF. destruct (effect_routes _ _ _ _ _ _ _ _ EF) as [NP1 NP2]. apply proper_loads in NP2.
      destruct EF as
        [u v r1 r2 l1 l2 up x y R|u v r1 r2 l1 l2 up x xn y R|u v r1 r2 l1 l2 up x xn y R
        |u v r1 r2 l1 l2 up x vp y R|u v r1 r2 l1 l2 up x xn vp y R|u v r1 r2 l1 l2 up x xn vp y yn R
        |u v r A M x M' D H1 EM NM EV E|u v r1 r2 A B C D x y H1 H2 NE E1 E2 EX EY
        |u v r1 r2 A B C D x y H1 H2 NE E1 E2 EV EX EY].
      - destruct (reloc_okp _ _ _ _ _ _ _ _ _ _ R) as (K1 & K2 & K3 & K4 & K5).
        assert (U0 : (0 < u < dim)%nat) by (apply K5; cbn; auto).
        pose proof (reloc_changeZ d q c _ _ _ _ _ _ _ _ _ _ _ R ltac:(discriminate) ltac:(discriminate) (Permutation_refl _)) as CHG.
        finishF CHG NP1; [fin2|fin1].
      - destruct (reloc_okp _ _ _ _ _ _ _ _ _ _ R) as (K1 & K2 & K3 & K4 & K5).
        assert (U0 : (0 < u < dim)%nat) by (apply K5; cbn; auto).
        assert (X0 : (0 < x < dim)%nat) by (apply K5; cbn; auto).
        pose proof (reloc_changeZ d q c _ _ _ _ _ _ _ _ _ _ _ R ltac:(discriminate) ltac:(discriminate) (Permutation_refl _)) as CHG.
        finishF CHG NP1; [fin2|fin1].
      - destruct (reloc_okp _ _ _ _ _ _ _ _ _ _ R) as (K1 & K2 & K3 & K4 & K5).
        assert (U0 : (0 < u < dim)%nat) by (apply K5; cbn; auto).
        assert (X0 : (0 < x < dim)%nat) by (apply K5; cbn; auto).
        pose proof (reloc_changeZ d q c _ _ _ _ _ _ _ _ _ _ _ R ltac:(discriminate) ltac:(discriminate) (perm_swap u x [])) as CHG.
        finishF CHG NP1; [fin2|fin1].
      - destruct (swp_okp _ _ _ _ _ _ _ _ _ _ R) as (K1 & K2 & K3 & K4 & K5 & K6).
        assert (U0 : (0 < u < dim)%nat) by (apply K5; cbn; auto).
        assert (V0 : (0 < v < dim)%nat) by (apply K6; cbn; auto).
        pose proof (swp_changeZ d q c _ _ _ _ _ _ _ _ _ _ _ R ltac:(discriminate) ltac:(discriminate)) as CHG.
        finishF CHG NP1; [fin2|fin1].
      - destruct (swp_okp _ _ _ _ _ _ _ _ _ _ R) as (K1 & K2 & K3 & K4 & K5 & K6).
        assert (U0 : (0 < u < dim)%nat) by (apply K5; cbn; auto).
        assert (X0 : (0 < x < dim)%nat) by (apply K5; cbn; auto).
        assert (V0 : (0 < v < dim)%nat) by (apply K6; cbn; auto).
        pose proof (swp_changeZ d q c _ _ _ _ _ _ _ _ _ _ _ R ltac:(discriminate) ltac:(discriminate)) as CHG.
        finishF CHG NP1; [fin2|fin1].
      - destruct (swp_okp _ _ _ _ _ _ _ _ _ _ R) as (K1 & K2 & K3 & K4 & K5 & K6).
        assert (U0 : (0 < u < dim)%nat) by (apply K5; cbn; auto).
        assert (X0 : (0 < x < dim)%nat) by (apply K5; cbn; auto).
        assert (V0 : (0 < v < dim)%nat) by (apply K6; cbn; auto).
        assert (Y0 : (0 < y < dim)%nat) by (apply K6; cbn; auto).
        pose proof (swp_changeZ d q c _ _ _ _ _ _ _ _ _ _ _ R ltac:(discriminate) ltac:(discriminate)) as CHG.
        finishF CHG NP1; [fin2|fin1].
      - (* two-opt inside a route *)
        assert (IM : Forall okp (map PN M)).
        { apply ok_map, (ok_sub r); auto. intros n I. rewrite E, in_app_iff. right. right. rewrite in_app_iff. auto. }
        assert (NM1 : map PN M <> []) by (subst M; discriminate).
        assert (NM2 : rev (map PN M) <> []).
        { intros K. apply NM1. rewrite <- (rev_involutive (map PN M)), K. auto. }
        assert (HD : hd0 (map PN M) = PN x) by (subst M; auto).
        assert (LA : last0 (map PN M) = PN v).
        { subst M v. destruct (exists_last NM) as (K & z & ->). rewrite last_last.
          rewrite app_comm_cons, map_app. cbn [map]. rewrite last_last. auto. }
        assert (LR : last0 (rev (map PN M)) = PN x).
        { subst M. cbn [map rev]. rewrite last_last. auto. }
        assert (HR : hd0 (rev (map PN M)) = PN v).
        { destruct (exists_last NM1) as (K & z & EK). rewrite EK in *. rewrite last_last in LA. subst z.
          rewrite rev_app_distr. auto. }
        pose proof (wz_rev _ IM) as WR.
        assert (PP : Permutation (A ++ u :: rev M ++ D) (rs r)).
        { rewrite E. apply Permutation_app_head, perm_skip, Permutation_app_tail.
          symmetry. apply Permutation_rev. }
        assert (W : wz (stops r (A ++ u :: rev M ++ D)) =
                    wz (stops r (rs r)) - dz (PN u) (PN x) - dz (PN v) (hd0 (suf r D)) + dz (PN u) (PN v) + dz (PN x) (hd0 (suf r D))).
        { rewrite E. change (u :: rev M ++ D) with ([u] ++ rev M ++ D).
          change (u :: M ++ D) with ([u] ++ M ++ D).
          rewrite !stops_app, !suf_app. rewrite map_rev.
          change (map PN [u]) with [PN u].
          repeat first [rewrite wz_app by auto 6 with ne | rewrite hd0_app by auto 6 with ne | rewrite last0_app by auto 6 with ne].
          cbn [hd last]. rewrite HD, LA, LR, HR, WR. lia. }
        assert (KU : okp (PN u)). { apply ok_PN. apply (ok_sub r [u]); auto; [|now left]. intros n [<-|[]]. rewrite E. auto with datatypes. }
        assert (KX : okp (PN x)) by (rewrite <- HD; apply ok_list; auto).
        assert (KV : okp (PN v)) by (rewrite <- LA; apply ok_list; auto).
        assert (KD : okp (hd0 (suf r D))).
        { apply ok_list, ok_suf, (ok_sub r); auto. intros n I. rewrite E, in_app_iff. right. right. rewrite in_app_iff. auto. }
        pose proof top_nonneg as TN. assert (TS : top <= 2 ^ 29) by nia.
        apply pa_exact; auto. rewrite W. facts. eapply int_eq; [ints|lia].
      - (* exchange of a head and a reversed head *)
        assert (I1 : Forall okp (suf r1 B)).
        { apply ok_suf, (ok_sub r1); auto. intros n I. rewrite E1, in_app_iff. cbn. auto. }
        assert (I2 : Forall okp (pre r2 (C ++ [v]))).
        { apply ok_pre, (ok_sub r2); auto. intros n I. rewrite E2. rewrite in_app_iff in *. cbn in *. intuition. }
        assert (I3 : Forall okp (suf r2 D)).
        { apply ok_suf, (ok_sub r2); auto. intros n I. rewrite E2, in_app_iff. cbn. auto. }
        assert (E1' : rs r1 = (A ++ [u]) ++ B) by (rewrite E1, <- app_assoc; auto).
        assert (E2' : rs r2 = (C ++ [v]) ++ D) by (rewrite E2, <- app_assoc; auto).
        destruct (read_prefixF r1 _ _ H1 E1') as (CD1 & DB1 & CL1 & LB1).
        destruct (read_prefixF r2 _ _ H2 E2') as (CD2 & DB2 & CL2 & LB2).
        destruct (read_suffixF r1 _ _ H1 E1') as (CX & XB & D1).
        destruct (read_suffixF r2 _ _ H2 E2') as (CY & YB & D2).
        assert (KU : okp (PN u)). { apply ok_PN. apply (ok_sub r1 [u]); auto; [|now left]. intros n [<-|[]]. rewrite E1. auto with datatypes. }
        assert (KV : okp (PN v)). { apply ok_PN. apply (ok_sub r2 [v]); auto; [|now left]. intros n [<-|[]]. rewrite E2. auto with datatypes. }
        assert (KX : okp x) by (subst x; apply ok_list; auto).
        assert (KY : okp y) by (subst y; apply ok_list; auto).
        rewrite <- EX in *. rewrite <- EY in *.
        rewrite !last0_pre_consF in *.
        pose proof (read_distF r1 H1) as RD1. pose proof (read_distF r2 H2) as RD2.
        pose proof (read_loadF r1 H1) as RL1. pose proof (read_loadF r2 H2) as RL2.
        pose proof (load_bound r1 H1) as RB1. pose proof (load_bound r2 H2) as RB2.
        pose proof (route_wz r1 H1) as RW1. pose proof (route_wz r2 H2) as RW2.
        specialize (NP1 NE). apply proper_loads in NP1.
        pose proof (wz_rev _ I1) as W1. pose proof (wz_rev _ I2) as W2.
        assert (N1 : wz (stops r1 (A ++ u :: v :: rev C)) = wz (pre r1 (A ++ [u])) + dz (PN u) (PN v) + wz (pre r2 (C ++ [v]))).
        { change (u :: v :: rev C) with ([u] ++ v :: rev C). rewrite app_assoc, stops_app.
          rewrite wz_app by auto 6 with ne. rewrite last0_pre_consF. cbn [hd suf map app].
          rewrite <- W2. rewrite (wz_num d (PN v :: map PN (rev C) ++ [PE r1]) (rev (pre r2 (C ++ [v])))); [reflexivity|].
          rewrite pre_app, rev_app_distr. cbn [map rev app num]. f_equal.
          rewrite map_app. cbn [map num]. rewrite map_map, map_rev. cbn [num]. unfold pre. cbn [rev].
          rewrite map_app, map_rev, map_map. cbn [map num]. rewrite map_id. auto. }
        assert (N2 : wz (stops r2 (rev B ++ D)) = wz (suf r1 B) + dz x y + wz (suf r2 D)).
        { rewrite stops_app. rewrite wz_app by auto 6 with ne. rewrite <- W1.
          assert (EN : map num (pre r2 (rev B)) = map num (rev (suf r1 B))).
          { unfold pre, suf. rewrite rev_app_distr. cbn [rev app map num]. rewrite map_map. cbn [num].
            rewrite map_id, map_rev, map_map. cbn [num]. rewrite map_id. auto. }
          rewrite (wz_num d _ _ EN). rewrite <- EY.
          rewrite (dz_num d (last0 (pre r2 (rev B))) y x y); [lia| |auto].
          rewrite EX. rewrite <- (rev_involutive (suf r1 B)) at 1.
          assert (LN : forall L, num (last0 L) = last (map num L) 0%nat).
          { intros L. induction L as [|a [|b L] IH]; auto. }
          assert (HN : forall L, num (hd0 L) = hd 0%nat (map num L)) by (intros [|a L]; auto).
          rewrite LN, HN, EN, (map_rev _ (rev (suf r1 B))).
          assert (LH : forall L, last L 0%nat = hd 0%nat (rev L)).
          { intros L. destruct L as [|z L'] using rev_ind; auto. rewrite last_last, rev_app_distr. auto. }
          apply LH. }
        assert (M1 : load (A ++ u :: v :: rev C) = load (A ++ [u]) + load (C ++ [v])).
        { change (u :: v :: rev C) with ([u; v] ++ rev C). rewrite ?load_appZ, ?load_revZ, ?load_consZ, ?load_nilZ. lia. }
        assert (M2 : load (rev B ++ D) = load (rs r1) - load (A ++ [u]) + load (rs r2) - load (C ++ [v])).
        { rewrite E1', E2'. rewrite ?load_appZ, ?load_revZ, ?load_consZ, ?load_nilZ. lia. }
        pose proof (wz_bound _ I1) as SB1. pose proof (wz_bound _ I3) as SB2.
        destruct cap_ok as [CI CB]. pose proof top_nonneg as TN.
        repeat match goal with x := _ |- _ => subst x end. facts.
        apply pa_two; auto; (eapply int_eq; [ints|lia]).
      - (* exchange of tails *)
        assert (E1' : rs r1 = (A ++ [u]) ++ B) by (rewrite E1, <- app_assoc; auto).
        assert (I1 : Forall okp (suf r1 B)).
        { apply ok_suf, (ok_sub r1); auto. intros n I. rewrite E1, in_app_iff. cbn. auto. }
        assert (I3 : Forall okp (suf r2 D)).
        { apply ok_suf, (ok_sub r2); auto. intros n I. rewrite E2, in_app_iff. cbn. auto. }
        assert (KV : okp v). { rewrite <- EV. apply (in_pre r2); auto. intros n I. rewrite E2. apply in_or_app. auto. }
        destruct (read_prefixF r1 _ _ H1 E1') as (CD1 & DB1 & CL1 & LB1).
        destruct (read_prefixF r2 _ _ H2 E2) as (CD2 & DB2 & CL2 & LB2).
        destruct (read_suffixF r1 _ _ H1 E1') as (CX & XB & D1).
        destruct (read_suffixF r2 _ _ H2 E2) as (CY & YB & D2).
        assert (KU : okp (PN u)). { apply ok_PN. apply (ok_sub r1 [u]); auto; [|now left]. intros n [<-|[]]. rewrite E1. auto with datatypes. }
        assert (KX : okp x) by (subst x; apply ok_list; auto).
        assert (KY : okp y) by (subst y; apply ok_list; auto).
        rewrite <- EX in *. rewrite <- EY in *. rewrite EV in CD2, CL2, CY, D2, YB.
        rewrite !last0_pre_consF in *.
        pose proof (read_distF r1 H1) as RD1. pose proof (read_distF r2 H2) as RD2.
        pose proof (read_loadF r1 H1) as RL1. pose proof (read_loadF r2 H2) as RL2.
        pose proof (load_bound r1 H1) as RB1. pose proof (load_bound r2 H2) as RB2.
        pose proof (route_wz r1 H1) as RW1. pose proof (route_wz r2 H2) as RW2.
        specialize (NP1 NE). apply proper_loads in NP1.
        assert (N1 : wz (stops r1 (A ++ u :: D)) = wz (pre r1 (A ++ [u])) + dz (PN u) y + wz (suf r2 D)).
        { change (u :: D) with ([u] ++ D). rewrite app_assoc, stops_app. rewrite wz_app by auto 6 with ne.
          rewrite last0_pre_consF, (wz_suf d r1 r2 D), (dz_suf d r1 r2 D), <- EY. lia. }
        assert (N2 : wz (stops r2 (C ++ B)) = wz (pre r2 C) + dz v x + wz (suf r1 B)).
        { rewrite stops_app. rewrite wz_app by auto 6 with ne. rewrite EV, (wz_suf d r2 r1 B), (dz_suf d r2 r1 B), <- EX. lia. }
        assert (M1 : load (A ++ u :: D) = load (A ++ [u]) + load (rs r2) - load C).
        { rewrite E2. change (u :: D) with ([u] ++ D). rewrite ?load_appZ. lia. }
        assert (M2 : load (C ++ B) = load C + load (rs r1) - load (A ++ [u])).
        { rewrite E1'. rewrite ?load_appZ. lia. }
        pose proof (wz_bound _ I1) as SB1. pose proof (wz_bound _ I3) as SB2.
        destruct cap_ok as [CI CB]. pose proof top_nonneg as TN.
        repeat match goal with x := _ |- _ => subst x end. facts.
        apply pa_two; auto; (eapply int_eq; [ints|lia]).
    Qed.

    (** *** SWAP* *)
    Definition remZ (r : nat) (A : list nat) (x : nat) (B : list nat) : Z :=
      dz (last0 (pre r A)) (hd0 (suf r B)) - dz (last0 (pre r A)) (PN x) - dz (PN x) (hd0 (suf r B)).
    Definition extZ (a : ptr) (x : nat) (b : ptr) : Z := dz a (PN x) + dz (PN x) b - dz a b.

    Lemma extra_int a x b : okp a -> (0 < x < dim)%nat -> okp b ->
      is_int (@extra NumF p a (PN x) b) (extZ a x b) /\ Z.abs (extZ a x b) <= 2 * top.
    Proof.
      intros KA KX KB. pose proof top_nonneg as TN. assert (TS : top <= 2 ^ 29) by nia.
      unfold extra, extZ. facts. split; [eapply int_eq; [ints|lia]|lia].
    Qed.
    Lemma removal_int r A x B : (r < nv)%nat -> rs r = A ++ x :: B ->
      is_int (@removal NumF p r A x B) (remZ r A x B) /\ Z.abs (remZ r A x B) <= 2 * top.
    Proof.
      intros Hr E. pose proof top_nonneg as TN. assert (TS : top <= 2 ^ 29) by nia.
      assert (KX : (0 < x < dim)%nat) by (apply (route_ok r); auto; rewrite E; auto with datatypes).
      assert (KA : okp (last0 (pre r A))) by (kp r E). assert (KB : okp (hd0 (suf r B))) by (kp r E).
      unfold removal, remZ. facts. split; [eapply int_eq; [ints|lia]|lia].
    Qed.

    Lemma place_int r x a pos l' (e : dbl) A B : (r < nv)%nat -> (0 < a < dim)%nat -> @place NumF p r (rs r) x a pos l' e -> rs r = A ++ x :: B ->
      exists z, is_int e z /\ Z.abs z <= 2 * top /\
        wz (stops r l') = wz (stops r (rs r)) + remZ r A x B + z /\ load l' = load (rs r) - q x + q a.
    Proof.
      intros Hr KA PL E. pose proof (serves_nodup p c rs (h_serves _ _ _ _ _ H) r Hr) as ND.
      inversion PL as [A1 B1 E1|A0 A1 B1 E1 NA|A1 B0 B1 E1 NB]; subst.
      - assert (Q : A = A1 /\ B = B1) by (apply (split_unique A B A1 B1 x); congruence).
        destruct Q as [-> ->]. eexists. split; [|split]; [apply extra_int; auto; kp r E|apply extra_int; auto; kp r E|].
        split.
        + rewrite extra_wz, (removal_wz d r A1 x B1), E. unfold remZ, extZ. lia.
        + rewrite E, !load_appZ, !load_consZ. lia.
      - assert (Q : A = A0 ++ A1 /\ B = B1).
        { apply (split_unique A B (A0 ++ A1) B1 x); [rewrite <- app_assoc|]; congruence. }
        destruct Q as [-> ->]. eexists. split; [|split]; [apply extra_int; auto; kp r E1|apply extra_int; auto; kp r E1|].
        split.
        + rewrite (extra_wz d r A0 a (A1 ++ B1)). rewrite suf_app, hd0_app by auto 6 with ne.
          rewrite app_assoc, (removal_wz d r (A0 ++ A1) x B1), E. unfold remZ, extZ. lia.
        + rewrite E. rewrite ?load_appZ, ?load_consZ, ?load_appZ. lia.
      - assert (Q : A = A1 /\ B = B0 ++ B1) by (apply (split_unique A B A1 (B0 ++ B1) x); congruence).
        destruct Q as [-> ->]. eexists. split; [|split]; [apply extra_int; auto; kp r E1|apply extra_int; auto; kp r E1|].
        split.
        + rewrite (app_assoc A1 B0), (extra_wz d r (A1 ++ B0) a B1). rewrite pre_app, last0_app by auto 6 with ne.
          rewrite <- app_assoc, (removal_wz d r A1 x (B0 ++ B1)), E. unfold remZ, extZ. lia.
        + rewrite E. rewrite ?load_appZ, ?load_consZ, ?load_appZ, ?load_consZ. lia.
    Qed.
  End State.

  (** ** The true cost *)
  Local Open Scope R_scope.
  Hypothesis pen_fin : is_finite pen = true.
  Hypothesis pen_nonneg : 0 <= B2R pen.
  Hypothesis pen_small : IZR size + B2R pen * IZR (Z.max 0 (all - cap)) <= 500000000.

  Definition costR (l : list nat) : R := IZR (ztour d l) + B2R pen * IZR (Z.max 0 (load l - cap)).
  Fixpoint rsumR (l : list R) : R := match l with [] => 0 | x :: l => x + rsumR l end.
  Definition totalR (rs : nat -> list nat) : R := rsumR (map costR (all_routes c rs)).

  Lemma rsumR_app a b : rsumR (a ++ b) = rsumR a + rsumR b.
  Proof. induction a as [|x a IH]; cbn; [ring|]. rewrite IH. ring. Qed.
  Lemma totalR_one rs r l : (r < nv)%nat -> totalR (nupd rs r l) = totalR rs - costR (rs r) + costR l.
  Proof.
    intros Hr. unfold totalR, all_routes. rewrite !map_map.
    rewrite (split_seq r nv Hr), !map_app. cbn [map]. rewrite nupd_same.
    assert (E : forall L, ~ In r L -> map (fun x => costR (nupd rs r l x)) L = map (fun x => costR (rs x)) L).
    { intros L I. apply map_ext_in. intros k K. rewrite nupd_other; auto. intros ->. auto. }
    rewrite !E; [|rewrite in_seq; lia|rewrite in_seq; lia].
    rewrite !rsumR_app. cbn [rsumR]. ring.
  Qed.
  Lemma totalR_two rs r1 r2 l1 l2 : (r1 < nv)%nat -> (r2 < nv)%nat -> r1 <> r2 ->
    totalR (nupd (nupd rs r1 l1) r2 l2) = totalR rs - costR (rs r1) - costR (rs r2) + costR l1 + costR l2.
  Proof. intros H1 H2 NE. rewrite totalR_one by auto. rewrite nupd_other by auto. rewrite totalR_one by auto. lra. Qed.
  Lemma totalR_same rs r l : (r < nv)%nat ->
    totalR (nupd (nupd rs r l) r l) = totalR rs - costR (rs r) + costR l.
  Proof. intros H1. rewrite totalR_one by auto. rewrite nupd_same. rewrite totalR_one by auto. lra. Qed.

  Notation excess z := (B2R pen * IZR (Z.max 0 z)).
  Lemma excess_bound z : (z <= all - cap)%Z -> 0 <= excess z <= 500000000 - IZR size.
  Proof.
    intros Hz. assert (M0 : 0 <= IZR (Z.max 0 z)) by (apply IZR_le; lia).
    assert (M1 : IZR (Z.max 0 z) <= IZR (Z.max 0 (all - cap))) by (apply IZR_le; lia).
    split; [now apply Rmult_le_pos|].
    pose proof (Rmult_le_compat_l _ _ _ pen_nonneg M1). lra.
  Qed.

  Notation e25 := (bpow radix2 (-25)).
  Lemma bounds29 : bpow radix2 29 = 536870912 /\ bpow radix2 30 = 1073741824 /\ bpow radix2 (-24) = 2 * e25 /\ 0 < e25 < / 33000000 /\
    bpow radix2 31 = 2147483648 /\ bpow radix2 (-23) = 4 * e25.
  Proof.
    change (bpow radix2 29) with (IZR 536870912). change (bpow radix2 30) with (IZR 1073741824).
    change (bpow radix2 31) with (IZR 2147483648). change (bpow radix2 (-23)) with (/ IZR 8388608).
    change (bpow radix2 (-24)) with (/ IZR 16777216). change e25 with (/ IZR 33554432). lra.
  Qed.
  Lemma size_pos : 0 <= IZR size.
  Proof. apply IZR_le. pose proof top_nonneg. nia. Qed.

  Lemma pen_near (o : dbl) z : is_int o z -> (z <= all - cap)%Z ->
    near_to (dmul pen (dmax (@f0 NumF) o)) (excess z) e25 /\ near_to (dmul (dmax (@f0 NumF) o) pen) (excess z) e25.
  Proof.
    intros I Hz. pose proof (int_max _ _ _ _ int_zero I) as [MF MV]. pose proof (excess_bound z Hz) as B.
    pose proof bounds29. pose proof size_pos.
    split; [|rewrite Rmult_comm]; (apply (near_mul _ _ _ _ 29); auto; [lia|]).
    - rewrite Rabs_pos_eq by lra. lra.
    - rewrite Rmult_comm, Rabs_pos_eq by lra. lra.
  Qed.

  Lemma cost_near (x o : dbl) z1 z : is_int x z1 -> is_int o z -> (Z.abs z1 <= size)%Z -> (z <= all - cap)%Z ->
    near_to (@route_cost NumF x o pen) (IZR z1 + excess z) (2 * e25) /\ Rabs (IZR z1 + excess z) <= 500000000.
  Proof.
    intros I1 I2 A1 A2. pose proof (excess_bound z A2) as B. pose proof bounds29 as (B1 & B2 & B3 & B4 & _). pose proof size_pos.
    assert (Z1 : - IZR size <= IZR z1 <= IZR size) by (split; [rewrite <- opp_IZR|]; apply IZR_le; lia).
    assert (RB : Rabs (IZR z1 + excess z) <= 500000000) by (apply Rabs_le; lra).
    split; auto. unfold route_cost. change (near_to (dadd x (dmul pen (dmax (@f0 NumF) o))) (IZR z1 + excess z) (2 * e25)).
    eapply near_more; [apply (near_add _ _ _ _ 0 e25 29); [apply near_int; auto|apply pen_near; auto|lia|lra]|].
    change (29 - 54)%Z with (-25)%Z. lra.
  Qed.

  Section Change.
    Variable s : @lsearch NumF.
    Variable rs : nat -> list nat.
    Hypothesis H : holds s rs.

    Lemma old_near r : (r < nv)%nat -> near_to (r_cost (s_routes s r)) (costR (rs r)) (2 * e25) /\ Rabs (costR (rs r)) <= 500000000.
    Proof.
      intros Hr. destruct (h_cached _ _ _ _ _ H r Hr) as [_ (_ & _ & _ & _ & E & _)]. rewrite E.
      unfold costR. rewrite (tour_wz d r). pose proof (route_wz s rs H r Hr). pose proof top_nonneg. pose proof (load_bound s rs H r Hr).
      apply cost_near; [apply (read_distF s rs H r Hr)|apply (read_overF s rs H r Hr)|lia|lia].
    Qed.

    Lemma change_near r1 r2 (d1 d2 o1 o2 : dbl) a1 a2 b1 b2 : (r1 < nv)%nat -> (r2 < nv)%nat ->
      is_int d1 a1 -> is_int d2 a2 -> is_int o1 b1 -> is_int o2 b2 ->
      (Z.abs a1 <= size)%Z -> (Z.abs a2 <= size)%Z -> (b1 <= all - cap)%Z -> (b2 <= all - cap)%Z ->
      near_to (@cost_change NumF pen s r1 r2 d1 d2 o1 o2)
        ((IZR a1 + excess b1 + (IZR a2 + excess b2)) - (costR (rs r1) + costR (rs r2))) (16 * e25).
    Proof.
      intros H1 H2 D1 D2 O1 O2 A1 A2 B1 B2.
      destruct (cost_near _ _ _ _ D1 O1 A1 B1) as [N1 S1]. destruct (cost_near _ _ _ _ D2 O2 A2 B2) as [N2 S2].
      destruct (old_near r1 H1) as [N3 S3]. destruct (old_near r2 H2) as [N4 S4].
      destruct bounds29 as (P1 & P2 & P3 & P4 & P5 & P6). apply Rabs_le_inv in S1, S2, S3, S4.
      assert (NN : near_to (dadd (@route_cost NumF d1 o1 pen) (@route_cost NumF d2 o2 pen))
                     (IZR a1 + excess b1 + (IZR a2 + excess b2)) (6 * e25)).
      { eapply near_more; [apply (near_add _ _ _ _ (2 * e25) (2 * e25) 30); [exact N1|exact N2|lia|]|].
        - assert (Rabs (IZR a1 + excess b1 + (IZR a2 + excess b2)) <= 1000000000) by (apply Rabs_le; lra). lra.
        - change (30 - 54)%Z with (-24)%Z. lra. }
      assert (NO : near_to (dadd (r_cost (s_routes s r1)) (r_cost (s_routes s r2))) (costR (rs r1) + costR (rs r2)) (6 * e25)).
      { eapply near_more; [apply (near_add _ _ _ _ (2 * e25) (2 * e25) 30); [exact N3|exact N4|lia|]|].
        - assert (Rabs (costR (rs r1) + costR (rs r2)) <= 1000000000) by (apply Rabs_le; lra). lra.
        - change (30 - 54)%Z with (-24)%Z. lra. }
      unfold cost_change. eapply near_more.
      - apply (near_sub _ _ _ _ (6 * e25) (6 * e25) 31); [exact NN|exact NO|lia|]. rewrite P5.
        assert (Rabs (IZR a1 + excess b1 + (IZR a2 + excess b2) - (costR (rs r1) + costR (rs r2))) <= 2000000000) by (apply Rabs_le; lra). lra.
      - change (31 - 54)%Z with (-23)%Z. rewrite P6. lra.
    Qed.

    Lemma effect_near m u v r1 r2 l1 l2 dl : effect p c pen s rs m u v r1 r2 l1 l2 dl ->
      near_to dl (totalR (nupd (nupd rs r1 l1) r2 l2) - totalR rs) (16 * e25).
    Proof.
      intros EF. destruct (effect_in p c pen _ _ _ _ _ _ _ _ _ _ EF) as (H1 & H2 & _).
      destruct (effect_routes s rs H _ _ _ _ _ _ _ _ EF) as [NP1 NP2].
      pose proof top_nonneg as TN. destruct bounds29 as (P1 & P2 & P3 & P4 & P5 & P6).
      destruct (parts_of s rs H _ _ _ _ _ _ _ _ EF) as [d1 d2 o1 o2 NE D1 D2 O1 O2|d1 d2 z1 z2 -> -> PP D1 D2 E B1 B2|x -> -> PP I].
      - specialize (NP1 NE). rewrite totalR_two by auto.
        pose proof (proper_wz r1 l1 NP1). pose proof (proper_wz r2 l2 NP2).
        pose proof (proper_loads l1 NP1). pose proof (proper_loads l2 NP2).
        replace (totalR rs - costR (rs r1) - costR (rs r2) + costR l1 + costR l2 - totalR rs)
          with (costR l1 + costR l2 - (costR (rs r1) + costR (rs r2))) by ring.
        unfold costR at 1 2. rewrite (tour_wz d r1 l1), (tour_wz d r2 l2). apply change_near; auto; lia.
      - rewrite totalR_same by auto. pose proof (load_bound s rs H r2 H2) as LB. pose proof (read_overF s rs H r2 H2) as RO.
        replace (totalR rs - costR (rs r2) + costR l2 - totalR rs)
          with (IZR z1 + excess (load (rs r2) - cap) + (IZR z2 + excess (load (rs r2) - cap)) - (costR (rs r2) + costR (rs r2))).
        + apply change_near; auto; lia.
        + assert (EL : load l2 = load (rs r2)) by (apply load_permZ; auto).
          assert (ER : IZR z1 + IZR z2 = IZR (wz (stops r2 l2)) + IZR (wz (stops r2 (rs r2)))) by (rewrite <- !plus_IZR; f_equal; auto).
          unfold costR. rewrite EL, !(tour_wz d r2). lra.
      - rewrite totalR_same by auto. assert (EL : load l2 = load (rs r2)) by (apply load_permZ; auto).
        replace (totalR rs - costR (rs r2) + costR l2 - totalR rs) with (IZR (wz (stops r2 l2) - wz (stops r2 (rs r2)))).
        + eapply near_more; [apply near_int; eauto|]. lra.
        + unfold costR. rewrite EL, !(tour_wz d r2), minus_IZR. lra.
    Qed.

    Lemma penalty_near (o o' : dbl) z z' : is_int o z -> is_int o' z' -> (z <= all - cap)%Z -> (z' <= all - cap)%Z ->
      near_to (@penalty_change NumF pen o o') (excess z - excess z') (3 * e25).
    Proof.
      intros I1 I2 A1 A2. destruct (pen_near _ _ I1 A1) as [_ N1]. destruct (pen_near _ _ I2 A2) as [_ N2].
      pose proof (excess_bound z A1) as B1. pose proof (excess_bound z' A2) as B2. pose proof size_pos.
      destruct bounds29 as (P1 & P2 & P3 & P4 & P5 & P6).
      unfold penalty_change. eapply near_more; [apply (near_sub _ _ _ _ e25 e25 29); [exact N1|exact N2|lia|]|].
      - assert (Rabs (excess z - excess z') <= 500000000) by (apply Rabs_le; lra). lra.
      - change (29 - 54)%Z with (-25)%Z. lra.
    Qed.
    Lemma near_step (x y : dbl) a b ea eb : near_to x a ea -> near_to y b eb -> ea + eb <= 1 -> Rabs (a + b) <= 1000000000 ->
      near_to (dadd x y) (a + b) (ea + eb + 2 * e25).
    Proof.
      intros N1 N2 E B. destruct bounds29 as (P1 & P2 & P3 & P4 & P5 & P6).
      eapply near_more; [apply (near_add _ _ _ _ ea eb 30); [exact N1|exact N2|lia|lra]|].
      change (30 - 54)%Z with (-24)%Z. lra.
    Qed.

    Lemma star_near r1 r2 b l1 l2 dl : (r1 < nv)%nat -> (r2 < nv)%nat -> r1 <> r2 ->
      (proper p l1) -> proper p l2 -> @star NumF p pen s rs r1 r2 b l1 l2 dl ->
      near_to dl (totalR (nupd (nupd rs r1 l1) r2 l2) - totalR rs) (16 * e25).
    Proof.
      intros H1 H2 NE NP1 NP2 ST. rewrite totalR_two by auto.
      replace (totalR rs - costR (rs r1) - costR (rs r2) + costR l1 + costR l2 - totalR rs)
        with (costR l1 + costR l2 - costR (rs r1) - costR (rs r2)) by ring.
      pose proof (read_overF s rs H r1 H1) as O1. pose proof (read_overF s rs H r2 H2) as O2.
      pose proof (load_bound s rs H r1 H1) as LB1. pose proof (load_bound s rs H r2 H2) as LB2.
      pose proof (proper_loads l1 NP1) as LN1. pose proof (proper_loads l2 NP2) as LN2.
      destruct cap_ok as [CI CB]. pose proof top_nonneg as TN. pose proof size_pos as SP.
      destruct bounds29 as (P1 & P2 & P3 & P4 & P5 & P6).
      pose proof (excess_bound (load (rs r1) - cap) ltac:(lia)) as XB1. pose proof (excess_bound (load (rs r2) - cap) ltac:(lia)) as XB2.
      pose proof (excess_bound (load l1 - cap) ltac:(lia)) as XN1. pose proof (excess_bound (load l2 - cap) ltac:(lia)) as XN2.
      assert (ST8 : (8 * top <= size)%Z) by nia.
      destruct ST as [A u B C v D pu l2 iu pv l1 iv EU EV PU PV R1 R2 p1 p2 dd|A u B X Y EU EX R1 R2 p1 p2 dd|C v D X Y EV EX R1 R2 p1 p2 dd].
      - assert (U0 : (0 < u < dim)%nat) by (apply (route_ok s rs H r1); auto; rewrite EU; auto with datatypes).
        assert (V0 : (0 < v < dim)%nat) by (apply (route_ok s rs H r2); auto; rewrite EV; auto with datatypes).
        destruct (place_int s rs H r1 u v pv l1 iv A B H1 V0 PV EU) as (z1 & IZ1 & ZB1 & W1 & L1).
        destruct (place_int s rs H r2 v u pu l2 iu C D H2 U0 PU EV) as (z2 & IZ2 & ZB2 & W2 & L2).
        destruct (removal_int s rs H r1 A u B H1 EU) as [RI1 RB1]. destruct (removal_int s rs H r2 C v D H2 EV) as [RI2 RB2].
        destruct (dem_ok u U0) as [QU QUB]. destruct (dem_ok v V0) as [QV QVB].
        pose proof (cust_le s rs H r1 u H1 ltac:(rewrite EU; auto with datatypes)) as CU.
        pose proof (cust_le s rs H r2 v H2 ltac:(rewrite EV; auto with datatypes)) as CV.
        assert (OI1 : is_int (@fadd NumF (@fsub NumF (r_over (s_routes s r1)) (@dem NumF p (PN u))) (@dem NumF p (PN v))) (load l1 - cap)).
        { eapply int_eq; [apply addN; [apply subN|..]; eauto; unfold exact_bound in *; lia|lia]. }
        assert (OI2 : is_int (@fsub NumF (@fadd NumF (r_over (s_routes s r2)) (@dem NumF p (PN u))) (@dem NumF p (PN v))) (load l2 - cap)).
        { eapply int_eq; [apply subN; [apply addN|..]; eauto; unfold exact_bound in *; lia|lia]. }
        pose proof (penalty_near _ _ _ _ OI1 O1 ltac:(lia) ltac:(lia)) as N1.
        pose proof (penalty_near _ _ _ _ OI2 O2 ltac:(lia) ltac:(lia)) as N2.
        unfold dd, p1, p2, R1, R2. clear dd p1 p2 R1 R2.
        apply near_int in IZ1, IZ2, RI1, RI2.
        assert (ZR1 : -(2 * IZR top) <= IZR z1 <= 2 * IZR top) by (rewrite <- mult_IZR, <- opp_IZR; split; apply IZR_le; lia).
        assert (ZR2 : -(2 * IZR top) <= IZR z2 <= 2 * IZR top) by (rewrite <- mult_IZR, <- opp_IZR; split; apply IZR_le; lia).
        assert (RR1 : -(2 * IZR top) <= IZR (remZ r1 A u B) <= 2 * IZR top) by (rewrite <- mult_IZR, <- opp_IZR; split; apply IZR_le; lia).
        assert (RR2 : -(2 * IZR top) <= IZR (remZ r2 C v D) <= 2 * IZR top) by (rewrite <- mult_IZR, <- opp_IZR; split; apply IZR_le; lia).
        assert (T8 : 8 * IZR top <= IZR size) by (rewrite <- mult_IZR; apply IZR_le; lia).
        replace (costR l1 + costR l2 - costR (rs r1) - costR (rs r2)) with
          (IZR (remZ r1 A u B) + (excess (load l1 - cap) - excess (load (rs r1) - cap)) + IZR z2 + IZR (remZ r2 C v D)
           + (excess (load l2 - cap) - excess (load (rs r2) - cap)) + IZR z1).
        + eapply near_more.
          * apply near_step; [apply near_step; [apply near_step; [apply near_step; [apply near_step; [exact RI1|exact N1|lra|apply Rabs_le; lra]|exact IZ2|lra|apply Rabs_le; lra]|exact RI2|lra|apply Rabs_le; lra]|exact N2|lra|apply Rabs_le; lra]|exact IZ1|lra|apply Rabs_le; lra].
          * lra.
        + unfold costR. rewrite (tour_wz d r1 l1), (tour_wz d r2 l2), (tour_wz d r1 (rs r1)), (tour_wz d r2 (rs r2)), W1, W2, !plus_IZR. ring.
      - assert (U0 : (0 < u < dim)%nat) by (apply (route_ok s rs H r1); auto; rewrite EU; auto with datatypes).
        destruct (removal_int s rs H r1 A u B H1 EU) as [RI1 RB1].
        assert (K1 : okp (last0 (pre r2 X))) by (apply (in_pre s rs H r2); auto; intros n I; rewrite EX; apply in_or_app; auto).
        assert (K2 : okp (hd0 (suf r2 Y))) by (apply (in_suf s rs H r2); auto; intros n I; rewrite EX; apply in_or_app; auto).
        destruct (extra_int (last0 (pre r2 X)) u (hd0 (suf r2 Y)) K1 U0 K2) as [EI EB].
        destruct (dem_ok u U0) as [QU QUB].
        assert (L1 : load (A ++ B) = (load (rs r1) - q u)%Z) by (rewrite EU, !load_appZ, load_consZ; lia).
        assert (L2 : load (X ++ u :: Y) = (load (rs r2) + q u)%Z) by (rewrite EX, !load_appZ, load_consZ; lia).
        assert (OI1 : is_int (@fsub NumF (r_over (s_routes s r1)) (@dem NumF p (PN u))) (load (A ++ B) - cap)).
        { eapply int_eq; [apply subN; eauto; unfold exact_bound in *; lia|lia]. }
        assert (OI2 : is_int (@fadd NumF (r_over (s_routes s r2)) (@dem NumF p (PN u))) (load (X ++ u :: Y) - cap)).
        { eapply int_eq; [apply addN; eauto; unfold exact_bound in *; lia|lia]. }
        pose proof (penalty_near _ _ _ _ OI1 O1 ltac:(lia) ltac:(lia)) as N1.
        pose proof (penalty_near _ _ _ _ OI2 O2 ltac:(lia) ltac:(lia)) as N2.
        unfold dd, p1, p2, R1, R2. clear dd p1 p2 R1 R2.
        apply near_int in EI, RI1.
        assert (ZR1 : -(2 * IZR top) <= IZR (extZ (last0 (pre r2 X)) u (hd0 (suf r2 Y))) <= 2 * IZR top) by (rewrite <- mult_IZR, <- opp_IZR; split; apply IZR_le; lia).
        assert (RR1 : -(2 * IZR top) <= IZR (remZ r1 A u B) <= 2 * IZR top) by (rewrite <- mult_IZR, <- opp_IZR; split; apply IZR_le; lia).
        assert (T8 : 8 * IZR top <= IZR size) by (rewrite <- mult_IZR; apply IZR_le; lia).
        replace (costR (A ++ B) + costR (X ++ u :: Y) - costR (rs r1) - costR (rs r2)) with
          (IZR (remZ r1 A u B) + IZR (extZ (last0 (pre r2 X)) u (hd0 (suf r2 Y)))
           + (excess (load (A ++ B) - cap) - excess (load (rs r1) - cap))
           + (excess (load (X ++ u :: Y) - cap) - excess (load (rs r2) - cap))).
        + eapply near_more.
          * apply near_step; [apply near_step; [apply near_step; [exact RI1|exact EI|lra|apply Rabs_le; lra]|exact N1|lra|apply Rabs_le; lra]|exact N2|lra|apply Rabs_le; lra].
          * lra.
        + unfold costR. rewrite (tour_wz d r1 (A ++ B)), (tour_wz d r2 (X ++ u :: Y)), (tour_wz d r1 (rs r1)), (tour_wz d r2 (rs r2)).
          rewrite (removal_wz d r1 A u B), (extra_wz d r2 X u Y), <- EU, <- EX, !plus_IZR. unfold remZ, extZ. ring.
      - assert (V0 : (0 < v < dim)%nat) by (apply (route_ok s rs H r2); auto; rewrite EV; auto with datatypes).
        destruct (removal_int s rs H r2 C v D H2 EV) as [RI1 RB1].
        assert (K1 : okp (last0 (pre r1 X))) by (apply (in_pre s rs H r1); auto; intros n I; rewrite EX; apply in_or_app; auto).
        assert (K2 : okp (hd0 (suf r1 Y))) by (apply (in_suf s rs H r1); auto; intros n I; rewrite EX; apply in_or_app; auto).
        destruct (extra_int (last0 (pre r1 X)) v (hd0 (suf r1 Y)) K1 V0 K2) as [EI EB].
        destruct (dem_ok v V0) as [QU QUB].
        assert (L2 : load (C ++ D) = (load (rs r2) - q v)%Z) by (rewrite EV, !load_appZ, load_consZ; lia).
        assert (L1 : load (X ++ v :: Y) = (load (rs r1) + q v)%Z) by (rewrite EX, !load_appZ, load_consZ; lia).
        assert (OI2 : is_int (@fsub NumF (r_over (s_routes s r2)) (@dem NumF p (PN v))) (load (C ++ D) - cap)).
        { eapply int_eq; [apply subN; eauto; unfold exact_bound in *; lia|lia]. }
        assert (OI1 : is_int (@fadd NumF (r_over (s_routes s r1)) (@dem NumF p (PN v))) (load (X ++ v :: Y) - cap)).
        { eapply int_eq; [apply addN; eauto; unfold exact_bound in *; lia|lia]. }
        pose proof (penalty_near _ _ _ _ OI1 O1 ltac:(lia) ltac:(lia)) as N1.
        pose proof (penalty_near _ _ _ _ OI2 O2 ltac:(lia) ltac:(lia)) as N2.
        unfold dd, p1, p2, R1, R2. clear dd p1 p2 R1 R2.
        apply near_int in EI, RI1.
        assert (ZR1 : -(2 * IZR top) <= IZR (extZ (last0 (pre r1 X)) v (hd0 (suf r1 Y))) <= 2 * IZR top) by (rewrite <- mult_IZR, <- opp_IZR; split; apply IZR_le; lia).
        assert (RR1 : -(2 * IZR top) <= IZR (remZ r2 C v D) <= 2 * IZR top) by (rewrite <- mult_IZR, <- opp_IZR; split; apply IZR_le; lia).
        assert (T8 : 8 * IZR top <= IZR size) by (rewrite <- mult_IZR; apply IZR_le; lia).
        replace (costR (X ++ v :: Y) + costR (C ++ D) - costR (rs r1) - costR (rs r2)) with
          (IZR (remZ r2 C v D) + IZR (extZ (last0 (pre r1 X)) v (hd0 (suf r1 Y)))
           + (excess (load (X ++ v :: Y) - cap) - excess (load (rs r1) - cap))
           + (excess (load (C ++ D) - cap) - excess (load (rs r2) - cap))).
        + eapply near_more.
          * apply near_step; [apply near_step; [apply near_step; [exact RI1|exact EI|lra|apply Rabs_le; lra]|exact N1|lra|apply Rabs_le; lra]|exact N2|lra|apply Rabs_le; lra].
          * lra.
        + unfold costR. rewrite (tour_wz d r1 (X ++ v :: Y)), (tour_wz d r2 (C ++ D)), (tour_wz d r1 (rs r1)), (tour_wz d r2 (rs r2)).
          rewrite (removal_wz d r2 C v D), (extra_wz d r1 X v Y), <- EV, <- EX, !plus_IZR. unfold remZ, extZ. ring.
    Qed.
  End Change.
End Exact.
