(** In exact arithmetic, the cost change computed for a move is the change of the total penalized
    cost of the solution. *)
From Coq Require Import List Arith ZArith QArith Bool Lia Lqa Permutation.
From Verif.Model Require Import Num Prelude Evaluate Config Sector Matrix LinkedList LocalSearch.
From Verif.Spec Require Import Solution LocalSearch.
From Verif.Proofs Require Import Lists LinkFacts QNum EvalFacts EvalThms LsState LsMoves LsEffect.
Import ListNotations.
Open Scope nat_scope.

Section Delta.
  Variable p : @problem NumQ.
  Variable c : @config NumQ.
  Variable pen : @F NumQ.
  Notation nv := (c_num_vehicles c).
  Notation holds := (holds p c pen).

  Local Open Scope Q_scope.
  Hypothesis dem0 : p_demand p 0%nat == 0.

  (** Length of a list of stops, distance of two stops, load of customers, cost of a route *)
  Definition w (L : list ptr) : Q := walk_length (p_dist p) (map num L).
  Definition dq (a b : ptr) : Q := p_dist p (num a) (num b).
  Notation load := (route_load (p_demand p)).
  Notation cost := (route_penalized (p_dist p) (p_demand p) (p_cap p) pen).
  Definition total (rs : nat -> list nat) : Q :=
    total_penalized (p_dist p) (p_demand p) (p_cap p) pen (all_routes c rs).

  Lemma dist_dq a b : dist p a b = dq a b.
  Proof. reflexivity. Qed.

  Lemma walk_app (d : nat -> nat -> Q) A B a b :
    walk_length d (A ++ a :: b :: B) == walk_length d (A ++ [a]) + d a b + walk_length d (b :: B).
  Proof.
    induction A as [|x A IH]; cbn [app].
    - cbn [walk_length]. ring.
    - destruct A as [|y A]; cbn [app] in *.
      + change (walk_length d (x :: a :: b :: B)) with (d x a + walk_length d (a :: b :: B)).
        rewrite IH. cbn [walk_length]. ring.
      + change (walk_length d (x :: y :: A ++ a :: b :: B)) with (d x y + walk_length d (y :: A ++ a :: b :: B)).
        change (walk_length d (x :: y :: A ++ [a])) with (d x y + walk_length d (y :: A ++ [a])).
        rewrite IH. ring.
  Qed.

  Lemma w_app A B : A <> [] -> B <> [] -> w (A ++ B) == w A + dq (last0 A) (hd0 B) + w B.
  Proof.
    intros NA NB. destruct (exists_last NA) as (A' & a & ->). destruct B as [|b B]; [congruence|].
    rewrite last_last. cbn [hd]. unfold w, dq. rewrite <- app_assoc. cbn [app].
    rewrite !map_app. cbn [map]. apply walk_app.
  Qed.
  Lemma w_one a : w [a] == 0.
  Proof. reflexivity. Qed.
  Lemma w_two a b : w [a; b] == dq a b.
  Proof. unfold w, dq. cbn. ring. Qed.

  Lemma length_w r l : route_length (p_dist p) l = w (stops r l).
  Proof.
    unfold route_length, w, stops. cbn [map num]. rewrite map_app, map_map. cbn [map num].
    rewrite map_id. auto.
  Qed.

  Lemma Qsum_app2 (a b : list Q) : Qsum (a ++ b) == Qsum a + Qsum b.
  Proof. induction a as [|x l IH]; cbn; [ring|]. rewrite IH. ring. Qed.
  Lemma load_app a b : load (a ++ b) == load a + load b.
  Proof.
    unfold route_load. rewrite map_app. apply Qsum_app2.
  Qed.
  Lemma load_cons n l : load (n :: l) == p_demand p n + load l.
  Proof. reflexivity. Qed.
  Lemma load_nil : load [] == 0.
  Proof. reflexivity. Qed.
  Lemma Qsum_perm l l' : Permutation l l' -> Qsum l == Qsum l'.
  Proof.
    intros P. induction P; cbn; try rewrite IHP; try ring. rewrite IHP1, IHP2. reflexivity.
  Qed.
  Lemma load_perm l l' : Permutation l l' -> load l == load l'.
  Proof. intros P. apply Qsum_perm. apply Permutation_map. auto. Qed.
  Lemma load_rev l : load (rev l) == load l.
  Proof. apply load_perm. symmetry. apply Permutation_rev. Qed.

  Lemma drive_Q l : forall prev acc, drive p prev acc l == acc + w (prev :: l).
  Proof.
    induction l as [|a l IH]; intros prev acc; cbn [drive].
    - rewrite w_one. numq. lra.
    - rewrite IH. unfold w. cbn [map walk_length]. numq. lra.
  Qed.
  Lemma driven_Q L : driven p L == w L.
  Proof.
    destruct L as [|a L]; cbn [driven]; [reflexivity|]. rewrite drive_Q. numq. lra.
  Qed.
  Definition pload (L : list ptr) : Q := Qsum (map (fun a => p_demand p (num a)) L).
  Lemma loaded_Q L : forall acc, loaded p acc L == acc + pload L.
  Proof.
    unfold loaded, pload. induction L as [|a L IH]; intros acc; cbn [fold_left map Qsum].
    - numq. lra.
    - rewrite IH. numq. lra.
  Qed.
  Lemma pload_PN l : pload (map PN l) = load l.
  Proof. unfold pload, route_load. rewrite map_map. auto. Qed.
  Lemma pload_app A B : pload (A ++ B) == pload A + pload B.
  Proof.
    unfold pload. rewrite map_app. apply Qsum_app2.
  Qed.
  Lemma carried_Q L : carried p L == pload (tl L).
  Proof. unfold carried. rewrite loaded_Q. numq. lra. Qed.

  Lemma total_ext rs rs' : (forall r, (r < nv)%nat -> rs r = rs' r) -> total rs = total rs'.
  Proof. intros H. unfold total. rewrite (all_routes_ext c rs rs'); auto. Qed.

  Lemma total_one rs r l : (r < nv)%nat -> total (nupd rs r l) == total rs - cost (rs r) + cost l.
  Proof.
    intros H. unfold total, total_penalized, all_routes. rewrite !map_map.
    rewrite (split_seq r nv H), !map_app. cbn [map]. rewrite nupd_same.
    assert (E : forall L, ~ In r L -> map (fun x => cost (nupd rs r l x)) L = map (fun x => cost (rs x)) L).
    { intros L I. apply map_ext_in. intros k K. rewrite nupd_other; auto. intros ->. auto. }
    rewrite !E; [|rewrite in_seq; lia|rewrite in_seq; lia].
    assert (QA : forall a x y b, Qsum (a ++ x :: b) - x + y == Qsum (a ++ y :: b)).
    { intros a x y b. induction a as [|z a IH]; cbn; [ring|]. rewrite <- IH. ring. }
    rewrite QA. reflexivity.
  Qed.

  Lemma total_two rs r1 r2 l1 l2 : (r1 < nv)%nat -> (r2 < nv)%nat -> r1 <> r2 ->
    total (nupd (nupd rs r1 l1) r2 l2) == total rs - cost (rs r1) - cost (rs r2) + cost l1 + cost l2.
  Proof.
    intros H1 H2 NE. rewrite total_one by auto. rewrite nupd_other by auto. rewrite total_one by auto. lra.
  Qed.
  Lemma total_same rs r l : (r < nv)%nat ->
    total (nupd (nupd rs r l) r l) == total rs - cost (rs r) + cost l.
  Proof.
    intros H1. rewrite !total_one by auto. rewrite nupd_same. lra.
  Qed.

  (** ** The cached route data *)

  Section Read.
    Variable s : @lsearch NumQ.
    Variable rs : nat -> list nat.
    Hypothesis H : holds s rs.

    Lemma read_dist r : (r < nv)%nat -> r_dist (s_routes s r) == w (stops r (rs r)).
    Proof using H.
      intros Hr. destruct (h_cached _ _ _ _ _ H r Hr) as [_ (_ & E & _)]. rewrite E. apply driven_Q.
    Qed.
    Lemma read_load r : (r < nv)%nat -> r_load (s_routes s r) == load (rs r).
    Proof using H dem0.
      intros Hr. destruct (h_cached _ _ _ _ _ H r Hr) as [_ (_ & _ & E & _)]. rewrite E.
      rewrite carried_Q. unfold stops. cbn [tl]. rewrite pload_app, pload_PN. unfold pload. cbn. lra.
    Qed.
    Lemma read_over r : (r < nv)%nat -> r_over (s_routes s r) == load (rs r) - p_cap p.
    Proof using H dem0.
      intros Hr. destruct (h_cached _ _ _ _ _ H r Hr) as [_ (_ & _ & _ & E & _)]. rewrite E.
      rewrite <- (read_load r Hr). numq. reflexivity.
    Qed.

    Lemma route_cost_Q (d o : @F NumQ) l r : d == w (stops r l) -> o == load l - p_cap p ->
      route_cost d o pen == cost l.
    Proof using.
      intros E1 E2. unfold route_cost, route_penalized. rewrite (length_w r l). numq.
      rewrite Qpos_max, (Qpos_comp _ _ E2). rewrite E1. reflexivity.
    Qed.

    Lemma read_cost r : (r < nv)%nat -> r_cost (s_routes s r) == cost (rs r).
    Proof using H dem0.
      intros Hr. destruct (h_cached _ _ _ _ _ H r Hr) as [_ (_ & _ & _ & _ & E & _)]. rewrite E.
      apply (route_cost_Q _ _ _ r); [apply read_dist|apply read_over]; auto.
    Qed.

    Lemma change_two r1 r2 l1 l2 (d1 d2 o1 o2 : @F NumQ) : (r1 < nv)%nat -> (r2 < nv)%nat -> r1 <> r2 ->
      d1 == w (stops r1 l1) -> d2 == w (stops r2 l2) ->
      o1 == load l1 - p_cap p -> o2 == load l2 - p_cap p ->
      cost_change pen s r1 r2 d1 d2 o1 o2 == total (nupd (nupd rs r1 l1) r2 l2) - total rs.
    Proof using H dem0.
      intros H1 H2 NE D1 D2 O1 O2. rewrite total_two by auto. unfold cost_change.
      pose proof (route_cost_Q _ _ _ _ D1 O1). pose proof (route_cost_Q _ _ _ _ D2 O2).
      pose proof (read_cost r1 H1). pose proof (read_cost r2 H2). numq. lra.
    Qed.

    Lemma change_one r l (d1 d2 : @F NumQ) : (r < nv)%nat ->
      Permutation l (rs r) ->
      d1 + d2 == w (stops r l) + w (stops r (rs r)) ->
      cost_change pen s r r d1 d2 (r_over (s_routes s r)) (r_over (s_routes s r))
      == total (nupd (nupd rs r l) r l) - total rs.
    Proof using H dem0.
      intros H1 P D. rewrite total_same by auto. unfold cost_change.
      pose proof (read_over r H1) as O. pose proof (read_cost r H1) as C.
      pose proof (load_perm _ _ P) as LP. rewrite <- LP in O.
      assert (RC : forall d : @F NumQ, route_cost d (r_over (s_routes s r)) pen
                     == d + (cost l - w (stops r l))).
      { intros d. unfold route_cost, route_penalized. rewrite (length_w r l). numq.
        rewrite Qpos_max, (Qpos_comp _ _ O). lra. }
      pose proof (RC d1) as R1. pose proof (RC d2) as R2.
      assert (CR : cost (rs r) == w (stops r (rs r)) + (cost l - w (stops r l))).
      { unfold route_penalized. rewrite (length_w r l), (length_w r (rs r)).
        rewrite (Qpos_comp (load l - p_cap p) (load (rs r) - p_cap p)) by (rewrite LP; reflexivity). lra. }
      numq. lra.
    Qed.
  End Read.

  Ltac nepos := auto 6 with ne.
  Ltac wsimp :=
    repeat first [rewrite w_app by nepos | rewrite hd0_app by nepos | rewrite last0_app by nepos].

  (** *** Relocations *)

  Lemma reloc_change rs blk ins v r1 r2 l1 l2 up xn y :
    reloc c rs blk ins v r1 r2 l1 l2 up xn y -> blk <> [] -> ins <> [] ->
    Permutation ins blk ->
    let del := - dq up (hd0 (map PN blk)) - w (map PN blk) - dq (last0 (map PN blk)) xn + dq up xn in
    let add := - dq v y + dq v (hd0 (map PN ins)) + w (map PN ins) + dq (last0 (map PN ins)) y in
    (r1 < nv)%nat /\ (r2 < nv)%nat /\
    ((r1 <> r2 /\ w (stops r1 l1) == w (stops r1 (rs r1)) + del /\
                  w (stops r2 l2) == w (stops r2 (rs r2)) + add /\
                  load l1 == load (rs r1) - load blk /\ load l2 == load (rs r2) + load blk) \/
     (r1 = r2 /\ l1 = l2 /\ w (stops r1 l1) == w (stops r1 (rs r1)) + del + add /\
      Permutation l1 (rs r1))).
  Proof.
    intros R NB NI P del add. unfold del, add.
    destruct R as [r1 r2 A B C D H1 H2 NE E1 E2 EV|k A M D H1 NM E EV|k C M B H1 NM E EV]; subst v;
      (split; [auto|split; [auto|]]).
    - left. rewrite E1, E2. rewrite !stops_app, !suf_app.
      split; [auto|split; [wsimp; lra|split; [wsimp; lra|]]].
      rewrite !load_app, (load_perm _ _ P). split; lra.
    - right. rewrite E. rewrite !stops_app, !suf_app.
      split; [auto|split; [auto|split; [wsimp; lra|]]].
      apply Permutation_app_head. rewrite P, !app_assoc.
      apply Permutation_app_tail. apply Permutation_app_comm.
    - right. rewrite E. rewrite !stops_app, !suf_app.
      split; [auto|split; [auto|split; [wsimp; lra|]]].
      apply Permutation_app_head. rewrite P, !app_assoc.
      apply Permutation_app_tail. apply Permutation_app_comm.
  Qed.

  Lemma swp_change rs ub vb r1 r2 l1 l2 up xn vp yn :
    swp c rs ub vb r1 r2 l1 l2 up xn vp yn -> ub <> [] -> vb <> [] ->
    let chu := - dq up (hd0 (map PN ub)) - w (map PN ub) - dq (last0 (map PN ub)) xn
               + dq up (hd0 (map PN vb)) + w (map PN vb) + dq (last0 (map PN vb)) xn in
    let chv := - dq vp (hd0 (map PN vb)) - w (map PN vb) - dq (last0 (map PN vb)) yn
               + dq vp (hd0 (map PN ub)) + w (map PN ub) + dq (last0 (map PN ub)) yn in
    (r1 < nv)%nat /\ (r2 < nv)%nat /\
    ((r1 <> r2 /\ w (stops r1 l1) == w (stops r1 (rs r1)) + chu /\
                  w (stops r2 l2) == w (stops r2 (rs r2)) + chv /\
                  load l1 == load (rs r1) - load ub + load vb /\
                  load l2 == load (rs r2) - load vb + load ub) \/
     (r1 = r2 /\ l1 = l2 /\ w (stops r1 l1) == w (stops r1 (rs r1)) + chu + chv /\
      Permutation l1 (rs r1))).
  Proof.
    intros R NU NV chu chv. unfold chu, chv.
    destruct R as [r1 r2 A B C D H1 H2 NE E1 E2|k A M D H1 NM E|k A M D H1 NM E];
      (split; [auto|split; [auto|]]).
    - left. rewrite E1, E2. rewrite !stops_app, !suf_app.
      split; [auto|split; [wsimp; lra|split; [wsimp; lra|]]].
      rewrite !load_app. split; lra.
    - right. rewrite E. rewrite !stops_app, !suf_app.
      split; [auto|split; [auto|split; [wsimp; lra|]]].
      apply perm_swap_blocks.
    - right. rewrite E. rewrite !stops_app, !suf_app.
      split; [auto|split; [auto|split; [wsimp; lra|]]].
      apply perm_swap_blocks.
  Qed.

  (** *** Reversals need symmetric distances *)

  Hypothesis sym : forall i j, (i < p_dim p)%nat -> (j < p_dim p)%nat -> p_dist p i j == p_dist p j i.
  Hypothesis dim_pos : (0 < p_dim p)%nat.

  Definition inside (L : list ptr) := Forall (fun a => num a < p_dim p)%nat L.

  Lemma w_num L L' : map num L = map num L' -> w L = w L'.
  Proof. unfold w. intros ->. auto. Qed.
  Lemma dq_num a b a' b' : num a = num a' -> num b = num b' -> dq a b = dq a' b'.
  Proof. unfold dq. intros -> ->. auto. Qed.

  Lemma w_rev L : inside L -> w (rev L) == w L.
  Proof using sym.
    intros I. induction L as [|a L IH]; [reflexivity|]. inversion I as [|? ? I1 I2]; subst.
    destruct L as [|b L]; [reflexivity|]. inversion I2 as [|? ? I3 I4]; subst.
    change (rev (a :: b :: L)) with (rev (b :: L) ++ [a]).
    rewrite w_app; [|cbn; destruct (rev L); discriminate|discriminate].
    rewrite IH by auto. change (a :: b :: L) with ([a] ++ (b :: L)).
    rewrite w_app by discriminate. cbn [rev]. rewrite last_last. cbn [hd last].
    rewrite !w_one. unfold dq. rewrite (sym (num b) (num a)) by auto. lra.
  Qed.

  Lemma suf_hd r B : suf r B = hd0 (suf r B) :: tl (suf r B).
  Proof. destruct (suf_head r B) as (b & L & ->). auto. Qed.
  Lemma pre_snoc r A : exists L, pre r A = L ++ [last0 (pre r A)].
  Proof. destruct (pre_last r A) as (L & a & ->). exists L. rewrite last_last. auto. Qed.

  (** The cumulative data of the last stop of a prefix, and of the first stop of a suffix *)
  Lemma read_prefix s rs r A B : holds s rs -> (r < nv)%nat -> rs r = A ++ B ->
    n_cumd (s_info s (last0 (pre r A))) == w (pre r A) /\
    n_cuml (s_info s (last0 (pre r A))) == load A.
  Proof using.
    intros H Hr E. destruct (pre_snoc r A) as (L & EL).
    assert (ES : stops r (rs r) = L ++ last0 (pre r A) :: suf r B).
    { rewrite E, stops_app, EL at 1. rewrite <- app_assoc. auto. }
    destruct (read_stop p c pen s rs H r _ _ _ Hr ES) as (_ & _ & _ & _ & CD & CL).
    rewrite CD, CL. rewrite <- EL. rewrite driven_Q, carried_Q. split; [reflexivity|].
    unfold pre. cbn [tl]. rewrite pload_PN. reflexivity.
  Qed.

  Lemma read_suffix s rs r A B : holds s rs -> (r < nv)%nat -> rs r = A ++ B ->
    n_cumd (s_info s (hd0 (suf r B))) == w (pre r A) + dq (last0 (pre r A)) (hd0 (suf r B)).
  Proof using.
    intros H Hr E.
    assert (ES : stops r (rs r) = pre r A ++ hd0 (suf r B) :: tl (suf r B)).
    { rewrite E, stops_app, <- suf_hd. auto. }
    destruct (read_stop p c pen s rs H r _ _ _ Hr ES) as (_ & _ & _ & _ & CD & _).
    rewrite CD, driven_Q. rewrite w_app by nepos. rewrite w_one. cbn [hd]. lra.
  Qed.

  Lemma w_suf r r' D : w (suf r D) = w (suf r' D).
  Proof. apply w_num. unfold suf. rewrite !map_app. auto. Qed.
  Lemma dq_suf r r' D a : dq a (hd0 (suf r D)) = dq a (hd0 (suf r' D)).
  Proof. apply dq_num; auto. destruct D; auto. Qed.
  Lemma last0_pre_cons r A u : last0 (pre r (A ++ [u])) = PN u.
  Proof. unfold pre. rewrite map_app. cbn [map]. rewrite app_comm_cons. apply last_last. Qed.

  Ltac loads := rewrite ?load_app, ?load_rev, ?load_cons, ?load_nil.

  Ltac finish H P :=
      destruct P as (H1 & H2 & [(NE & D1 & D2 & L1 & L2)|(-> & -> & D & PP)]);
      cbn [map hd last] in *; rewrite ?w_one, ?w_two in *;
      repeat match goal with x := _ |- _ => subst x end;
      [ apply Nat.eqb_neq in NE as NE'; rewrite NE';
        apply change_two; auto;
        pose proof (read_dist _ _ H _ H1); pose proof (read_dist _ _ H _ H2);
        pose proof (read_over _ _ H _ H1); pose proof (read_over _ _ H _ H2);
        rewrite ?load_cons, ?load_nil in *; change (@dist NumQ p) with dq; unfold dem; cbn [num]; numq; lra
      | rewrite Nat.eqb_refl; apply change_one; auto;
        pose proof (read_dist _ _ H _ H2); change (@dist NumQ p) with dq; numq; lra ].
  Ltac doreloc H R P :=
    let X := fresh in
    pose proof (reloc_change _ _ _ _ _ _ _ _ _ _ _ R ltac:(discriminate) ltac:(discriminate) P) as X;
    finish H X.
  Ltac doswap H R :=
    let X := fresh in
    pose proof (swp_change _ _ _ _ _ _ _ _ _ _ _ R ltac:(discriminate) ltac:(discriminate)) as X;
    finish H X.

  Lemma effect_exact s rs m u v r1 r2 l1 l2 d :
    holds s rs -> effect p c pen s rs m u v r1 r2 l1 l2 d ->
    d == total (nupd (nupd rs r1 l1) r2 l2) - total rs.
  Proof using dem0 sym dim_pos.
    intros H E.
    assert (IN : forall r n, (r < nv)%nat -> In n (rs r) -> (n < p_dim p)%nat).
    { intros r n Hr I. destruct (serves_bound p c rs (h_serves _ _ _ _ _ H) r n Hr I). auto. }
    destruct E as
      [u v r1 r2 l1 l2 up x y R|u v r1 r2 l1 l2 up x xn y R|u v r1 r2 l1 l2 up x xn y R
      |u v r1 r2 l1 l2 up x vp y R|u v r1 r2 l1 l2 up x xn vp y R|u v r1 r2 l1 l2 up x xn vp y yn R
      |u v r A M x M' D H1 EM NM EV E|u v r1 r2 A B C D x y H1 H2 NE E1 E2 EX EY
      |u v r1 r2 A B C D x y H1 H2 NE E1 E2 EV EX EY].
    - doreloc H R (Permutation_refl [u]).
    - doreloc H R (Permutation_refl [u; x]).
    - doreloc H R (perm_swap u x []).
    - doswap H R.
    - doswap H R.
    - doswap H R.
    - (* two-opt inside a route *)
      set (y := hd0 (suf r D)).
      rewrite total_same by auto.
      assert (IM : inside (map PN M)).
      { apply Forall_forall. intros a I. apply in_map_iff in I. destruct I as (n & <- & I). cbn [num].
        apply (IN r); auto. rewrite E. rewrite in_app_iff. right. right. rewrite in_app_iff. auto. }
      assert (NM1 : map PN M <> []) by (subst M; discriminate).
      assert (NM2 : rev (map PN M) <> []).
      { intros K. apply NM1. rewrite <- (rev_involutive (map PN M)), K. auto. }
      assert (HD : hd0 (map PN M) = PN x) by (subst M; auto).
      assert (LA : last0 (map PN M) = PN v).
      { subst M v. destruct (exists_last NM) as (K & z & ->). rewrite last_last.
        rewrite app_comm_cons, map_app. cbn [map]. rewrite last_last. auto. }
      assert (LR : last0 (rev (map PN M)) = PN x).
      { subst M. cbn [map rev]. rewrite last_last. auto. }
      assert (HR : hd0 (rev (map PN M)) = PN v).
      { destruct (exists_last NM1) as (K & z & EK). rewrite EK in *. rewrite last_last in LA. subst z.
        rewrite rev_app_distr. auto. }
      pose proof (w_rev _ IM) as WR.
      assert (PP : load (A ++ u :: rev M ++ D) == load (rs r)).
      { rewrite E. apply load_perm. apply Permutation_app_head, perm_skip, Permutation_app_tail.
        symmetry. apply Permutation_rev. }
      assert (W : w (stops r (A ++ u :: rev M ++ D)) ==
                  w (stops r (rs r)) - dq (PN u) (PN x) - dq (PN v) y + dq (PN u) (PN v) + dq (PN x) y).
      { rewrite E. change (u :: rev M ++ D) with ([u] ++ rev M ++ D).
        change (u :: M ++ D) with ([u] ++ M ++ D).
        rewrite !stops_app, !suf_app. rewrite map_rev. unfold y.
        change (map PN [u]) with [PN u]. wsimp. cbn [hd last]. rewrite HD, LA, LR, HR, WR. lra. }
      unfold route_penalized. rewrite !(length_w r). rewrite W, (Qpos_comp _ _ (Qplus_comp _ _ PP _ _ (Qeq_refl (- p_cap p)))).
      change (@dist NumQ p) with dq. numq. unfold Qminus. lra.
    - (* exchange of a head and a reversed head *)
      assert (I1 : inside (suf r1 B)).
      { apply Forall_forall. intros a I. unfold suf in I. rewrite in_app_iff, in_map_iff in I.
        destruct I as [(n & <- & I)|[<-|[]]]; [|cbn; auto]. cbn [num]. apply (IN r1); auto.
        rewrite E1, in_app_iff. cbn. auto. }
      assert (I2 : inside (pre r2 (C ++ [v]))).
      { apply Forall_forall. intros a [<-|I]; [cbn; auto|]. rewrite in_map_iff in I.
        destruct I as (n & <- & I). cbn [num]. apply (IN r2); auto.
        rewrite E2. rewrite in_app_iff in *. cbn in *. intuition. }
      assert (E1' : rs r1 = (A ++ [u]) ++ B) by (rewrite E1, <- app_assoc; auto).
      assert (E2' : rs r2 = (C ++ [v]) ++ D) by (rewrite E2, <- app_assoc; auto).
      destruct (read_prefix s rs r1 _ _ H H1 E1') as [CD1 CL1].
      destruct (read_prefix s rs r2 _ _ H H2 E2') as [CD2 CL2].
      pose proof (read_suffix s rs r1 _ _ H H1 E1') as CX.
      pose proof (read_suffix s rs r2 _ _ H H2 E2') as CY.
      rewrite <- EX in CX. rewrite <- EY in CY.
      rewrite !last0_pre_cons in *.
      pose proof (read_dist s rs H r1 H1) as D1. pose proof (read_dist s rs H r2 H2) as D2.
      pose proof (read_load s rs H r1 H1) as L1. pose proof (read_load s rs H r2 H2) as L2.
      rewrite E1', stops_app in D1. rewrite E2', stops_app in D2. rewrite w_app in D1, D2 by nepos.
      rewrite last0_pre_cons in D1, D2. rewrite <- EX in D1. rewrite <- EY in D2.
      rewrite E1' in L1. rewrite E2' in L2. rewrite !load_app, load_cons, load_nil in *.
      pose proof (w_rev _ I1) as W1. pose proof (w_rev _ I2) as W2.
      repeat match goal with x := _ |- _ => subst x end.
      apply change_two; auto.
      + assert (N1 : w (stops r1 (A ++ u :: v :: rev C)) == w (pre r1 (A ++ [u])) + dq (PN u) (PN v) + w (pre r2 (C ++ [v]))).
        { change (u :: v :: rev C) with ([u] ++ v :: rev C). rewrite app_assoc, stops_app.
          rewrite w_app by nepos. rewrite last0_pre_cons. cbn [hd suf map app].
          rewrite <- W2. rewrite (w_num (PN v :: map PN (rev C) ++ [PE r1]) (rev (pre r2 (C ++ [v])))); [reflexivity|].
          rewrite pre_app, rev_app_distr. cbn [map rev app num]. f_equal.
          rewrite map_app. cbn [map num]. rewrite map_map, map_rev. cbn [num]. unfold pre. cbn [rev].
          rewrite map_app, map_rev, map_map. cbn [map num]. rewrite map_id. auto. }
        rewrite N1. change (@dist NumQ p) with dq. numq. lra.
      + assert (N2 : w (stops r2 (rev B ++ D)) == w (suf r1 B) + dq (hd0 (suf r1 B)) (hd0 (suf r2 D)) + w (suf r2 D)).
        { rewrite stops_app. rewrite w_app by nepos. rewrite <- W1.
          assert (EN : map num (pre r2 (rev B)) = map num (rev (suf r1 B))).
          { unfold pre, suf. rewrite rev_app_distr. cbn [rev app map num]. rewrite map_map. cbn [num].
            rewrite map_id, map_rev, map_map. cbn [num]. rewrite map_id. auto. }
          rewrite (w_num _ _ EN).
          rewrite (dq_num (last0 (pre r2 (rev B))) (hd0 (suf r2 D)) (hd0 (suf r1 B)) (hd0 (suf r2 D))); [lra| |auto].
          rewrite <- (rev_involutive (suf r1 B)) at 1.
          assert (LN : forall L, num (last0 L) = last (map num L) 0%nat).
          { intros L. induction L as [|a [|b L] IH]; auto. }
          assert (HN : forall L, num (hd0 L) = hd 0%nat (map num L)) by (intros [|a L]; auto).
          rewrite LN, HN, EN, (map_rev _ (rev (suf r1 B))).
          assert (LH : forall L, last L 0%nat = hd 0%nat (rev L)).
          { intros L. destruct L as [|z L'] using rev_ind; auto. rewrite last_last, rev_app_distr. auto. }
          apply LH. }
        rewrite N2, <- EX, <- EY. change (@dist NumQ p) with dq. numq. lra.
      + change (u :: v :: rev C) with ([u; v] ++ rev C). loads. numq. lra.
      + loads. numq. lra.
    - (* exchange of tails *)
      assert (E1' : rs r1 = (A ++ [u]) ++ B) by (rewrite E1, <- app_assoc; auto).
      destruct (read_prefix s rs r1 _ _ H H1 E1') as [CD1 CL1].
      destruct (read_prefix s rs r2 _ _ H H2 E2) as [CD2 CL2].
      pose proof (read_suffix s rs r1 _ _ H H1 E1') as CX.
      pose proof (read_suffix s rs r2 _ _ H H2 E2) as CY.
      rewrite <- EX in CX. rewrite <- EY in CY. rewrite EV in CD2, CL2, CY.
      rewrite !last0_pre_cons in *.
      pose proof (read_dist s rs H r1 H1) as D1. pose proof (read_dist s rs H r2 H2) as D2.
      pose proof (read_load s rs H r1 H1) as L1. pose proof (read_load s rs H r2 H2) as L2.
      rewrite E1', stops_app in D1. rewrite E2, stops_app in D2. rewrite w_app in D1, D2 by nepos.
      rewrite last0_pre_cons in D1. rewrite EV in D2. rewrite <- EX in D1. rewrite <- EY in D2.
      rewrite E1' in L1. rewrite E2 in L2. rewrite !load_app, ?load_cons, ?load_nil in *.
      repeat match goal with x := _ |- _ => subst x end.
      apply change_two; auto.
      + change (u :: D) with ([u] ++ D). rewrite app_assoc, stops_app. rewrite w_app by nepos.
        rewrite last0_pre_cons, (w_suf r1 r2 D), (dq_suf r1 r2 D), <- EY. change (@dist NumQ p) with dq. numq. lra.
      + rewrite stops_app. rewrite w_app by nepos. rewrite EV, (w_suf r2 r1 B), (dq_suf r2 r1 B), <- EX. change (@dist NumQ p) with dq. numq. lra.
      + loads. numq. lra.
      + loads. numq. lra.
  Qed.
End Delta.
