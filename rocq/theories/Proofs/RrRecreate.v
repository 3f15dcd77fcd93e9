(** Recreate: every waiting customer is inserted once; locations are restored. *)
From Coq Require Import List Arith NArith ZArith Bool Lia Permutation.
From Verif.Model Require Import Num Prelude Evaluate Individual Config Matrix World Schedule RuinRecreate.
From Verif.Spec Require Import Solution RuinRecreate.
From Verif.Proofs Require Import Lists EvalThms MatrixFacts RrRuin RrRuinRun.
Import ListNotations.
Local Open Scope nat_scope.

Lemma insert_nth_mid {A} (a b : list A) x : insert_nth (a ++ b) (length a) x = a ++ x :: b.
Proof.
  unfold insert_nth. rewrite firstn_app, Nat.sub_diag, firstn_all, skipn_app, skipn_all, Nat.sub_diag.
  cbn. now rewrite app_nil_r.
Qed.

Lemma last_nth {A} (a b : list A) d : a <> [] -> nth_error (a ++ b) (length a - 1) = Some (last a d).
Proof.
  intro H. destruct (exists_last H) as (a' & x & ->). rewrite last_last, app_length. cbn [length].
  rewrite nth_error_app1 by (rewrite app_length; cbn; lia).
  replace (length a' + 1 - 1) with (length a') by lia. apply nth_error_mid.
Qed.

Section Recreate.
  Context {N : Num}.
  Variable p : problem.
  Variable c : config.
  Notation dim := (p_dim p).
  Notation nv := (c_num_vehicles c).

  (** The extra distance of inserting between [a] and [b]. *)
  Definition pdelta (a : list nat) (node : nat) (b : list nat) : F :=
    ((f0 -: p_dist p (last a 0) (hd 0 b)) +: p_dist p (last a 0) node) +: p_dist p node (hd 0 b).

  Lemma delta_distance_ok ro a b node : ro_nodes ro = a ++ b ->
    delta_distance p ro (length a) node = Ok (pdelta a node b).
  Proof.
    intro E. unfold delta_distance, pdelta. rewrite E.
    assert (G1 : (if length a =? 0 then Ok 0 else geti (a ++ b) (length a - 1)) = Ok (last a 0)).
    { destruct a as [|x a]; [reflexivity|]. cbn [length Nat.eqb]. apply geti_some.
      apply (last_nth (x :: a)). discriminate. }
    rewrite G1. cbn [rbind].
    assert (G2 : (if length a =? length (a ++ b) then Ok 0 else geti (a ++ b) (length a)) = Ok (hd 0 b)).
    { rewrite app_length. destruct b as [|y b].
      - rewrite Nat.add_0_r, Nat.eqb_refl. reflexivity.
      - replace (length a =? length a + length (y :: b)) with false
          by (symmetry; apply Nat.eqb_neq; cbn; lia).
        apply geti_some. apply nth_error_mid. }
    rewrite G2. reflexivity.
  Qed.

  Lemma ro_add_ok ro a b node : ro_nodes ro = a ++ b ->
    exists ro', ro_add p ro (length a) node = Ok ro' /\ ro_nodes ro' = a ++ node :: b.
  Proof.
    intro E. unfold ro_add. rewrite (delta_distance_ok ro a b node E). cbn [rbind].
    eexists. split; [reflexivity|]. cbn [ro_nodes]. rewrite E. apply insert_nth_mid.
  Qed.

  (** The candidates of one route, in the order in which they are tried. *)
  Definition route_cands (customer route : nat) (ro : rroute) (cost : F -> F) : list (nat * nat * F) :=
    map (fun i => (route, i, cost (pdelta (firstn i (ro_nodes ro)) customer (skipn i (ro_nodes ro)))))
        (seq 0 (length (ro_nodes ro) + 1)).
  Definition pick (best : insertion) (l : list (nat * nat * F)) : insertion :=
    fold_left (fun best x => consider (fst (fst x)) (snd (fst x)) (snd x) best) l best.

  Lemma foldm_pure {A S} (f : S -> A -> res S) (g : S -> A -> S) l : forall s,
    (forall s a, In a l -> f s a = Ok (g s a)) -> foldm f l s = Ok (fold_left g l s).
  Proof.
    induction l as [|a l IH]; intros s H; cbn [foldm fold_left]; auto.
    rewrite H by now left. apply IH. intros; apply H; now right.
  Qed.
  Lemma fold_left_map {A B S} (f : S -> B -> S) (g : A -> B) l : forall s,
    fold_left f (map g l) s = fold_left (fun s a => f s (g a)) l s.
  Proof. induction l; intros; cbn; auto. Qed.

  Lemma try_route_eq customer route ro cost best :
    try_route p customer route ro cost best = Ok (pick best (route_cands customer route ro cost)).
  Proof.
    unfold try_route, pick, route_cands. rewrite fold_left_map. cbn [fst snd].
    apply (foldm_pure _ (fun best i => consider route i (cost (pdelta (firstn i (ro_nodes ro)) customer (skipn i (ro_nodes ro)))) best)).
    intros b i Hi. apply in_seq in Hi.
    replace (delta_distance p ro i customer) with (delta_distance p ro (length (firstn i (ro_nodes ro))) customer)
      by (rewrite firstn_length; f_equal; lia).
    rewrite (delta_distance_ok ro (firstn i (ro_nodes ro)) (skipn i (ro_nodes ro))) by now rewrite firstn_skipn.
    reflexivity.
  Qed.

  Definition fits (s : rsol) (customer route : nat) : bool :=
    match nth_error (so_routes s) route with
    | Some ro => approx_lte (ro_over ro +: p_demand p customer) f0
    | None => false
    end.
  Definition touched_cands (s : rsol) (customer : nat) (order : list nat) : list (nat * nat * F) :=
    flat_map (fun route => match nth_error (so_routes s) route with
                           | Some ro => if approx_lte (ro_over ro +: p_demand p customer) f0
                                        then route_cands customer route ro (fun d => d) else []
                           | None => []
                           end) order.
  Definition all_cands (pen : F) (s : rsol) (customer : nat) : list (nat * nat * F) :=
    flat_map (fun kr => route_cands customer (fst kr) (snd kr)
                (fun d => d +: fmax f0 (ro_over (snd kr) +: p_demand p customer) *: pen))
             (combine (seq 0 (length (so_routes s))) (so_routes s)).

  Lemma pick_app best l1 l2 : pick best (l1 ++ l2) = pick (pick best l1) l2.
  Proof. apply fold_left_app. Qed.

  Lemma fold_flat {A} (f : A -> list (nat * nat * F)) l : forall best,
    fold_left (fun best a => pick best (f a)) l best = pick best (flat_map f l).
  Proof. induction l as [|a l IH]; intros; cbn [fold_left flat_map]; auto. now rewrite IH, pick_app. Qed.

  Lemma try_touched_eq s customer order : (forall r, In r order -> r < length (so_routes s)) ->
    try_touched p s customer order = Ok (pick None (touched_cands s customer order)).
  Proof.
    intro H. unfold try_touched, touched_cands. rewrite <- fold_flat. apply foldm_pure.
    intros b r Hr. specialize (H r Hr). destruct (nth_error (so_routes s) r) as [ro|] eqn:E;
      [|apply nth_error_None in E; lia].
    rewrite (geti_some _ _ _ E). cbn [rbind].
    destruct (approx_lte (ro_over ro +: p_demand p customer) f0); auto. apply try_route_eq.
  Qed.
  Lemma try_all_eq pen s customer : try_all p pen s customer = Ok (pick None (all_cands pen s customer)).
  Proof.
    unfold try_all, all_cands. rewrite <- fold_flat. apply foldm_pure.
    intros b [r ro] _. apply try_route_eq.
  Qed.

  (** The candidates are places of the routes. *)
  Lemma in_route_cands x customer route ro cost : In x (route_cands customer route ro cost) <->
    exists a b, ro_nodes ro = a ++ b /\ x = (route, length a, cost (pdelta a customer b)).
  Proof.
    unfold route_cands. rewrite in_map_iff. split.
    - intros (i & <- & Hi). apply in_seq in Hi. exists (firstn i (ro_nodes ro)), (skipn i (ro_nodes ro)).
      rewrite firstn_skipn. split; auto. rewrite firstn_length. do 2 f_equal. lia.
    - intros (a & b & E & ->). exists (length a). rewrite in_seq, E, app_length. split; [|lia].
      now rewrite firstn_app, skipn_app, Nat.sub_diag, firstn_all, skipn_all, app_nil_r.
  Qed.
  Lemma in_touched_cands x s customer order : In x (touched_cands s customer order) <->
    exists r ro a b, In r order /\ nth_error (so_routes s) r = Some ro /\
      approx_lte (ro_over ro +: p_demand p customer) f0 = true /\
      ro_nodes ro = a ++ b /\ x = (r, length a, pdelta a customer b).
  Proof.
    unfold touched_cands. rewrite in_flat_map. split.
    - intros (r & Hr & Hx). destruct (nth_error (so_routes s) r) as [ro|] eqn:E; [|destruct Hx].
      destruct (approx_lte (ro_over ro +: p_demand p customer) f0) eqn:A; [|destruct Hx].
      apply in_route_cands in Hx. destruct Hx as (a & b & E1 & E2). exists r, ro, a, b. auto.
    - intros (r & ro & a & b & H1 & H2 & H3 & H4 & H5). exists r. split; auto. rewrite H2, H3.
      apply in_route_cands. eauto.
  Qed.
  Lemma in_all_cands x pen s customer : In x (all_cands pen s customer) <->
    exists r ro a b, nth_error (so_routes s) r = Some ro /\ ro_nodes ro = a ++ b /\
      x = (r, length a, pdelta a customer b +: fmax f0 (ro_over ro +: p_demand p customer) *: pen).
  Proof.
    unfold all_cands. rewrite in_flat_map. split.
    - intros ([r ro] & Hr & Hx). apply in_combine_seq in Hr. destruct Hr as [_ Hr]. rewrite Nat.sub_0_r in Hr.
      apply in_route_cands in Hx. destruct Hx as (a & b & E1 & E2). exists r, ro, a, b. auto.
    - intros (r & ro & a & b & H2 & H4 & H5). exists (r, ro). split.
      + apply in_combine_seq. rewrite Nat.sub_0_r. split; auto. apply nth_error_Some_lt in H2 || idtac; lia.
      + apply in_route_cands. eauto.
  Qed.

  Lemma consider_cases r i v b : consider r i v b = b \/ consider r i v b = Some (r, i, v).
  Proof.
    unfold consider. destruct b as [[[? ?] w]|]; [destruct (approx_lt v w)|destruct (flt_max v)]; auto.
  Qed.
  Lemma pick_in l : forall best x, pick best l = Some x -> best = Some x \/ In x l.
  Proof.
    induction l as [|[[r i] v] l IH]; intros best x H; [now left|].
    change (pick (consider r i v best) l = Some x) in H. apply IH in H. destruct H as [H|H]; [|right; now right].
    destruct (consider_cases r i v best) as [E|E]; rewrite E in H; auto.
    injection H as <-. right. now left.
  Qed.
  Lemma pick_some l : forall b, pick (Some b) l <> None.
  Proof.
    induction l as [|[[r i] v] l IH]; intros b; [discriminate|].
    change (pick (consider r i v (Some b)) l <> None). destruct (consider_cases r i v (Some b)) as [E|E]; rewrite E; apply IH.
  Qed.
  Lemma pick_none l : pick None l = None -> forall x, In x l -> flt_max (snd x) = false.
  Proof.
    induction l as [|[[r i] v] l IH]; intros H x I; [destruct I|].
    change (pick (if flt_max v then Some (r, i, v) else None) l = None) in H.
    destruct (flt_max v) eqn:E.
    - exfalso. now apply (pick_some l (r, i, v)).
    - destruct I as [<-|I]; auto.
  Qed.

  (** A property of routes kept by insertions. *)
  Variable good : rroute -> Prop.
  Hypothesis good_add : forall ro i n ro', good ro -> ro_add p ro i n = Ok ro' -> proper p (ro_nodes ro') -> good ro'.

  (** The effect of an insertion. *)
  Definition inserted (r : nat) (a b : list nat) (customer : nat) (s s' : rsol) : Prop :=
    exists ro ro', nth_error (so_routes s) r = Some ro /\ ro_nodes ro = a ++ b /\
      ro_add p ro (length a) customer = Ok ro' /\ ro_nodes ro' = a ++ customer :: b /\
      s' = so_set_routes s (upd (so_routes s) r ro').

  Lemma place_customer_eq pen s updated hash customer :
    (forall r, In r updated -> r < length (so_routes s)) ->
    exists order hash', Permutation order updated /\
      match (match pick None (touched_cands s customer order) with
             | Some b => Some b
             | None => pick None (all_cands pen s customer)
             end) with
      | Some (r, i, v) => exists a b s', length a = i /\ inserted r a b customer s s' /\
          place_customer p pen (s, updated, hash) customer = Ok (s', set_insert r updated, hash')
      | None => place_customer p pen (s, updated, hash) customer = Err EPanic
      end.
  Proof using.
    intro H. unfold place_customer. destruct (hash_iter updated hash) as [order hash'] eqn:EH.
    assert (P : Permutation order updated) by (eapply shuffle_perm; exact EH).
    exists order, hash'. split; auto.
    rewrite try_touched_eq.
    2:{ intros r Hr. apply H. eapply Permutation_in; eauto. }
    cbn [rbind].
    assert (INS : forall r i v, (exists ro a b, nth_error (so_routes s) r = Some ro /\ ro_nodes ro = a ++ b /\ i = length a) ->
      exists a b s', length a = i /\ inserted r a b customer s s' /\
        match Some (r, i, v : F) with
        | Some (route, index, _) => rbind (insert_at p s route index customer) (fun s => Ok (s, set_insert route updated, hash'))
        | None => Err EPanic
        end = Ok (s', set_insert r updated, hash')).
    { intros r i v (ro & a & b & E1 & E2 & E3). destruct (ro_add_ok ro a b customer E2) as (ro' & G & G2).
      exists a, b, (so_set_routes s (upd (so_routes s) r ro')). split; auto. split.
      - exists ro, ro'. auto.
      - unfold insert_at. rewrite (geti_some _ _ _ E1). cbn [rbind]. rewrite E3, G. reflexivity. }
    destruct (pick None (touched_cands s customer order)) as [[[r i] v]|] eqn:E1.
    - cbn [rbind]. apply (INS r i v). apply pick_in in E1. destruct E1 as [E1|E1]; [discriminate|].
      apply in_touched_cands in E1. destruct E1 as (r' & ro & a & b & _ & F2 & _ & F3 & F4).
      injection F4 as -> -> ->. eauto 6.
    - rewrite try_all_eq. cbn [rbind].
      destruct (pick None (all_cands pen s customer)) as [[[r i] v]|] eqn:E2; auto.
      apply (INS r i v). apply pick_in in E2. destruct E2 as [E2|E2]; [discriminate|].
      apply in_all_cands in E2. destruct E2 as (r' & ro & a & b & F2 & F3 & F4).
      injection F4 as -> -> ->. eauto 6.
  Qed.

  (** ** Locations *)
  Lemma place_route_ok (r : nat) : forall (nodes : list nat) (k : nat) (loc : list (nat * nat)), (forall n, In n nodes -> n < length loc) -> NoDup nodes ->
    exists loc', foldm (fun loc (kn : nat * nat) => seti loc (snd kn) (r, fst kn))
                   (combine (seq k (length nodes)) nodes) loc = Ok loc' /\
      length loc' = length loc /\
      (forall i n, nth_error nodes i = Some n -> nth_error loc' n = Some (r, k + i)) /\
      (forall n, ~ In n nodes -> nth_error loc' n = nth_error loc n).
  Proof using.
    induction nodes as [|x nodes IH]; intros k loc H D.
    - exists loc. cbn. split; auto. split; auto. split; auto. intros [|i] n; discriminate.
    - cbn [length seq combine foldm fst snd]. rewrite seti_ok by (apply H; now left).
      inversion D as [|? ? D1 D2]; subst.
      destruct (IH (S k) (upd loc x (r, k))) as (loc' & G & L & G1 & G2); auto.
      { intros n Hn. rewrite upd_length. apply H. now right. }
      exists loc'. split; [exact G|]. rewrite upd_length in L. split; auto. split.
      + intros [|i] n Hn; cbn in Hn.
        * injection Hn as ->. rewrite G2 by auto. rewrite nth_error_upd, Nat.eqb_refl.
          assert (n < length loc) as Hl by (apply H; now left). apply Nat.ltb_lt in Hl. rewrite Hl.
          now rewrite Nat.add_0_r.
        * rewrite (G1 i n Hn). do 2 f_equal. lia.
      + intros n Hn. rewrite G2 by (intro; apply Hn; now right). rewrite nth_error_upd.
        destruct (x =? n) eqn:Z; auto. apply Nat.eqb_eq in Z. subst. exfalso. apply Hn. now left.
  Qed.

  Lemma nodup_route {A} (l : list (list A)) r x : NoDup (concat l) -> nth_error l r = Some x -> NoDup x.
  Proof using.
    intros D H. apply nth_error_split in H. destruct H as (l1 & l2 & -> & _). rewrite concat_mid in D.
    apply NoDup_app_inv in D. destruct D as (_ & D & _). apply NoDup_app_inv in D. tauto.
  Qed.
  Lemma nodup_routes_disjoint {A} (l : list (list A)) r1 r2 x y n : NoDup (concat l) ->
    nth_error l r1 = Some x -> nth_error l r2 = Some y -> In n x -> In n y -> r1 = r2.
  Proof using.
    revert r1 r2. induction l as [|z l IH]; intros r1 r2 D H1 H2 I1 I2; [destruct r1; discriminate|].
    cbn [concat] in D. apply NoDup_app_inv in D. destruct D as (D1 & D2 & D3).
    destruct r1 as [|r1], r2 as [|r2]; cbn in H1, H2; try reflexivity.
    - injection H1 as ->. exfalso. apply (D3 n I1). apply in_concat. exists y. split; auto. eapply nth_error_In; eauto.
    - injection H2 as ->. exfalso. apply (D3 n I2). apply in_concat. exists x. split; auto. eapply nth_error_In; eauto.
    - f_equal. eapply IH; eauto.
  Qed.

  (** Writing the locations of the routes in [order]. *)
  Lemma place_routes_ok s : forall order loc,
    (forall r, In r order -> r < length (so_routes s)) -> NoDup (concat (routes_of s)) ->
    (forall n, In n (concat (routes_of s)) -> n < length loc) ->
    exists loc', foldm (fun loc r => rbind (geti (so_routes s) r) (fun ro => place_route r (ro_nodes ro) loc))
                   order loc = Ok loc' /\ length loc' = length loc /\
      (forall r i nodes n, nth_error (routes_of s) r = Some nodes -> nth_error nodes i = Some n ->
         (In r order \/ nth_error loc n = Some (r, i)) -> nth_error loc' n = Some (r, i)).
  Proof using.
    induction order as [|r order IH]; intros loc H1 D H2.
    - exists loc. split; auto. split; auto. intros r i nodes n _ _ [[]|H]; auto.
    - cbn [foldm]. assert (Lr : r < length (so_routes s)) by (apply H1; now left).
      destruct (nth_error (so_routes s) r) as [ro|] eqn:E; [|apply nth_error_None in E; lia].
      rewrite (geti_some _ _ _ E). cbn [rbind].
      assert (En : nth_error (routes_of s) r = Some (ro_nodes ro)) by (rewrite routes_nth, E; auto).
      destruct (place_route_ok r (ro_nodes ro) 0 loc) as (loc1 & G & L & G1 & G2).
      { intros n Hn. apply H2. eapply in_routes; eauto. }
      { eapply nodup_route; eauto. }
      unfold place_route. rewrite G.
      destruct (IH loc1) as (loc2 & K & L2 & K2); auto; [intros; apply H1; now right|intros; rewrite L; auto|].
      exists loc2. split; [exact K|]. split; [congruence|].
      intros k i nodes n F1 F2 F3. apply (K2 k i nodes n); auto.
      destruct (Nat.eq_dec k r) as [->|Ne].
      + right. rewrite En in F1. injection F1 as <-. rewrite (G1 i n F2). reflexivity.
      + destruct F3 as [[F3|F3]|F3]; [congruence|now left|]. right.
        rewrite G2; auto. intro I. apply Ne. eapply nodup_routes_disjoint; eauto. eapply nth_error_In; eauto.
  Qed.

  Lemma perm_proper (rs : list (list nat)) un : Permutation (concat rs ++ un) (seq 1 (dim - 1)) ->
    forall nodes, In nodes rs -> proper p nodes.
  Proof using.
    intros P nodes IN. assert (ND : NoDup (concat rs ++ un)) by (apply (Permutation_NoDup (Permutation_sym P)), seq_NoDup).
    split.
    - destruct (In_nth_error _ _ IN) as (r & Hr). eapply nodup_route; [|exact Hr]. now apply NoDup_app_inv in ND.
    - intros n Hn. assert (K : In n (seq 1 (dim - 1))).
      { eapply Permutation_in; [exact P|]. apply in_or_app. left. apply in_concat. eauto. }
      apply in_seq in K. lia.
  Qed.

  (** ** The whole step *)

  (** The state while customers are being inserted: [un] are still waiting. *)
  Record fill (un : list nat) (updated : list nat) (s : rsol) : Prop := {
    fi_routes : length (so_routes s) = nv;
    fi_len : length (so_loc s) = dim;
    fi_all : Permutation (concat (routes_of s) ++ un) (seq 1 (dim - 1));
    fi_un : so_un s = [];
    fi_loc : located_on (fun r => ~ In r updated) s;
    fi_lt : forall r, In r updated -> r < nv;
    fi_good : Forall good (so_routes s)
  }.

  Lemma inserted_routes r a b x s s' : inserted r a b x s s' ->
    nth_error (routes_of s) r = Some (a ++ b) /\ routes_of s' = upd (routes_of s) r (a ++ x :: b).
  Proof using.
    intros (ro & ro' & E1 & E2 & E3 & E4 & ->). split.
    - rewrite routes_nth, E1. cbn. now rewrite E2.
    - unfold routes_of. cbn [so_routes so_set_routes]. rewrite map_upd. now rewrite E4.
  Qed.

  Lemma fill_inserted un updated s r a b x s' : fill (x :: un) updated s -> inserted r a b x s s' ->
    fill un (set_insert r updated) s'.
  Proof using good_add.
    intros M I. pose proof (inserted_routes _ _ _ _ _ _ I) as [E1 E2].
    destruct I as (ro & ro' & F1 & F2 & F3 & F4 & ->).
    assert (Lr : r < nv). { rewrite <- (fi_routes _ _ _ M). apply nth_error_Some. congruence. }
    assert (AL : Permutation (concat (upd (routes_of s) r (a ++ x :: b)) ++ un) (seq 1 (dim - 1))).
    { etransitivity; [|apply (fi_all _ _ _ M)].
      destruct (concat_upd _ r (a ++ b) (a ++ x :: b) E1) as (u & v & -> & ->).
      rewrite <- !app_assoc. apply Permutation_app_head. apply Permutation_app_head.
      cbn [app]. rewrite Permutation_middle. apply Permutation_app_head.
      apply Permutation_middle. }
    constructor; cbn [so_routes so_un so_loc so_set_routes].
    - rewrite upd_length. apply (fi_routes _ _ _ M).
    - apply (fi_len _ _ _ M).
    - now rewrite E2.
    - apply (fi_un _ _ _ M).
    - intros k i nodes n H1 H2 H3. rewrite set_insert_In in H1. rewrite E2 in H2.
      rewrite nth_error_upd in H2. destruct (r =? k) eqn:Z; [apply Nat.eqb_eq in Z; subst; tauto|].
      cbn [so_loc so_set_routes]. eapply (fi_loc _ _ _ M); eauto.
    - intros k. rewrite set_insert_In. intros [->|H]; auto. now apply (fi_lt _ _ _ M).
    - pose proof (fi_good _ _ _ M) as G. rewrite Forall_forall in *. intros ro1 H1.
      apply In_nth_error in H1. destruct H1 as [k H1]. rewrite nth_error_upd in H1.
      destruct (r =? k).
      + destruct (k <? length (so_routes s)); [|discriminate]. injection H1 as <-.
        eapply good_add; [|exact F3|]; [apply G; eapply nth_error_In; eauto|].
        apply (perm_proper (upd (routes_of s) r (a ++ x :: b)) un AL).
        rewrite F4. apply (nth_error_In _ r). rewrite nth_error_upd, Nat.eqb_refl.
        assert (Z : r <? length (routes_of s) = true) by (apply Nat.ltb_lt, nth_error_Some; congruence). now rewrite Z.
      + apply G. eapply nth_error_In; eauto.
  Qed.

  (** A run of insertions, with what each one picked. *)
  Inductive placed (pen : F) : list nat -> rsol -> list nat -> rsol -> list nat -> Prop :=
  | placed_nil s updated : placed pen [] s updated s updated
  | placed_cons x un s updated order r a b v s1 s2 updated2 :
      fill (x :: un) updated s ->
      Permutation order updated ->
      match pick None (touched_cands s x order) with
      | Some w => Some w
      | None => pick None (all_cands pen s x)
      end = Some (r, length a, v) ->
      inserted r a b x s s1 ->
      placed pen un s1 (set_insert r updated) s2 updated2 ->
      placed pen (x :: un) s updated s2 updated2.

  (** The first place of a route is worth less than [f64::MAX]. *)
  Definition room (pen : F) : Prop := forall ro x, good ro -> proper p (ro_nodes ro) -> 1 <= x < dim ->
    flt_max (pdelta [] x (ro_nodes ro) +: fmax f0 (ro_over ro +: p_demand p x) *: pen) = true.

  Lemma place_all pen : forall un s updated hash, fill un updated s ->
    (exists s' updated' hash', foldm (place_customer p pen) un (s, updated, hash) = Ok (s', updated', hash') /\
       fill [] updated' s' /\ placed pen un s updated s' updated')
    \/ (foldm (place_customer p pen) un (s, updated, hash) = Err EPanic /\ 0 < nv /\ ~ room pen)
    \/ nv = 0.
  Proof using good_add.
    induction un as [|x un IH]; intros s updated hash M.
    { left. exists s, updated, hash. repeat (split; auto). constructor. }
    destruct (Nat.eq_dec nv 0) as [Z|Z]; [now right; right|].
    destruct (place_customer_eq pen s updated hash x) as (order & hash' & P & H).
    { intros r Hr. rewrite (fi_routes _ _ _ M). now apply (fi_lt _ _ _ M). }
    cbn [foldm].
    destruct (match pick None (touched_cands s x order) with
             | Some b => Some b
             | None => pick None (all_cands pen s x)
             end) as [[[r i] v]|] eqn:EP.
    - destruct H as (a & b & s1 & La & I & G). rewrite G.
      destruct (IH s1 (set_insert r updated) hash' (fill_inserted _ _ _ _ _ _ _ _ M I))
        as [(s2 & u2 & h2 & G2 & M2 & P2)|[[G2 B]|B]]; auto.
      left. exists s2, u2, h2. rewrite G2. split; auto. split; auto.
      subst i. econstructor; eauto.
    - right. left. rewrite H. split; auto. split; [lia|].
      destruct (pick None (touched_cands s x order)); [discriminate|].
      destruct (so_routes s) as [|ro rs] eqn:ER.
      { pose proof (fi_routes _ _ _ M) as L. rewrite ER in L. cbn in L. lia. }
      assert (I : In (0, 0, pdelta [] x (ro_nodes ro) +: fmax f0 (ro_over ro +: p_demand p x) *: pen)
                     (all_cands pen s x)).
      { apply in_all_cands. exists 0, ro, [], (ro_nodes ro). rewrite ER. auto. }
      intro RM. pose proof (pick_none _ EP _ I) as K. cbn [snd] in K. rewrite RM in K; [discriminate| | |].
      + pose proof (fi_good _ _ _ M) as G. rewrite ER in G. now inversion G.
      + apply (perm_proper (routes_of s) (x :: un) (fi_all _ _ _ M)). unfold routes_of. rewrite ER. now left.
      + pose proof (fi_all _ _ _ M) as G. assert (IN : In x (seq 1 (dim - 1))).
        { eapply Permutation_in; [exact G|]. apply in_or_app. right. now left. }
        apply in_seq in IN. lia.
  Qed.

  Lemma sort_unassigned_perm un r un' r' : sort_unassigned p un r = Ok (un', r') -> Permutation un' un.
  Proof using.
    unfold sort_unassigned. destruct (range_usize 0 11 r) as [[k r1]|]; [|discriminate]. cbn [rbind].
    assert (SK : forall d key l l', sort_key d key l = Ok l' -> Permutation l' l).
    { intros d key l l'. unfold sort_key. destruct (_ && _); [discriminate|]. intro H. injection H as <-.
      apply isort_perm. }
    repeat match goal with |- context [if ?b then _ else _] => destruct b end;
      try (destruct (sort_key _ _ _) eqn:K; [|discriminate]; cbn [rbind]; intro H; injection H as <- _; eauto).
    intro H. injection H as H. destruct (shuffle un r1) as [l q] eqn:E. injection H as <- <-. eapply shuffle_perm; eauto.
  Qed.

  (** The keys of the sorts are numbers. *)
  Definition keys_ok : Prop := forall n, n < dim -> fisnan (p_demand p n) = false /\ fisnan (p_dist p n 0) = false.
  Lemma sort_unassigned_ok un r : keys_ok -> (forall n, In n un -> n < dim) -> exists un' r', sort_unassigned p un r = Ok (un', r').
  Proof using.
    intros NN IN. unfold sort_unassigned. destruct (range_usize_ok 0 11 r) as (k & r1 & G); [lia|]. rewrite G. cbn [rbind].
    assert (SK : forall d key, (forall n, n < dim -> fisnan (key n) = false) -> exists l', sort_key d key un = Ok l').
    { intros d key K. unfold sort_key. replace (existsb (fun n => fisnan (key n)) un) with false.
      - rewrite andb_false_r. eauto.
      - symmetry. apply not_true_is_false. intro H. apply existsb_exists in H. destruct H as (n & Hn & H).
        rewrite K in H; [discriminate|auto]. }
    destruct (k <? 4); [destruct (shuffle un r1); eauto|].
    destruct (k <? 8); [destruct (SK true (p_demand p)) as (l & ->); [intros; now apply NN|]; cbn [rbind]; eauto|].
    destruct (k <? 10); [destruct (SK true (fun n => p_dist p n 0)) as (l & ->)|
                         destruct (SK false (fun n => p_dist p n 0)) as (l & ->)];
      try (intros; now apply NN); cbn [rbind]; eauto.
  Qed.

  Lemma mid_fill s un : mid p c good s -> Permutation un (so_un s) -> fill un (so_ruined s) (so_set_un s []).
  Proof using.
    intros M P. constructor; cbn [so_routes so_un so_loc so_set_un].
    - apply (mi_routes _ _ _ _ M).
    - apply (mi_len _ _ _ _ M).
    - rewrite P. apply (mi_all _ _ _ _ M).
    - auto.
    - intros r i nodes n. apply (mi_loc _ _ _ _ M).
    - apply (mi_lt _ _ _ _ M).
    - apply (mi_good _ _ _ _ M).
  Qed.

  Lemma fill_settled pen order updated s hash hash' : fill [] updated s -> hash_iter updated hash = (order, hash') ->
    exists s', so_evaluate pen order s = Ok s' /\ settled_sol p c (so_set_ruined s' []) /\
      so_routes s' = so_routes s /\ so_cost s' = Some (so_total pen s).
  Proof using.
    intros M EH. assert (P : Permutation order updated) by (eapply shuffle_perm; exact EH).
    assert (S : Permutation (concat (routes_of s)) (seq 1 (dim - 1))).
    { pose proof (fi_all _ _ _ M) as H. now rewrite app_nil_r in H. }
    unfold so_evaluate. cbn [so_routes so_loc so_set_cost].
    destruct (place_routes_ok s order (so_loc s)) as (loc & G & L & GL).
    { intros r Hr. rewrite (fi_routes _ _ _ M). apply (fi_lt _ _ _ M). eapply Permutation_in; eauto. }
    { eapply Permutation_NoDup; [symmetry; exact S|]. apply seq_NoDup. }
    { intros n Hn. rewrite (fi_len _ _ _ M). eapply Permutation_in in Hn; [|exact S]. apply in_seq in Hn. lia. }
    rewrite G. cbn [rbind]. eexists. split; [reflexivity|]. split; [|auto].
    constructor; cbn [so_routes so_un so_ruined so_loc so_set_loc so_set_cost so_set_ruined]; auto.
    - apply (fi_routes _ _ _ M).
    - rewrite L. apply (fi_len _ _ _ M).
    - apply (fi_un _ _ _ M).
    - intros r i nodes n _ H1 H2. cbn [so_loc so_set_loc so_set_ruined].
      apply (GL r i nodes n H1 H2). destruct (in_dec Nat.eq_dec r order); auto. right.
      eapply (fi_loc _ _ _ M); eauto. intro I. apply n0. eapply Permutation_in; [symmetry; exact P|exact I].
  Qed.

  (** What recreate does with a state left by ruin. *)
  Definition recreated (pen : F) (s s' : rsol) : Prop :=
    settled_sol p c s' /\ Forall good (so_routes s') /\ so_cost s' = Some (so_total pen s') /\
    exists un, Permutation un (so_un s) /\
    exists s1 updated1, placed pen un (so_set_un s []) (so_ruined s) s1 updated1 /\ so_routes s1 = so_routes s'.

  Lemma recreate_run_partial pen s r hash s' r' hash' : mid p c good s -> 0 < nv ->
    recreate_run p pen s r hash = Ok (s', r', hash') -> recreated pen s s'.
  Proof using good_add.
    intros M V. unfold recreate_run.
    destruct (sort_unassigned p (so_un s) r) as [[un r1]|] eqn:EU; [|discriminate]. cbn [rbind].
    apply sort_unassigned_perm in EU.
    destruct (place_all pen un (so_set_un s []) (so_ruined s) hash (mid_fill s un M EU))
      as [(s1 & u1 & h1 & G & F & P)|[[G _]|B]]; [| |lia].
    - rewrite G. cbn [rbind]. destruct (hash_iter u1 h1) as [order h2] eqn:EH.
      destruct (fill_settled pen order u1 s1 h1 h2 F EH) as (s2 & G2 & S2 & R2 & C2).
      rewrite G2. cbn [rbind]. intro E. injection E as <- _ _. split; auto. split; [|split].
      + cbn [so_routes so_set_ruined]. rewrite R2. apply (fi_good _ _ _ F).
      + cbn [so_cost so_set_ruined]. rewrite C2. unfold so_total. cbn [so_routes so_set_ruined]. now rewrite R2.
      + exists un. split; auto. exists s1, u1. split; auto.
    - rewrite G. discriminate.
  Qed.

  Lemma recreate_run_total pen s r hash : mid p c good s -> 0 < nv ->
    keys_ok -> room pen ->
    exists s' r' hash', recreate_run p pen s r hash = Ok (s', r', hash').
  Proof using good_add.
    intros M V NN FM. unfold recreate_run.
    destruct (sort_unassigned_ok (so_un s) r NN) as (un & r1 & EU).
    { intros n Hn. assert (IN : In n (seq 1 (dim - 1))).
      { eapply Permutation_in; [apply (mi_all _ _ _ _ M)|]. apply in_or_app. now right. }
      apply in_seq in IN. lia. }
    rewrite EU. cbn [rbind].
    apply sort_unassigned_perm in EU.
    destruct (place_all pen un (so_set_un s []) (so_ruined s) hash (mid_fill s un M EU))
      as [(s1 & u1 & h1 & G & F & P)|[(_ & _ & B)|B]]; [|contradiction|lia].
    rewrite G. cbn [rbind]. destruct (hash_iter u1 h1) as [order h2] eqn:EH.
    destruct (fill_settled pen order u1 s1 h1 h2 F EH) as (s2 & G2 & _).
    rewrite G2. cbn [rbind]. eauto.
  Qed.
End Recreate.
