(** Facts about the evaluation model: closed form of its result, for any arithmetic, and its
    meaning in exact arithmetic. *)
From Coq Require Import List Arith NArith ZArith QArith Bool Lia Lqa Permutation.
From Verif.Model Require Import Num Prelude Evaluate.
From Verif.Spec Require Import Solution.
From Verif.Proofs Require Import Lists QNum.
Import ListNotations.
Local Open Scope nat_scope.

Section Generic.
  Context {N : Num}.
  Variable p : problem.

  (** Distance accumulated along a route, starting at [last] with [acc]. *)
  Fixpoint gdist (acc : F) (last : nat) (r : list nat) : F :=
    match r with
    | [] => acc +: p_dist p last 0
    | n :: t => gdist (acc +: p_dist p last n) n t
    end.
  Definition gload (acc : F) (r : list nat) : F :=
    fold_left (fun a n => a +: p_demand p n) r acc.
  Definition gover (r : list nat) : F := gload f0 r -: p_cap p.
  Definition gcost (pen : F) (r : list nat) : F := route_cost (gdist f0 0 r) (gover r) pen.
  Definition gtotal (pen : F) (routes : list (list nat)) : F :=
    fold_left (fun a r => a +: gcost pen r) routes f0.
  Definition gfeasible (routes : list (list nat)) : bool :=
    forallb (fun r => negb (approx_gt (gover r) f0)) routes.
  Fixpoint spred (last : nat) (r : list nat) (preds : list nat) : list nat :=
    match r with [] => preds | n :: t => spred n t (upd preds n last) end.
  Fixpoint ssucc (last : nat) (r : list nat) (succs : list nat) : list nat :=
    match r with [] => upd succs last 0 | n :: t => ssucc n t (upd succs last n) end.
  Definition gpreds (routes : list (list nat)) (preds : list nat) : list nat :=
    fold_left (fun ps r => spred 0 r ps) routes preds.
  Definition gsuccs (routes : list (list nat)) (succs : list nat) : list nat :=
    fold_left (fun ss r => ssucc 0 r ss) routes succs.

  Lemma spred_length last r ps : length (spred last r ps) = length ps.
  Proof. revert last ps; induction r; intros; simpl; auto. rewrite IHr. apply upd_length. Qed.
  Lemma ssucc_length last r ps : length (ssucc last r ps) = length ps.
  Proof.
    revert last ps; induction r; intros; simpl; auto using upd_length.
    rewrite IHr. apply upd_length.
  Qed.
  Lemma gpreds_length rs ps : length (gpreds rs ps) = length ps.
  Proof.
    unfold gpreds. revert ps; induction rs; intros; simpl; auto. rewrite IHrs. apply spred_length.
  Qed.
  Lemma gsuccs_length rs ps : length (gsuccs rs ps) = length ps.
  Proof.
    unfold gsuccs. revert ps; induction rs; intros; simpl; auto. rewrite IHrs. apply ssucc_length.
  Qed.

  Lemma eval_steps r : forall last load dist preds succs,
    (forall n, In n r -> n < p_dim p) -> last < p_dim p ->
    length preds = p_dim p -> length succs = p_dim p ->
    exists last' dist' succs',
      foldm (eval_step p) r (last, load, dist, preds, succs)
      = Ok (last', gload load r, dist', spred last r preds, succs')
      /\ last' < p_dim p /\ length succs' = p_dim p
      /\ dist' +: p_dist p last' 0 = gdist dist last r
      /\ upd succs' last' 0 = ssucc last r succs.
  Proof.
    induction r as [|n r IH]; intros last load dist preds succs Hr Hl Hp Hs.
    - exists last, dist, succs. simpl. auto.
    - assert (Hn : n < p_dim p) by (apply Hr; now left).
      simpl. apply Nat.ltb_lt in Hn as Hn'. rewrite Hn'.
      rewrite !seti_ok by lia. simpl.
      destruct (IH n (load +: p_demand p n) (dist +: p_dist p last n)
                   (upd preds n last) (upd succs last n)) as (l' & d' & s' & H); auto.
      + intros; apply Hr; now right.
      + now rewrite upd_length.
      + now rewrite upd_length.
      + exists l', d', s'. exact H.
  Qed.

  Lemma eval_route_eq pen r res_ total feas preds succs :
    (forall n, In n r -> n < p_dim p) -> 0 < p_dim p ->
    length preds = p_dim p -> length succs = p_dim p ->
    eval_route p pen (res_, total, feas, preds, succs) r =
    Ok (res_ ++ [mkRE (gdist f0 0 r) (gover r) (gcost pen r)], total +: gcost pen r,
        (if approx_gt (gover r) f0 then false else feas), spred 0 r preds, ssucc 0 r succs).
  Proof.
    intros Hr H0 Hp Hs. unfold eval_route.
    destruct (eval_steps r 0 f0 f0 preds succs Hr H0 Hp Hs) as (l' & d' & s' & E & Hl & Hs' & Ed & Es).
    rewrite E. unfold rbind. rewrite seti_ok by lia. rewrite Ed, Es. reflexivity.
  Qed.

  Definition geval (pen : F) (e : sol_eval) (routes : list (list nat)) : sol_eval :=
    mkSE (Some (gtotal pen routes)) (gfeasible routes)
         (map (fun r => mkRE (gdist f0 0 r) (gover r) (gcost pen r)) routes)
         (gpreds routes (resize (se_pred e) (p_dim p) 0))
         (gsuccs routes (resize (se_succ e) (p_dim p) 0)).

  Lemma evaluate_eq pen e routes :
    (forall n, In n (concat routes) -> n < p_dim p) -> 0 < p_dim p ->
    evaluate p pen e routes = Ok (geval pen e routes).
  Proof.
    intros Hr H0. unfold evaluate, geval.
    assert (G : forall routes res_ total feas preds succs,
      (forall n, In n (concat routes) -> n < p_dim p) ->
      length preds = p_dim p -> length succs = p_dim p ->
      foldm (eval_route p pen) routes (res_, total, feas, preds, succs) =
      Ok (res_ ++ map (fun r => mkRE (gdist f0 0 r) (gover r) (gcost pen r)) routes,
          fold_left (fun a r => a +: gcost pen r) routes total,
          feas && gfeasible routes, gpreds routes preds, gsuccs routes succs)).
    { clear Hr routes. intros routes; induction routes as [|r routes IH]; intros res_ total feas preds succs Hr Hp Hs.
      - simpl. rewrite app_nil_r, andb_true_r. reflexivity.
      - cbn [foldm]. rewrite eval_route_eq; auto.
        + rewrite IH.
          * cbn [map fold_left]. rewrite <- app_assoc.
            unfold gfeasible, gpreds, gsuccs. cbn [forallb fold_left].
            destruct (approx_gt (gover r) f0); destruct feas; simpl; reflexivity.
          * intros; apply Hr; simpl; apply in_or_app; auto.
          * now rewrite spred_length.
          * now rewrite ssucc_length.
        + intros; apply Hr; simpl; apply in_or_app; auto. }
    rewrite G; auto using resize_length.
  Qed.
End Generic.


(** ** Adjacency *)
Section Adjacent.
  Lemma last_cons_default {A} (l : list A) (x d : A) : List.last (x :: l) d = List.last l x.
  Proof.
    revert x d; induction l as [|a l IH]; intros; [reflexivity|].
    change (List.last (a :: l) d = List.last (a :: l) x). now rewrite !IH.
  Qed.

  Lemma spred_notin c : forall r last ps, ~ In c r -> nth c (spred last r ps) 0 = nth c ps 0.
  Proof.
    induction r as [|n r IH]; intros last ps H; simpl; auto.
    rewrite IH by (intros Hc; apply H; now right).
    apply nth_upd_neq. intros ->. apply H. now left.
  Qed.

  Lemma spred_in r1 : forall c r2 last ps,
    NoDup (r1 ++ c :: r2) -> c < length ps ->
    nth c (spred last (r1 ++ c :: r2) ps) 0 = List.last r1 last.
  Proof.
    induction r1 as [|n r1 IH]; intros c r2 la ps Hnd Hc; cbn [app spred].
    - simpl in Hnd. inversion Hnd; subst.
      rewrite spred_notin by auto. rewrite nth_upd by auto. now rewrite Nat.eqb_refl.
    - simpl in Hnd. inversion Hnd; subst.
      rewrite IH; [|auto|now rewrite upd_length]. now rewrite last_cons_default.
  Qed.

  Lemma ssucc_notin c : forall r last ss,
    c <> last -> ~ In c r -> nth c (ssucc last r ss) 0 = nth c ss 0.
  Proof.
    induction r as [|n r IH]; intros last ss Hl H; simpl.
    - apply nth_upd_neq. auto.
    - rewrite IH.
      + apply nth_upd_neq. auto.
      + intros ->. apply H. now left.
      + intros Hc; apply H; now right.
  Qed.

  Lemma ssucc_first c r2 ss :
    ~ In c r2 -> c < length ss -> nth c (ssucc c r2 ss) 0 = hd 0 r2.
  Proof.
    intros H Hc. destruct r2 as [|n t]; simpl.
    - rewrite nth_upd by auto. now rewrite Nat.eqb_refl.
    - rewrite ssucc_notin.
      + rewrite nth_upd by auto. now rewrite Nat.eqb_refl.
      + intros ->. apply H. now left.
      + intros Hc'; apply H; now right.
  Qed.

  Lemma ssucc_in r1 : forall c r2 last ss,
    NoDup (r1 ++ c :: r2) -> c < length ss ->
    nth c (ssucc last (r1 ++ c :: r2) ss) 0 = hd 0 r2.
  Proof.
    induction r1 as [|n r1 IH]; intros c r2 la ss Hnd Hc; cbn [app ssucc].
    - simpl in Hnd. inversion Hnd; subst. apply ssucc_first; auto. now rewrite upd_length.
    - simpl in Hnd. inversion Hnd; subst. apply IH; auto. now rewrite upd_length.
  Qed.

  Lemma gpreds_notin c rs : forall ps, ~ In c (concat rs) -> nth c (gpreds rs ps) 0 = nth c ps 0.
  Proof.
    unfold gpreds. induction rs as [|r rs IH]; intros ps H; simpl; auto.
    simpl in H. rewrite in_app_iff in H. rewrite IH by tauto. apply spred_notin. tauto.
  Qed.
  Lemma gsuccs_notin c rs : forall ps, c <> 0 -> ~ In c (concat rs) ->
    nth c (gsuccs rs ps) 0 = nth c ps 0.
  Proof.
    unfold gsuccs. induction rs as [|r rs IH]; intros ps H0 H; simpl; auto.
    simpl in H. rewrite in_app_iff in H. rewrite IH by tauto. apply ssucc_notin; tauto.
  Qed.

  (** Predecessor and successor of a customer that occurs once. *)
  Lemma gpreds_in rs1 rs2 r1 c r2 ps :
    NoDup (concat (rs1 ++ (r1 ++ c :: r2) :: rs2)) -> c < length ps ->
    nth c (gpreds (rs1 ++ (r1 ++ c :: r2) :: rs2) ps) 0 = List.last r1 0.
  Proof.
    intros Hnd Hc. unfold gpreds. rewrite fold_left_app. cbn [fold_left].
    fold (gpreds rs1 ps). fold (gpreds rs2 (spred 0 (r1 ++ c :: r2) (gpreds rs1 ps))).
    rewrite concat_app in Hnd. apply NoDup_app_inv in Hnd as (_ & Hnd & _).
    cbn [concat] in Hnd. apply NoDup_app_inv in Hnd as (Hr & _ & Hd).
    rewrite gpreds_notin.
    - apply spred_in; auto. now rewrite gpreds_length.
    - intros H. apply (Hd c); auto. apply in_or_app. right. now left.
  Qed.
  Lemma gsuccs_in rs1 rs2 r1 c r2 ss :
    NoDup (concat (rs1 ++ (r1 ++ c :: r2) :: rs2)) -> c < length ss -> c <> 0 ->
    nth c (gsuccs (rs1 ++ (r1 ++ c :: r2) :: rs2) ss) 0 = hd 0 r2.
  Proof.
    intros Hnd Hc H0. unfold gsuccs. rewrite fold_left_app. cbn [fold_left].
    fold (gsuccs rs1 ss). fold (gsuccs rs2 (ssucc 0 (r1 ++ c :: r2) (gsuccs rs1 ss))).
    rewrite concat_app in Hnd. apply NoDup_app_inv in Hnd as (_ & Hnd & _).
    cbn [concat] in Hnd. apply NoDup_app_inv in Hnd as (Hr & _ & Hd).
    rewrite gsuccs_notin; auto.
    - apply ssucc_in; auto. now rewrite gsuccs_length.
    - intros H. apply (Hd c); auto. apply in_or_app. right. now left.
  Qed.

  Lemma consecutive_cases r a b :
    consecutive r a b ->
    (b <> 0 -> exists r1 r2, r = r1 ++ b :: r2 /\ a = List.last r1 0) /\
    (a <> 0 -> exists r1 r2, r = r1 ++ a :: r2 /\ b = hd 0 r2).
  Proof.
    intros (l1 & l2 & E). split; intros Hnz.
    - (* b is in r *)
      destruct l1 as [|x l1]; simpl in E; injection E as Ex E.
      + subst a. destruct r as [|y r]; simpl in E; injection E as Ey E; subst.
        * congruence.
        * exists [], r. auto.
      + subst x. destruct (exists_last (l := b :: l2)) as (l3 & z & Ez); [discriminate|].
        assert (E2 : r ++ [0] = (l1 ++ [a] ++ l3) ++ [z]).
        { rewrite E. rewrite <- !app_assoc. simpl. now rewrite Ez. }
        apply app_inj_tail in E2 as [-> Hz]; subst z.
        destruct l3 as [|y l3]; simpl in Ez; injection Ez as -> _; [congruence|].
        exists (l1 ++ [a]), l3. split; [now rewrite <- app_assoc|].
        now rewrite last_last.
    - destruct l1 as [|x l1]; simpl in E; injection E as Ex E; [congruence|].
      destruct (exists_last (l := b :: l2)) as (l3 & z & Ez); [discriminate|].
      assert (E2 : r ++ [0] = (l1 ++ a :: l3) ++ [z]).
      { rewrite E. rewrite <- app_assoc. simpl. now rewrite Ez. }
      apply app_inj_tail in E2 as [-> Hz]; subst z.
      exists l1, l3. split; auto.
      destruct l3; simpl in Ez; injection Ez as -> _; auto.
  Qed.
End Adjacent.

(** ** Meaning in exact arithmetic *)
Section Exact.
  Local Open Scope Q_scope.
  Variable p : @problem NumQ.

  Lemma Qpos_max x : Qmaxb 0 x == Qpos x.
  Proof.
    unfold Qpos. destruct (Qmaxb_spec 0 x) as [[H ->]|[H ->]]; destruct (Qle_bool x 0) eqn:E; qdec; lra.
  Qed.

  Lemma walk_cons_app d a l : forall b, 
    walk_length d (a :: b :: l) = d a b + walk_length d (b :: l).
  Proof. reflexivity. Qed.

  Lemma gdist_Q r : forall acc last,
    gdist p acc last r == acc + walk_length (p_dist p) (last :: r ++ [0%nat]).
  Proof.
    induction r as [|n r IH]; intros acc la.
    - simpl. numq. ring.
    - cbn [gdist app]. rewrite IH. rewrite walk_cons_app. numq. ring.
  Qed.

  Lemma gload_Q r : forall acc, gload p acc r == acc + route_load (p_demand p) r.
  Proof.
    unfold gload, route_load. induction r as [|n r IH]; intros acc; simpl.
    - numq. ring.
    - rewrite IH. numq. ring.
  Qed.

  Lemma gover_Q r : gover p r == route_load (p_demand p) r - p_cap p.
  Proof. unfold gover. numq. rewrite gload_Q. numq. ring. Qed.

  Lemma Qpos_comp x y : x == y -> Qpos x == Qpos y.
  Proof.
    intros H. unfold Qpos. destruct (Qle_bool x 0) eqn:E1, (Qle_bool y 0) eqn:E2; qdec; lra.
  Qed.

  Lemma gcost_Q pen r :
    gcost p pen r == route_penalized (p_dist p) (p_demand p) (p_cap p) pen r.
  Proof.
    unfold gcost, route_cost, route_penalized, route_length. numq.
    rewrite (gdist_Q r 0 0%nat), Qpos_max, (Qpos_comp _ _ (gover_Q r)). ring.
  Qed.

  Lemma fold_add_Q {A} (f g : A -> Q) (l : list A) :
    (forall a, In a l -> f a == g a) ->
    forall acc, fold_left (fun s a => s + f a) l acc == acc + Qsum (map g l).
  Proof.
    intros H. induction l as [|x l IH]; intros acc; simpl; [ring|].
    rewrite IH by (intros; apply H; now right).
    rewrite (H x) by now left. ring.
  Qed.

  Lemma gtotal_Q pen rs :
    gtotal p pen rs == total_penalized (p_dist p) (p_demand p) (p_cap p) pen rs.
  Proof.
    unfold gtotal, total_penalized. numq.
    rewrite (fold_add_Q _ (route_penalized (p_dist p) (p_demand p) (p_cap p) pen)).
    - ring.
    - intros. apply gcost_Q.
  Qed.

  Lemma gfeasible_Q rs :
    gfeasible p rs = true <-> within_capacity (p_demand p) (p_cap p) (1 # 1000000) rs.
  Proof.
    unfold gfeasible, within_capacity. rewrite forallb_forall.
    split; intros H r Hr; specialize (H r Hr); pose proof (gover_Q r) as E.
    - apply negb_true_iff in H. qapx. numq. lra.
    - apply negb_true_iff. apply approx_gt_Q_false. numq. lra.
  Qed.
End Exact.
