(** Recreate, a customer that fits into no touched route (C63). *)
From Coq Require Import List Arith NArith ZArith Bool Lia Permutation QArith Qabs Lqa.
From Verif.Model Require Import Num Prelude Evaluate Individual Config Matrix World Schedule RuinRecreate.
From Verif.Spec Require Import Solution Population RuinRecreate Recreate.
From Verif.Proofs Require Import Lists QNum EvalFacts EvalThms MatrixFacts RrRuin RrRuinRun RrRecreate RrRun RrQ RrMachine.
From Verif.Properties Require Import ExampleData P_Population P_RuinRecreate.
Import ListNotations.
Open Scope Q_scope.

Local Lemma upd_total d dem cap pen (routes : list (list nat)) : forall r x y, nth_error routes r = Some x ->
  total_penalized d dem cap pen (upd routes r y)
  == total_penalized d dem cap pen routes - route_penalized d dem cap pen x + route_penalized d dem cap pen y.
Proof.
  unfold total_penalized. induction routes as [|z routes IH]; intros [|r] x y H; cbn in H; try discriminate.
  - injection H as ->. cbn. ring.
  - cbn [upd map Qsum]. rewrite (IH r x y H). ring.
Qed.

Local Lemma Qpos_nonneg x : 0 <= Qpos x.
Proof. unfold Qpos. destruct (Qle_bool x 0) eqn:E; [lra|]. apply Qnot_lt_le. intro H.
  assert (x <= 0) by lra. apply Qle_bool_iff in H0. congruence. Qed.

Local Lemma load_mid dem a c b : route_load dem (a ++ c :: b) == route_load dem (a ++ b) + dem c.
Proof. unfold route_load. induction a as [|x a IH]; cbn; [ring|]. rewrite IH. ring. Qed.


Section Step.
  Variable d : nat -> nat -> Q.
  Variable dem : nat -> Q.
  Variables cap pen tol : Q.
  Hypothesis pen_nonneg : 0 <= pen.
  Let overload (nodes : list nat) : Q := pen * Qpos (route_load dem nodes - cap).

  Local Lemma inserted_total routes r a c b : nth_error routes r = Some (a ++ b) ->
    total_penalized d dem cap pen (upd routes r (a ++ c :: b)) + overload (a ++ b)
    == total_penalized d dem cap pen routes + extra d a c b
       + pen * Qpos (route_load dem (a ++ b) + dem c - cap).
  Proof.
    intro H. rewrite (upd_total d dem cap pen routes r (a ++ b) (a ++ c :: b) H).
    unfold route_penalized, extra, overload.
    rewrite (Qpos_comp (route_load dem (a ++ c :: b) - cap) (route_load dem (a ++ b) + dem c - cap))
      by (rewrite load_mid; ring). ring.
  Qed.

  Local Lemma greedily_insertions cs : forall routes touched routes2,
    greedily d dem cap pen tol cs routes touched routes2 ->
    insertions d dem cap pen tol overload cs routes touched routes2.
  Proof.
    induction cs as [|c cs IH]; intros routes touched routes2 G; inversion G; subst; [constructor|].
    match goal with H : greedy _ _ _ _ _ _ _ _ _ _ |- _ => inversion H; subst end.
    - eapply insertions_cons; eauto. intro NR. exfalso.
      assert (cap + tol <= route_load dem (a ++ b) + dem c) by (eapply NR; eauto). lra.
    - eapply insertions_cons; eauto. intros _. split; [eauto|]. intros r2 a2 b2 HO.
      assert (L : extra d a c b + pen * Qpos (route_load dem (a ++ b) + dem c - cap)
        <= extra d a2 c b2 + pen * Qpos (route_load dem (a2 ++ b2) + dem c - cap) + tol) by eauto.
      assert (N : 0 <= overload (a ++ b)).
      { unfold overload. apply Qmult_le_0_compat; [exact pen_nonneg|apply Qpos_nonneg]. }
      match goal with H : nth_error routes r = Some (a ++ b) |- _ => pose proof (inserted_total _ _ _ c _ H) end.
      pose proof (inserted_total _ _ _ c _ HO). lra.
  Qed.
End Step.

(** ** C63 *)

(** Exact arithmetic.  A customer that no touched route can take goes to the place where the
    penalised cost of the solution is smallest, up to the tolerance, provided that the overload
    which the other routes already have is not held against them: another insertion can be cheaper,
    but by no more than the penalty for the overload its route had before.  (Missing: that it is
    cheapest, which is false; see below.) *)
Theorem C63_cheapest_partial (p : @problem NumQ) (c : @config NumQ) (pen : Q) (s s1 s2 : @rsol NumQ) corr r r1 hash r2 hash2 :
  unit_reals p -> (2 <= p_dim p)%nat -> (0 < c_num_vehicles c)%nat -> 0 <= pen ->
  settled_sol p c s -> exact_sol p s -> rows_ok p corr ->
  ruin_run p c corr s r = Ok (s1, r1) -> recreate_run p (pen : @F NumQ) s1 r1 hash = Ok (s2, r2, hash2) ->
  exists un, Permutation un (so_un s1) /\
    insertions (p_dist p) (p_demand p) (p_cap p) pen (1 # 1000000)
      (fun nodes => pen * Qpos (route_load (p_demand p) nodes - p_cap p)) un
      (routes_of s1) (so_ruined s1) (routes_of s2).
Proof.
  intros B D V P S X RO G1 G2. destruct (C21_greedy p c pen s s1 s2 corr r r1 hash r2 hash2 B D V S X RO G1 G2) as (un & PE & G).
  exists un. split; auto. now apply greedily_insertions.
Qed.
Print Assumptions C63_cheapest_partial.

(** ** C63: refuted *)

(** Three customers, two of them at the same place; the demand of the first is above the
    capacity. *)
Definition full_p : @problem NumQ := @mkProblem NumQ 4
  (fun i j => nth j (nth i [[0; 5; 5; 5]; [5; 0; 0; 6]; [5; 0; 0; 6]; [5; 6; 6; 0]] []) 0)
  (fun i => nth i [0; 15; 1; 10] 0) (fun i => (ex_x i, 0)) 10 (p_near ex_p) (o_atan2 ex_p)
  (fun d => Z.of_N (d mod 1000) # 1000) (o_ln ex_p) (o_polar ex_p).
Definition full_corr : matrix nat := (mkMatrix 4 2 [1; 2;  2; 3;  1; 3;  1; 2])%nat.
Local Notation full_c := (ex_cfg 2 true).
Local Notation full_routes := [[1; 2]; [3]]%nat.

Local Fact full_unit : unit_reals full_p.
Proof. exact rr_unit. Qed.
Local Fact full_corr_ok : rows_ok full_p full_corr.
Proof.
  split; [reflexivity|]. intros u v Hu I. cbn in Hu.
  do 4 (destruct u as [|u]; [vm_compute in I; cbn [p_dim full_p]; lia|]). lia.
Qed.

Local Notation full_load :=
  (rr_load rr_env (rr_new full_p full_c (rr_stream 1 13)) (mk full_p 10 full_routes) (rr_world 1 1)).
Local Notation full_ruin st := (ruin_run full_p full_c full_corr (rr_cur st) (rr_stream 36 70)).
Local Definition full_steps : option (list (list nat) * list nat * list nat * list (list nat)) :=
  match full_load with
  | Ok (st, _) =>
      match full_ruin st with
      | Ok (s1, r1) =>
          match recreate_run full_p (10 : @F NumQ) s1 r1 (rr_stream 1 13) with
          | Ok (s2, _, _) => Some (routes_of s1, so_un s1, so_ruined s1, routes_of s2)
          | Err _ => None
          end
      | Err _ => None
      end
  | Err _ => None
  end.
Local Fact full_steps_are :
  full_steps = Some ([[1]; [3]], [2], [0], [[1]; [2; 3]])%nat.
Proof. vm_compute. reflexivity. Qed.

Local Notation full_claim s1 s2 := (exists un, Permutation un (so_un s1) /\
  insertions (p_dist full_p) (p_demand full_p) (p_cap full_p) 10 (1 # 1000000) (fun _ => 0) un
    (routes_of s1) (so_ruined s1) (routes_of s2)).

Local Lemma full_wrong (s1 s2 : @rsol NumQ) : routes_of s1 = [[1]; [3]]%nat -> so_un s1 = [2%nat] ->
  so_ruined s1 = [0%nat] -> routes_of s2 = [[1]; [2; 3]]%nat -> ~ full_claim s1 s2.
Proof.
  intros E1 E2 E3 E4 (un & P & H). rewrite E1, E3, E4 in H. rewrite E2 in P.
  apply Permutation_sym, Permutation_length_1_inv in P. subst un.
  inversion H as [|c cs l t r a b t1 l2 _ CH _ HN]; subst.
  assert (EU : upd [[1%nat]; [3%nat]] r (a ++ 2%nat :: b) = [[1]; [2; 3]]%nat) by (inversion HN; auto).
  assert (NR : no_room (p_demand full_p) (p_cap full_p) (1 # 1000000) [[1%nat]; [3%nat]] [0%nat] 2).
  { intros k nodes [<-|[]] K. cbn in K. injection K as <-. vm_compute. discriminate. }
  destruct (CH NR) as [_ L].
  specialize (L 0%nat [1%nat] [] eq_refl).
  rewrite EU in L.
  revert L. vm_compute. intro L. now apply L.
Qed.

(** The second loop of recreate charges the whole overload that a route has after the insertion,
    not its increase.  A route that is overloaded already is charged for its old overload again.
    Here a customer is taken from a route that stays overloaded without it, and the place it came
    from, where it costs no detour at all and the same penalty, is passed over for a detour of 6. *)
Theorem C63_cheapest_refuted :
  exists (p : @problem NumQ) (c : @config NumQ) (E : @env NumQ) (st : @rrstate NumQ) corr pen r s1 r1 hash s2 r2 hash2,
    unit_reals p /\ (2 <= p_dim p)%nat /\ (0 < c_num_vehicles c)%nat /\ 0 <= pen /\
    rr_reached p c E st /\ rr_best st <> None /\ rows_ok p corr /\
    ruin_run p c corr (rr_cur st) r = Ok (s1, r1) /\
    recreate_run p (pen : @F NumQ) s1 r1 hash = Ok (s2, r2, hash2) /\
    ~ exists un, Permutation un (so_un s1) /\
        insertions (p_dist p) (p_demand p) (p_cap p) pen (1 # 1000000) (fun _ => 0) un
          (routes_of s1) (so_ruined s1) (routes_of s2).
Proof.
  pose proof full_steps_are as H. unfold full_steps in H.
  destruct full_load as [[st w]|] eqn:EL; [|discriminate].
  destruct (full_ruin st) as [[s1 r1]|] eqn:ER; [|discriminate].
  destruct (recreate_run full_p (10 : @F NumQ) s1 r1 (rr_stream 1 13)) as [[[s2 r2] h2]|] eqn:EC; [|discriminate].
  injection H as E1 E2 E3 E4.
  exists full_p, full_c, rr_env, st, full_corr, 10, (rr_stream 36 70), s1, r1, (rr_stream 1 13), s2, r2, h2.
  split; [exact full_unit|]. split; [cbn; lia|]. split; [cbn; lia|]. split; [lra|].
  assert (F : finished full_p (mk full_p 10 full_routes)) by (apply mk_finished; [reflexivity|cbn; lia]).
  split; [eapply rr_loaded with (i := mk full_p 10 full_routes); [apply rr_is_new|exact F|reflexivity|exact EL]|].
  split.
  { destruct (rr_load_ok full_p full_c rr_env (exact_route full_p) (exact_eval full_p)) with
      (st := rr_new full_p full_c (rr_stream 1 13)) (i := mk full_p 10 full_routes) (w := rr_world 1 1)
      as (st' & w' & G & LO); [cbn; lia|cbn; lia|apply shaped_new|exact F|reflexivity|].
    rewrite EL in G. injection G as <- <-. rewrite (lo_best _ _ _ _ _ _ _ _ _ LO). discriminate. }
  split; [exact full_corr_ok|]. split; [exact ER|]. split; [exact EC|].
  now apply full_wrong.
Qed.
Print Assumptions C63_cheapest_refuted.

(** The hypotheses of [C63_cheapest_partial] hold in that run (and in those of C21). *)
Example C63_applicable : exists (s s1 s2 : @rsol NumQ) r1 r2 h2,
  settled_sol full_p full_c s /\ exact_sol full_p s /\ rows_ok full_p full_corr /\
  ruin_run full_p full_c full_corr s (rr_stream 36 70) = Ok (s1, r1) /\ so_un s1 <> [] /\
  recreate_run full_p (10 : @F NumQ) s1 r1 (rr_stream 1 13) = Ok (s2, r2, h2).
Proof.
  pose proof full_steps_are as H. unfold full_steps in H.
  destruct full_load as [[st w]|] eqn:EL; [|discriminate].
  destruct (full_ruin st) as [[s1 r1]|] eqn:ER; [|discriminate].
  destruct (recreate_run full_p (10 : @F NumQ) s1 r1 (rr_stream 1 13)) as [[[s2 r2] h2]|] eqn:EC; [|discriminate].
  injection H as E1 E2 E3 E4. exists (rr_cur st), s1, s2, r1, r2, h2.
  assert (F : finished full_p (mk full_p 10 full_routes)) by (apply mk_finished; [reflexivity|cbn; lia]).
  destruct (rr_load_ok full_p full_c rr_env (exact_route full_p) (exact_eval full_p)) with
      (st := rr_new full_p full_c (rr_stream 1 13)) (i := mk full_p 10 full_routes) (w := rr_world 1 1)
      as (st' & w' & G & LO); [cbn; lia|cbn; lia|apply shaped_new|exact F|reflexivity|].
  rewrite EL in G. injection G as <- <-. destruct (lo_ready _ _ _ _ _ _ _ _ _ LO) as (_ & S2 & _).
  split; [apply S2|]. split; [apply exact_routes_Forall, S2|]. split; [exact full_corr_ok|].
  split; [exact ER|]. split; [rewrite E2; discriminate|exact EC].
Qed.
