(** Everything that can happen to a ruin and recreate object. *)
From Coq Require Import List Arith NArith ZArith Bool Lia Permutation QArith Lqa.
From Verif.Model Require Import Num Prelude Evaluate Individual Config Matrix World Schedule RuinRecreate.
From Verif.Spec Require Import Solution Population RuinRecreate.
From Verif.Proofs Require Import Lists QNum EvalFacts EvalThms SplitStruct MatrixFacts RrRuin RrRuinRun RrRecreate RrRun RrQ.
Import ListNotations.
Local Open Scope nat_scope.

Section Machine.
  Context {N : Num}.
  Variable p : problem.
  Variable c : config.
  Variable E : env.
  Notation dim := (p_dim p).
  Notation nv := (c_num_vehicles c).

  Variable good : rroute -> Prop.
  Hypothesis good_remove : forall ro i n ro', good ro -> ro_remove p ro i = Ok (n, ro') -> good ro'.
  Hypothesis good_add : forall ro i n ro', good ro -> ro_add p ro i n = Ok ro' -> proper p (ro_nodes ro') -> good ro'.
  Hypothesis good_eval : forall nodes, proper p nodes -> good (mkRoute nodes (gdist p f0 0 nodes) (gover p nodes)).
  Hypothesis below : reals_below_one p.
  Hypothesis dim2 : 2 <= dim.
  Hypothesis nv_pos : 0 < nv.

  Notation ready := (ready p c good).
  Notation sound := (sound p c good).
  Notation shaped := (shaped p c).

  Definition rr_inv (st : rrstate) : Prop := shaped (rr_sol st) /\ (rr_best st = None \/ ready st).

  Lemma ready_inv st : ready st -> rr_inv st.
  Proof. intro R. split; [|now right]. apply (sound_shaped p c good). apply R. Qed.

  Lemma acc_reset_world a w a' w' : acc_reset E a w = (a', w') ->
    w_pen w' = w_pen w /\ w_iter w' = w_iter w /\ w_hist w' = w_hist w.
  Proof. unfold acc_reset, ts_reset, now. destruct a; intro H; injection H as _ <-; auto. Qed.

  (** Loading a finished individual. *)
  Record loaded (st : rrstate) (i : individual) (w : world) (st' : rrstate) (w' : world) : Prop := {
    lo_ready : ready st';
    lo_sol : routes_of (rr_sol st') = i_pheno i;
    lo_cur : so_routes (rr_cur st') = so_routes (rr_sol st');
    lo_best : rr_best st' = Some (rr_sol st');
    lo_priced : priced (w_pen w) (rr_sol st');
    lo_stale : so_cost (rr_cur st') = so_cost (rr_sol st);
    lo_up : rr_update_penalty st' = rr_update_penalty st;
    lo_pen : w_pen w' = w_pen w;
    lo_iter : w_iter w' = w_iter w;
    lo_hist : w_hist w' = w_hist w;
    lo_acc : exists w1, acc_reset E (rr_acc st) w = (rr_acc st', w1) /\ w' = w1
  }.

  Lemma rr_load_ok st i w : shaped (rr_sol st) -> finished p i -> length (i_pheno i) = nv ->
    exists st' w', rr_load E st i w = Ok (st', w') /\ loaded st i w st' w'.
  Proof using good_eval dim2 nv_pos.
    intros S HF HL. unfold rr_load.
    destruct (so_load_ok p c good good_eval dim2 nv_pos (rr_sol st) i S HF HL) as (s1 & G1 & S1 & R1 & C1).
    rewrite G1. cbn [rbind].
    destruct (so_evaluate_ok p c good dim2 nv_pos (w_pen w) s1 S1) as (s2 & G2 & S2 & R2 & P2).
    rewrite G2. cbn [rbind].
    destruct (acc_reset E (rr_acc st) w) as [acc w1] eqn:EA.
    pose proof (acc_reset_world _ _ _ _ EA) as (W1 & W2 & W3).
    eexists _, _. split; [reflexivity|].
    constructor; cbn [rr_sol rr_cur rr_best rr_acc rr_update_penalty]; auto.
    - split; [exact S2|]. split; [exact S1|]. exists s2. auto.
    - unfold routes_of in *. now rewrite R2.
    - eauto.
  Qed.

  Lemma shaped_new : shaped (so_new p c).
  Proof. unfold RrRun.shaped, so_new. cbn. now rewrite !repeat_length. Qed.

  Lemma rr_search_any corr st w : ready st -> rows_ok p corr ->
    (exists st' w', rr_search p c E corr st w = Ok (st', w') /\ ready st')
    \/ (exists e, rr_search p c E corr st w = Err e /\ ~ (angles_ok p /\ keys_ok p /\ forall pen, room p good pen)).
  Proof using good_remove good_add below dim2 nv_pos.
    intros R RO. unfold rr_search.
    destruct (rr_loop_ok p c E good good_remove good_add below dim2 nv_pos (fun _ _ => True) corr)
      with (k := 1000) (st := st) (w := w) as [(st' & w' & G & R' & _)|(e & G & B)]; auto.
    - left. eauto.
    - right. exists e. split; [exact G|]. intros (X & Y & Z). apply B. auto.
  Qed.

  Lemma reached_inv st : rr_reached p c E st -> rr_inv st.
  Proof using good_remove good_add good_eval below dim2 nv_pos.
    induction 1 as [hash|st H IH|st w H IH|st i w st' w' H IH HF HL G|st corr w st' w' H IH HB RO G].
    - split; [apply shaped_new|now left].
    - exact IH.
    - unfold setup_elite_education. destruct (if c_elite_education_time_based c then _ else _). exact IH.
    - destruct (rr_load_ok st i w (proj1 IH) HF HL) as (st2 & w2 & G2 & L). rewrite G in G2. injection G2 as <- <-.
      apply ready_inv. apply L.
    - destruct IH as [_ [IH|IH]]; [contradiction|].
      destruct (rr_search_any corr st w IH RO) as [(st2 & w2 & G2 & R2)|(e & G2 & _)]; [|congruence].
      rewrite G in G2. injection G2 as <- <-. now apply ready_inv.
  Qed.
  Lemma reached_ready st : rr_reached p c E st -> rr_best st <> None -> ready st.
  Proof using good_remove good_add good_eval below dim2 nv_pos. intros H B. destruct (reached_inv st H) as [_ [K|K]]; auto. contradiction. Qed.

  (** ** Searching under a fixed penalty *)
  Lemma rr_searches_inv (Inv : rrstate -> world -> Prop) :
    (forall corr st w st' w' cand, ready st -> Inv st w -> ready st' -> step p c E good corr st w st' w' cand -> Inv st' w') ->
    (forall st w st' w', ready st -> Inv st w -> rr_penalty c st w = (st', w') -> Inv st' w') ->
    forall st w st' w', rr_searches p c E st w st' w' -> ready st -> Inv st w -> ready st' /\ Inv st' w'.
  Proof using good_remove good_add below dim2 nv_pos.
    intros HM HP. induction 1 as [st w|corr st w st1 w1 st2 w2 RO G H IH]; intros R I; auto.
    destruct (rr_loop_ok p c E good good_remove good_add below dim2 nv_pos Inv corr (HM corr) HP RO 1000 st w R I)
      as [(sx & wx & G2 & R2 & I2)|(e & G2 & _)]; unfold rr_search in G; rewrite G in G2; [|discriminate].
    injection G2 as <- <-. auto.
  Qed.
End Machine.

(** ** Exact arithmetic *)
Section MachineQ.
  Variable p : @problem NumQ.
  Variable c : @config NumQ.
  Variable E : @env NumQ.
  Hypothesis unit : unit_reals p.
  Hypothesis dim2 : 2 <= p_dim p.
  Hypothesis nv_pos : 0 < c_num_vehicles c.
  Local Open Scope Q_scope.

  Notation ready := (@ready NumQ p c (exact_route p)).

  (** The best solution never gets worse during searches with a fixed penalty. *)
  Definition at_most (pen v : Q) (st : @rrstate NumQ) (w : @world NumQ) : Prop :=
    rr_update_penalty st = false /\ (w_pen w : Q) = pen /\
    exists b, rr_best st = Some b /\ priced (pen : @F NumQ) b /\ (so_total (pen : @F NumQ) b : Q) <= v.

  Lemma searches_at_most pen v st w st' w' : rr_searches p c E st w st' w' -> ready st -> at_most pen v st w ->
    ready st' /\ at_most pen v st' w'.
  Proof.
    apply (rr_searches_inv p c E (exact_route p) (exact_remove p) (exact_add p) (below_Q p unit) dim2 nv_pos (at_most pen v)).
    - intros corr s1 w1 s2 w2 cand R1 (U & W & b & EB & PB & LE) R2 ST.
      split; [rewrite (st_up _ _ _ _ _ _ _ _ _ _ ST); auto|].
      split; [rewrite (st_pen _ _ _ _ _ _ _ _ _ _ ST); auto|].
      pose proof (st_priced _ _ _ _ _ _ _ _ _ _ ST) as PC. rewrite W in PC.
      destruct (st_cases _ _ _ _ _ _ _ _ _ _ ST) as (r0 & [(_ & _ & B & _)|(_ & _ & [(b0 & _ & _ & B & _)|(B & LT & _)])]).
      + exists b. rewrite B. auto.
      + exists b. rewrite B. auto.
      + exists cand. split; auto. split; auto. specialize (LT b EB). unfold priced in *. rewrite PB, PC in LT.
        cbn [oapprox_lt] in LT. apply approx_lt_Q in LT. lra.
    - intros s1 w1 s2 w2 _ (U & H) G. unfold rr_penalty in G. rewrite U in G. injection G as <- <-. split; auto.
  Qed.

  Lemma never_worse_from st i w st1 w1 st2 w2 j j' :
    shaped p c (rr_sol st) -> rr_update_penalty st = false ->
    finished p i -> length (i_pheno i) = c_num_vehicles c ->
    rr_load E st i w = Ok (st1, w1) -> rr_searches p c E st1 w1 st2 w2 ->
    length (i_pheno j) = c_num_vehicles c -> rr_get_best_solution p (w_pen w2) st2 j = Ok j' ->
    finished p j' /\ length (i_pheno j') = c_num_vehicles c /\ w_pen w2 = w_pen w /\
    total_penalized (p_dist p) (p_demand p) (p_cap p) (w_pen w) (i_pheno j')
    <= total_penalized (p_dist p) (p_demand p) (p_cap p) (w_pen w) (i_pheno i).
  Proof.
    intros SH HU HF HL HG HS HJ HB.
    destruct (rr_load_ok p c E (exact_route p) (exact_eval p) dim2 nv_pos st i w SH HF HL) as (sx & wx & GX & LO).
    rewrite HG in GX. injection GX as <- <-.
    pose proof (lo_ready _ _ _ _ _ _ _ _ _ LO) as R1.
    destruct (searches_at_most (w_pen w) (so_total (w_pen w) (rr_sol st1)) st1 w1 st2 w2 HS R1) as [R2 (U2 & W2 & b & EB & PB & LE)].
    { split; [rewrite (lo_up _ _ _ _ _ _ _ _ _ LO); auto|]. split; [apply (lo_pen _ _ _ _ _ _ _ _ _ LO)|].
      exists (rr_sol st1). split; [apply (lo_best _ _ _ _ _ _ _ _ _ LO)|]. split; [apply (lo_priced _ _ _ _ _ _ _ _ _ LO)|]. lra. }
    unfold rr_get_best_solution in HB. rewrite EB in HB.
    assert (SB : sound p c (exact_route p) b).
    { destruct R2 as (_ & _ & b' & E' & S'). rewrite EB in E'. injection E' as <-. exact S'. }
    assert (S1 : sound p c (exact_route p) (rr_sol st1)) by apply R1.
    apply (rr_update_individual_ok p c (exact_route p) dim2 nv_pos) in HB; auto.
    split; [eapply rr_read_finished; eauto|]. destruct HB as (P1 & P2 & _). split; auto. split; [exact W2|].
    assert (TP : forall l l', Permutation l l' -> total_penalized (p_dist p) (p_demand p) (p_cap p) (w_pen w) l
       == total_penalized (p_dist p) (p_demand p) (p_cap p) (w_pen w) l').
    { unfold total_penalized. induction 1; cbn [map Qsum]; try lra. }
    rewrite (TP _ _ P1). rewrite <- (lo_sol _ _ _ _ _ _ _ _ _ LO).
    rewrite <- !so_total_Q; [exact LE| |]; apply exact_routes_Forall; [apply S1|apply SB].
  Qed.

  Lemma never_worse st i w st1 w1 st2 w2 j j' :
    rr_reached p c E st -> rr_update_penalty st = false ->
    finished p i -> length (i_pheno i) = c_num_vehicles c ->
    rr_load E st i w = Ok (st1, w1) -> rr_searches p c E st1 w1 st2 w2 ->
    length (i_pheno j) = c_num_vehicles c -> rr_get_best_solution p (w_pen w2) st2 j = Ok j' ->
    finished p j' /\ length (i_pheno j') = c_num_vehicles c /\ w_pen w2 = w_pen w /\
    total_penalized (p_dist p) (p_demand p) (p_cap p) (w_pen w) (i_pheno j')
    <= total_penalized (p_dist p) (p_demand p) (p_cap p) (w_pen w) (i_pheno i).
  Proof.
    intros HR. apply never_worse_from.
    exact (proj1 (reached_inv p c E (exact_route p) (exact_remove p) (exact_add p) (exact_eval p) (below_Q p unit) dim2 nv_pos st HR)).
  Qed.
End MachineQ.
