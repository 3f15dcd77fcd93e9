(** C25-C30, C50: populations. *)
From Coq Require Import List Arith NArith ZArith QArith Qabs Bool Lia Lqa Permutation Sorted.
From Verif.Model Require Import Num Prelude Evaluate Individual Config Population.
From Verif.Spec Require Import Solution Library Population.
From Verif.Proofs Require Import Lists QNum EvalFacts EvalThms PopFacts PopAdd PopThms PopRun PopQ BpdFacts RustLib PopMain.
From Verif.Properties Require Import ExampleData.
Import ListNotations.
Open Scope nat_scope.

(** ** The library contract is met by the standard library's binary search and stable sort *)
Theorem library_contract_met : lib_ok rust_lib.
Proof. exact rust_lib_ok. Qed.
Print Assumptions library_contract_met.

(** ** C25 *)
Theorem subpopulation_sizes_bounded : forall (N : Num) (L : lib) (p : problem) (c : config) (P : population),
  lib_ok L -> 0 < p_dim p -> 1 <= c_population_lambda c -> pop_history L p c P ->
  length (sp_pop (po_feas P)) < c_min_population_size c + c_population_lambda c /\
  length (sp_pop (po_infeas P)) < c_min_population_size c + c_population_lambda c.
Proof. intros N L p c P LOK Hd Hl H. now apply (pop_sizes L LOK p c Hd). Qed.
Print Assumptions subpopulation_sizes_bounded.

Theorem subpopulation_never_emptied : forall (N : Num) (L : lib) (p : problem) (c : config) (P P' : population),
  lib_ok L -> 1 <= c_min_population_size c -> pop_history L p c P ->
  (exists i b, pop_add L c P i b = Ok P') \/ (exists pen, pop_reevaluate L p pen P = Ok P') ->
  (sp_pop (po_feas P) <> [] -> sp_pop (po_feas P') <> []) /\
  (sp_pop (po_infeas P) <> [] -> sp_pop (po_infeas P') <> []).
Proof. intros N L p c P P' LOK Hm H E. now apply (pop_never_emptied L LOK p c P P'). Qed.
Print Assumptions subpopulation_never_emptied.

(** Adding a finished individual never panics (exact arithmetic). *)
Theorem addition_never_panics : forall (L : lib) (p : @problem NumQ) (c : @config NumQ) P i b,
  lib_ok L -> 0 < p_dim p -> pop_history L p c P -> finished p i ->
  1 <= c_num_diversity_closest c -> 1 <= c_min_population_size c ->
  exists P', pop_add L c P i b = Ok P'.
Proof. exact pop_add_total_Q. Qed.
Print Assumptions addition_never_panics.

(** Every member of the feasible part is feasible, of the infeasible part infeasible, and all
    are complete evaluated solutions. *)
Theorem subpopulations_separate_feasibility : forall (N : Num) (L : lib) (p : problem) (c : config) (P : population),
  lib_ok L -> 0 < p_dim p -> pop_history L p c P ->
  Forall (fun i => is_feasible i = true) (sp_pop (po_feas P)) /\
  Forall (fun i => is_feasible i = false) (sp_pop (po_infeas P)) /\
  Forall (finished p) (sp_pop (po_feas P) ++ sp_pop (po_infeas P)).
Proof. intros N L p c P LOK Hd H. now apply (history_feasibility L LOK p c Hd). Qed.
Print Assumptions subpopulations_separate_feasibility.

(** ** C26 *)
Theorem diversity_table_exact : forall (N : Num) (L : lib) (p : problem) (c : config) (P : population),
  lib_ok L -> 0 < p_dim p -> pop_history L p c P -> table_exact (po_feas P) /\ table_exact (po_infeas P).
Proof. intros N L p c P LOK Hd H. now apply (history_tables L LOK p c Hd). Qed.
Print Assumptions diversity_table_exact.

Theorem diversity_reads_in_range : forall (N : Num) (L : lib) (p : problem) (c : config) (P : population) s i,
  lib_ok L -> 0 < p_dim p -> pop_history L p c P -> s = po_feas P \/ s = po_infeas P ->
  In i (sp_pop s) -> 2 <= length (sp_pop s) ->
  (exists b, individual_is_clone s i = Ok b) /\ (forall n, exists q, average_bpd s i n = Ok q).
Proof. intros N L p c P s i LOK Hd H. now apply (history_reads L LOK p c Hd). Qed.
Print Assumptions diversity_reads_in_range.

(** ** C50 *)
Theorem no_two_members_at_distance_zero : forall (N : Num) (L : lib) (p : problem) (c : config) (P : population),
  lib_ok L -> 0 < p_dim p -> pop_history L p c P ->
  no_twins (sp_pop (po_feas P)) /\ no_twins (sp_pop (po_infeas P)).
Proof. intros N L p c P LOK Hd H. now apply (history_no_twins L LOK p c Hd). Qed.
Print Assumptions no_two_members_at_distance_zero.

(** ** C27 *)
Theorem survivor_selection_removes : forall (p : @problem NumQ) (c : @config NumQ) (s0 s s' : @subpop NumQ),
  0 < p_dim p -> update_fitness c s0 = Ok s ->
  (forall m, In m (sp_pop s) -> finished p m) -> table_exact s -> 2 <= length (sp_pop s) ->
  natural_selection c s = Ok s' ->
  exists l1 x l2, sp_pop s = l1 ++ x :: l2 /\ l1 <> [] /\
    Forall2 same_individual (sp_pop s') (l1 ++ l2) /\
    let clone a := exists b, In b (sp_pop s) /\ i_number b <> i_number a /\ older_to_newer a b = Ok 0 in
    (clone x \/
     (~ clone x /\ (forall y, In y (tl (sp_pop s)) -> ~ clone y /\ (fitness_of y <= fitness_of x)%Q) /\
      (c_num_elites c < length (sp_pop s) -> c_num_elites c <= length l1))).
Proof. intros p c s0 s s' Hd. now apply natural_selection_removes. Qed.
Print Assumptions survivor_selection_removes.

(** One addition is at most an insertion followed by a selection that keeps the first
    [num_elites] members of the list. *)
Theorem addition_keeps_elites : forall (L : lib) (p : @problem NumQ) (c : @config NumQ) P i b P',
  lib_ok L -> 0 < p_dim p -> pop_history L p c P -> finished p i ->
  1 <= c_min_population_size c -> c_num_elites c <= c_min_population_size c ->
  pop_add L c P i b = Ok P' ->
  let old := if is_feasible i then po_feas P else po_infeas P in
  let new := if is_feasible i then po_feas P' else po_infeas P' in
  exists before, (Forall2 same_individual before (sp_pop old) \/
                  exists l1 l2, sp_pop old = l1 ++ l2 /\
                    Forall2 same_individual before (l1 ++ set_number i (po_count P) :: l2)) /\
    Forall2 same_individual (firstn (c_num_elites c) (sp_pop new)) (firstn (c_num_elites c) before) /\
    (forall m, In m (sp_pop new) -> exists m', In m' before /\ same_individual m m').
Proof. intros L p c P i b P' LOK Hd. now apply pop_add_elites. Qed.
Print Assumptions addition_keeps_elites.

(** The list is in ascending order of cost as long as costs are equal or at least the
    comparison tolerance apart; then the first member is the cheapest. *)
Theorem addition_keeps_cost_order_partial : forall (L : lib) (p : @problem NumQ) (c : @config NumQ) P i b P',
  lib_ok L -> 0 < p_dim p -> pop_history L p c P -> finished p i -> pop_add L c P i b = Ok P' ->
  let old := if is_feasible i then po_feas P else po_infeas P in
  let new := if is_feasible i then po_feas P' else po_infeas P' in
  separated (i :: sp_pop old) -> by_cost (sp_pop old) -> by_cost (sp_pop new).
Proof. intros L p c P i b P' LOK Hd. now apply pop_add_by_cost. Qed.
Print Assumptions addition_keeps_cost_order_partial.

Theorem penalty_update_restores_cost_order_partial : forall (L : lib) (p : @problem NumQ) (c : @config NumQ) P pen P',
  lib_ok L -> 0 < p_dim p -> pop_history L p c P -> pop_reevaluate L p pen P = Ok P' ->
  separated (sp_pop (po_infeas P')) -> by_cost (sp_pop (po_infeas P')).
Proof. intros L p c P pen P' LOK Hd H. now apply (pop_reevaluate_by_cost L LOK p c Hd P pen P'). Qed.
Print Assumptions penalty_update_restores_cost_order_partial.

(** ** C28 *)
Theorem better_individual_kept_partial : forall (N : Num) (L : lib) (p : problem) (c : config) P i b P',
  lib_ok L -> 0 < p_dim p -> pop_history L p c P -> finished p i -> 1 <= c_min_population_size c ->
  pop_add L c P i b = Ok P' ->
  let old := if is_feasible i then po_feas P else po_infeas P in
  let new := if is_feasible i then po_feas P' else po_infeas P' in
  (forall m, In m (sp_pop old) -> ind_cmp m i = Some Gt) ->
  (forall m, In m (sp_pop old) -> broken_pairs_distance m i <> Ok 0) ->
  exists m rest, sp_pop new = m :: rest /\ same_individual m (set_number i (po_count P)).
Proof. intros N L p c P i b P' LOK Hd. now apply better_kept. Qed.
Print Assumptions better_individual_kept_partial.

(** ** C29 *)
Theorem broken_pairs_self : forall (N : Num) (p : problem) a, 0 < p_dim p -> finished p a ->
  broken_pairs_distance a a = Ok 0.
Proof. intros N p a Hd Ha. apply (bpd_self p Hd). now apply finished_settled. Qed.
Print Assumptions broken_pairs_self.

Theorem broken_pairs_bounded : forall (N : Num) (p : problem) a b, 0 < p_dim p -> finished p a -> finished p b ->
  exists d, broken_pairs_distance a b = Ok d /\ d <= 2 * (p_dim p - 1).
Proof. intros N p a b Hd Ha Hb. apply bpd_ok; now apply finished_settled. Qed.
Print Assumptions broken_pairs_bounded.

(** Positive for different solutions when the last route of the second is used. *)
Theorem broken_pairs_separates_partial : forall (N : Num) (p : problem) a b, 0 < p_dim p -> finished p a -> finished p b ->
  last (i_pheno b) [] <> [] -> broken_pairs_distance a b = Ok 0 ->
  forall r, r <> [] -> (In r (i_pheno a) <-> In r (i_pheno b)).
Proof.
  intros N p a b Hd Ha Hb Hl E. apply (finished_settled p Hd) in Ha, Hb. apply (bpd_separates p Hd a b Ha Hb); auto.
  now apply (last_used p).
Qed.
Print Assumptions broken_pairs_separates_partial.

(** ** C30 *)
Theorem tournament_returns_fittest : forall (P : @population NumQ) num r, 0 < pop_size P -> 0 < num ->
  exists w r', tournament num P r = Ok (w, r') /\
    (exists k, k < num /\ nth_error (members P) (contestant P r k) = Some w) /\
    (forall k, k < num -> exists x, nth_error (members P) (contestant P r k) = Some x /\
       @olt NumQ (i_fitness x) (i_fitness w) = false) /\
    rpos r' = rpos r + num.
Proof. exact tournament_spec. Qed.
Print Assumptions tournament_returns_fittest.

(** ** Concrete cases *)

(** Build a finished individual from routes. *)
Definition mk (p : @problem NumQ) (pen : Q) (routes : list (list nat)) : @individual NumQ :=
  let e := match evaluate p (pen : @F NumQ) se_new routes with Ok e => e | Err _ => se_new end in
  mkInd 0 (concat routes) routes None e.

Definition once_check (dim : nat) (routes : list (list nat)) : bool :=
  if list_eq_dec Nat.eq_dec (isort Nat.leb (concat routes)) (seq 1 (dim - 1)) then true else false.
Lemma once_check_ok dim routes : once_check dim routes = true -> serves_all_once dim routes.
Proof.
  unfold once_check, serves_all_once. destruct (list_eq_dec _ _ _) as [E|]; [|discriminate]. intros _.
  rewrite <- E. symmetry. apply isort_perm.
Qed.
Lemma mk_finished p pen routes : once_check (p_dim p) routes = true -> 0 < p_dim p -> finished p (mk p pen routes).
Proof.
  intros H Hd. apply once_check_ok in H. split; [exact H|]. split; [reflexivity|]. exists pen, se_new.
  unfold mk. cbn [i_pheno i_eval]. rewrite evaluate_eq; auto.
  intros n Hn. apply (serves_In _ _ _ H) in Hn. lia.
Qed.

Fixpoint adds (c : @config NumQ) (l : list (@individual NumQ)) (P : @population NumQ) : res population :=
  match l with
  | [] => Ok P
  | i :: l => match pop_add rust_lib c P i true with Ok P => adds c l P | Err e => Err e end
  end.
Lemma adds_history p c l : forall P P', pop_history rust_lib p c P -> Forall (finished p) l ->
  adds c l P = Ok P' -> pop_history rust_lib p c P'.
Proof.
  induction l as [|i l IH]; intros P P' HP Hl E; cbn in E; [now injection E as <-|].
  inversion Hl; subst. destruct (pop_add rust_lib c P i true) as [P1|] eqn:E1; [|discriminate].
  eapply IH; [|eassumption|exact E]. eapply ph_add; eauto.
Qed.
(** what we look at *)
Definition view (P : res (@population NumQ)) :=
  match P with
  | Ok P => Some (map i_pheno (sp_pop (po_feas P)), map i_pheno (sp_pop (po_infeas P)))
  | Err _ => None
  end.
Lemma view_ok P v : view P = Some v -> exists P', P = Ok P' /\
  (map i_pheno (sp_pop (po_feas P')), map i_pheno (sp_pop (po_infeas P'))) = v.
Proof. destruct P as [P'|]; cbn; [|discriminate]. intros H. injection H as <-. eauto. Qed.

(** Three additions to an empty population with minimum size 1, lambda 2: the third addition
    triggers survivor selection down to one member. *)
Definition small_cfg : @config NumQ := (@mkConfig NumQ
  None (20 * 1000) 2%nat 60
  1%nat 4%nat 2%nat 1%nat 5%nat (2 # 10) 2 (5 # 10)
  (3 # 2) true
  true 20 true true false true true true true true true true
  10 (12 # 10) (85 # 100)
  10 10 true 1 1 10
  false 1 1000 50 false (2 # 100))%Q.

Definition three : list (@individual NumQ) :=
  [mk ex_p 10 [[1; 2; 5]; [3; 4]]; mk ex_p 10 [[1; 5; 2]; [4; 3]]; mk ex_p 10 [[1; 3; 5]; [2]; [4]]].

Example ex_three_kept :
  exists P, pop_history rust_lib ex_p (ex_cfg 3 true) P /\ length (sp_pop (po_feas P)) = 3.
Proof.
  destruct (view_ok (adds (ex_cfg 3 true) three (pop_new (ex_cfg 3 true)))
    ([ [[1; 5; 2]; [4; 3]]; [[1; 2; 5]; [3; 4]]; [[1; 3; 5]; [2]; [4]] ], [])) as (P & E & Ev);
    [vm_compute; reflexivity|].
  exists P. split.
  - eapply adds_history; [apply ph_new| |exact E].
    do 3 (apply Forall_cons; [apply mk_finished; [reflexivity|cbn; lia]|]). apply Forall_nil.
  - injection Ev as Ev _. apply (f_equal (@length _)) in Ev. rewrite map_length in Ev. exact Ev.
Qed.

Example ex_three_selected : 1 <= c_population_lambda small_cfg /\ 1 <= c_min_population_size small_cfg /\
  c_num_elites small_cfg <= c_min_population_size small_cfg /\ 1 <= c_num_diversity_closest small_cfg /\
  view (adds small_cfg three (pop_new small_cfg)) = Some ([ [[1; 5; 2]; [4; 3]] ], []).
Proof. do 4 (split; [cbn; lia|]). vm_compute. reflexivity. Qed.

(** A tournament on those three. *)
Example ex_tournament : match adds (ex_cfg 3 true) three (pop_new (ex_cfg 3 true)) with
  | Ok P => pop_size P = 3 /\
            match tournament 2 P (mkRng (fun k => if k =? 0 then 4%N else 2%N) 0) with
            | Ok (w, _) => i_pheno w = [[1; 2; 5]; [3; 4]]
            | Err _ => False
            end
  | Err _ => False
  end.
Proof. vm_compute. split; reflexivity. Qed.

(** C29 refuted: not symmetric, and zero for different solutions. *)
Definition line_p : @problem NumQ := @mkProblem NumQ
  3 (fun i j => Qabs (ex_x i - ex_x j)) (fun i => nth i [0; 3; 4] 0)%Q (fun i => (ex_x i, 0%Q)) 8%Q
  (fun i => filter (fun j => negb (Nat.eqb i j)) [1; 2]%nat) (fun y x => 0%Q) (fun d => Z.of_N d # 1000) (fun x => x)
  (fun i => Z.of_nat i).

Theorem broken_pairs_symmetric_refuted : exists (p : @problem NumQ) a b,
  0 < p_dim p /\ finished p a /\ finished p b /\
  broken_pairs_distance a b = Ok 0 /\ broken_pairs_distance b a = Ok 1.
Proof.
  exists line_p, (mk line_p 10 [[1]; [2]]), (mk line_p 10 [[1; 2]; []]).
  split; [cbn; lia|]. split; [apply mk_finished; [reflexivity|cbn; lia]|].
  split; [apply mk_finished; [reflexivity|cbn; lia]|]. vm_compute. split; reflexivity.
Qed.
Print Assumptions broken_pairs_symmetric_refuted.

Theorem broken_pairs_positive_refuted : exists (p : @problem NumQ) a b r,
  0 < p_dim p /\ finished p a /\ finished p b /\
  broken_pairs_distance a b = Ok 0 /\ r <> [] /\ In r (i_pheno a) /\ ~ In r (i_pheno b).
Proof.
  exists line_p, (mk line_p 10 [[1]; [2]]), (mk line_p 10 [[1; 2]; []]), [1].
  split; [cbn; lia|]. split; [apply mk_finished; [reflexivity|cbn; lia]|].
  split; [apply mk_finished; [reflexivity|cbn; lia]|]. split; [vm_compute; reflexivity|].
  split; [discriminate|]. split; [now left|]. cbn. intros [H|[H|[]]]; discriminate.
Qed.
Print Assumptions broken_pairs_positive_refuted.

(** C28 refuted: a strictly cheaper feasible individual is thrown away as a clone. *)
Theorem better_individual_kept_refuted : exists (p : @problem NumQ) (c : @config NumQ) P i P' m,
  lib_ok rust_lib /\ pop_history rust_lib p c P /\ finished p i /\ is_feasible i = true /\
  sp_pop (po_feas P) = [m] /\ (cost_of i + 1 < cost_of m)%Q /\
  pop_add rust_lib c P i true = Ok P' /\ map i_pheno (sp_pop (po_feas P')) = [i_pheno m] /\
  i_pheno m <> i_pheno i.
Proof.
  set (c := ex_cfg 2 true). set (a := mk line_p 10 [[1]; [2]]). set (b := mk line_p 10 [[1; 2]; []]).
  assert (Fa : finished line_p a) by (apply mk_finished; [reflexivity|cbn; lia]).
  assert (Fb : finished line_p b) by (apply mk_finished; [reflexivity|cbn; lia]).
  destruct (view_ok (adds c [a] (pop_new c)) ([ [[1]; [2]] ], [])) as (P & E & Ev); [vm_compute; reflexivity|].
  destruct (view_ok (adds c [a; b] (pop_new c)) ([ [[1]; [2]] ], [])) as (P' & E' & Ev'); [vm_compute; reflexivity|].
  assert (E1 : pop_add rust_lib c (pop_new c) a true = Ok P).
  { cbn [adds] in E. destruct (pop_add rust_lib c (pop_new c) a true); [exact E|discriminate]. }
  assert (E2 : pop_add rust_lib c P b true = Ok P').
  { cbn [adds] in E'. rewrite E1 in E'. destruct (pop_add rust_lib c P b true); [exact E'|discriminate]. }
  assert (Em : exists m, sp_pop (po_feas P) = [m] /\ i_pheno m = [[1]; [2]] /\ (cost_of m == 14)%Q).
  { assert (G : match pop_add rust_lib c (pop_new c) a true with
                | Ok P => match sp_pop (po_feas P) with [m] => Qeq_bool (cost_of m) 14 | _ => false end
                | Err _ => false end = true) by (vm_compute; reflexivity).
    rewrite E1 in G. injection Ev as Ev _. destruct (sp_pop (po_feas P)) as [|m [|m2 l]]; [discriminate| |discriminate].
    exists m. split; [auto|]. split; [cbn in Ev; congruence|]. now apply Qeq_bool_iff. }
  destruct Em as (m & Em & Epm & Ec).
  exists line_p, c, P, b, P', m.
  split; [apply rust_lib_ok|]. split; [eapply ph_add; [apply ph_new|exact Fa|exact E1]|].
  split; [exact Fb|]. split; [reflexivity|]. split; [exact Em|].
  split; [rewrite Ec; vm_compute; reflexivity|]. split; [exact E2|].
  injection Ev' as Ev' _. split; [rewrite Epm; exact Ev'|]. rewrite Epm. discriminate.
Qed.
Print Assumptions better_individual_kept_refuted.

(** C27 refuted for costs closer than the tolerance: comparing "equal up to the tolerance" is not
    transitive, the list is not in order of cost and survivor selection drops a member that is
    cheaper than the kept one by more than the tolerance. *)
Definition drift_d (i j : nat) : Q :=
  match Nat.min i j, Nat.max i j with
  | 0, 0 => 0%Q | 0, _ => 10%Q
  | 1, 2 => (5 + (3 # 10000000))%Q
  | 2, 3 => (5 - (3 # 10000000))%Q
  | 1, 3 => (5 + (9 # 10000000))%Q
  | _, _ => 0%Q
  end.
Definition drift_p : @problem NumQ := @mkProblem NumQ
  4 drift_d (fun i => nth i [0; 1; 1; 1] 0)%Q (fun i => (0, 0)%Q) 8%Q
  (fun i => filter (fun j => negb (Nat.eqb i j)) [1; 2; 3]%nat) (fun y x => 0%Q) (fun d => Z.of_N d # 1000) (fun x => x)
  (fun i => Z.of_nat i).

Theorem cheapest_kept_refuted : exists (p : @problem NumQ) (c : @config NumQ) P i P' m m',
  lib_ok rust_lib /\ pop_history rust_lib p c P /\ finished p i /\
  1 <= c_num_elites c <= c_min_population_size c /\
  pop_add rust_lib c P i true = Ok P' /\
  In m (i :: sp_pop (po_feas P)) /\ sp_pop (po_feas P') = [m'] /\
  (cost_of m + (1 # 1000000) < cost_of m')%Q.
Proof.
  set (c := small_cfg).
  set (t1 := mk drift_p 10 [[1; 3; 2]]). set (t2 := mk drift_p 10 [[2; 1; 3]]). set (t0 := mk drift_p 10 [[1; 2; 3]]).
  assert (F1 : finished drift_p t1) by (apply mk_finished; [reflexivity|cbn; lia]).
  assert (F2 : finished drift_p t2) by (apply mk_finished; [reflexivity|cbn; lia]).
  assert (F0 : finished drift_p t0) by (apply mk_finished; [reflexivity|cbn; lia]).
  destruct (view_ok (adds c [t1; t2] (pop_new c)) ([ [[2; 1; 3]]; [[1; 3; 2]] ], [])) as (P & E & Ev); [vm_compute; reflexivity|].
  destruct (view_ok (adds c [t1; t2; t0] (pop_new c)) ([ [[2; 1; 3]] ], [])) as (P' & E' & Ev'); [vm_compute; reflexivity|].
  assert (G : match adds c [t1; t2; t0] (pop_new c) with
              | Ok P => match sp_pop (po_feas P) with [m] => Qltb (cost_of t0 + (1 # 1000000)) (cost_of m) | _ => false end
              | Err _ => false end = true) by (vm_compute; reflexivity).
  assert (HP : pop_history rust_lib drift_p c P).
  { eapply adds_history; [apply ph_new| |exact E]. do 2 (apply Forall_cons; [assumption|]). apply Forall_nil. }
  rewrite E' in G.
  assert (E2 : pop_add rust_lib c P t0 true = Ok P').
  { revert E'. change (adds c [t1; t2; t0] (pop_new c)) with (match pop_add rust_lib c (pop_new c) t1 true with
      | Ok P => match pop_add rust_lib c P t2 true with Ok P => adds c [t0] P | Err e => Err e end | Err e => Err e end).
    change (adds c [t1; t2] (pop_new c)) with (match pop_add rust_lib c (pop_new c) t1 true with
      | Ok P => match pop_add rust_lib c P t2 true with Ok P => Ok P | Err e => Err e end | Err e => Err e end) in E.
    destruct (pop_add rust_lib c (pop_new c) t1 true) as [Q1|]; [|discriminate].
    destruct (pop_add rust_lib c Q1 t2 true) as [Q2|]; [|discriminate]. injection E as ->.
    cbn [adds]. destruct (pop_add rust_lib c P t0 true); [auto|discriminate]. }
  destruct (sp_pop (po_feas P')) as [|m' [|m2 l]] eqn:Em; [discriminate| |discriminate].
  exists drift_p, c, P, t0, P', t0, m'.
  split; [apply rust_lib_ok|]. split; [exact HP|]. split; [exact F0|]. split; [cbn; lia|]. split; [exact E2|].
  split; [now left|]. split; [exact Em|]. now apply Qltb_lt in G.
Qed.
Print Assumptions cheapest_kept_refuted.

(** Distances between finished solutions, and separated costs in order. *)
Example ex_distances :
  broken_pairs_distance (mk ex_p 10 [[1; 2; 5]; [3; 4]]) (mk ex_p 10 [[5; 2; 1]; [4; 3]]) = Ok 2 /\
  last (i_pheno (mk ex_p 10 [[5; 2; 1]; [4; 3]])) [] <> [] /\
  broken_pairs_distance (mk ex_p 10 [[1; 2; 5]; [3; 4]]) (mk ex_p 10 [[1; 3; 5]; [2]; [4]]) = Ok 4.
Proof. split; [vm_compute; reflexivity|]. split; [discriminate|]. vm_compute. reflexivity. Qed.

Example ex_separated : by_cost [mk ex_p 10 [[1; 2; 5]; [3; 4]]; mk ex_p 10 [[1; 3; 5]; [2]; [4]]] /\
  separated [mk ex_p 10 [[1; 2; 5]; [3; 4]]; mk ex_p 10 [[1; 3; 5]; [2]; [4]]].
Proof.
  split.
  - constructor; [constructor; constructor|]. constructor; [|constructor]. vm_compute. discriminate.
  - intros a b [<-|[<-|[]]] [<-|[<-|[]]].
    + left. reflexivity.
    + right. vm_compute. discriminate.
    + right. vm_compute. discriminate.
    + left. reflexivity.
Qed.
