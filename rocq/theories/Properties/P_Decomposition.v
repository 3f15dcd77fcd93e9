(** C39: taking a subproblem out of a solution and merging a solution of it back. *)
From Coq Require Import List Arith NArith ZArith QArith Bool Lia Lqa Permutation.
From Verif.Model Require Import Num Prelude Evaluate Individual Config Crossover Split Matrix Population
  LocalSearch World Schedule RuinRecreate Genetic Decomposition.
From Verif.Spec Require Import Solution Split Library Population LocalSearch RuinRecreate Genetic Decomposition.
From Verif.Proofs Require Import Lists QNum EvalFacts EvalThms SplitStruct SplitThms MatrixFacts RustLib RrRun RrMachine
  Decompose DecomposeQ.
Import ListNotations.
Open Scope nat_scope.

(** Any arithmetic, random numbers and hash order: the decomposition succeeds; it takes whole
    routes out, and renames their customers without losing or confusing any. *)
Theorem C39_taken_out (N : Num) (p : problem) (min_size : nat) (corr : matrix nat) (global : individual) (hash r : rng) :
  2 <= p_dim p -> whole_solution (p_dim p) global -> 0 < length (i_pheno global) -> rows_distinct p corr ->
  exists sub mapping rest r' chosen,
    decompose_global p min_size corr global hash r = Ok (sub, mapping, rest, r') /\
    cut_out p global sub mapping rest chosen /\
    (min_size <= length (concat chosen) \/ m_cols corr <= length (concat chosen)).
Proof.
  intros D2 C HL RD.
  destruct (decompose_global_ok p min_size corr global hash r C HL D2 RD) as (sub & mapping & rest & r' & rs & E & T).
  exists sub, mapping, rest, r', rs. split; auto. split; [|apply T]. eapply taken_cut; eauto.
Qed.
Print Assumptions C39_taken_out.

(** Any arithmetic: the subproblem has as many nodes as were taken out and the same vehicles, and
    its routes cost and weigh what they cost and weigh in the whole problem under their own names. *)
Theorem C39_subproblem (N : Num) (p : problem) (mapping : list nat) (pen : F) (e : sol_eval) (routes : list (list nat)) :
  nth 0 mapping 0 = 0 -> 0 < length mapping -> 0 < p_dim p ->
  (forall i, i < length mapping -> nth i mapping 0 < p_dim p) ->
  (forall r n, In r routes -> In n r -> n < length mapping) ->
  p_dim (sub_problem p mapping) = length mapping /\ p_cap (sub_problem p mapping) = p_cap p /\
  (forall i, i < length mapping -> p_coord (sub_problem p mapping) i = p_coord p (nth i mapping 0)) /\
  exists e1 e2, evaluate (sub_problem p mapping) pen e routes = Ok e1 /\ evaluate p pen e (renamed mapping routes) = Ok e2 /\
    se_cost e1 = se_cost e2 /\ se_feasible e1 = se_feasible e2.
Proof.
  intros H0 HL HD HM HR. split; [reflexivity|]. split; [reflexivity|]. split; [reflexivity|].
  eexists _, _. split; [|split].
  - apply evaluate_eq; [|exact HL]. intros n Hn. apply in_concat in Hn as (r & H1 & H2). exact (HR r n H1 H2).
  - apply evaluate_eq; [|exact HD]. intros n Hn. apply in_concat in Hn as (r & H1 & H2).
    apply in_map_iff in H1 as (r' & <- & H1). apply in_map_iff in H2 as (n' & <- & H2). apply HM. exact (HR r' n' H1 H2).
  - cbn [geval se_cost se_feasible]. split; [f_equal; now apply sub_gtotal|now apply sub_gfeasible].
Qed.
Print Assumptions C39_subproblem.

(** Any arithmetic, and any complete solution of the subproblem: the merged solution visits every
    customer exactly once, consists of the routes left in place and the non-empty routes of the
    solution of the subproblem, and is evaluated. *)
Theorem C39_merged (N : Num) (p : problem) (pen : F) (global sub rest sol global' : individual) (mapping : list nat)
    (chosen : list (list nat)) :
  2 <= p_dim p -> whole_solution (p_dim p) global -> cut_out p global sub mapping rest chosen ->
  serves_all_once (length mapping) (i_pheno sol) ->
  decomposition_finish p pen sol mapping rest = Ok global' ->
  whole_solution (p_dim p) global' /\
  Permutation (i_pheno global') (i_pheno rest ++ used_routes (renamed mapping (i_pheno sol))) /\
  length (i_pheno global') + length chosen = length (i_pheno global) + length (used_routes (i_pheno sol)) /\
  exists e, evaluate p pen e (i_pheno global') = Ok (i_eval global').
Proof.
  intros D2 C CO S H. destruct (finish_ok p global sub rest mapping chosen D2 C CO pen sol global' S H) as (A1 & A2 & A3).
  split; auto. split; auto. split.
  - rewrite (Permutation_length A2), (Permutation_length (co_routes _ _ _ _ _ _ CO)), !app_length, used_renamed. lia.
  - destruct A3 as (e & ->). exists e. apply evaluate_eq; [|lia].
    intros n Hn. apply (serves_In _ _ _ (proj1 A1)) in Hn. lia.
Qed.
Print Assumptions C39_merged.

(** In exact arithmetic the merge succeeds, and it changes the cost of the whole solution exactly
    as the cost of the subproblem changed. *)
Theorem C39_merged_cost (p : @problem NumQ) (pen : Q) (global sub rest sol : @individual NumQ) (mapping : list nat)
    (chosen : list (list nat)) :
  2 <= p_dim p -> whole_solution (p_dim p) global -> cut_out p global sub mapping rest chosen ->
  serves_all_once (length mapping) (i_pheno sol) ->
  (p_dist p 0%nat 0%nat == 0)%Q -> (0 <= p_cap p)%Q ->
  let whole := total_penalized (p_dist p) (p_demand p) (p_cap p) pen in
  let part := total_penalized (fun i j => p_dist p (nth i mapping 0) (nth j mapping 0))
                (fun i => p_demand p (nth i mapping 0)) (p_cap p) pen in
  exists global', @decomposition_finish NumQ p pen sol mapping rest = Ok global' /\
    (whole (i_pheno global') - whole (i_pheno global) == part (i_pheno sol) - part (i_pheno sub))%Q /\
    (forall tol, (0 <= tol)%Q -> within_capacity (p_demand p) (p_cap p) tol (i_pheno global) ->
       within_capacity (fun i => p_demand p (nth i mapping 0)) (p_cap p) tol (i_pheno sol) ->
       within_capacity (p_demand p) (p_cap p) tol (i_pheno global')).
Proof.
  intros D2 C CO S D0 C0 whole part.
  destruct (finish_total p global sub rest mapping chosen D2 C CO pen sol S) as (global' & E).
  exists global'. split; auto. destruct (finish_ok p global sub rest mapping chosen D2 C CO pen sol global' S E) as (A1 & A2 & _).
  split.
  - unfold whole, part. now apply (merged_cost p pen global sub rest sol global' mapping chosen).
  - intros tol HT. now apply (merged_within p global sub rest sol global' mapping chosen).
Qed.
Print Assumptions C39_merged_cost.

(** Any arithmetic: the next round can load the merged solution into ruin and recreate exactly if
    the solution of the subproblem uses as many routes as were taken out; if it uses fewer (or
    more) of them the assertion in [load] fails. *)
Theorem C39_loadable_partial (N : Num) (p : problem) (c : config) (E : env) (st : rrstate) (w : world) (pen : F)
    (global sub rest sol global' : individual) (mapping : list nat) (chosen : list (list nat)) :
  2 <= p_dim p -> 0 < c_num_vehicles c -> reals_below_one p -> rr_reached p c E st ->
  whole_solution (p_dim p) global -> length (i_pheno global) = c_num_vehicles c ->
  cut_out p global sub mapping rest chosen ->
  serves_all_once (length mapping) (i_pheno sol) ->
  decomposition_finish p pen sol mapping rest = Ok global' ->
  (length (used_routes (i_pheno sol)) = length chosen -> exists st' w', rr_load E st global' w = Ok (st', w')) /\
  (length (used_routes (i_pheno sol)) <> length chosen -> rr_load E st global' w = Err EPanic).
Proof.
  intros D2 NV RB HR C HL CO S H.
  destruct (C39_merged N p pen global sub rest sol global' mapping chosen D2 C CO S H) as ((W1 & W2) & _ & EL & e & EE).
  destruct (reached_inv p c E (fun _ => True) (fun _ _ _ _ _ _ => I) (fun _ _ _ _ _ _ _ => I) (fun _ _ => I) RB D2 NV st HR) as [SH _].
  split; intro U.
  - destruct (rr_load_ok p c E (fun _ => True) (fun _ _ => I) D2 NV st global' w SH) as (st' & w' & G & _); eauto; [|lia].
    split; auto. split; auto. exists pen, e. exact EE.
  - unfold rr_load, so_load. rewrite (proj1 SH). destruct (Nat.eqb_spec (length (i_pheno global')) (c_num_vehicles c)); [lia|reflexivity].
Qed.
Print Assumptions C39_loadable_partial.

(** ** An instance: four customers, of demands 6, 5, 4 and 5, vehicles of capacity 10 *)
Open Scope Q_scope.
Definition de_d (i j : nat) : Q :=
  match i, j with
  | 0%nat, 0%nat => 0 | 0%nat, _ => 1000 | _, 0%nat => 1000
  | 2%nat, 3%nat | 3%nat, 2%nat => 500
  | 1%nat, 3%nat | 3%nat, 1%nat | 2%nat, 4%nat | 4%nat, 2%nat => 800
  | _, _ => if Nat.eqb i j then 0 else 1500
  end.
Definition de_p : @problem NumQ := @mkProblem NumQ 5 de_d (fun i => nth i [0;6;5;4;5] 0)
  (fun i => (inject_Z (Z.of_nat i), 1)) 10 (fun _ => []) (fun y x => x) (fun d => Z.of_N (d mod 1000) # 1000)
  (fun _ => -1) (fun i => Z.of_nat i).
Definition de_cfg : @config NumQ := @mkConfig NumQ
  (Some 6%nat) 30 4 30
  2 3 2 1 2 (2 # 10) 2 (5 # 10)
  (3 # 2) true
  true 2 true true true true true true true true true true
  2 (12 # 10) (85 # 100)
  1 1 false 1 1 10
  false 1 3 50 false (2 # 100).
Definition de_env : @env NumQ := @mkEnv NumQ (fun x => 1 + x / 2) (fun k => inject_Z (Z.of_nat k)).
Close Scope Q_scope.
Definition de_stream (a b : N) : rng :=
  mkRng (fun k => (a * N.of_nat k * N.of_nat k + b * N.of_nat (k + 1))%N) 0.
Definition de_corr : matrix nat := mkMatrix 5 3 [1;2;3; 3;2;4; 3;4;1; 2;1;4; 2;1;3].
Definition de_world a b : @world NumQ := @mkWorld NumQ 1000%Q hist_new 0 (de_stream a b) 0.
Definition de_dm : @dmatrix NumQ := @mkDM NumQ (repeat ((0%Q,0%Q) : @coord NumQ) 5) (mkMatrix 5 5 (concat (map (fun i => map (de_d i) (seq 0 5)) (seq 0 5)))) true false (Some (1500%Q : @F NumQ)).
Definition de_lsort (l : list (nat * @F NumQ)) := isort (fun a b => Qle_bool (snd a) (snd b)) l.
Definition de_hashes (k : nat) := (de_stream 1 1, de_stream 1 3, de_stream 2 1).
Definition de_ind (ph : list (list nat)) : @individual NumQ := @mkInd NumQ 0 (concat ph) ph None se_new.
Definition de_whole : res (@individual NumQ) := @ind_evaluate NumQ de_p 1000%Q (de_ind [[1];[2;3];[4];[]]).
Definition de_cut r := @decompose_global NumQ de_p 4 de_corr (de_ind [[1];[2;3];[4];[]]) (de_stream 1 1) r.

(** The depot's row of the correlation matrix is one of the rows *)
Fact de_rows : rows_distinct de_p de_corr.
Proof.
  split; [reflexivity|]. intros u Hu. cbn in Hu.
  do 5 (destruct u as [|u]; [split; [repeat constructor; cbn; intuition discriminate|
    intros v Hv; cbn in Hv; cbn [p_dim de_p]; lia]|]). lia.
Qed.
Fact de_whole_ok : whole_solution 5 (de_ind [[1];[2;3];[4];[]]).
Proof. split; [|reflexivity]. apply Permutation_refl. Qed.

(** C39_taken_out: all three used routes are taken out; customer 4 becomes node 1. *)
Example de_cut_example : match de_cut (de_stream 7 3) with
  | Ok (sub, mapping, rest, _) => Some (i_pheno sub, mapping, i_pheno rest) | Err _ => None end =
  Some ([[1]; [2]; [3; 4]; []; []], [0; 4; 1; 2; 3], [[]]).
Proof. vm_compute. reflexivity. Qed.
(** With a smaller subproblem, two of the routes, 2-3 and 4, are taken out and route 1 stays. *)
Example de_cut_small_example : match @decompose_global NumQ de_p 3 de_corr (de_ind [[1];[2;3];[4];[]]) (de_stream 1 1) (de_stream 7 2) with
  | Ok (sub, mapping, rest, _) => Some (i_pheno sub, mapping, i_pheno rest) | Err _ => None end =
  Some ([[1; 2]; [3]; []; []], [0; 2; 3; 4], [[1]; []]).
Proof. vm_compute. reflexivity. Qed.

Definition de_sub : @individual NumQ := de_ind [[1]; [2]; [3; 4]; []; []].
Definition de_mapping : list nat := [0; 4; 1; 2; 3].
Fact de_cut_out : cut_out de_p (de_ind [[1];[2;3];[4];[]]) de_sub de_mapping (de_ind [[]]) [[4];[1];[2;3]].
Proof.
  constructor.
  - cbn. apply perm_trans with ([1] :: [4] :: [2; 3] :: [[]]); [|constructor].
    constructor. constructor.
  - reflexivity.
  - repeat constructor; cbn; intuition discriminate.
  - intros i Hi. cbn in Hi. cbn [p_dim de_p]. do 5 (destruct i as [|i]; [cbn; lia|]). lia.
  - split; [apply Permutation_refl|reflexivity].
  - exists 2. reflexivity.
  - reflexivity.
Qed.
(** C39_subproblem: its routes are those of the whole solution and cost 6500, feasible. *)
Example de_sub_example :
  match @evaluate NumQ (sub_problem de_p de_mapping) 1000%Q se_new (i_pheno de_sub),
        @evaluate NumQ de_p 1000%Q se_new (renamed de_mapping (i_pheno de_sub)) with
  | Ok e1, Ok e2 => match se_cost e1, se_cost e2 with
      | Some a, Some b => Qeq_bool a 6500 && Qeq_bool b 6500 && se_feasible e1 && se_feasible e2 | _, _ => false end
  | _, _ => false end = true.
Proof. vm_compute. reflexivity. Qed.

(** Merging a solution of the subproblem with two routes instead of three: every customer is still
    there and the cost falls by 900, on both sides of C39_merged_cost. *)
Example de_merge_example :
  match @decomposition_finish NumQ de_p 1000%Q (de_ind [[4; 2]; [3; 1]; []; []]) de_mapping (de_ind [[]]) with
  | Ok g => Some (i_pheno g) | Err _ => None end = Some [[3; 1]; [2; 4]; []] /\
  (total_penalized de_d (p_demand de_p) 10 1000 ([[1];[2;3];[4];[]])%nat == 6500)%Q /\
  (total_penalized de_d (p_demand de_p) 10 1000 ([[3; 1]; [2; 4]; []])%nat == 5600)%Q.
Proof. repeat split; vm_compute; reflexivity. Qed.

(** C39 is false in its second half: an improved solution of the subproblem with fewer routes
    gives a merged solution that cannot be loaded. *)
Theorem C39_loadable_refuted :
  exists (p : @problem NumQ) (c : @config NumQ) E st w pen global sub mapping rest chosen sol global',
    rr_reached p c E st /\ whole_solution (p_dim p) global /\ length (i_pheno global) = c_num_vehicles c /\
    cut_out p global sub mapping rest chosen /\
    serves_all_once (length mapping) (i_pheno sol) /\
    within_capacity (fun i => p_demand p (nth i mapping 0)) (p_cap p) 0 (i_pheno sol) /\
    decomposition_finish p pen sol mapping rest = Ok global' /\
    rr_load E st global' w = Err EPanic.
Proof.
  set (sol := de_ind [[4; 2]; [3; 1]; []; []]).
  assert (S : serves_all_once (length de_mapping) (i_pheno sol)).
  { unfold serves_all_once. cbn. apply perm_trans with [4; 3; 2; 1]; [repeat constructor|].
    exact (Permutation_sym (Permutation_rev [1; 2; 3; 4])). }
  destruct (finish_total de_p _ _ _ _ _ ltac:(cbn; lia) de_whole_ok de_cut_out 1000%Q sol S) as (global' & G).
  exists de_p, de_cfg, de_env, (rr_new de_p de_cfg (de_stream 1 1)), (de_world 7 3), 1000%Q.
  exists (de_ind [[1];[2;3];[4];[]]), de_sub, de_mapping, (de_ind [[]]), [[4];[1];[2;3]], sol, global'.
  split; [constructor|]. split; [exact de_whole_ok|]. split; [reflexivity|]. split; [exact de_cut_out|]. split; [exact S|].
  split. { intros r Hr. cbn in Hr. repeat (destruct Hr as [<-|Hr]; [vm_compute; discriminate|]). destruct Hr. }
  split; [exact G|].
  destruct (C39_merged NumQ de_p 1000%Q _ _ _ sol global' _ _ ltac:(cbn; lia) de_whole_ok de_cut_out S G) as (_ & _ & EL & _).
  unfold rr_load, so_load. change (length (so_routes (rr_sol (rr_new de_p de_cfg (de_stream 1 1))))) with 4.
  cbn in EL. destruct (Nat.eqb_spec (length (i_pheno global')) 4); [lia|reflexivity].
Qed.
Print Assumptions C39_loadable_refuted.

(** A whole round of the decomposed algorithm: the genetic algorithm itself finds that solution
    of the subproblem, and the program stops at the assertion. *)
Definition de_state (i : @individual NumQ) :=
  let '(g, w) := @ga_new NumQ de_p de_cfg de_corr (de_stream 3 5) (de_stream 7 1) (de_world 7 3) in (mkDGA DCycle i g 0, w).
Definition de_clock (last : nat) : @env NumQ :=
  @mkEnv NumQ (fun x => (1 + x / 2)%Q) (fun k => if k <? last then 0%Q else 1000%Q).
Definition de_round : option (option err) :=
  match de_whole with
  | Ok i => match @decompose_cycle NumQ rust_lib de_p de_cfg (de_clock 4) 5 1000 (fun x => x) (fun x => x) de_lsort de_dm 4 de_hashes
                    (fst (de_state i)) (snd (de_state i)) with Ok _ => Some None | Err e => Some (Some e) end
  | Err _ => None
  end.
Example de_round_example : de_round = Some (Some EPanic).
Proof. vm_compute. reflexivity. Qed.
