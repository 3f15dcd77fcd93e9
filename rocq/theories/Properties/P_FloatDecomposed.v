(** The decomposed genetic algorithm in double precision (C64). *)
From Coq Require Import List Arith NArith ZArith Bool Lia Permutation Reals Lra.
From Flocq Require Import Core BinarySingleNaN.
From Verif.Model Require Import Num NumFloat Prelude Evaluate Individual Config Crossover Split Matrix Population LocalSearch
  World Schedule RuinRecreate Genetic Decomposition.
From Verif.Spec Require Import Solution Library Floats FloatDecomposed Population LocalSearch RuinRecreate Genetic Decomposition.
From Verif.Proofs Require Import Lists EvalFacts EvalThms MatrixFacts FloatFacts FloatRun GaInv GaQ RustLib DgaInst DgaInv DgaFloat DgaFloatInv.
From Verif.Properties Require Import P_RuinRecreate P_FloatRun P_FloatProgram P_FloatFine.
Import ListNotations.
Open Scope Z_scope.

Section Doubles.
Variable L : lib.
Variable p : @problem NumF.
Variable c : @config NumF.
Variable d : nat -> nat -> Z.
Variable q : nat -> Z.
Variable cap : Z.
Variable E : @env NumF.
Variable li : nat.
Variable md : option (@F NumF).
Variable fuel : nat.
Variable sqrt_ round_ : @F NumF -> @F NumF.
Variable lsort : list (nat * @F NumF) -> list (nat * @F NumF).
Variable dm : @dmatrix NumF.
Variable min_size : nat.
Variable hashes : nat -> rng * rng * rng.
Variable gd : nat -> nat -> @F NumF.
Local Notation nv := (c_num_vehicles c).
Local Notation reached := (dga_reached L p c E li fuel sqrt_ round_ lsort dm min_size hashes).
Local Notation iterate := (dga_iterate L p c E li fuel sqrt_ round_ lsort dm min_size hashes).
Local Notation zlen rs := (zsum (map (ztour d) rs)).
Hypothesis library : lib_ok L.
Hypothesis sorts : sort_contract lsort.
(** the distance matrix the subproblems are built from has the size of the problem and holds no NaN *)
Hypothesis matrix_size : dfun sqrt_ round_ dm (p_dim p) gd.
Hypothesis matrix_numbers : no_nan gd (p_dim p).
Hypothesis usual : decomposed_integral p c d q cap min_size.

Local Lemma reached_inv w0 g w : set_up p md w0 -> reached w0 g w -> dinvF L p c d q cap g w.
Proof.
  intros ((m & _ & EP) & EH & EI) R. destruct usual as [U1 U2 U3 U4 U5].
  induction R as [corr lh rh g w NB RD GC G|g w g' w' R I G].
  - destruct (dga_new_invF L p c d q cap U1 min_size U4 U5 corr lh rh w0 g w NB RD GC) as (I & _); auto.
    rewrite EP. apply low_initialF.
  - pose proof (dga_iterate_okF L library p c d q cap U1 U2 U3 E li fuel sqrt_ round_ lsort dm min_size hashes gd sorts matrix_size matrix_numbers U4 U5 g w I) as X.
    rewrite G in X. apply X.
Qed.

Local Lemma reached_step w0 g w : set_up p md w0 -> reached w0 g w ->
  match iterate g w with
  | Ok (g', w') => dinvF L p c d q cap g' w' /\ w_iter w' = w_iter w /\
      (d_st g = DCycle -> is_feasible (d_sol g) = true -> not_longer p c d q cap (i_pheno (d_sol g)) (i_pheno (d_sol g')))
  | Err e => nice p c -> e = EFuel \/ e = EPanic /\ d_st g = DCycle /\
      (is_feasible (d_sol g) = false \/ misfit L p c E li fuel sqrt_ round_ lsort dm min_size hashes g (snd (terminate c E w)))
  end.
Proof.
  intros SU R. pose proof (reached_inv w0 g w SU R) as I. destruct usual as [U1 U2 U3 U4 U5].
  exact (dga_iterate_okF L library p c d q cap U1 U2 U3 E li fuel sqrt_ round_ lsort dm min_size hashes gd sorts matrix_size matrix_numbers U4 U5 g w I).
Qed.

(** Every solution recorded in a decomposed run serves all customers once, is within capacity
    exactly, carries exactly its length as cost, and is shorter than the one recorded before it;
    what is reported is the last and shortest of them. *)
Theorem C64_recorded w0 g w : set_up p md w0 -> reached w0 g w ->
  exists is, recorded hist_new is (w_hist w) /\
    Forall (fun i : @individual NumF => exact_record p d q cap (i_pheno i) (penalized_cost i)) is /\
    (forall l1 a b l2, is = l1 ++ a :: b :: l2 -> zlen (i_pheno b) < zlen (i_pheno a)) /\
    (forall e, reported (w_hist w) e -> exact_record p d q cap (he_routes e) (he_cost e) /\
       forall i, In i is -> zlen (he_routes e) <= zlen (i_pheno i)).
Proof.
  intros SU R. pose proof (reached_inv w0 g w SU R) as I.
  exact (recorded_best p d q cap (ga_best_sol (d_ga g)) (w_hist w) (gb_hist _ _ _ _ _ _ _ _ (df_base _ _ _ _ _ _ _ _ I))).
Qed.

(** The solution that is decomposed is a solution with one route per vehicle, after any number of
    rounds, and it is called feasible exactly if no route is above capacity. *)
Theorem C64_solution w0 g w : set_up p md w0 -> reached w0 g w -> d_st g = DCycle ->
  whole_solution (p_dim p) (d_sol g) /\ length (i_pheno (d_sol g)) = nv /\
  (is_feasible (d_sol g) = true <-> all_fit q cap (i_pheno (d_sol g))).
Proof.
  intros SU R ST. pose proof (df_cycle _ _ _ _ _ _ _ _ (reached_inv w0 g w SU R) ST) as C. pose proof C as (S & HL & HG & _).
  split; [split; assumption|]. split; [exact HL|].
  exact (feasible_loads cap p c d q (w_pen w) (d_sol g) (dz_instance _ _ _ _ _ _ usual) (child_evaluated p c _ _ C)).
Qed.

(** From a solution within capacity, a round comes first to one that is within capacity too and not
    longer; if what it ends with is within capacity, that is not longer either. *)
Theorem C64_round w0 g w g' w' : set_up p md w0 -> reached w0 g w -> d_st g = DCycle -> all_fit q cap (i_pheno (d_sol g)) ->
  iterate g w = Ok (g', w') ->
  exists merged, serves_all_once (p_dim p) merged /\ length merged = nv /\ all_fit q cap merged /\
    zlen merged <= zlen (i_pheno (d_sol g)) /\ (all_fit q cap (i_pheno (d_sol g')) -> zlen (i_pheno (d_sol g')) <= zlen merged).
Proof.
  intros SU R ST FE G. apply (C64_solution w0 g w SU R ST) in FE. pose proof (reached_step w0 g w SU R) as X. rewrite G in X.
  destruct X as (_ & _ & X). exact (X ST FE).
Qed.

(** With coordinates that are numbers and sensible sizes in the configuration, a call of [iterate]
    fails, other than by an exhausted loop bound, only in a round that starts from a solution above
    capacity, or whose merged solution has not one route per vehicle (C39_loadable_refuted). *)
Theorem C64_panics_partial w0 g w : set_up p md w0 -> reached w0 g w ->
  drawable p -> Z.of_nat (c_num_diversity_closest c) < 2 ^ 1000 ->
  (1 <= c_num_diversity_closest c)%nat -> (1 <= c_min_population_size c)%nat ->
  (1 <= c_initial_individuals c)%nat -> (1 <= c_tournament_size c)%nat ->
  (exists g' w', iterate g w = Ok (g', w')) \/ iterate g w = Err EFuel \/
  iterate g w = Err EPanic /\ d_st g = DCycle /\
    (~ all_fit q cap (i_pheno (d_sol g)) \/
     misfit L p c E li fuel sqrt_ round_ lsort dm min_size hashes g (snd (terminate c E w))).
Proof.
  intros SU R DR CL F1 F2 F3 F4. pose proof (reached_step w0 g w SU R) as X. destruct (iterate g w) as [[g' w']|e]; [left; eauto|right].
  destruct (X (conj DR (conj CL (Build_sizes _ c F1 F2 F3 F4)))) as [->|[-> (ST & Y)]]; [now left|right].
  split; [reflexivity|]. split; [exact ST|]. destruct Y as [Y|Y]; [left|now right].
  rewrite <- (proj2 (proj2 (C64_solution w0 g w SU R ST))), Y. discriminate.
Qed.
End Doubles.
Print Assumptions C64_recorded.
Print Assumptions C64_solution.
Print Assumptions C64_round.
Print Assumptions C64_panics_partial.

(** ** The instance of P_Decomposition in double precision *)
Open Scope nat_scope.
Definition fd_d (i j : nat) : Z :=
  match i, j with
  | 0, 0 => 0%Z | 0, _ => 1000%Z | _, 0 => 1000%Z
  | 2, 3 | 3, 2 => 500%Z
  | 1, 3 | 3, 1 | 2, 4 | 4, 2 => 800%Z
  | _, _ => if Nat.eqb i j then 0%Z else 1500%Z
  end.
Definition fd_q (i : nat) : Z := nth i [0; 6; 5; 4; 5]%Z 0%Z.
Definition fd_p : @problem NumF := @mkProblem NumF 5 (fun a b => d_of_Z (fd_d a b)) (fun a => d_of_Z (fd_q a))
  (fun i => (d_of_Z (Z.of_nat i), d_of_Z 1)) (d_of_Z 10) (fun _ => []) (fun y x => x) unit_double
  (fun _ => d_of_Z (-1)) Z.of_nat.
Definition fd_c : @config NumF := @mkConfig NumF
  (Some 6) 30 4 30
  2 3 2 1 2 (d_lit 2 10) 2 (d_lit 5 10)
  (d_lit 15 10) true
  true 2 true true true true true true true true true true
  2 (d_lit 12 10) (d_lit 85 100)
  1 1 false (d_lit 1 1) (d_lit 1 1) (d_lit 10 1)
  false 1 (d_lit 3 1) (d_lit 50 1) false (d_lit 2 100).
Definition fd_clock (last : nat) : @env NumF :=
  @mkEnv NumF (fun x => dadd (d_of_Z 1) (ddiv x (d_of_Z 2))) (fun k => if k <? last then d_of_Z 0 else d_of_Z 1000).
Definition fd_stream (a b : N) : rng :=
  mkRng (fun k => (a * N.of_nat k * N.of_nat k + b * N.of_nat (k + 1))%N) 0.
Definition fd_corr : matrix nat := mkMatrix 5 3 [1;2;3; 3;2;4; 3;4;1; 2;1;4; 2;1;3].
Definition fd_dm : @dmatrix NumF := @mkDM NumF (repeat ((d_of_Z 0, d_of_Z 0) : @coord NumF) 5)
  (mkMatrix 5 5 (concat (map (fun i => map (fun j => d_of_Z (fd_d i j)) (seq 0 5)) (seq 0 5)))) true false (Some (d_of_Z 1500 : @F NumF)).
Definition fd_lsort (l : list (nat * @F NumF)) := isort (fun a b => @fle NumF (snd a) (snd b)) l.
Definition fd_hashes (k : nat) := (fd_stream 1 1, fd_stream 1 3, fd_stream 2 1).
Definition fd_ind (ph : list (list nat)) : @individual NumF := @mkInd NumF 0 (concat ph) ph None se_new.
Definition fd_start a b : @world NumF :=
  @mkWorld NumF (match @max_demand NumF fd_p with Ok m => @initial_penalty NumF (dm_max fd_dm) m | Err _ => d_of_Z 0 end) hist_new 0 (fd_stream a b) 0.
Definition fd_cycle a b (ph : list (list nat)) : option (@dga NumF * @world NumF) :=
  match @ind_evaluate NumF fd_p (w_pen (fd_start a b)) (fd_ind ph) with
  | Ok i => let '(d, w) := dga_new fd_p fd_c fd_corr (fd_stream 3 5) (fd_stream 7 1) (fd_start a b) in
            Some (mkDGA DCycle i (d_ga d) 0, w)
  | Err _ => None
  end.
Definition fd_next a b (last size : nat) (ph : list (list nat)) :=
  match fd_cycle a b ph with
  | Some (d, w) =>
      match @dga_iterate NumF rust_lib fd_p fd_c (fd_clock last) 5 1000 (fun x => x) (fun x => x) fd_lsort fd_dm size fd_hashes d w with
      | Ok (d, w) => Some (Ok (d_st d, i_pheno (d_sol d), w_iter w))
      | Err e => Some (Err e)
      end
  | None => None
  end.
Fact fd_set_up a b : set_up fd_p (dm_max fd_dm) (fd_start a b).
Proof.
  split; [|split; reflexivity]. unfold fd_start. cbn [w_pen].
  assert (X : match @max_demand NumF fd_p with Ok _ => true | Err _ => false end = true) by (vm_compute; reflexivity).
  destruct (@max_demand NumF fd_p) as [m|]; [|discriminate X]. exists m. split; reflexivity.
Qed.
Fact fd_sorts : sort_contract fd_lsort.
Proof.
  intros l FA. apply (Spec.FloatProgram.df_sort _ (pf_functions 0) l). eapply Forall_impl; [|exact FA]. intros a H. now apply FloatStart.isnan_nan.
Qed.
Fact fd_matrix : dfun (fun x => x) (fun x => x) fd_dm 5 (fun i j => d_of_Z (fd_d i j)).
Proof.
  split; [reflexivity|]. change (dm_pre fd_dm) with true. cbv iota. split; [reflexivity|]. split; [reflexivity|]. split; [reflexivity|].
  intros i j Hi Hj. do 5 (destruct i as [|i]; [do 5 (destruct j as [|j]; [reflexivity|]); lia|]). lia.
Qed.
Local Lemma fd_d_bound a b : (0 <= fd_d a b <= 1500)%Z.
Proof.
  unfold fd_d. repeat match goal with |- context [match ?x with O => _ | S _ => _ end] => destruct x end;
    try lia; match goal with |- context [if ?x then _ else _] => destruct x end; lia.
Qed.
Fact fd_numbers : no_nan (fun i j => d_of_Z (fd_d i j) : @F NumF) 5.
Proof.
  intros a b _ _. pose proof (fd_d_bound a b). destruct (int_of_Z (fd_d a b)) as [X _]; [unfold exact_bound; lia|].
  apply FloatStart.nan_isnan. destruct (d_of_Z (fd_d a b)); try discriminate; reflexivity.
Qed.
Fact fd_usual : decomposed_integral fd_p fd_c fd_d fd_q 10 3.
Proof.
  assert (B : forall z, (0 <= z < 2000)%Z -> is_int (d_of_Z z) z /\ (0 <= z)%Z) by (intros z H; split; [apply int_of_Z; unfold exact_bound; lia|lia]).
  constructor; [constructor|lia|reflexivity|cbn; lia|cbn; lia].
  - constructor.
    + intros a b _ _. apply B. pose proof (fd_d_bound a b). lia.
    + intros a _. apply B. unfold fd_q. do 5 (destruct a as [|a]; [cbn; lia|]). destruct a; cbn; lia.
    + split; [apply B; lia|unfold exact_bound; lia].
  - cbn. lia.
  - split; [cbn; lia|]. change (@vehicle_lower_bound NumF fd_p <= 4). apply Nat.leb_le. vm_compute. reflexivity.
  - reflexivity.
  - exists 1500%Z. split; [lia|]. split; [|reflexivity]. intros a b _ _. apply fd_d_bound.
  - reflexivity.
  - intro x. apply unit_double_ok.
  - cbn. lia.
Qed.
Fact fd_rows : rows_distinct fd_p fd_corr.
Proof.
  split; [reflexivity|]. intros u Hu. cbn in Hu.
  do 5 (destruct u as [|u]; [split; [repeat constructor; cbn; intuition discriminate|
    intros v Hv; cbn in Hv; cbn [p_dim fd_p]; lia]|]). lia.
Qed.
Fact fd_neighbours : neighbours_ok fd_p fd_c fd_corr.
Proof.
  split; [cbn; lia|]. split; [reflexivity|]. intros u v Hu I. cbn in Hu.
  do 5 (destruct u as [|u]; [vm_compute in I; cbn [p_dim fd_p]; lia|]). lia.
Qed.
(** The first state is reached; as in P_Decomposed, the first call would take too long. *)
Example fd_first_state a b fuel clock :
  let '(d, w) := dga_new fd_p fd_c fd_corr (fd_stream 3 5) (fd_stream 7 1) (fd_start a b) in
  dga_reached rust_lib fd_p fd_c (fd_clock clock) 5 fuel (fun x => x) (fun x => x) fd_lsort fd_dm 3 fd_hashes (fd_start a b) d w.
Proof.
  destruct (dga_new fd_p fd_c fd_corr (fd_stream 3 5) (fd_stream 7 1) (fd_start a b)) as [d w] eqn:G.
  exact (dr_new _ _ _ _ _ _ _ _ _ _ _ _ _ _ _ _ _ _ fd_neighbours fd_rows (Nat.lt_succ_diag_r 2) G).
Qed.
(** The invariant behind the theorems holds in the state with any solution that has four routes. *)
Fact fd_cycle_inv a b ph d w : serves_all_once 5 ph -> length ph = 4 -> fd_cycle a b ph = Some (d, w) ->
  dinvF rust_lib fd_p fd_c fd_d fd_q 10 d w.
Proof.
  intros S HL. unfold fd_cycle. destruct (dga_new fd_p fd_c fd_corr (fd_stream 3 5) (fd_stream 7 1) (fd_start a b)) as [d0 w0] eqn:G.
  assert (LP : lowpenF (w_pen (fd_start a b))).
  { destruct (fd_set_up a b) as ((m & _ & EP) & _). rewrite EP. apply low_initialF. }
  destruct (dga_new_invF rust_lib fd_p fd_c fd_d fd_q 10 (dz_instance _ _ _ _ _ _ fd_usual) 3 (dz_size _ _ _ _ _ _ fd_usual) (dz_cols _ _ _ _ _ _ fd_usual)
    fd_corr (fd_stream 3 5) (fd_stream 7 1) (fd_start a b) d0 w0 fd_neighbours fd_rows (Nat.lt_succ_diag_r 2) LP eq_refl G) as ([B U P R C Y] & _ & EP & _).
  unfold ind_evaluate. rewrite evaluate_eq; [cbn [rbind]| |cbn; lia].
  - intro H. injection H as <- <-. constructor; cbn [d_ga d_sol d_st]; auto. intros _. rewrite EP. split; [exact S|]. split; [exact HL|].
    split; [reflexivity|]. eexists. reflexivity.
  - intros n Hn. cbn in Hn. eapply Permutation_in in Hn; [|exact S]. apply in_seq in Hn. cbn [p_dim fd_p]. lia.
Qed.
Local Lemma fd_serves (ph : list (list nat)) : isort Nat.leb (concat ph) = [1;2;3;4] -> serves_all_once 5 ph.
Proof. intro H. unfold serves_all_once. rewrite <- (isort_perm Nat.leb (concat ph)), H. reflexivity. Qed.
Local Lemma fd_cycle_state a b ph d w : fd_cycle a b ph = Some (d, w) -> d_st d = DCycle /\ i_pheno (d_sol d) = ph.
Proof.
  unfold fd_cycle, ind_evaluate. destruct (evaluate _ _ _) as [v|]; [cbn [rbind]|discriminate].
  destruct (dga_new _ _ _ _ _ _). intro H. injection H as <- _. split; reflexivity.
Qed.

(** A round that improves 7500 to 6800, in a state that meets that invariant ... *)
Local Lemma fd_steps a b last size ph st ph' n : serves_all_once 5 ph -> length ph = 4 -> fd_next a b last size ph = Some (Ok (st, ph', n)) ->
  exists d w d' w', dinvF rust_lib fd_p fd_c fd_d fd_q 10 d w /\ d_st d = DCycle /\ i_pheno (d_sol d) = ph /\
    dga_iterate rust_lib fd_p fd_c (fd_clock last) 5 1000 (fun x => x) (fun x => x) fd_lsort fd_dm size fd_hashes d w = Ok (d', w') /\
    i_pheno (d_sol d') = ph'.
Proof.
  intros S HL. unfold fd_next. destruct (fd_cycle a b ph) as [[d w]|] eqn:EC; [|discriminate].
  pose proof (fd_cycle_inv a b ph d w S HL EC) as I. destruct (fd_cycle_state a b ph d w EC) as [D1 D2].
  intro H. exists d, w. destruct (dga_iterate _ _ _ _ _ _ _ _ _ _ _ _ d w) as [[d' w']|e']; [|discriminate H].
  exists d', w'. injection H as _ H _. auto 10.
Qed.
Example fd_round_example : exists d w d' w', dinvF rust_lib fd_p fd_c fd_d fd_q 10 d w /\ d_st d = DCycle /\
  i_pheno (d_sol d) = [[1];[4;3];[2];[]] /\
  dga_iterate rust_lib fd_p fd_c (fd_clock 5) 5 1000 (fun x => x) (fun x => x) fd_lsort fd_dm 3 fd_hashes d w = Ok (d', w') /\
  i_pheno (d_sol d') = [[2];[1;3];[4];[]] /\
  all_fit fd_q 10 [[1];[4;3];[2];[]] /\ all_fit fd_q 10 [[2];[1;3];[4];[]] /\
  zsum (map (ztour fd_d) [[1];[4;3];[2];[]]) = 7500%Z /\ zsum (map (ztour fd_d) [[2];[1;3];[4];[]]) = 6800%Z.
Proof.
  destruct (fd_steps 7 3 5 3 [[1];[4;3];[2];[]] DCycle [[2];[1;3];[4];[]] 0) as (d & w & d' & w' & I & ST & PH & G & PH');
    [apply fd_serves; reflexivity|reflexivity|vm_compute; reflexivity|].
  exists d, w, d', w'. split; [exact I|]. split; [exact ST|]. split; [exact PH|]. split; [exact G|]. split; [exact PH'|].
  split; [|split; [|split; reflexivity]]; intros r Hr; cbn [In] in Hr; repeat destruct Hr as [<-|Hr]; try easy; vm_compute; discriminate.
Qed.
(** ... and both causes of a panic: a solution above capacity for which no feasible one is found in
    time, and a merged solution with another number of routes. *)
Local Lemma fd_fails a b last size ph e : serves_all_once 5 ph -> length ph = 4 -> fd_next a b last size ph = Some (Err e) ->
  exists d w, dinvF rust_lib fd_p fd_c fd_d fd_q 10 d w /\ d_st d = DCycle /\ i_pheno (d_sol d) = ph /\
    dga_iterate rust_lib fd_p fd_c (fd_clock last) 5 1000 (fun x => x) (fun x => x) fd_lsort fd_dm size fd_hashes d w = Err e.
Proof.
  intros S HL. unfold fd_next. destruct (fd_cycle a b ph) as [[d w]|] eqn:EC; [|discriminate].
  pose proof (fd_cycle_inv a b ph d w S HL EC) as I. destruct (fd_cycle_state a b ph d w EC) as [D1 D2].
  intro H. exists d, w. split; [exact I|]. split; [exact D1|]. split; [exact D2|].
  destruct (dga_iterate _ _ _ _ _ _ _ _ _ _ _ _ d w) as [[d' w']|e']; [discriminate H|]. injection H as <-. reflexivity.
Qed.
Theorem C64_infeasible_refuted : exists d w, dinvF rust_lib fd_p fd_c fd_d fd_q 10 d w /\ d_st d = DCycle /\ i_pheno (d_sol d) = [[1;2;3];[4];[];[]] /\
  dga_iterate rust_lib fd_p fd_c (fd_clock 1) 5 1000 (fun x => x) (fun x => x) fd_lsort fd_dm 3 fd_hashes d w = Err EPanic.
Proof. apply (fd_fails 7 3); [apply fd_serves; reflexivity|reflexivity|vm_compute; reflexivity]. Qed.
Theorem C64_misfit_refuted : exists d w, dinvF rust_lib fd_p fd_c fd_d fd_q 10 d w /\ d_st d = DCycle /\ i_pheno (d_sol d) = [[1];[2];[3;4];[]] /\
  all_fit fd_q 10 (i_pheno (d_sol d)) /\
  dga_iterate rust_lib fd_p fd_c (fd_clock 5) 5 1000 (fun x => x) (fun x => x) fd_lsort fd_dm 4 fd_hashes d w = Err EPanic.
Proof.
  destruct (fd_fails 7 3 5 4 [[1];[2];[3;4];[]] EPanic) as (d & w & I & ST & PH & X); [apply fd_serves; reflexivity|reflexivity|vm_compute; reflexivity|].
  exists d, w. split; [exact I|]. split; [exact ST|]. split; [exact PH|]. split; [|exact X]. rewrite PH.
  intros r Hr. cbn [In] in Hr. destruct Hr as [<-|[<-|[<-|[<-|[]]]]]; vm_compute; discriminate.
Qed.
(** The further conditions of C64_panics_partial hold of it too. *)
Example fd_nice : drawable fd_p /\ (Z.of_nat (c_num_diversity_closest fd_c) < 2 ^ 1000)%Z /\ 1 <= c_num_diversity_closest fd_c /\
  1 <= c_min_population_size fd_c /\ 1 <= c_initial_individuals fd_c /\ 1 <= c_tournament_size fd_c.
Proof.
  split; [|split; [reflexivity|cbn; lia]]. split.
  - intros a Ha. cbn [p_dim fd_p] in Ha. cbn [p_coord fd_p fst snd].
    destruct (P_FloatFine.small_coordinate (Z.of_nat a) ltac:(lia)), (P_FloatFine.small_coordinate 1%Z ltac:(lia)). auto.
  - intros y x _ Hx. change (is_nan x = false). destruct x; try discriminate; reflexivity.
Qed.
Print Assumptions C64_infeasible_refuted.
Print Assumptions C64_misfit_refuted.
