(** The decomposition in exact arithmetic. *)
From Coq Require Import List Arith NArith ZArith QArith Qround Bool Lia Lqa Permutation.
From Verif.Model Require Import Num Prelude Evaluate Individual Config Crossover Split Matrix Population
  LocalSearch World Schedule RuinRecreate Genetic Decomposition.
From Verif.Spec Require Import Solution Split Library Population LocalSearch RuinRecreate Genetic Decomposition.
From Verif.Proofs Require Import Lists QNum EvalFacts EvalThms SplitStruct SplitOpt SplitThms MatrixFacts Decompose.
Import ListNotations.
Open Scope nat_scope.

Section Cost.
  Variable p : @problem NumQ.
  Variable pen : Q.
  Variable mapping : list nat.
  Local Open Scope Q_scope.
  Notation at_ := (fun i => nth i mapping 0%nat).
  Notation sd := (fun i j => p_dist p (nth i mapping 0%nat) (nth j mapping 0%nat)).
  Notation sdem := (fun i => p_demand p (nth i mapping 0%nat)).
  Hypothesis depot : nth 0 mapping 0%nat = 0%nat.

  Lemma walk_renamed l : walk_length sd l = walk_length (p_dist p) (map at_ l).
  Proof.
    induction l as [|a [|b l] IH]; auto. cbn [map]. cbn [walk_length]. cbn [walk_length map] in IH. rewrite IH. reflexivity.
  Qed.
  Lemma length_renamed r : route_length sd r = route_length (p_dist p) (map at_ r).
  Proof.
    unfold route_length. rewrite walk_renamed. cbn [map]. rewrite map_app. cbn [map]. now rewrite depot.
  Qed.
  Lemma load_renamed r : route_load sdem r = route_load (p_demand p) (map at_ r).
  Proof. unfold route_load. now rewrite map_map. Qed.
  Lemma penalized_renamed rs :
    total_penalized sd sdem (p_cap p) pen rs = total_penalized (p_dist p) (p_demand p) (p_cap p) pen (renamed mapping rs).
  Proof.
    unfold total_penalized, renamed. rewrite map_map. f_equal. apply map_ext. intros r. unfold route_penalized.
    now rewrite length_renamed, load_renamed.
  Qed.
End Cost.

Section Empty.
  Variable p : @problem NumQ.
  Variable pen : Q.
  Local Open Scope Q_scope.
  Hypothesis D0 : p_dist p 0%nat 0%nat == 0.
  Hypothesis C0 : 0 <= p_cap p.
  Notation TP := (total_penalized (p_dist p) (p_demand p) (p_cap p) pen).

  Lemma penalized_nil : route_penalized (p_dist p) (p_demand p) (p_cap p) pen [] == 0.
  Proof.
    unfold route_penalized, route_length, route_load. cbn [app walk_length map Qsum].
    assert (Z : Qpos (0 - p_cap p) == 0).
    { unfold Qpos. destruct (Qle_bool (0 - p_cap p) 0) eqn:E; [reflexivity|].
      assert (X : Qle_bool (0 - p_cap p) 0 = true) by (apply Qle_bool_iff; lra). congruence. }
    rewrite Z, D0. ring.
  Qed.
  Lemma penalized_used rs : TP (used_routes rs) == TP rs.
  Proof.
    unfold total_penalized, used_routes. induction rs as [|[|a r] rs IH]; cbn [filter map Qsum]; [reflexivity| |].
    - rewrite IH, penalized_nil. ring.
    - rewrite IH. reflexivity.
  Qed.
  Lemma penalized_empties k : TP (repeat [] k) == 0.
  Proof.
    unfold total_penalized. induction k as [|k IH]; cbn [repeat map Qsum]; [reflexivity|]. rewrite IH, penalized_nil. ring.
  Qed.
End Empty.

Section Merged.
  Variable p : @problem NumQ.
  Variable pen : Q.
  Variable global sub rest sol global' : @individual NumQ.
  Variable mapping : list nat.
  Variable chosen : list (list nat).
  Hypothesis CO : cut_out p global sub mapping rest chosen.
  Hypothesis MG : Permutation (i_pheno global') (i_pheno rest ++ used_routes (renamed mapping (i_pheno sol))).
  Local Open Scope Q_scope.

  Lemma merged_cost : p_dist p 0%nat 0%nat == 0 -> 0 <= p_cap p ->
    total_penalized (p_dist p) (p_demand p) (p_cap p) pen (i_pheno global') -
    total_penalized (p_dist p) (p_demand p) (p_cap p) pen (i_pheno global) ==
    total_penalized (fun i j => p_dist p (nth i mapping 0%nat) (nth j mapping 0%nat))
                (fun i => p_demand p (nth i mapping 0%nat)) (p_cap p) pen (i_pheno sol) -
    total_penalized (fun i j => p_dist p (nth i mapping 0%nat) (nth j mapping 0%nat))
                (fun i => p_demand p (nth i mapping 0%nat)) (p_cap p) pen (i_pheno sub).
  Proof.
    intros D0 C0. pose proof (co_depot _ _ _ _ _ _ CO) as DP. rewrite !(penalized_renamed p pen mapping DP).
    rewrite (TP_perm p pen _ _ MG), (TP_perm p pen _ _ (co_routes _ _ _ _ _ _ CO)), !TP_app'.
    destruct (co_renamed _ _ _ _ _ _ CO) as (k & ->). rewrite TP_app', (penalized_empties p pen D0 C0), (penalized_used p pen D0 C0).
    ring.
  Qed.

  Lemma merged_within tol : 0 <= tol ->
    within_capacity (p_demand p) (p_cap p) tol (i_pheno global) ->
    within_capacity (fun i => p_demand p (nth i mapping 0%nat)) (p_cap p) tol (i_pheno sol) ->
    within_capacity (p_demand p) (p_cap p) tol (i_pheno global').
  Proof.
    intros T0 W1 W2 r Hr. eapply Permutation_in in Hr; [|exact MG]. apply in_app_or in Hr as [Hr|Hr].
    - apply W1. eapply Permutation_in; [symmetry; apply (co_routes _ _ _ _ _ _ CO)|]. apply in_or_app. now right.
    - apply filter_In in Hr as [Hr _]. apply in_map_iff in Hr as (r' & <- & Hr').
      rewrite <- load_renamed. now apply W2.
  Qed.
End Merged.

Lemma finish_total (p : @problem NumQ) (global sub rest : @individual NumQ) (mapping : list nat) (chosen : list (list nat)) :
  2 <= p_dim p -> whole_solution (p_dim p) global -> cut_out p global sub mapping rest chosen ->
  forall pen sol, serves_all_once (length mapping) (i_pheno sol) ->
  exists global', @decomposition_finish NumQ p pen sol mapping rest = Ok global'.
Proof. intros D2 C CO pen sol S. eapply finish_total_any; eauto. exact nan_Q. Qed.
