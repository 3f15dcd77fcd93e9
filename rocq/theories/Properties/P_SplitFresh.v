(** C72: what a split returns depends on the tour, the penalty and the limit, not on earlier splits. *)
From Coq Require Import List Arith ZArith QArith Qabs Permutation Lia.
From Verif.Model Require Import Num Prelude Evaluate Individual Config Split.
From Verif.Spec Require Import Solution.
From Verif.Proofs Require Import SplitStruct SplitFresh.
From Verif.Properties Require Import ExampleData.
Import ListNotations.
Open Scope nat_scope.

(** The linear split, in any arithmetic and from any two tables [st1] and [st2]: the same individual
    or the same error. *)
Theorem C72_linear_fresh (N : Num) (p : problem) (c : config) (pen : F) (st1 st2 : split_state) (ind : individual) mv :
  c_linear_split c = true -> 2 <= p_dim p -> length (i_geno ind) = p_dim p - 1 ->
  match split_run p c pen st1 ind mv, split_run p c pen st2 ind mv with
  | Ok (_, a), Ok (_, b) => a = b
  | Err a, Err b => a = b
  | _, _ => False
  end.
Proof. exact (split_run_same p c pen st1 st2 ind mv). Qed.
Print Assumptions C72_linear_fresh.

(** Any series of splits with the linear algorithm gives, tour by tour, what a new splitter gives. *)
Fixpoint split_series {N : Num} (p : problem) (c : config) (pen : F) (mv : nat) (st : split_state) (inds : list individual)
    : res (list individual) :=
  match inds with
  | [] => Ok []
  | i :: inds => rbind (split_run p c pen st i mv) (fun '(st, j) => rbind (split_series p c pen mv st inds) (fun l => Ok (j :: l)))
  end.
Theorem C72_series (N : Num) (p : problem) (c : config) (pen : F) mv (inds outs : list individual) st :
  c_linear_split c = true -> 2 <= p_dim p -> (forall i, In i inds -> length (i_geno i) = p_dim p - 1) ->
  split_series p c pen mv st inds = Ok outs ->
  Forall2 (fun i j => exists st', split_run p c pen split_new i mv = Ok (st', j)) inds outs.
Proof.
  intros Hlin Hd. revert outs st. induction inds as [|i inds IH]; intros outs st Hl H; cbn [split_series] in H.
  - injection H as <-. constructor.
  - pose proof (C72_linear_fresh N p c pen st split_new i mv Hlin Hd (Hl i (or_introl eq_refl))) as G.
    destruct (split_run p c pen st i mv) as [[st' j]|]; cbn [rbind] in H; [|discriminate].
    destruct (split_series p c pen mv st' inds) as [l|] eqn:E; cbn [rbind] in H; [|discriminate]. injection H as <-.
    destruct (split_run p c pen split_new i mv) as [[s2 j2]|] eqn:E2; [|contradiction]. subst j2. constructor; [exists s2; exact E2|].
    apply (IH l st'); auto. intros k Hk. apply Hl. now right.
Qed.
Print Assumptions C72_series.

(** ** The Bellman split *)
(** Five customers wanting 6, 10, 6, 10, 6, vehicles of capacity 10, the default configuration
    (enlarged capacity 15).  Four routes along the tour 1 2 3 4 5 cannot stay within 15, so no cell
    of the last column is written and the routes are read off whatever the table holds. *)
Definition sf_p : @problem NumQ := @mkProblem NumQ 6 (fun i j => Qabs (ex_x i - ex_x j))
  (fun i => nth i [0; 6; 10; 6; 10; 6]%Q 0%Q) (fun i => (ex_x i, 0%Q)) 10%Q
  (fun i => filter (fun j => negb (Nat.eqb i j)) [1; 2; 3; 4; 5])
  (fun y x => if Qle_bool 0 x then 0%Q else 3%Q) (fun d => (Z.of_N d) # 1000) (fun x => (x - 1)%Q) (fun i => Z.of_nat i).
Definition sf_ind (g : list nat) : @individual NumQ := @mkInd NumQ 0 g (repeat [] 5) None se_new.
Definition sf_run linear := @split_run NumQ sf_p (ex_cfg 5 linear) 10%Q.
Definition sf_routes (r : res (@split_state NumQ * @individual NumQ)) : option (list (list nat)) :=
  match r with Ok (_, i) => Some (i_pheno i) | Err _ => None end.
Definition sf_after linear : option (list (list nat)) :=
  match sf_run linear (@split_new NumQ) (sf_ind [1; 3; 5; 2; 4]) 4 with
  | Ok (st, _) => sf_routes (sf_run linear st (sf_ind [1; 2; 3; 4; 5]) 4)
  | Err _ => None
  end.

Local Lemma sf_routes_some r l : sf_routes r = Some l -> exists s i, r = Ok (s, i) /\ i_pheno i = l.
Proof. destruct r as [[s i]|]; [|discriminate]. intros H. injection H as H. eauto. Qed.
Local Lemma sf_after_some linear l : sf_after linear = Some l -> exists s i,
  sf_run linear split_new (sf_ind [1; 3; 5; 2; 4]) 4 = Ok (s, i) /\ sf_routes (sf_run linear s (sf_ind [1; 2; 3; 4; 5]) 4) = Some l.
Proof.
  unfold sf_after. generalize (sf_run linear split_new (sf_ind [1; 3; 5; 2; 4]) 4). intros [[s i]|]; [|discriminate]. eauto.
Qed.

(** The claim is false of the Bellman split: a new splitter puts all five customers, a load of 38, on
    one route, and after the split of another tour it makes four routes of the same tour. *)
Theorem C72_bellman_refuted : exists (p : @problem NumQ) (c : @config NumQ) (pen : Q) (ind0 ind : @individual NumQ) mv st1 i0 sa a sb b,
  c_linear_split c = false /\ c_split_capacity_factor c = (3 # 2)%Q /\
  (forall k, 1 <= k < p_dim p -> (p_demand p k <= p_cap p)%Q) /\
  Permutation (i_geno ind0) (seq 1 (p_dim p - 1)) /\ Permutation (i_geno ind) (seq 1 (p_dim p - 1)) /\
  Nat.max mv (@vehicle_lower_bound NumQ p) <= c_num_vehicles c /\
  @split_run NumQ p c pen split_new ind0 mv = Ok (st1, i0) /\
  @split_run NumQ p c pen split_new ind mv = Ok (sa, a) /\
  @split_run NumQ p c pen st1 ind mv = Ok (sb, b) /\
  i_pheno a = [i_geno ind; []; []; []; []] /\ i_pheno b = [[1]; [2; 3]; [5]; [4]; []].
Proof.
  assert (P0 : Permutation (i_geno (sf_ind [1; 3; 5; 2; 4])) (seq 1 (p_dim sf_p - 1))).
  { apply NoDup_Permutation_bis; [|cbn; lia|intros x Hx; cbn in *; lia]. repeat constructor; cbn; lia. }
  assert (V : Nat.max 4 (@vehicle_lower_bound NumQ sf_p) <= c_num_vehicles (ex_cfg 5 false)) by (apply Nat.leb_le; vm_compute; reflexivity).
  assert (A : sf_routes (sf_run false split_new (sf_ind [1; 2; 3; 4; 5]) 4) = Some [[1; 2; 3; 4; 5]; []; []; []; []]) by (vm_compute; reflexivity).
  assert (B : sf_after false = Some [[1]; [2; 3]; [5]; [4]; []]) by (vm_compute; reflexivity).
  apply sf_routes_some in A as (sa & a & EA & A). apply sf_after_some in B as (st1 & i0 & E0 & B).
  apply sf_routes_some in B as (sb & b & EB & B).
  exists sf_p, (ex_cfg 5 false), 10%Q, (sf_ind [1; 3; 5; 2; 4]), (sf_ind [1; 2; 3; 4; 5]), 4, st1, i0, sa, a, sb, b.
  split; [reflexivity|]. split; [reflexivity|]. split.
  { intros k Hk. cbn [p_dim sf_p] in Hk. apply Qle_bool_iff. do 6 (destruct k as [|k]; [try lia; reflexivity|]). lia. }
  split; [exact P0|]. split; [reflexivity|]. split; [exact V|].
  split; [exact E0|]. split; [exact EA|]. split; [exact EB|]. split; [exact A|exact B].
Qed.
Print Assumptions C72_bellman_refuted.

(** ** Cases *)
(** The linear split on the same tours and limit, fresh and after the other tour. *)
Example C72_case :
  sf_routes (sf_run true split_new (sf_ind [1; 2; 3; 4; 5]) 4) = Some [[1]; [2]; [5]; [3; 4]; []] /\
  sf_after true = Some [[1]; [2]; [5]; [3; 4]; []].
Proof. vm_compute. auto. Qed.
Example C72_applicable : c_linear_split (ex_cfg 5 true) = true /\ 2 <= p_dim sf_p /\ length (i_geno (sf_ind [1; 2; 3; 4; 5])) = p_dim sf_p - 1.
Proof. split; [reflexivity|]. cbn. split; lia. Qed.
Example C72_series_case :
  match @split_series NumQ sf_p (ex_cfg 5 true) 10%Q 4 split_new [sf_ind [1; 3; 5; 2; 4]; sf_ind [1; 2; 3; 4; 5]] with
  | Ok l => map i_pheno l = [[[5]; [2]; [1; 3]; [4]; []]; [[1]; [2]; [5]; [3; 4]; []]]
  | Err _ => False
  end.
Proof. vm_compute. reflexivity. Qed.
