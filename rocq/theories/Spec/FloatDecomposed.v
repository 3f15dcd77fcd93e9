(** What is demanded of decomposed runs in double precision. *)
From Coq Require Import Ascii String List ZArith Permutation.
From Verif.Model Require Import Num NumFloat Evaluate Config Individual Text ConfigFile.
From Verif.Spec Require Import Solution Floats ConfigFile Program.
Import ListNotations.
Open Scope Z_scope.

(** Instances and configurations: as without decomposition, but the depot's demand counts for the
    number of vehicles too, and the subproblems have to have more customers than the neighbourhoods. *)
Record decomposed_integral (p : @problem NumF) (c : @config NumF) (d : nat -> nat -> Z) (q : nat -> Z) (cap : Z)
    (min_size : nat) : Prop := {
  dz_instance : integral_instance p c d q cap;
  dz_cap : 1 <= cap;
  dz_load : zload q (seq 0 (p_dim p)) < exact_bound;
  dz_size : (c_granularity c < min_size)%nat;
  dz_cols : (c_granularity c <= 200)%nat
}.

(** No route is above capacity. *)
Definition all_fit (q : nat -> Z) (cap : Z) (routes : list (list nat)) : Prop := forall r, In r routes -> zload q r <= cap.

(** The same of the configuration file, for an instance with [n] nodes; the neighbourhoods are
    smaller than the rows of the matrix of neighbours. *)
Definition part_sizes {N : Num} (f : @fields N) (n : nat) : Prop :=
  exists g m, has f (txt "local_search_granularity") (VInt g) /\ has f (txt "decomposed_problem_min_size") (VInt m) /\
    1 <= g /\ g < m /\ g < Z.of_nat (Nat.min 200 (n - 2)).
