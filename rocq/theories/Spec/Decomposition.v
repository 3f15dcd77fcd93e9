(** What is demanded of the decomposition. *)
From Coq Require Import List Arith QArith Permutation.
From Verif.Model Require Import Num Prelude Evaluate Individual Config Split Matrix Population LocalSearch
  World Schedule RuinRecreate Genetic Decomposition.
From Verif.Spec Require Import Solution Population LocalSearch RuinRecreate Genetic.
Import ListNotations.
Local Open Scope nat_scope.

(** The correlation matrix: every row, that of the depot as well, holds different customers. *)
Definition rows_distinct {N : Num} (p : problem) (m : matrix nat) : Prop :=
  length (m_data m) = p_dim p * m_cols m /\
  forall u, u < p_dim p -> NoDup (row m u) /\ forall v, In v (row m u) -> 0 < v < p_dim p.

(** Matrices that differ only in the order inside the rows. *)
Definition same_rows (m m' : matrix nat) : Prop :=
  m_cols m' = m_cols m /\ length (m_data m') = length (m_data m) /\
  forall u, Permutation (row m' u) (row m u).

(** A solution with its giant tour for a problem with [dim] nodes. *)
Definition whole_solution {N : Num} (dim : nat) (i : individual) : Prop :=
  serves_all_once dim (i_pheno i) /\ i_geno i = concat (i_pheno i).

(** Routes of the subproblem under the names the nodes have in the whole problem. *)
Definition renamed (mapping : list nat) (routes : list (list nat)) : list (list nat) :=
  map (map (fun i => nth i mapping 0)) routes.

(** [chosen] are the routes taken out of [global]: with the customers renamed they are the routes
    of [sub], which has only empty routes besides, and the other routes are those of [rest], whose
    giant tour holds the customers of these routes only. *)
Record cut_out {N : Num} (p : problem) (global sub : individual) (mapping : list nat) (rest : individual)
    (chosen : list (list nat)) : Prop := {
  co_routes : Permutation (i_pheno global) (chosen ++ i_pheno rest);
  co_depot : nth 0 mapping 0 = 0;
  co_different : NoDup mapping;
  co_nodes : forall i, 0 < i < length mapping -> 0 < nth i mapping 0 < p_dim p;
  co_whole : whole_solution (length mapping) sub;
  co_renamed : exists k, renamed mapping (i_pheno sub) = chosen ++ repeat [] k;
  co_rest : i_geno rest = concat (i_pheno rest)
}.

Section Spec.
  Context {N : Num}.
  Variable L : lib.
  Variable p : problem.
  Variable c : config.
  Variable E : env.
  Variable log_interval : nat.
  Variable fuel : nat.
  Variable sqrt_ round_ : F -> F.
  Variable lsort : list (nat * F) -> list (nat * F).
  Variable dm : dmatrix.
  Variable min_size : nat.
  Variable hashes : nat -> rng * rng * rng.

  (** Every state of the decomposed algorithm between two calls.  The matrix of neighbours has
      more columns than the local search uses. *)
  Inductive dga_reached (w0 : world) : dga -> world -> Prop :=
  | dr_new corr ls_hash rr_hash d w : neighbours_ok p c corr -> rows_distinct p corr ->
      c_granularity c < m_cols corr -> dga_new p c corr ls_hash rr_hash w0 = (d, w) -> dga_reached w0 d w
  | dr_iterate d w d' w' : dga_reached w0 d w ->
      dga_iterate L p c E log_interval fuel sqrt_ round_ lsort dm min_size hashes d w = Ok (d', w') -> dga_reached w0 d' w'.

  (** Some number of calls of [iterate]. *)
  Inductive dga_iterates : nat -> dga -> world -> dga -> world -> Prop :=
  | di_none d w : dga_iterates 0 d w d w
  | di_more n d w d1 w1 d2 w2 :
      dga_iterate L p c E log_interval fuel sqrt_ round_ lsort dm min_size hashes d w = Ok (d1, w1) ->
      dga_iterates n d1 w1 d2 w2 -> dga_iterates (1 + n) d w d2 w2.

  (** The round that begins in this state ends with a merged solution that has not one route per
      vehicle. *)
  Definition misfit (d : dga) (w : world) : Prop :=
    let '(route_hash, ls_hash, rr_hash) := hashes (d_round d) in
    exists sub mapping rest mats w1 best clock merged,
      decomposition_new p sqrt_ round_ lsort dm min_size (s_corr (ga_ls (d_ga d))) (d_sol d) route_hash w
        = Ok (sub, mapping, rest, mats, w1) /\
      decomposition_run L p c E log_interval fuel sub mapping mats ls_hash rr_hash (sub_world w1 (w_rng w1)) = Ok (best, clock) /\
      decomposition_finish p (w_pen w) best mapping rest = Ok merged /\ length (i_pheno merged) <> c_num_vehicles c.
End Spec.

(** Instances and configurations for the decomposed algorithm: as for the genetic algorithm, but
    the first solution is built with a penalty of up to 1e10, and the subproblems have to have more
    customers than the neighbourhoods. *)
Record decomposed_ok (p : @problem NumQ) (c : @config NumQ) (min_size : nat) : Prop := {
  dc_instance : instance_ok p c;
  dc_small : exists top : Q, (forall a b, a < p_dim p -> b < p_dim p -> (p_dist p a b <= top)%Q) /\
    (top * inject_Z (Z.of_nat (p_dim p)) + inject_Z (10 ^ 10) * route_load (p_demand p) (seq 1 (p_dim p - 1))
     < inject_Z (10 ^ 30))%Q;
  dc_size : c_granularity c < min_size;
  dc_cols : c_granularity c <= 200
}.
