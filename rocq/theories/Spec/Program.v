(** What is demanded of the program as a whole, in exact arithmetic. *)
From Coq Require Import Ascii String List Arith ZArith QArith Permutation Sorted.
From Verif.Model Require Import Num Prelude World Text ConfigFile Main.
From Verif.Spec Require Import Solution Instance ConfigFile.
Import ListNotations.
Local Open Scope nat_scope.

Section Spec.
  Variable sqrt_ round_ : Q -> Q.
  Variable i : @instance NumQ.
  Local Notation size := (length (in_nodes i)).
  Local Notation node a := (nth a (in_nodes i) (0, 0, 0)%Q).

  (** The distances of an instance: the rounded entries of the matrix if there is one, else the
      rounded Euclidean distances. *)
  Definition instance_distance (a b : nat) : Q :=
    if a =? b then 0%Q
    else round_ (match in_weights i with
                 | Some weights => nth (Nat.min a b) (nth (Nat.max a b - 1) weights []) 0%Q
                 | None => let '(x1, y1, _) := node a in let '(x2, y2, _) := node b in
                           sqrt_ ((x2 - x1) * (x2 - x1) + (y2 - y1) * (y2 - y1))%Q
                 end).
  Definition instance_demand (a : nat) : Q := snd (node a).

  (** Instances that make sense: a customer, a positive capacity, no negative demands and
      distances, a triangular matrix, and costs below the 1e30 the solver uses as infinity. *)
  Record sensible : Prop := {
    se_nodes : 2 <= size;
    se_cap : (0 < in_cap i)%Q;
    se_demand : forall a, a < size -> (0 <= instance_demand a)%Q;
    se_weights : forall weights, in_weights i = Some weights ->
      (forall k, k < length weights -> length (nth k weights []) = k + 1) /\
      (forall row x, In row weights -> In x row -> (0 <= x)%Q);
    se_small : exists top : Q, (forall a b, a < size -> b < size -> (instance_distance a b <= top)%Q) /\
      (top * inject_Z (Z.of_nat size) + inject_Z (10 ^ 7) * route_load instance_demand (seq 1 (size - 1))
       < inject_Z (10 ^ 30))%Q
  }.
End Spec.

(** What is needed of the functions of the standard library. *)
Record functions_ok (X : @outside NumQ) : Prop := {
  fo_sqrt : forall x y : Q, (x == y)%Q -> (x_sqrt X x == x_sqrt X y)%Q;
  fo_sqrt_zero : (x_sqrt X 0%Q == 0)%Q;
  fo_sqrt_positive : forall x : Q, (0 <= x)%Q -> (0 <= x_sqrt X x)%Q;
  fo_round : forall x y : Q, (x == y)%Q -> (x_round X x == x_round X y)%Q;
  fo_round_zero : (x_round X 0%Q == 0)%Q;
  fo_round_positive : forall x : Q, (0 <= x)%Q -> (0 <= x_round X x)%Q;
  fo_sort : forall l, Permutation (x_sort X l) l /\
    StronglySorted (fun a b : nat * Q => (snd a <= snd b)%Q) (x_sort X l);
  fo_real : forall d, (0 <= x_real X d /\ x_real X d < 1)%Q
}.

(** Settings for an instance with [n] nodes: neighbourhoods that fit into the matrix of
    neighbours, and factors that are not negative. *)
Record settings_ok (f : @fields NumQ) (n : nat) : Prop := {
  so_granularity : exists z, has f (txt "local_search_granularity") (VInt z) /\
    (1 <= z <= Z.of_nat (Nat.min 200 (n - 2)))%Z;
  so_increase : exists x : @F NumQ, has f (txt "penalty_inc_multiplier") (VFloat (Some x)) /\ (0 <= x)%Q;
  so_decrease : exists x : @F NumQ, has f (txt "penalty_dec_multiplier") (VFloat (Some x)) /\ (0 <= x)%Q
}.
(** The instance is too small to be decomposed. *)
Definition not_decomposed {N : Num} (f : @fields N) (n : nat) : Prop :=
  exists z, has f (txt "decompose_limit") (VInt z) /\ (Z.of_nat (n - 1) < z)%Z.

(** For runs with decomposition: the subproblems have more customers than the neighbourhoods, and
    the costs are below 1e30 for penalties of up to 1e10, with which the first solution is built. *)
Record parts_ok (sqrt_ round_ : Q -> Q) (f : @fields NumQ) (i : @instance NumQ) : Prop := {
  po_sizes : exists g m, has f (txt "local_search_granularity") (VInt g) /\
    has f (txt "decomposed_problem_min_size") (VInt m) /\ (g < m)%Z /\
    (g < Z.of_nat (Nat.min 200 (length (in_nodes i) - 2)))%Z;
  po_small : exists top : Q,
    (forall a b, a < length (in_nodes i) -> b < length (in_nodes i) -> (instance_distance sqrt_ round_ i a b <= top)%Q) /\
    (top * inject_Z (Z.of_nat (length (in_nodes i)))
     + inject_Z (10 ^ 10) * route_load (instance_demand i) (seq 1 (length (in_nodes i) - 1)) < inject_Z (10 ^ 30))%Q
}.

(** The numbers that must not be zero, and those that must be finite: all but the best known
    cost, which is not used. *)
Definition populated {N : Num} (f : @fields N) : Prop :=
  forall name, In name [txt "num_diversity_closest"; txt "min_population_size"; txt "initial_individuals"; txt "tournament_size"] ->
    exists z, has f name (VInt z) /\ (1 <= z)%Z.
Definition finite_settings {N : Num} (f : @fields N) : Prop := forall name, name <> txt "bks" -> ~ has f name (VFloat None).

(** The path of the solution file. *)
Definition output_path (cl : command_line) : text :=
  match cl_solution cl with Some t => t | None => txt "output.sol" end.

Definition integer (x : Q) : Prop := exists z : Z, (x == inject_Z z)%Q.

(** The same surroundings with another bound on the lengths of the loops, which only the model has. *)
Definition with_bound {N : Num} (X : outside) (n : nat) : outside :=
  mkOutside (x_parse_f64 X) (x_utf8 X) (x_sqrt X) (x_round X) (x_sort X) (x_atan2 X) (x_ln X) (x_real X) (x_angle X)
    (x_env X) (x_random X) (x_ls_hash X) (x_rr_hash X) (x_hashes X) n.

(** From reading number [last] on, the clock shows the time limit or more. *)
Definition time_passes (X : @outside NumQ) (f : @fields NumQ) (last : nat) : Prop :=
  exists z, has f (txt "time_limit") (VInt z) /\ forall t, last <= t -> (inject_Z z <= e_clock (x_env X) t)%Q.

(** A computation with a bound gives [v] for every bound that is large enough. *)
Definition settles {A} (run : nat -> A) (v : A) : Prop := exists bound, forall n, bound <= n -> run n = v.
