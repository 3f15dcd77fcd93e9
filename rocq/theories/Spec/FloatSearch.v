(** What the local search should achieve in double precision: the cost it is after, in real
    numbers, and the instances whose sizes leave room for its rounding errors. *)
From Coq Require Import List ZArith Reals.
From Flocq Require Import Core BinarySingleNaN.
From Verif.Model Require Import Num NumFloat Evaluate.
From Verif.Spec Require Import Floats FloatProgram.
Import ListNotations.
Open Scope R_scope.

(** The penalised cost of a route and of a list of routes, without any rounding. *)
Definition true_route_cost (d : nat -> nat -> Z) (q : nat -> Z) (cap : Z) (pen : R) (r : list nat) : R :=
  IZR (ztour d r) + pen * IZR (Z.max 0 (zload q r - cap)).
Definition true_cost (d : nat -> nat -> Z) (q : nat -> Z) (cap : Z) (pen : R) (routes : list (list nat)) : R :=
  rsum (map (true_route_cost d q cap pen) routes).

(** A symmetric instance whose longest distance, times the number of nodes, and whose largest
    possible penalty add up to at most 5 * 10^8. *)
Record moderate (p : @problem NumF) (d : nat -> nat -> Z) (q : nat -> Z) (cap : Z) (pen : dbl) : Prop := {
  mo_depot : q 0%nat = 0%Z;
  mo_sym : forall a b, (a < p_dim p)%nat -> (b < p_dim p)%nat -> d a b = d b a;
  mo_pen : is_finite pen = true /\ 0 <= B2R pen;
  mo_load : (zload q (seq 1 (p_dim p - 1)) <= 2 ^ 50)%Z;
  mo_size : exists top, (forall a b, (a < p_dim p)%nat -> (b < p_dim p)%nat -> (d a b <= top)%Z) /\
    IZR ((Z.of_nat (p_dim p) + 8) * top) +
    B2R pen * IZR (Z.max 0 (zload q (seq 1 (p_dim p - 1)) - cap)) <= 500000000
}.

(** The least by which a move that is carried out lowers the true cost. *)
Definition sure_gain : R := / 2000000.

(** Two customers and the depot, 1900000000 from one another; the two demands of 700000 do not fit
    into one vehicle of capacity 1000000, but the fleet has a vehicle for each. *)
Definition far : dbl := d_of_Z 1900000000.
Definition heavy : dbl := d_of_Z 700000.
Record two_far (p : @problem NumF) : Prop := {
  tf_dim : p_dim p = 3%nat;
  tf_dist : forall a b, (a < 3)%nat -> (b < 3)%nat -> p_dist p a b = if Nat.eqb a b then d_of_Z 0 else far;
  tf_demand : forall a, (a < 3)%nat -> p_demand p a = if Nat.eqb a 0 then d_of_Z 0 else heavy;
  tf_cap : p_cap p = d_of_Z 1000000
}.
(** The penalty such an instance starts with: the longest distance by the largest demand. *)
Definition far_penalty : dbl := ddiv far heavy.
