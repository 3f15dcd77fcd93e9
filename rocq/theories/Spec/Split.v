(** Specification of splitting a giant tour, independent of the model. *)
From Coq Require Import List Arith ZArith QArith Permutation.
From Verif.Spec Require Import Solution.
Import ListNotations.

(** A segmentation cuts the tour into consecutive pieces (possibly empty ones). *)
Definition segmentation (tour : list nat) (segs : list (list nat)) : Prop := concat segs = tour.

(** [routes] are, up to order and empty routes, the pieces of a segmentation of the tour into at
    most [limit] non-empty pieces. *)
Definition partitioned_into (tour : list nat) (routes : list (list nat)) (limit : nat) : Prop :=
  exists segs k, segmentation tour segs /\ Forall (fun s => s <> []) segs /\
    (length segs <= limit)%nat /\ Permutation routes (segs ++ repeat [] k).

(** Reasonable data: non-negative, symmetric with respect to the depot, and small compared to the
    constant 1e30 the code uses as infinity. *)
Record split_data (dim : nat) (d : nat -> nat -> Q) (dem : nat -> Q) (cap pen : Q)
    (tour : list nat) : Prop := {
  sd_dim : (0 < dim)%nat;
  sd_tour : Permutation tour (seq 1 (dim - 1));
  sd_pen : 0 <= pen;
  sd_cap : 0 <= cap;
  sd_dem : forall a, (a < dim)%nat -> 0 <= dem a;
  sd_dist : forall a b, (a < dim)%nat -> (b < dim)%nat -> 0 <= d a b;
  sd_sym : forall a, (a < dim)%nat -> d 0%nat a == d a 0%nat;
  sd_00 : d 0%nat 0%nat == 0;
  sd_small : route_length d tour + pen * route_load dem tour < inject_Z (10 ^ 30)
}.

(** All distances and penalised loads are multiples of some unit not smaller than 1e-6. *)
Definition on_grid (dim : nat) (d : nat -> nat -> Q) (dem : nat -> Q) (cap pen : Q) : Prop :=
  exists u, 1 # 1000000 <= u /\
    (forall a b, (a < dim)%nat -> (b < dim)%nat -> exists z, d a b == inject_Z z * u) /\
    (forall a, (a < dim)%nat -> exists z, pen * dem a == inject_Z z * u) /\
    (exists z, pen * cap == inject_Z z * u).

(** An upper bound on the penalised cost of every segmentation of a tour. *)
Definition tour_weight (d : nat -> nat -> Q) (dem : nat -> Q) (pen : Q) (tour : list nat) : Q :=
  Qsum (map (fun a => d 0%nat a + d a 0%nat) tour) + walk_length d tour + pen * route_load dem tour.
