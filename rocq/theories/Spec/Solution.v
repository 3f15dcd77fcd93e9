(** Specification vocabulary, independent of the model: routes, solutions, their length, load
    and cost, over exact numbers.  Node 0 is the depot, customers are 1 .. dim-1. *)
From Coq Require Import List Arith QArith Permutation.
Import ListNotations.

(** A solution serves every customer exactly once and nothing else. *)
Definition serves_all_once (dim : nat) (routes : list (list nat)) : Prop :=
  Permutation (concat routes) (seq 1 (dim - 1)).

(** Length of a walk: sum of the distances of consecutive nodes. *)
Fixpoint walk_length (d : nat -> nat -> Q) (l : list nat) : Q :=
  match l with
  | a :: ((b :: _) as t) => d a b + walk_length d t
  | _ => 0
  end.

(** A route is driven from the depot through its customers back to the depot. *)
Definition route_length (d : nat -> nat -> Q) (r : list nat) : Q :=
  walk_length d (0%nat :: r ++ [0%nat]).

Fixpoint Qsum (l : list Q) : Q := match l with [] => 0 | x :: t => x + Qsum t end.

Definition route_load (dem : nat -> Q) (r : list nat) : Q := Qsum (map dem r).

(** Positive part. *)
Definition Qpos (x : Q) : Q := if Qle_bool x 0 then 0 else x.

Definition route_penalized (d : nat -> nat -> Q) (dem : nat -> Q) (cap pen : Q) (r : list nat) : Q :=
  route_length d r + pen * Qpos (route_load dem r - cap).

Definition total_length (d : nat -> nat -> Q) (routes : list (list nat)) : Q :=
  Qsum (map (route_length d) routes).

Definition total_penalized (d : nat -> nat -> Q) (dem : nat -> Q) (cap pen : Q)
    (routes : list (list nat)) : Q :=
  Qsum (map (route_penalized d dem cap pen) routes).

(** Every route is within capacity up to the tolerance. *)
Definition within_capacity (dem : nat -> Q) (cap tol : Q) (routes : list (list nat)) : Prop :=
  forall r, In r routes -> route_load dem r <= cap + tol.

(** [a] is immediately followed by [b] when driving route [r] from and to the depot. *)
Definition consecutive (r : list nat) (a b : nat) : Prop :=
  exists l1 l2, 0%nat :: r ++ [0%nat] = l1 ++ a :: b :: l2.

(** Polar angle, around the depot, of the barycentre of a (non-empty) route; [coord n] is
    (x, y). *)
Definition barycentre_angle (atan2 : Q -> Q -> Q) (coord : nat -> Q * Q) (r : list nat) : Q :=
  let n := inject_Z (Z.of_nat (length r)) in
  atan2 (Qsum (map (fun c => snd (coord c)) r) / n - snd (coord 0%nat))
        (Qsum (map (fun c => fst (coord c)) r) / n - fst (coord 0%nat)).

(** The routes that visit somebody. *)
Definition used_routes (routes : list (list nat)) : list (list nat) :=
  filter (fun r => match r with [] => false | _ => true end) routes.
