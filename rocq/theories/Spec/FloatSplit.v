(** The instances and penalties for which the split is near-optimal in double precision. *)
From Coq Require Import List ZArith Reals.
From Flocq Require Import Core BinarySingleNaN.
From Verif.Model Require Import Num NumFloat Evaluate.
From Verif.Spec Require Import Floats.
Import ListNotations.
Open Scope R_scope.

(** Every customer wants something, the penalty is at least 1/100000 (a run keeps it above 1/10000),
    and twice the longest distance times the number of nodes, plus the penalty for the whole demand,
    is at most 2 * 10^8. *)
Record split_sizes (p : @problem NumF) (d : nat -> nat -> Z) (q : nat -> Z) (pen : dbl) : Prop := {
  ss_sym : forall a, (a < p_dim p)%nat -> d 0%nat a = d a 0%nat;
  ss_demand : forall a, (1 <= a < p_dim p)%nat -> (1 <= q a)%Z;
  ss_pen : is_finite pen = true /\ 1 / 100000 <= B2R pen;
  ss_size : exists top, (1 <= top)%Z /\ (forall a b, (a < p_dim p)%nat -> (b < p_dim p)%nat -> (d a b <= top)%Z) /\
    IZR (2 * Z.of_nat (p_dim p) * top) + B2R pen * IZR (zload q (seq 1 (p_dim p - 1))) <= 200000000
}.
