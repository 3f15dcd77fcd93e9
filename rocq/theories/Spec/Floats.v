(** Integral data and what the evaluation of a solution should give on it. *)
From Coq Require Import List ZArith Reals.
From Flocq Require Import Core BinarySingleNaN.
From Verif.Model Require Import Num NumFloat Evaluate Config Split.
From Verif.Spec Require Import Solution.
Import ListNotations.
Open Scope Z_scope.

(** A double is (finite and) the integer [z]. *)
Definition is_int (x : dbl) (z : Z) : Prop := is_finite x = true /\ B2R x = IZR z.

(** Below which all integers are doubles. *)
Definition exact_bound : Z := 2 ^ 53.

Fixpoint zsum (l : list Z) : Z := match l with [] => 0 | x :: l => x + zsum l end.
(** Length of a walk, and of the closed tour of a route. *)
Fixpoint zwalk (d : nat -> nat -> Z) (l : list nat) : Z :=
  match l with
  | [] => 0
  | a :: l => match l with [] => 0 | b :: _ => d a b + zwalk d l end
  end.
Definition ztour (d : nat -> nat -> Z) (r : list nat) : Z := zwalk d (0%nat :: r ++ [0%nat]).
Definition zload (q : nat -> Z) (r : list nat) : Z := zsum (map q r).

(** The data of a problem are natural numbers. *)
Record integral (p : @problem NumF) (d : nat -> nat -> Z) (q : nat -> Z) (cap : Z) : Prop := {
  ig_dist : forall a b, (a < p_dim p)%nat -> (b < p_dim p)%nat -> is_int (p_dist p a b) (d a b) /\ 0 <= d a b;
  ig_demand : forall a, (a < p_dim p)%nat -> is_int (p_demand p a) (q a) /\ 0 <= q a;
  ig_cap : is_int (p_cap p) cap /\ 0 <= cap < exact_bound
}.

(** The random reals are doubles in [0, 1). *)
Definition unit_doubles (p : @problem NumF) : Prop :=
  forall x, is_finite (o_real p x) = true /\ (0 <= B2R (o_real p x) < 1)%R.

(** An instance with integral data and a configuration for it: no sum of distances or demands
    that occurs reaches 2^53. *)
Record integral_instance (p : @problem NumF) (c : @config NumF) (d : nat -> nat -> Z) (q : nat -> Z) (cap : Z) : Prop := {
  ii_data : integral p d q cap;
  ii_dim : (2 <= p_dim p)%nat;
  ii_fleet : (1 <= c_num_vehicles c)%nat /\ (@vehicle_lower_bound NumF p <= c_num_vehicles c)%nat;
  ii_depot : d 0%nat 0%nat = 0;
  ii_small : exists top, 1 <= top /\ (forall a b, (a < p_dim p)%nat -> (b < p_dim p)%nat -> d a b <= top) /\
    2 * Z.of_nat (p_dim p) * top < exact_bound;
  ii_load : zload q (seq 1 (p_dim p - 1)) < exact_bound;
  ii_real : unit_doubles p;
  ii_gran : (1 <= c_granularity c)%nat
}.

(** A recorded solution: complete, within capacity exactly, and its cost is exactly its length. *)
Definition exact_record (p : @problem NumF) (d : nat -> nat -> Z) (q : nat -> Z) (cap : Z)
    (routes : list (list nat)) (cost : option dbl) : Prop :=
  serves_all_once (p_dim p) routes /\ (forall r, In r routes -> zload q r <= cap) /\
  exists x : dbl, cost = Some x /\ is_int x (zsum (map (ztour d) routes)).

(** Coordinates of at most 2^900, so that no sum of them overflows, and an arctangent that is a
    number when its arguments are. *)
Definition drawable (p : @problem NumF) : Prop :=
  (forall a, (a < p_dim p)%nat ->
     is_finite (fst (p_coord p a) : dbl) = true /\ (Rabs (B2R (fst (p_coord p a) : dbl)) <= bpow radix2 900)%R /\
     is_finite (snd (p_coord p a) : dbl) = true /\ (Rabs (B2R (snd (p_coord p a) : dbl)) <= bpow radix2 900)%R) /\
  (forall y x : dbl, is_finite y = true -> is_finite x = true -> is_nan (o_atan2 p y x : dbl) = false).

(** The number of moves of elite education when iterations limit it. *)
Definition elite_length (p : @problem NumF) (c : @config NumF) : nat :=
  @fround NumF (@fmul NumF (c_elite_education_gamma c) (@fnat NumF (p_dim p - 1))).

(** No elite education, or one limited by iterations in which the penalty, multiplied at most once in
    1000 moves and never clamped, stays below 2^900: [r] bounds both multipliers. *)
Definition elite_fits (p : @problem NumF) (c : @config NumF) : Prop :=
  c_elite_education c = false \/
  (c_elite_education_time_based c = false /\ exists r : R, (1 <= r)%R /\
     is_finite (c_penalty_dec_multiplier c : dbl) = true /\ (0 <= B2R (c_penalty_dec_multiplier c : dbl) <= r)%R /\
     is_finite (c_penalty_inc_multiplier c : dbl) = true /\ (0 <= B2R (c_penalty_inc_multiplier c : dbl) <= r)%R /\
     ((r * (1 + bpow radix2 (-50))) ^ (elite_length p c / 1000) <= bpow radix2 870)%R).
