(** What is demanded of the program as a whole in double precision. *)
From Coq Require Import Ascii String List Arith ZArith Reals Permutation Sorted.
From Flocq Require Import Core BinarySingleNaN.
From Verif.Model Require Import Num NumFloat Text ConfigFile Main.
From Verif.Spec Require Import Solution Floats Instance ConfigFile.
Import ListNotations.
Open Scope Z_scope.

(** The functions of the standard library: the square root is correctly rounded, [round] rounds
    halves away from zero, sorting sorts (lists without NaN), random reals are in [0, 1). *)
Record double_functions (X : @outside NumF) : Prop := {
  df_sqrt : x_sqrt X = d_sqrt;
  df_round : x_round X = d_round;
  df_sort : forall l : list (nat * dbl), Forall (fun a => is_nan (snd a) = false) l ->
    Permutation (x_sort X l) l /\ StronglySorted (fun a b : nat * dbl => Bleb (snd a) (snd b) = true) (x_sort X l);
  df_real : forall x, is_finite (x_real X x : dbl) = true /\ (0 <= B2R (x_real X x : dbl) < 1)%R
}.

(** [z] is the nearest integer, the larger one of two. *)
Definition nearest (x : R) (z : Z) : Prop := (IZR z - / 2 <= x < IZR z + / 2)%R.

Section Instances.
  Variable i : @instance NumF.
  Local Notation size := (length (in_nodes i)).
  Local Notation zero := (d_of_Z 0).
  Definition coord (a : nat) : dbl * dbl := fst (nth a (in_nodes i) (zero, zero, zero)).
  Definition demand (a : nat) : dbl := snd (nth a (in_nodes i) (zero, zero, zero)).
  Definition weight (weights : list (list dbl)) (a b : nat) : dbl := nth (Nat.min a b) (nth (Nat.max a b - 1) weights []) zero.

  (** The distance between two nodes, as a real number: the entry of the matrix or the
      Euclidean distance. *)
  Definition true_distance (a b : nat) : R :=
    match in_weights i with
    | Some weights => B2R (weight weights a b)
    | None => R_sqrt.sqrt ((B2R (fst (coord b)) - B2R (fst (coord a))) ^ 2 + (B2R (snd (coord b)) - B2R (snd (coord a))) ^ 2)
    end.

  (** Integral demands [q] and capacity [cap]; a matrix of finite numbers, or integral
      coordinates up to 2^22; the rounded distances are [d].  No sum of them that occurs reaches 2^53. *)
  Record integer_instance (d : nat -> nat -> Z) (q : nat -> Z) (cap : Z) : Prop := {
    ni_nodes : (2 <= size)%nat;
    ni_coords : in_weights i = None -> forall a, (a < size)%nat -> exists x y,
      is_int (fst (coord a)) x /\ is_int (snd (coord a)) y /\ Z.abs x <= 2 ^ 22 /\ Z.abs y <= 2 ^ 22;
    ni_weights : forall weights, in_weights i = Some weights ->
      (forall k, (k < length weights)%nat -> length (nth k weights []) = (k + 1)%nat) /\
      (forall row (x : dbl), In row weights -> In x row -> is_finite x = true /\ (0 <= B2R x)%R);
    ni_dist : forall a b, (a < size)%nat -> (b < size)%nat -> if Nat.eqb a b then d a b = 0 else nearest (true_distance a b) (d a b);
    ni_demand : forall a, (a < size)%nat -> is_int (demand a) (q a) /\ 0 <= q a;
    ni_cap : is_int (in_cap i) cap /\ 1 <= cap < exact_bound;
    ni_small : exists top, 1 <= top /\ (forall a b, (a < size)%nat -> (b < size)%nat -> d a b <= top) /\
      2 * Z.of_nat size * top < exact_bound;
    ni_load : zload q (seq 0 size) < exact_bound
  }.

  (** The distance between two nodes before it is rounded to an integer: the entry of the matrix, or
      the formula for the Euclidean distance with every operation rounded to a double. *)
  Definition computed_distance (a b : nat) : dbl :=
    match in_weights i with
    | Some weights => weight weights a b
    | None => let dx := dsub (fst (coord b)) (fst (coord a)) in let dy := dsub (snd (coord b)) (snd (coord a)) in
        d_sqrt (dadd (dmul dx dx) (dmul dy dy))
    end.

  (** The same with fractions in the coordinates: the integer [d a b] is what the double rounds to. *)
  Record rounded_instance (d : nat -> nat -> Z) (q : nat -> Z) (cap : Z) : Prop := {
    ri_nodes : (2 <= size)%nat;
    ri_coords : in_weights i = None -> forall a, (a < size)%nat ->
      is_finite (fst (coord a)) = true /\ (Rabs (B2R (fst (coord a))) <= bpow radix2 400)%R /\
      is_finite (snd (coord a)) = true /\ (Rabs (B2R (snd (coord a))) <= bpow radix2 400)%R;
    ri_weights : forall weights, in_weights i = Some weights ->
      (forall k, (k < length weights)%nat -> length (nth k weights []) = (k + 1)%nat) /\
      (forall row (x : dbl), In row weights -> In x row -> is_finite x = true /\ (0 <= B2R x)%R);
    ri_dist : forall a b, (a < size)%nat -> (b < size)%nat ->
      if Nat.eqb a b then d a b = 0 else is_int (d_round (computed_distance a b)) (d a b);
    ri_demand : forall a, (a < size)%nat -> is_int (demand a) (q a) /\ 0 <= q a;
    ri_cap : is_int (in_cap i) cap /\ 1 <= cap < exact_bound;
    ri_small : exists top, 1 <= top /\ (forall a b, (a < size)%nat -> (b < size)%nat -> d a b <= top) /\
      2 * Z.of_nat size * top < exact_bound;
    ri_load : zload q (seq 0 size) < exact_bound
  }.
End Instances.

(** Coordinates of at most 2^22, integral demands and capacity, not too many nodes. *)
Record usual_instance (i : @instance NumF) (q : nat -> Z) (cap : Z) : Prop := {
  ui_euclidean : in_weights i = None;
  ui_nodes : (2 <= length (in_nodes i))%nat /\ Z.of_nat (length (in_nodes i)) <= 2 ^ 27;
  ui_coords : forall a, (a < length (in_nodes i))%nat ->
    is_finite (fst (coord i a)) = true /\ (Rabs (B2R (fst (coord i a))) <= bpow radix2 22)%R /\
    is_finite (snd (coord i a)) = true /\ (Rabs (B2R (snd (coord i a))) <= bpow radix2 22)%R;
  ui_demand : forall a, (a < length (in_nodes i))%nat -> is_int (demand i a) (q a) /\ 0 <= q a;
  ui_cap : is_int (in_cap i) cap /\ 1 <= cap < exact_bound;
  ui_load : zload q (seq 0 (length (in_nodes i))) < exact_bound
}.

(** The lengths of routes in real numbers. *)
Fixpoint rsum (l : list R) : R := match l with [] => 0 | x :: l => (x + rsum l)%R end.
Fixpoint rwalk (d : nat -> nat -> R) (l : list nat) : R :=
  match l with
  | [] => 0
  | a :: l => match l with [] => 0 | b :: _ => (d a b + rwalk d l)%R end
  end.
Definition rtour (d : nat -> nat -> R) (r : list nat) : R := rwalk d (0%nat :: r ++ [0%nat]).

(** No elite education, or one limited by iterations that is short enough for the penalty, which it
    multiplies at most once in 1000 moves: [r] bounds both multipliers. *)
Definition elite_settings (f : @fields NumF) (n : nat) : Prop :=
  has f (txt "elite_education"%string) (VBool false) \/
  (has f (txt "elite_education_time_based"%string) (VBool false) /\ exists (gamma dec inc : dbl) (r : R),
     has f (txt "elite_education_gamma"%string) (VFloat (Some (gamma : @F NumF))) /\
     has f (txt "penalty_dec_multiplier"%string) (VFloat (Some (dec : @F NumF))) /\
     has f (txt "penalty_inc_multiplier"%string) (VFloat (Some (inc : @F NumF))) /\
     (1 <= r)%R /\ is_finite dec = true /\ (0 <= B2R dec <= r)%R /\ is_finite inc = true /\ (0 <= B2R inc <= r)%R /\
     ((r * (1 + bpow radix2 (-50))) ^ (@fround NumF (dmul gamma (d_of_Z (Z.of_nat (n - 1)))) / 1000) <= bpow radix2 870)%R).

(** Coordinates of at most 2^900. *)
Definition drawable_nodes (i : @instance NumF) : Prop :=
  forall a, (a < length (in_nodes i))%nat ->
    is_finite (fst (coord i a)) = true /\ (Rabs (B2R (fst (coord i a))) <= bpow radix2 900)%R /\
    is_finite (snd (coord i a)) = true /\ (Rabs (B2R (snd (coord i a))) <= bpow radix2 900)%R.
