(** Specification vocabulary for C70: files on which the program in double precision ends. *)
From Coq Require Import Ascii String List Arith ZArith Reals.
From Flocq Require Import Core BinarySingleNaN.
From Verif.Model Require Import Num NumFloat Text ConfigFile World Main.
From Verif.Spec Require Import Floats FloatProgram ConfigFile.
Import ListNotations.

(** An instance of [n] nodes with distances [d], demands [q] and capacity [cap] whose longest
    distance, times the number of nodes, and whose largest possible penalty, at [peak] per unit of
    load above the capacity, add up to at most 5 * 10^8. *)
Record moderate_data (n : nat) (d : nat -> nat -> Z) (q : nat -> Z) (cap : Z) (peak : R) : Prop := {
  mt_depot : q 0%nat = 0%Z;
  mt_load : (zload q (seq 1 (n - 1)) <= 2 ^ 50)%Z;
  mt_size : exists top, (forall a b, (a < n)%nat -> (b < n)%nat -> (d a b <= top)%Z) /\
    (IZR ((Z.of_nat n + 8) * top) + peak * IZR (Z.max 0 (zload q (seq 1 (n - 1)) - cap)) <= 500000000)%R
}.

(** From reading number [last] on, the clock shows the time limit or more. *)
Definition time_passesF (X : @outside NumF) (f : @fields NumF) (last : nat) : Prop :=
  exists z, has f (txt "time_limit"%string) (VInt z) /\
    forall t, (last <= t)%nat -> is_finite (e_clock (x_env X) t : dbl) = true /\ (IZR z <= B2R (e_clock (x_env X) t : dbl))%R.
