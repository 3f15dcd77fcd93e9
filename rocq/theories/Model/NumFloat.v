(** Double precision: the instance of the arithmetic with the numbers the program computes with
    ([f64], IEEE 754 binary64), built from Flocq's operations on binary floating point numbers.

    NaNs are not told apart: the program never looks at their bits.  [f64::max] and [f64::min]
    return the other argument if one is NaN; which zero they return for two zeros of different
    sign is left open by Rust, here it is the first one. *)
From Coq Require Import ZArith Bool.
From Flocq Require Import Core BinarySingleNaN.
From Verif.Model Require Import Num.

Definition dbl : Type := binary_float 53 1024.
Definition prec_pos : Prec_gt_0 53 := eq_refl.
Definition prec_emax : Prec_lt_emax 53 1024 := eq_refl.

Definition d_of_Z (z : Z) : dbl := binary_normalize 53 1024 prec_pos prec_emax mode_NE z 0 false.
Definition dadd : dbl -> dbl -> dbl := @Bplus 53 1024 prec_pos prec_emax mode_NE.
Definition dsub : dbl -> dbl -> dbl := @Bminus 53 1024 prec_pos prec_emax mode_NE.
Definition dmul : dbl -> dbl -> dbl := @Bmult 53 1024 prec_pos prec_emax mode_NE.
Definition ddiv : dbl -> dbl -> dbl := @Bdiv 53 1024 prec_pos prec_emax mode_NE.
Definition dlt : dbl -> dbl -> bool := @Bltb 53 1024.
Definition dmax (a b : dbl) : dbl := if is_nan a then b else if dlt a b then b else a.
Definition dmin (a b : dbl) : dbl := if is_nan a then b else if dlt b a then b else a.

(** Decimal literals: the correctly rounded quotient.  Numerators and denominators used in the
    program are below 2^53 and hence exact. *)
Definition d_lit (n : Z) (d : positive) : dbl := ddiv (d_of_Z n) (d_of_Z (Z.pos d)).

(** [as u64]: towards zero, saturating, NaN gives 0 *)
Definition d_to_u64 (x : dbl) : nat :=
  match x with
  | B754_infinity false => Z.to_nat (2 ^ 64 - 1)
  | B754_infinity true | B754_nan => 0
  | _ => Z.to_nat (Z.min (2 ^ 64 - 1) (Btrunc x))
  end.

(** [f64::sqrt] (correctly rounded) and [f64::round] (halves away from zero) *)
Definition d_sqrt : dbl -> dbl := @Bsqrt 53 1024 prec_pos prec_emax mode_NE.
Definition d_round : dbl -> dbl := @Bnearbyint 53 1024 prec_emax mode_NA.

Definition d_inf : dbl := B754_infinity false.
Definition d_max : dbl := @Bmax_float 53 1024 prec_pos prec_emax.

Definition NumF : Num := {|
  F := dbl; f0 := d_of_Z 0; f1 := d_of_Z 1;
  fadd := dadd; fsub := dsub; fmul := dmul; fdiv := ddiv;
  fabs := Babs; fmax := dmax; fmin := dmin;
  flt := dlt; fle := @Bleb 53 1024; feqb := @Beqb 53 1024;
  feps := d_lit 1 1000000;
  fbig := d_of_Z (10 ^ 30);
  flt_inf := fun x => dlt x d_inf;
  flt_max := fun x => dlt x (dsub d_max (d_lit 1 1000000));
  flit := d_lit;
  fnat := fun n => d_of_Z (Z.of_nat n);
  ffloor := fun x => d_to_u64 (@Bnearbyint 53 1024 prec_emax mode_DN x);
  fceil := fun x => d_to_u64 (@Bnearbyint 53 1024 prec_emax mode_UP x);
  fround := fun x => d_to_u64 (@Bnearbyint 53 1024 prec_emax mode_NA x)
|}.
