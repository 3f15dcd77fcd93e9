(** The arithmetic of the real numbers, for statements about the exponential function. *)
From Coq Require Import Reals ZArith.
From Verif.Model Require Import Num.
Local Open Scope R_scope.

Definition NumR : Num := {|
  F := R; f0 := 0; f1 := 1;
  fadd := Rplus; fsub := Rminus; fmul := Rmult; fdiv := Rdiv;
  fabs := Rabs; fmax := Rmax; fmin := Rmin;
  flt := fun a b => if Rlt_dec a b then true else false;
  fle := fun a b => if Rle_dec a b then true else false;
  feqb := fun a b => if Req_EM_T a b then true else false;
  feps := 1 / 1000000;
  fbig := 10 ^ 30;
  flt_inf := fun _ => true;
  flt_max := fun _ => true;
  flit := fun n d => IZR n / IZR (Zpos d);
  fnat := INR;
  ffloor := fun x => Z.to_nat (Int_part x);
  fceil := fun x => Z.to_nat (- Int_part (- x));
  fround := fun x => Z.to_nat (Int_part (x + 1 / 2))
|}.
