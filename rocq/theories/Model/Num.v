(** Arithmetic interface of the model.

    The Rust code computes with [f64].  [Num] lists the operations it uses.  It contains NO laws:
    a theorem of the form [forall N : Num, ...] therefore holds for any behaviour of the
    arithmetic, IEEE binary64 with rounding, NaN and overflow included.  Quantitative theorems
    are stated for the instance [NumQ] (exact rationals) below; [NumFloat.v] gives the
    binary64 instance. *)
From Coq Require Import ZArith NArith QArith Qminmax Qround Qabs Bool List Lia.

Class Num : Type := {
  F : Type;                                (* f64 *)
  f0 : F;                                  (* 0.0 *)
  f1 : F;                                  (* 1.0 *)
  fadd : F -> F -> F;
  fsub : F -> F -> F;
  fmul : F -> F -> F;
  fdiv : F -> F -> F;
  fabs : F -> F;                           (* f64::abs *)
  fmax : F -> F -> F;                      (* f64::max *)
  fmin : F -> F -> F;                      (* f64::min *)
  flt : F -> F -> bool;                    (* <  *)
  fle : F -> F -> bool;                    (* <= *)
  feqb : F -> F -> bool;                   (* == *)
  feps : F;                                (* EPSILON = 0.000001, src/utils/comparison.rs:3 *)
  fbig : F;                                (* 1.0e30, src/solver/genetic/split.rs *)
  flt_inf : F -> bool;                     (* x < f64::INFINITY *)
  flt_max : F -> bool;                     (* x < f64::MAX - EPSILON *)
  flit : Z -> positive -> F;               (* decimal literal n/d *)
  fnat : nat -> F;                         (* n as f64 *)
  ffloor : F -> nat;                       (* x.floor() as usize (saturating) *)
  fceil : F -> nat;                        (* x.ceil() as u64 (saturating) *)
  fround : F -> nat                        (* x.round() as usize (saturating) *)
}.

Declare Scope num_scope.
Delimit Scope num_scope with num.
Notation "a +: b" := (fadd a b) (at level 50, left associativity) : num_scope.
Notation "a -: b" := (fsub a b) (at level 50, left associativity) : num_scope.
Notation "a *: b" := (fmul a b) (at level 40, left associativity) : num_scope.
Notation "a /: b" := (fdiv a b) (at level 40, left associativity) : num_scope.
Notation "a <:? b" := (flt a b) (at level 70, no associativity) : num_scope.
Notation "a <=:? b" := (fle a b) (at level 70, no associativity) : num_scope.
Open Scope num_scope.

Section Compare.
  Context {N : Num}.

  (** src/utils/comparison.rs:15-17 *)
  Definition approx_lt (a b : F) : bool := a <:? (b -: feps).
  (** src/utils/comparison.rs:31-33 *)
  Definition approx_eq (a b : F) : bool := fabs (a -: b) <:? feps.
  (** src/utils/comparison.rs:19-21 *)
  Definition approx_lte (a b : F) : bool := (a <:? b) || approx_eq a b.
  (** src/utils/comparison.rs:23-25 *)
  Definition approx_gt (a b : F) : bool := (b +: feps) <:? a.
  (** src/utils/comparison.rs:27-29 *)
  Definition approx_gte (a b : F) : bool := (b <:? a) || approx_eq a b.

  (** Quantities that the code initialises with [f64::INFINITY] have type [option F];
      [None] is the infinite value.  [oapprox_lt] is [approx_lt] on such quantities
      ([INFINITY - EPSILON = INFINITY]). *)
  Definition oapprox_lt (a b : option F) : bool :=
    match a, b with
    | Some a, Some b => approx_lt a b
    | Some a, None => flt_inf a
    | None, _ => false
    end.

  (** [a < b] with [None] as [f64::INFINITY]. *)
  Definition olt (a b : option F) : bool :=
    match a, b with
    | Some a, Some b => a <:? b
    | Some a, None => flt_inf a
    | None, _ => false
    end.

  (** [x != x], i.e. NaN. *)
  Definition fisnan (a : F) : bool := negb (feqb a a).
End Compare.

(** ** Exact arithmetic *)

Definition Qltb (a b : Q) : bool := negb (Qle_bool b a).
Definition Qmaxb (a b : Q) : Q := if Qltb a b then b else a.
Definition Qminb (a b : Q) : Q := if Qltb b a then b else a.

(** Exact rational instance: every rational is below INFINITY and below f64::MAX.
    [round] rounds half away from zero like [f64::round]; conversions to unsigned saturate at 0. *)
Definition NumQ : Num := {|
  F := Q; f0 := 0; f1 := 1;
  fadd := Qplus; fsub := Qminus; fmul := Qmult; fdiv := Qdiv;
  fabs := Qabs; fmax := Qmaxb; fmin := Qminb;
  flt := Qltb; fle := Qle_bool; feqb := Qeq_bool;
  feps := 1 # 1000000;
  fbig := inject_Z (10 ^ 30);
  flt_inf := fun _ => true;
  flt_max := fun _ => true;
  flit := fun n d => n # d;
  fnat := fun n => inject_Z (Z.of_nat n);
  ffloor := fun x => Z.to_nat (Qfloor x);
  fceil := fun x => Z.to_nat (Qceiling x);
  fround := fun x => Z.to_nat (Qfloor (x + (1 # 2)))
|}.
