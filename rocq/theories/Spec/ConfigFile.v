(** What is demanded of the configuration. *)
From Coq Require Import Ascii String List Arith NArith ZArith.
From Verif.Model Require Import Num Text ConfigFile.
Import ListNotations.
Local Open Scope nat_scope.

Section Spec.
  Context {N : Num}.

  (** Which values of a file stand for which values of a field of a type. *)
  Inductive stands_for : kind -> value -> value -> Prop :=
  | sf_bool b : stands_for KBool (VBool b) (VBool b)
  | sf_u64 n : (n < 2 ^ 64)%N -> stands_for KU64 (VInt (Z.of_N n)) (VInt (Z.of_N n))
  | sf_float x : stands_for KF64 (VFloat x) (VFloat x)
  | sf_float_int z : stands_for KF64 (VInt z) (VFloat (Some (flit z 1)))
  | sf_string t : stands_for KString (VString t) (VString t)
  | sf_no_u64 : stands_for KOptU64 VNull VNull
  | sf_some_u64 n : (n < 2 ^ 64)%N -> stands_for KOptU64 (VInt (Z.of_N n)) (VInt (Z.of_N n))
  | sf_no_string : stands_for KOptString VNull VNull
  | sf_some_string t : stands_for KOptString (VString t) (VString t).

  (** A configuration has a value of the right type for every field. *)
  Definition configuration (f : fields) : Prop :=
    map fst f = map fst schema /\
    forall name k v, In (name, k) schema -> In (name, v) f -> stands_for k v v.

  (** A field has a value; a file gives a value for a name. *)
  Definition has (f : fields) (name : text) (v : value) : Prop := In (name, v) f.
  Definition gives (m : list (value * value)) (name : text) (v : value) : Prop := In (VString name, v) m.
  Definition gives_none (m : list (value * value)) (name : text) : Prop := forall v, ~ gives m name v.
End Spec.
