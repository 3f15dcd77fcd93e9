(** A small concrete instance used to show that hypotheses of theorems are satisfiable. *)
From Coq Require Import List Arith ZArith QArith Qabs Bool.
From Verif.Model Require Import Num Prelude Evaluate Individual Config.
Import ListNotations.

(** Six nodes on a line (depot in the middle), distances = difference of coordinates,
    demands 3 4 2 5 1, capacity 8. *)
Definition ex_x (i : nat) : Q := nth i [0; 2; 5; -3; -7; 11] 0.
Definition ex_p : @problem NumQ := @mkProblem NumQ
  6
  (fun i j => Qabs (ex_x i - ex_x j))
  (fun i => nth i [0; 3; 4; 2; 5; 1] 0)
  (fun i => (ex_x i, 0))
  8
  (fun i => filter (fun j => negb (Nat.eqb i j)) [1; 2; 3; 4; 5]%nat)
  (fun y x => if Qle_bool 0 x then 0 else 3)
  (fun d => (Z.of_N d) # 1000)
  (fun x => x - 1)
  (fun i => Z.of_nat i).

(** The default configuration values (src/config.rs:89-166) with a fleet of [nv] vehicles and a
    chosen split algorithm. *)
Definition ex_cfg (nv : nat) (linear : bool) : @config NumQ := @mkConfig NumQ
  None (20 * 1000) nv 60
  25 100 40 4 5 (2 # 10) 2 (5 # 10)
  (3 # 2) linear
  true 20 true true false true true true true true true true
  10 (12 # 10) (85 # 100)
  10 10 true 1 1 10
  false 1 1000 50 false (2 # 100).
