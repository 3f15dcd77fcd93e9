(** Sampling.  Models src/utils/random.rs:41-51; shuffling and ranges are in Prelude.v. *)
From Coq Require Import List Arith NArith.
From Verif.Model Require Import Prelude.
Import ListNotations.
Open Scope res_scope.

(** random.rs:46-49: the loop; [vec.remove(i)] *)
Fixpoint sample_loop {A} (number : nat) (vec : list A) (new_vec : list A) (r : rng) :
    res (list A * rng) :=
  match number with
  | O => Ok (new_vec, r)
  | S number =>
      '(i, r) <- range_usize 0 (length vec) r ;;
      a <- geti vec i ;;
      sample_loop number (remove_nth vec i) (new_vec ++ [a]) r
  end.

(** random.rs:41-51: panics when fewer elements than requested *)
Definition sample_from_vec {A} (vec : list A) (number : nat) (r : rng) : res (list A * rng) :=
  if number <=? length vec then sample_loop number vec [] r else Err EPanic.
