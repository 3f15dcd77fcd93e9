(** Order crossover.  Models src/solver/genetic/genetic.rs:62-139 (crossover, crossover_ox). *)
From Coq Require Import List Arith NArith Bool.
From Verif.Model Require Import Prelude.
Import ListNotations.
Open Scope res_scope.

(** genetic.rs:94-100 *)
Definition wrap_index (index length : nat) : nat := if index =? length then 0 else index.

(** genetic.rs:111-123: walk the crossover zone from [index] to [fin], collecting the genes.
    The hash set of added genes is a list.  Fuel = number of positions. *)
Fixpoint collect_zone (fuel : nat) (g : list nat) (index fin : nat) (added : list nat) :
    res (list nat * nat) :=
  match fuel with
  | O => Err EFuel
  | S fuel =>
      gene <- geti g index ;;
      let added := gene :: added in
      if index =? fin then Ok (added, wrap_index (index + 1) (length g))
      else collect_zone fuel g (wrap_index (index + 1) (length g)) fin added
  end.

Definition memb (x : nat) (l : list nat) : bool := existsb (Nat.eqb x) l.

(** genetic.rs:126-136: one gene of the second parent *)
Definition fill_step (s : list nat * list nat * nat) (gene : nat) :
    res (list nat * list nat * nat) :=
  let '(g, added, index) := s in
  if memb gene added then Ok (g, added, index)
  else
    g' <- seti g index gene ;;
    Ok (g', gene :: added, wrap_index (index + 1) (length g)).

(** genetic.rs:84-139 crossover_ox on the genotypes *)
Definition crossover_ox (g1 g2 : list nat) (start fin : nat) : res (list nat) :=
  '(added, index) <- collect_zone (length g1) g1 start fin [] ;;
  '(g, _, _) <- foldm fill_step g2 (g1, added, index) ;;
  Ok g.

(** genetic.rs:71-78: draw the end of the zone until it differs from the start.
    Fuel bounds the number of draws; running out of fuel means the loop is still running. *)
Fixpoint draw_end (fuel n start : nat) (r : rng) : res (nat * rng) :=
  match fuel with
  | O => Err EFuel
  | S fuel =>
      '(e, r) <- range_usize 0 n r ;;
      if start =? e then draw_end fuel n start r else Ok (e, r)
  end.

(** genetic.rs:62-82 crossover *)
Definition crossover (fuel : nat) (g1 g2 : list nat) (r : rng) : res (list nat * rng) :=
  '(start, r) <- range_usize 0 (length g1) r ;;
  '(fin, r) <- draw_end fuel (length g1) start r ;;
  g <- crossover_ox g1 g2 start fin ;;
  Ok (g, r).
