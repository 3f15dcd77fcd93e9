(** Printing a solution.  Models src/solver/history.rs:28-45 and src/utils/serializer.rs. *)
From Coq Require Import Ascii String List Arith NArith Bool.
From Verif.Model Require Import Num Prelude Evaluate Individual Text World.
Import ListNotations.
Open Scope nat_scope.

Section Display.
  Context {N : Num}.

  (** history.rs:33-36 *)
  Definition route_string (number : nat) (route : list nat) : text :=
    fold_left (fun s stop => s ++ txt " " ++ print_nat stop) route (txt "Route #" ++ print_nat number ++ txt ":").

  (** history.rs:30-40 *)
  Fixpoint route_lines (number : nat) (routes : list (list nat)) : text :=
    match routes with
    | [] => []
    | route :: routes =>
        if 0 <? length route then route_string number route ++ [LF] ++ route_lines (number + 1) routes
        else route_lines number routes
    end.

  (** history.rs:41.  The conversion to u64 saturates: INFINITY ([None]) gives the largest number. *)
  Definition print_cost (cost : option F) : text :=
    match cost with
    | Some c => print_nat (fround c)
    | None => txt "18446744073709551615"
    end.
  (** history.rs:28-45 *)
  Definition display (routes : list (list nat)) (cost : option F) : text :=
    route_lines 1 routes ++ txt "Cost " ++ print_cost cost.

  (** serializer.rs:6-19, history.rs:120-122: the last entry, or an empty file *)
  Definition solution_file (h : history) : text :=
    match rev (h_entries h) with
    | e :: _ => display (he_routes e) (he_cost e) ++ [LF]
    | [] => []
    end.
End Display.
