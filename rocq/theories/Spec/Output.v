(** The grammar of the printed solution. *)
From Coq Require Import Ascii String List Arith.
From Verif.Model Require Import Text.
Import ListNotations.
Local Open Scope nat_scope.

(** Decimal numbers without superfluous zeros. *)
Definition digit (d : nat) (c : ascii) : Prop := d < 10 /\ nat_of_ascii c = 48 + d.
Inductive decimal : nat -> text -> Prop :=
| dec_digit d c : digit d c -> decimal d [c]
| dec_more n t d c : decimal n t -> 0 < n -> digit d c -> decimal (10 * n + d) (t ++ [c]).

(** The customers of a route, each after a blank. *)
Inductive stops_text : list nat -> text -> Prop :=
| st_none : stops_text [] []
| st_more n t ns rest : decimal n t -> stops_text ns rest -> stops_text (n :: ns) (txt " " ++ t ++ rest).

(** The lines of the routes, numbered from [k], then the cost. *)
Inductive solution_text : nat -> list (list nat) -> nat -> text -> Prop :=
| so_cost k c t : decimal c t -> solution_text k [] c (txt "Cost " ++ t)
| so_route k kt r rt rs c rest : decimal k kt -> stops_text r rt -> solution_text (k + 1) rs c rest ->
    solution_text k (r :: rs) c (txt "Route #" ++ kt ++ txt ":" ++ rt ++ [LF] ++ rest).
