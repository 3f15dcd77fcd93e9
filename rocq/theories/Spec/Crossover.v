(** Specification of order crossover, independent of the model. *)
From Coq Require Import List Arith.
Import ListNotations.

(** Read a cyclic list starting at position [s]. *)
Definition read_from (s : nat) (l : list nat) : list nat := skipn s l ++ firstn s l.

(** Number of positions of the cyclic zone from [s] to [e] (inclusive) in a list of length [n]. *)
Definition zone_size (n s e : nat) : nat := if s <=? e then e - s + 1 else n - s + e + 1.

(** Position [i] lies in the cyclic zone from [s] to [e]. *)
Definition in_zone (s e i : nat) : Prop :=
  if s <=? e then s <= i <= e else s <= i \/ i <= e.

(** Elements of [l] not occurring in [zone], in the order of [l]. *)
Definition remaining (zone l : list nat) : list nat :=
  filter (fun x => if in_dec Nat.eq_dec x zone then false else true) l.
