(** Specification of the neighbourhood of the local search: the solutions one move away.

    A solution is a list of routes; the order of the routes does not matter. *)
From Coq Require Import List Arith ZArith Bool Permutation.
From Verif.Model Require Import Num Prelude Config LocalSearch.
Import ListNotations.
Open Scope nat_scope.

(** The piece [blk] is taken out of its place and put, as [ins], directly behind customer [v],
    in another route, later in the same route or earlier in the same route.  (If the piece
    already is directly behind [v] nothing is moved.) *)
Inductive relocated (sol sol' : list (list nat)) (blk ins : list nat) (v : nat) : Prop :=
| re_other A B C D rest :
    Permutation sol ((A ++ blk ++ B) :: (C ++ v :: D) :: rest) ->
    Permutation sol' ((A ++ B) :: (C ++ v :: ins ++ D) :: rest) ->
    relocated sol sol' blk ins v
| re_later A M D rest :
    Permutation sol ((A ++ blk ++ M ++ v :: D) :: rest) ->
    Permutation sol' ((A ++ M ++ v :: ins ++ D) :: rest) ->
    relocated sol sol' blk ins v
| re_earlier C M B rest : M <> [] ->
    Permutation sol ((C ++ v :: M ++ blk ++ B) :: rest) ->
    Permutation sol' ((C ++ v :: ins ++ M ++ B) :: rest) ->
    relocated sol sol' blk ins v.

(** The pieces [ub] and [vb] change places; in one route they are not next to each other. *)
Inductive swapped (sol sol' : list (list nat)) (ub vb : list nat) : Prop :=
| sw_other A B C D rest :
    Permutation sol ((A ++ ub ++ B) :: (C ++ vb ++ D) :: rest) ->
    Permutation sol' ((A ++ vb ++ B) :: (C ++ ub ++ D) :: rest) ->
    swapped sol sol' ub vb
| sw_later A M D rest : M <> [] ->
    Permutation sol ((A ++ ub ++ M ++ vb ++ D) :: rest) ->
    Permutation sol' ((A ++ vb ++ M ++ ub ++ D) :: rest) ->
    swapped sol sol' ub vb
| sw_earlier A M D rest : M <> [] ->
    Permutation sol ((A ++ vb ++ M ++ ub ++ D) :: rest) ->
    Permutation sol' ((A ++ ub ++ M ++ vb ++ D) :: rest) ->
    swapped sol sol' ub vb.

(** The solutions that a move makes of [sol] for the customers [u] and [v] *)
Definition neighbour (sol sol' : list (list nat)) (m : move) (u v : nat) : Prop :=
  match m with
  | RelocateSingle => relocated sol sol' [u] [u] v
  | RelocateDouble => exists x, relocated sol sol' [u; x] [u; x] v
  | RelocateDoubleReverse => exists x, relocated sol sol' [u; x] [x; u] v
  | SwapOneWithOne => swapped sol sol' [u] [v]
  | SwapTwoWithOne => exists x, swapped sol sol' [u; x] [v]
  | SwapTwoWithTwo => exists x y, swapped sol sol' [u; x] [v; y]
  | TwoOptIntraReverse =>
      exists A M D rest, M <> [] /\
        Permutation sol ((A ++ u :: M ++ v :: D) :: rest) /\
        Permutation sol' ((A ++ u :: v :: rev M ++ D) :: rest)
  | TwoOptInterReverse =>
      exists A B C D rest,
        Permutation sol ((A ++ u :: B) :: (C ++ v :: D) :: rest) /\
        Permutation sol' ((A ++ u :: v :: rev C) :: (rev B ++ D) :: rest)
  | TwoOptInter =>
      exists A B C D rest,
        Permutation sol ((A ++ u :: B) :: (C ++ v :: D) :: rest) /\
        Permutation sol' ((A ++ u :: D) :: (C ++ v :: B) :: rest)
  end.

(** The solutions that a move makes of [sol] for customer [u] and an empty route *)
Definition opens (sol sol' : list (list nat)) (m : move) (u : nat) : Prop :=
  match m with
  | RelocateSingle =>
      exists A B rest, Permutation sol ((A ++ u :: B) :: [] :: rest) /\
                       Permutation sol' ((A ++ B) :: [u] :: rest)
  | RelocateDouble =>
      exists A x B rest, Permutation sol ((A ++ u :: x :: B) :: [] :: rest) /\
                         Permutation sol' ((A ++ B) :: [u; x] :: rest)
  | RelocateDoubleReverse =>
      exists A x B rest, Permutation sol ((A ++ u :: x :: B) :: [] :: rest) /\
                         Permutation sol' ((A ++ B) :: [x; u] :: rest)
  | TwoOptInter =>
      exists A B rest, Permutation sol ((A ++ u :: B) :: [] :: rest) /\
                       Permutation sol' ((A ++ [u]) :: B :: rest)
  | _ => False
  end.

(** Two customers of different routes change routes, or one customer changes its route; each
    takes any place in its new route. *)
Inductive exchange (sol sol' : list (list nat)) (l1 l2 : list nat) : Prop :=
| ex_two u v A B C D A' B' C' D' rest :
    Permutation sol (l1 :: l2 :: rest) -> l1 = A ++ u :: B -> l2 = C ++ v :: D ->
    A ++ B = A' ++ B' -> C ++ D = C' ++ D' ->
    Permutation sol' ((A' ++ v :: B') :: (C' ++ u :: D') :: rest) ->
    exchange sol sol' l1 l2
| ex_single u A B C D rest :
    Permutation sol (l1 :: l2 :: rest) -> l1 = A ++ u :: B -> l2 = C ++ D ->
    Permutation sol' ((A ++ B) :: (C ++ u :: D) :: rest) ->
    exchange sol sol' l1 l2.

(** The moves switched on in the configuration *)
Definition enabled {N : Num} (c : config) (m : move) : bool :=
  match m with
  | RelocateSingle => c_relocate_single c
  | RelocateDouble => c_relocate_double c
  | RelocateDoubleReverse => c_relocate_double_reverse c
  | SwapOneWithOne => c_swap_one_with_one c
  | SwapTwoWithOne => c_swap_two_with_one c
  | SwapTwoWithTwo => c_swap_two_with_two c
  | TwoOptIntraReverse => c_two_opt_intra_reverse c
  | TwoOptInterReverse => c_two_opt_inter_reverse c
  | TwoOptInter => c_two_opt_inter c
  end.
