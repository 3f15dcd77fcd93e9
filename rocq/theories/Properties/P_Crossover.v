(** C06: order crossover. *)
From Coq Require Import List Arith NArith Permutation Lia.
From Verif.Model Require Import Prelude Crossover.
From Verif.Spec Require Import Crossover.
From Verif.Proofs Require Import CrossoverFacts.
Import ListNotations.

(** For parents that are permutations of each other and any zone (wrapped or not) the crossover
    succeeds; the child is a permutation of the parents, equals the first parent inside the zone
    and, read cyclically behind the zone, holds the other customers in the order of the second
    parent. *)
Theorem C06_order_crossover (g1 g2 : list nat) (s e : nat) :
  NoDup g1 -> Permutation g2 g1 -> s < length g1 -> e < length g1 ->
  exists child, crossover_ox g1 g2 s e = Ok child /\
    length child = length g1 /\ Permutation child g1 /\
    (forall i, i < length g1 -> in_zone s e i -> nth i child 0 = nth i g1 0) /\
    let zone := firstn (zone_size (length g1) s e) (read_from s g1) in
    read_from s child = zone ++ remaining zone g2.
Proof.
  intros Hnd Hp Hs He. destruct (crossover_ox_spec g1 g2 s e Hnd Hp Hs He) as (c & E & Hl & Hr & HP).
  exists c. repeat split; auto. intros i Hi Hz.
  exact (crossover_ox_zone g1 g2 s e Hs He c i Hl Hr Hz Hi).
Qed.
Print Assumptions C06_order_crossover.

Example C06_nonvacuous :
  let g1 := [1; 2; 3; 4; 5; 6] in let g2 := [6; 4; 2; 1; 3; 5] in
  NoDup g1 /\ Permutation g2 g1 /\ crossover_ox g1 g2 4 1 = Ok [1; 2; 4; 3; 5; 6].
Proof.
  split; [|split].
  - repeat constructor; simpl; intuition discriminate.
  - apply NoDup_Permutation; try (repeat constructor; simpl; intuition discriminate).
    intros x; simpl; intuition.
  - reflexivity.
Qed.

(** Whatever zone is drawn, a produced child is a permutation of the parents. *)
Theorem C06_crossover_permutation (fuel : nat) (g1 g2 : list nat) (r : rng) child r' :
  NoDup g1 -> Permutation g2 g1 ->
  crossover fuel g1 g2 r = Ok (child, r') -> Permutation child g1.
Proof. exact (crossover_perm fuel g1 g2 r child r'). Qed.
Print Assumptions C06_crossover_permutation.

Example C06_crossover_nonvacuous :
  exists r', crossover 5 [1; 2; 3; 4; 5; 6] [6; 4; 2; 1; 3; 5]
    (mkRng (fun i => nth i [10; 4; 7]%N 0%N) 0) = Ok ([1; 2; 4; 3; 5; 6], r').
Proof. eexists. vm_compute. reflexivity. Qed.
