(** Linked lists of the local search.  Models src/solver/improvement/linked_list.rs.

    The nodes live in three vectors of [LocalSearch] ([nodes], [start_depots], [end_depots])
    that are never resized after construction, so a raw pointer is modelled by the vector and
    the index it points to.  [number], [angle] of a node and [index], [start_depot],
    [end_depot] of a route are never assigned after construction and are functions of the
    pointer.  Null is [None]; dereferencing null is [Err EUB].  Pointer walks carry fuel; a
    walk that exhausts it ([Err EFuel]) runs in a cycle. *)
From Coq Require Import List Arith Bool.
From Verif.Model Require Import Prelude.
Import ListNotations.
Open Scope res_scope.

(** &nodes[n], &start_depots[r], &end_depots[r] *)
Inductive ptr := PN (n : nat) | PS (r : nat) | PE (r : nat).

Definition ptr_eqb (a b : ptr) : bool :=
  match a, b with
  | PN n, PN m => n =? m
  | PS n, PS m => n =? m
  | PE n, PE m => n =? m
  | _, _ => false
  end.

(** linked_list.rs:8: depots have number 0 (local_search.rs:64-65) *)
Definition num (a : ptr) : nat := match a with PN n => n | _ => 0 end.

(** linked_list.rs:37-39 *)
Definition is_depot (a : ptr) : bool := num a =? 0.

Definition deref {A} (o : option A) : res A :=
  match o with Some a => Ok a | None => Err EUB end.

Definition pupd {A} (f : ptr -> A) (k : ptr) (a : A) : ptr -> A :=
  fun j => if ptr_eqb j k then a else f j.

(** successor and predecessor fields *)
Record links := mkLinks { l_succ : ptr -> option ptr; l_pred : ptr -> option ptr }.

(** linked_list.rs:41-46 *)
Definition link_nodes (h : links) (a b : ptr) : links :=
  mkLinks (pupd (l_succ h) a (Some b)) (pupd (l_pred h) b (Some a)).

(** linked_list.rs:48-57 *)
Definition insert_node (h : links) (one two : ptr) : res links :=
  one_prev <- deref (l_pred h one) ;;
  one_next <- deref (l_succ h one) ;;
  two_next <- deref (l_succ h two) ;;
  let h := link_nodes h one_prev one_next in
  let h := link_nodes h two one in
  Ok (link_nodes h one two_next).

(** linked_list.rs:75-79, 101-105: the break condition *)
Definition reached (to : option ptr) (node : ptr) : bool :=
  match to with Some t => num node =? num t | None => false end.

(** linked_list.rs:66-82: the loop, [node] is the current node *)
Fixpoint forward_loop (fuel : nat) (h : links) (from : ptr) (node : option ptr)
    (to new_first : option ptr) : res links :=
  match node with
  | None => Ok h
  | Some a =>
      match fuel with
      | O => Err EFuel
      | S fuel =>
          let next := l_succ h a in
          let h := match next, new_first with
                   | None, Some f => link_nodes h f from
                   | _, _ => link_nodes h a from
                   end in
          if reached to a then Ok h else forward_loop fuel h a next to new_first
      end
  end.

(** linked_list.rs:59-83 *)
Definition forward_reverse (fuel : nat) (h : links) (from : ptr) (to new_first : option ptr) : res links :=
  forward_loop fuel h from (l_succ h from) to new_first.

(** linked_list.rs:92-108 *)
Fixpoint backward_loop (fuel : nat) (h : links) (from : ptr) (node : option ptr)
    (to new_last : option ptr) : res links :=
  match node with
  | None => Ok h
  | Some a =>
      match fuel with
      | O => Err EFuel
      | S fuel =>
          let next := l_pred h a in
          let h := match next, new_last with
                   | None, Some l => link_nodes h from l
                   | _, _ => link_nodes h from a
                   end in
          if reached to a then Ok h else backward_loop fuel h a next to new_last
      end
  end.

(** linked_list.rs:85-109 *)
Definition backward_reverse (fuel : nat) (h : links) (from : ptr) (to new_last : option ptr) : res links :=
  backward_loop fuel h from (l_pred h from) to new_last.

(** linked_list.rs:112-122; the successor of the next node is read again after linking *)
Fixpoint replace_loop (fuel : nat) (h : links) (from : ptr) (next : option ptr) (end_depot : ptr) :
    res links :=
  match next with
  | None => Ok h
  | Some a =>
      match fuel with
      | O => Err EFuel
      | S fuel =>
          let h := match l_succ h a with None => link_nodes h from end_depot | Some _ => h end in
          replace_loop fuel h a (l_succ h a) end_depot
      end
  end.

Definition replace_end_depot (fuel : nat) (h : links) (from end_depot : ptr) : res links :=
  replace_loop fuel h from (l_succ h from) end_depot.
