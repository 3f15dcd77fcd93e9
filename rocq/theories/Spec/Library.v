(** Contracts of the library functions used through [lib]. *)
From Coq Require Import List Arith Permutation Sorted.
From Verif.Model Require Import Prelude Population.
Import ListNotations.

(** [cmp] sends the elements of [l] first to Lt, then to Eq, then to Gt. *)
Definition partitioned {A} (cmp : A -> comparison) (l : list A) : Prop :=
  exists a b c, l = a ++ b ++ c /\
    Forall (fun x => cmp x = Lt) a /\ Forall (fun x => cmp x = Eq) b /\ Forall (fun x => cmp x = Gt) c.

(** Documentation of [slice::binary_search_by]: on a partitioned slice the result is the index
    of some equal element or the place to insert; always at most the length.
    [slice::sort_by] returns a permutation, sorted when the ordering is a total preorder on
    the elements. *)
Record lib_ok (L : lib) : Prop := {
  bs_le : forall A cmp (l : list A), l_bsearch L A cmp l <= length l;
  bs_part : forall A cmp (a b c : list A),
    Forall (fun x => cmp x = Lt) a -> Forall (fun x => cmp x = Eq) b -> Forall (fun x => cmp x = Gt) c ->
    length a <= l_bsearch L A cmp (a ++ b ++ c) <= length a + length b;
  sort_perm : forall A cmp (l : list A), Permutation (l_sort L A cmp l) l;
  sort_sorted : forall A cmp (l : list A),
    (forall x y, In x l -> In y l -> cmp x y <> Gt \/ cmp y x <> Gt) ->
    (forall x y z, In x l -> In y l -> In z l -> cmp x y <> Gt -> cmp y z <> Gt -> cmp x z <> Gt) ->
    StronglySorted (fun x y => cmp x y <> Gt) (l_sort L A cmp l)
}.

(** The binary search of the Rust standard library (core::slice::binary_search_by, since 1.52):
    a concrete implementation meeting the contract, used in examples.  The sort of the example library is insertion sort. *)
Fixpoint bsearch_loop {A} (fuel : nat) (cmp : A -> comparison) (l : list A) (left right : nat) : nat :=
  match fuel with
  | O => left
  | S fuel =>
      if left <? right then
        let mid := left + (right - left) / 2 in
        match nth_error l mid with
        | Some x => match cmp x with
                    | Lt => bsearch_loop fuel cmp l (mid + 1) right
                    | Gt => bsearch_loop fuel cmp l left mid
                    | Eq => mid
                    end
        | None => left
        end
      else left
  end.
Definition rust_lib : lib :=
  mkLib (fun A cmp l => bsearch_loop (length l) cmp l 0 (length l))
        (fun A cmp l => isort (fun a b => match cmp a b with Gt => false | _ => true end) l).
