(** Results, random oracle and list utilities shared by the model. *)
From Coq Require Import List Arith NArith Bool Lia.
Import ListNotations.

(** Rust failures made explicit: a panic, undefined behaviour (unchecked access, null
    dereference), or exhaustion of the fuel of a modelled loop. *)
Inductive err := EPanic | EUB | EFuel.
Inductive res (A : Type) : Type := Ok (a : A) | Err (e : err).
Arguments Ok {A} a.
Arguments Err {A} e.

Definition rbind {A B} (m : res A) (k : A -> res B) : res B :=
  match m with Ok a => k a | Err e => Err e end.

Declare Scope res_scope.
Delimit Scope res_scope with res.
Notation "x <- m ;; k" := (rbind m (fun x => k))
  (at level 61, m at next level, right associativity) : res_scope.
Notation "' p <- m ;; k" := (rbind m (fun p => k))
  (at level 61, p pattern, m at next level, right associativity) : res_scope.

(** [v[i]] with Rust's bounds check. *)
Definition geti {A} (l : list A) (i : nat) : res A :=
  match nth_error l i with Some a => Ok a | None => Err EPanic end.

(** [v[i] = a] without the bounds check (no effect out of range). *)
Fixpoint upd {A} (l : list A) (i : nat) (a : A) : list A :=
  match l, i with
  | [], _ => []
  | _ :: t, O => a :: t
  | h :: t, S i => h :: upd t i a
  end.

(** [v[i] = a] with Rust's bounds check. *)
Definition seti {A} (l : list A) (i : nat) (a : A) : res (list A) :=
  if i <? length l then Ok (upd l i a) else Err EPanic.

(** [v.resize(n, d)] *)
Definition resize {A} (l : list A) (n : nat) (d : A) : list A :=
  firstn n l ++ repeat d (n - length l).

(** [v.remove(i)] (list without position [i]) *)
Definition remove_nth {A} (l : list A) (i : nat) : list A :=
  firstn i l ++ skipn (S i) l.

(** [v.insert(i, a)] *)
Definition insert_nth {A} (l : list A) (i : nat) (a : A) : list A :=
  firstn i l ++ a :: skipn i l.

(** Monadic left fold, a [for] loop over a list. *)
Fixpoint foldm {A S} (f : S -> A -> res S) (l : list A) (s : S) : res S :=
  match l with
  | [] => Ok s
  | a :: t => match f s a with Ok s' => foldm f t s' | Err e => Err e end
  end.

(** A [map] that may panic. *)
Fixpoint mapm {A B} (f : A -> res B) (l : list A) : res (list B) :=
  match l with
  | [] => Ok []
  | a :: t => match f a with
              | Ok b => match mapm f t with Ok t' => Ok (b :: t') | Err e => Err e end
              | Err e => Err e
              end
  end.

(** ** Random oracle

    [fastrand] is replaced by an arbitrary stream of numbers: the [rpos]-th raw draw is
    [rdraw rpos].  Theorems quantify over the stream. *)
Record rng := mkRng { rdraw : nat -> N; rpos : nat }.

Definition draw (r : rng) : N * rng := (rdraw r (rpos r), mkRng (rdraw r) (S (rpos r))).

(** src/utils/random.rs:36-38 [range_usize]: panics on an empty range. *)
Definition range_usize (lo hi : nat) (r : rng) : res (nat * rng) :=
  if lo <? hi then
    let '(d, r) := draw r in
    Ok (lo + N.to_nat (N.modulo d (N.of_nat (hi - lo))), r)
  else Err EPanic.

(** Swap of two positions (no effect when out of range). *)
Definition swap_nth {A} (l : list A) (i j : nat) : list A :=
  match nth_error l i, nth_error l j with
  | Some a, Some b => upd (upd l i b) j a
  | _, _ => l
  end.

(** fastrand 1.4 [shuffle]: for i in 1..len, swap (i, usize(..=i)).
    (src/utils/random.rs:27-29 delegates to it.) *)
Fixpoint shuffle_from {A} (k i : nat) (l : list A) (r : rng) : list A * rng :=
  match k with
  | O => (l, r)
  | S k =>
      let '(d, r) := draw r in
      let j := N.to_nat (N.modulo d (N.of_nat (S i))) in
      shuffle_from k (S i) (swap_nth l i j) r
  end.
Definition shuffle {A} (l : list A) (r : rng) : list A * rng :=
  shuffle_from (length l - 1) 1 l r.

(** Stable insertion sort by a [<=]-like test, used for the library sorts ([sort_by], [sort],
    [sorted_by]).  The Rust sorts are stable merge sorts; for a total preorder every stable
    sort gives the same result. *)
Section Sort.
  Context {A : Type} (leb : A -> A -> bool).
  Fixpoint insert_sorted (a : A) (l : list A) : list A :=
    match l with
    | [] => [a]
    | b :: t => if leb a b then a :: l else b :: insert_sorted a t
    end.
  Fixpoint isort (l : list A) : list A :=
    match l with
    | [] => []
    | a :: t => insert_sorted a (isort t)
    end.
End Sort.
