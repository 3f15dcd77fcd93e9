(** Where recreate puts a customer that no touched route can take, judged by the penalised cost of
    the whole solution (exact arithmetic). *)
From Coq Require Import List Arith QArith.
From Verif.Model Require Import Prelude.
From Verif.Spec Require Import Solution.
Import ListNotations.
Local Open Scope Q_scope.

Section Recreate.
  Variable d : nat -> nat -> Q.
  Variable dem : nat -> Q.
  Variables cap pen tol : Q.

  (** Every touched route is too full for the customer. *)
  Definition no_room (routes : list (list nat)) (touched : list nat) (c : nat) : Prop :=
    forall r nodes, In r touched -> nth_error routes r = Some nodes -> cap + tol <= route_load dem nodes + dem c.

  (** [routes'] are the routes with customer [c] inserted somewhere, and no other insertion gives a
      solution that is cheaper by more than [tol], not counting [allow], which depends on
      the route before the other insertion. *)
  Definition cheapest_insertion (allow : list nat -> Q) (routes : list (list nat)) (c : nat)
      (routes' : list (list nat)) : Prop :=
    (exists r a b, nth_error routes r = Some (a ++ b) /\ routes' = upd routes r (a ++ c :: b)) /\
    forall r2 a2 b2, nth_error routes r2 = Some (a2 ++ b2) ->
      total_penalized d dem cap pen routes'
      <= total_penalized d dem cap pen (upd routes r2 (a2 ++ c :: b2)) + allow (a2 ++ b2) + tol.

  (** Insertions one after the other; [touched] grows by the receiving routes. *)
  Inductive insertions (allow : list nat -> Q) : list nat -> list (list nat) -> list nat -> list (list nat) -> Prop :=
  | insertions_nil routes touched : insertions allow [] routes touched routes
  | insertions_cons c cs routes touched r a b touched1 routes2 :
      nth_error routes r = Some (a ++ b) ->
      (no_room routes touched c -> cheapest_insertion allow routes c (upd routes r (a ++ c :: b))) ->
      (forall x, In x touched1 <-> x = r \/ In x touched) ->
      insertions allow cs (upd routes r (a ++ c :: b)) touched1 routes2 ->
      insertions allow (c :: cs) routes touched routes2.
End Recreate.
