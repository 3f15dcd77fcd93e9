(** What is demanded of populations. *)
From Coq Require Import List Arith Permutation Sorted.
From Verif.Model Require Import Num Prelude Evaluate Individual Config Population.
From Verif.Spec Require Import Solution.
Import ListNotations.

Section Spec.
  Context {N : Num}.
  Variable L : lib.
  Variable p : problem.
  Variable c : config.

  (** A finished individual: a complete solution, evaluated under some penalty, with its
      giant tour.  This is what split, local search and ruin and recreate deliver. *)
  Definition finished (i : individual) : Prop :=
    serves_all_once (p_dim p) (i_pheno i) /\ i_geno i = concat (i_pheno i) /\
    exists pen e, evaluate p pen e (i_pheno i) = Ok (i_eval i).

  (** Everything the solver does to a population: start empty, add finished individuals,
      re-evaluate after a penalty update. *)
  Inductive pop_history : population -> Prop :=
  | ph_new : pop_history (pop_new c)
  | ph_add P i b P' : pop_history P -> finished i -> pop_add L c P i b = Ok P' -> pop_history P'
  | ph_penalty P pen P' : pop_history P -> pop_reevaluate L p pen P = Ok P' -> pop_history P'.

  (** The distance recorded for a pair: from the older to the newer individual. *)
  Definition older_to_newer (a b : individual) : res nat :=
    if i_number a <? i_number b then broken_pairs_distance a b else broken_pairs_distance b a.

  (** The diversity table holds, for every member, exactly one record (distance, number) per
      other member, in ascending order of distance; and nothing for non-members. *)
  Definition table_exact (s : subpop) : Prop :=
    NoDup (map i_number (sp_pop s)) /\
    (forall k, ~ In k (map i_number (sp_pop s)) -> sp_div s k = None) /\
    (forall l1 a l2, sp_pop s = l1 ++ a :: l2 -> l1 ++ l2 <> [] ->
       exists v ds, sp_div s (i_number a) = Some v /\
         StronglySorted (fun x y => fst x <= fst y) v /\
         Forall2 (fun b d => older_to_newer a b = Ok d) (l1 ++ l2) ds /\
         Permutation v (combine ds (map i_number (l1 ++ l2)))).

  (** Equal but for the biased fitness. *)
  Definition same_individual (a b : individual) : Prop := set_fitness a None = set_fitness b None.
End Spec.

(** No two members at recorded distance zero. *)
Definition no_twins {N : Num} (l : list individual) : Prop :=
  forall a b, In a l -> In b l -> i_number a <> i_number b -> older_to_newer a b <> Ok 0.
