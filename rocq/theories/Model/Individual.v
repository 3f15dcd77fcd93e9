(** Individuals.  Models src/solver/genetic/individual.rs. *)
From Coq Require Import List Arith NArith ZArith Bool.
From Verif.Model Require Import Num Prelude Evaluate.
Import ListNotations.
Open Scope res_scope.

Section Individual.
  Context {N : Num}.

  (** individual.rs:8-19; [i_fitness = None] is INFINITY. *)
  Record individual := mkInd {
    i_number : nat;
    i_geno : list nat;
    i_pheno : list (list nat);
    i_fitness : option F;
    i_eval : sol_eval
  }.

  Definition set_number (i : individual) n :=
    mkInd n (i_geno i) (i_pheno i) (i_fitness i) (i_eval i).
  Definition set_geno (i : individual) g :=
    mkInd (i_number i) g (i_pheno i) (i_fitness i) (i_eval i).
  Definition set_pheno (i : individual) ph :=
    mkInd (i_number i) (i_geno i) ph (i_fitness i) (i_eval i).
  Definition set_fitness (i : individual) f :=
    mkInd (i_number i) (i_geno i) (i_pheno i) f (i_eval i).
  Definition set_eval (i : individual) e :=
    mkInd (i_number i) (i_geno i) (i_pheno i) (i_fitness i) e.

  (** individual.rs:32-40 *)
  Definition ind_empty : individual := mkInd 0 [] [] None se_new.

  (** individual.rs:42-55 *)
  Definition ind_random (p : problem) (num_vehicles number : nat) (r : rng) : individual * rng :=
    let '(g, r) := shuffle (seq 1 (p_dim p - 1)) r in
    (mkInd number g (repeat [] num_vehicles) None se_new, r).

  (** individual.rs:73-78 *)
  Definition num_nonempty_routes (i : individual) : nat :=
    length (filter (fun r => 0 <? length r) (i_pheno i)).

  (** individual.rs:84-86 *)
  Definition ind_evaluate (p : problem) (pen : F) (i : individual) : res individual :=
    e <- evaluate p pen (i_eval i) (i_pheno i) ;;
    Ok (set_eval i e).

  (** individual.rs:88-94 *)
  Definition is_feasible (i : individual) : bool := se_feasible (i_eval i).
  Definition penalized_cost (i : individual) : option F := se_cost (i_eval i).

  (** individual.rs:104-125, one index of the loop *)
  Definition bpd_step (a b : individual) (distance : nat) (index : nat) : res nat :=
    sa <- geti (se_succ (i_eval a)) index ;;
    sb <- geti (se_succ (i_eval b)) index ;;
    pb <- geti (se_pred (i_eval b)) index ;;
    pa <- geti (se_pred (i_eval a)) index ;;
    sb0 <- geti (se_succ (i_eval b)) 0 ;;
    let distance := if negb (sa =? sb) && negb (sa =? pb) then S distance else distance in
    let distance := if (pa =? 0) && negb (pb =? 0) && negb (sb0 =? 0)
                    then S distance else distance in
    Ok distance.

  (** individual.rs:104-125 calculate_broken_pairs_distance (i64 as nat: it only counts up) *)
  Definition broken_pairs_distance (a b : individual) : res nat :=
    foldm (bpd_step a b) (seq 1 (length (i_geno a))) 0.

  (** individual.rs:128-148: polar angle of the barycentre of a route; 10.0 for an empty route *)
  Definition route_angle (p : problem) (route : list nat) : F :=
    match route with
    | [] => flit 10 1
    | _ =>
        let x := fold_left (fun a n => a +: fst (p_coord p n)) route f0 in
        let y := fold_left (fun a n => a +: snd (p_coord p n)) route f0 in
        let x := x /: fnat (length route) in
        let y := y /: fnat (length route) in
        let x := x -: fst (p_coord p 0) in
        let y := y -: snd (p_coord p 0) in
        o_atan2 p y x
    end.

  (** individual.rs:157-164: write the concatenation of the routes over the genotype *)
  Fixpoint overwrite (g : list nat) (l : list nat) : res (list nat) :=
    match l, g with
    | [], _ => Ok g
    | _ :: _, [] => Err EPanic (* genotype[index] out of range *)
    | n :: l, _ :: g => g' <- overwrite g l ;; Ok (n :: g')
    end.

  (** individual.rs:127-165 sort_routes.  [partial_cmp().unwrap()] panics when two angles are
      not comparable, which happens as soon as one of at least two angles is NaN. *)
  Definition sort_routes (p : problem) (i : individual) : res individual :=
    let keyed := map (fun r => (route_angle p r, r)) (i_pheno i) in
    if (2 <=? length keyed) && existsb (fun k => fisnan (fst k)) keyed then Err EPanic
    else
      let sorted := isort (fun a b => fle (fst a) (fst b)) keyed in
      let ph := map snd sorted in
      g <- overwrite (i_geno i) (concat ph) ;;
      Ok (set_geno (set_pheno i ph) g).
End Individual.
