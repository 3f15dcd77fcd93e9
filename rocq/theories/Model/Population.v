(** Populations.  Models src/solver/genetic/population.rs and the ordering of individuals
    (src/solver/genetic/individual.rs:168-191). *)
From Coq Require Import List Arith NArith ZArith Bool.
From Verif.Model Require Import Num Prelude Evaluate Individual Config.
Import ListNotations.
Open Scope res_scope.

(** Library functions whose result is not determined by their contract: [slice::binary_search_by]
    (the index of any equal element, or the insertion point) and [slice::sort] for an ordering
    that is not transitive.  Theorems quantify over them and assume [lib_ok] (Spec/Library.v). *)
Record lib := mkLib {
  l_bsearch : forall A : Type, (A -> comparison) -> list A -> nat;
  l_sort : forall A : Type, (A -> A -> comparison) -> list A -> list A
}.

Section Population.
  Context {N : Num}.
  Variable L : lib.

  (** individual.rs:168-191: [partial_cmp]; costs closer than the tolerance are equal.
      [None] when the costs cannot be compared. *)
  Definition cost_cmp (a b : option F) : option comparison :=
    match a, b with
    | Some a, Some b =>
        if approx_eq a b then Some Eq
        else if a <:? b then Some Lt
        else if b <:? a then Some Gt
        else if feqb a b then Some Eq
        else None
    | None, None => Some Eq
    | Some a, None => if fisnan a then None else if flt_inf a then Some Lt else Some Eq
    | None, Some b => if fisnan b then None else if flt_inf b then Some Gt else Some Eq
    end.

  Definition ind_cmp (a b : individual) : option comparison :=
    cost_cmp (penalized_cost a) (penalized_cost b).

  Definition cmp_or_eq (c : option comparison) : comparison :=
    match c with Some c => c | None => Eq end.
  Definition comparable (a b : individual) : bool :=
    match ind_cmp a b with Some _ => true | None => false end.

  (** population.rs:10-42: (distance, to_number), ordered by distance *)
  Definition diversity := (nat * nat)%type.

  (** population.rs:44-55.  The hash map is a function of the individual number; the code
      never depends on its iteration order.  [focus_diversity] is left out: it is initialised
      to false and never changed (the assignments are commented out). *)
  Record subpop := mkSub {
    sp_pop : list individual;
    sp_div : nat -> option (list diversity);
    sp_max : nat
  }.

  Definition set_pop (s : subpop) pop := mkSub pop (sp_div s) (sp_max s).
  Definition set_div (s : subpop) d := mkSub (sp_pop s) d (sp_max s).

  Definition fupd {A} (f : nat -> A) (k : nat) (a : A) : nat -> A :=
    fun j => if j =? k then a else f j.

  (** population.rs:58-70 *)
  Definition subpop_new (c : config) : subpop :=
    mkSub [] (fun _ => None) (c_min_population_size c + c_population_lambda c).

  (** population.rs:313-328 *)
  Definition add_diversity (s : subpop) (key : nat) (d : diversity) : subpop :=
    set_div s (fupd (sp_div s) key
      (Some (match sp_div s key with
             | Some v => insert_nth v (l_bsearch L _ (fun e => Nat.compare (fst e) (fst d)) v) d
             | None => [d]
             end))).

  (** population.rs:232-248: one index of the loop *)
  Definition update_diversity_step (index : nat) (s : subpop) (other_index : nat) : res subpop :=
    if index =? other_index then Ok s
    else
      other <- geti (sp_pop s) other_index ;;
      this <- geti (sp_pop s) index ;;
      distance <- broken_pairs_distance other this ;;
      let s := add_diversity s (i_number other) (distance, i_number this) in
      Ok (add_diversity s (i_number this) (distance, i_number other)).

  Definition update_diversity (s : subpop) (index : nat) : res subpop :=
    foldm (update_diversity_step index) (seq 0 (length (sp_pop s))) s.

  (** population.rs:336-341: remove the first entry with that number *)
  Fixpoint remove_first (number : nat) (v : list diversity) : list diversity :=
    match v with
    | [] => []
    | d :: v => if snd d =? number then v else d :: remove_first number v
    end.

  (** population.rs:330-343 *)
  Definition remove_diversity (s : subpop) (i : individual) : subpop :=
    set_div s (fun k => if k =? i_number i then None
                        else match sp_div s k with
                             | Some v => Some (remove_first (i_number i) v)
                             | None => None
                             end).

  (** population.rs:345-365; [population.len() - 1] underflows on an empty population *)
  Definition average_bpd (s : subpop) (i : individual) (num : nat) : res F :=
    if length (sp_pop s) =? 0 then Err EPanic else
    let num_to_check := Nat.min num (length (sp_pop s) - 1) in
    match sp_div s (i_number i) with
    | None => Ok f0
    | Some v =>
        total <- foldm (fun total index => d <- geti v index ;; Ok (total + fst d))
                       (seq 0 num_to_check) 0 ;;
        Ok (fnat total /: fnat num_to_check)
    end.

  (** population.rs:302-306 *)
  Definition biased_fitness (len num_elites index diversity_index : nat) : F :=
    let population_factor := fnat len -: f1 in
    let elite_factor := f1 -: fnat num_elites /: fnat len in
    let diversity_rank := fnat diversity_index /: population_factor in
    let fitness_rank := fnat index /: population_factor in
    if len <=? num_elites then fitness_rank
    else fitness_rank +: elite_factor *: diversity_rank.

  (** population.rs:287-310 *)
  Definition assign_fitness (num_elites : nat) (pop : list individual) (order : list nat) :
      res (list individual) :=
    foldm (fun pop (di : nat * nat) =>
             let '(diversity_index, index) := di in
             i <- geti pop index ;;
             seti pop index (set_fitness i (Some (biased_fitness (length pop) num_elites index diversity_index))))
          (combine (seq 0 (length order)) order) pop.

  (** population.rs:250-311.  The sort is stable and, without NaN (which panics), by a total
      preorder. *)
  Definition update_fitness (c : config) (s : subpop) : res subpop :=
    match sp_pop s with
    | [i] => Ok (set_pop s [set_fitness i (Some f0)])
    | pop =>
        avgs <- mapm (fun i => average_bpd s i (c_num_diversity_closest c)) pop ;;
        if (2 <=? length avgs) && existsb fisnan avgs then Err EPanic
        else
          let sorted := isort (fun a b => fle (fst b) (fst a)) (combine avgs (seq 0 (length avgs))) in
          pop' <- assign_fitness (c_num_elites c) pop (map snd sorted) ;;
          Ok (set_pop s pop')
    end.

  (** population.rs:168-178 *)
  Definition remove_individual (c : config) (s : subpop) (index : nat) : res subpop :=
    i <- geti (sp_pop s) index ;;
    let s := set_pop s (remove_nth (sp_pop s) index) in
    let s := remove_diversity s i in
    update_fitness c s.

  (** population.rs:221-230 *)
  Definition individual_is_clone (s : subpop) (i : individual) : res bool :=
    match sp_div s (i_number i) with
    | Some v => d <- geti v 0 ;; Ok (fst d =? 0)
    | None => Err EPanic
    end.

  (** [a >= b] on fitness values ([None] is INFINITY) *)
  Definition ofge (a b : option F) : bool :=
    match a, b with
    | Some a, Some b => fle b a
    | None, Some b => negb (fisnan b)
    | Some a, None => negb (fisnan a) && negb (flt_inf a)
    | None, None => true
    end.

  (** population.rs:194-210: one index of the scan; state (worst_index, worst_is_clone,
      worst_fitness) *)
  Definition worst_step (s : subpop) (w : nat * bool * option F) (index : nat) :
      res (nat * bool * option F) :=
    let '(worst_index, worst_is_clone, worst_fitness) := w in
    i <- geti (sp_pop s) index ;;
    is_clone <- individual_is_clone s i ;;
    if (is_clone && negb worst_is_clone)
       || (Bool.eqb worst_is_clone is_clone && ofge (i_fitness i) worst_fitness)
    then Ok (index, is_clone, i_fitness i)
    else Ok w.

  (** population.rs:188-219; -1.0 is the literal (-1)/1 *)
  Definition natural_selection (c : config) (s : subpop) : res subpop :=
    '(worst_index, _, _) <-
       foldm (worst_step s) (seq 1 (length (sp_pop s) - 1)) (1, false, Some (flit (-1) 1)) ;;
    remove_individual c s worst_index.

  (** population.rs:101-103; the fuel is the number of members, each round removes one *)
  Section Selection.
    Variable c : config.
    Fixpoint selection_loop (fuel : nat) (s : subpop) : res subpop :=
      if c_min_population_size c <? length (sp_pop s) then
        match fuel with
        | O => Err EFuel
        | S fuel => s <- natural_selection c s ;; selection_loop fuel s
        end
      else Ok s.
  End Selection.

  (** population.rs:76-105.  The binary search panics when it compares incomparable costs; the
      model panics when any member is incomparable with the new individual (the code may
      happen not to look at that member). *)
  Definition sub_add (c : config) (s : subpop) (i : individual) : res subpop :=
    if negb (forallb (fun m => comparable m i) (sp_pop s)) then Err EPanic
    else
      let insert_index := l_bsearch L _ (fun m => cmp_or_eq (ind_cmp m i)) (sp_pop s) in
      let s := set_pop s (insert_nth (sp_pop s) insert_index i) in
      s <- update_diversity s insert_index ;;
      clone <- (if 1 <? length (sp_pop s) then
                  m <- geti (sp_pop s) insert_index ;; individual_is_clone s m
                else Ok false) ;;
      s <- (if clone : bool then remove_individual c s insert_index else update_fitness c s) ;;
      if sp_max s <=? length (sp_pop s) then selection_loop c (length (sp_pop s)) s
      else Ok s.

  (** population.rs:368-379 *)
  Record population := mkPop {
    po_count : nat;
    po_feas : subpop;
    po_infeas : subpop;
    po_hist : list bool
  }.

  (** population.rs:382-389 *)
  Definition pop_new (c : config) : population :=
    mkPop 0 (subpop_new c) (subpop_new c) (repeat true 100).

  Definition pop_size (p : population) : nat :=
    length (sp_pop (po_feas p)) + length (sp_pop (po_infeas p)).

  (** population.rs:395-414 *)
  Definition pop_add (c : config) (p : population) (i : individual) (upd_hist : bool) :
      res population :=
    let i := set_number i (po_count p) in
    let hist := if upd_hist then tl (po_hist p ++ [is_feasible i]) else po_hist p in
    if is_feasible i then
      s <- sub_add c (po_feas p) i ;;
      Ok (mkPop (S (po_count p)) s (po_infeas p) hist)
    else
      s <- sub_add c (po_infeas p) i ;;
      Ok (mkPop (S (po_count p)) (po_feas p) s hist).

  (** population.rs:438-445 *)
  Definition pop_member (p : population) (index : nat) : res individual :=
    if index <? length (sp_pop (po_feas p)) then geti (sp_pop (po_feas p)) index
    else geti (sp_pop (po_infeas p)) (index - length (sp_pop (po_feas p))).

  (** [a < b] on fitness values is [olt].  population.rs:429-432 *)
  Fixpoint draw_indices (k size : nat) (r : rng) : res (list nat * rng) :=
    match k with
    | O => Ok ([], r)
    | S k =>
        '(i, r) <- range_usize 0 size r ;;
        '(l, r) <- draw_indices k size r ;;
        Ok (i :: l, r)
    end.

  (** population.rs:435-453 *)
  Definition winner_step (p : population) (w : option individual) (index : nat) :
      res (option individual) :=
    i <- pop_member p index ;;
    match w with
    | Some cw => if olt (i_fitness i) (i_fitness cw) then Ok (Some i) else Ok w
    | None => Ok (Some i)
    end.

  (** population.rs:416-456 get_parent *)
  Definition tournament (num : nat) (p : population) (r : rng) : res (individual * rng) :=
    '(indices, r) <- draw_indices num (pop_size p) r ;;
    w <- foldm (winner_step p) indices None ;;
    match w with Some i => Ok (i, r) | None => Err EPanic end.

  (** population.rs:420-423 history_fraction *)
  Definition history_fraction (p : population) : F :=
    fnat (length (filter (fun b => b) (po_hist p))) /: fnat (length (po_hist p)).

  (** genetic.rs:165-171 (end of update_penalty): the infeasible individuals are re-evaluated
      under the new penalty and sorted again; their fitness values stay as they are.  [sort]
      panics when it compares incomparable costs; the model panics when any pair is
      incomparable. *)
  Definition pop_reevaluate (p : problem) (pen : F) (po : population) : res population :=
    infeas <- mapm (ind_evaluate p pen) (sp_pop (po_infeas po)) ;;
    if negb (forallb (fun a => forallb (comparable a) infeas) infeas) then Err EPanic
    else
      let sorted := l_sort L _ (fun a b => cmp_or_eq (ind_cmp a b)) infeas in
      Ok (mkPop (po_count po) (po_feas po) (set_pop (po_infeas po) sorted) (po_hist po)).
End Population.
