(** Splitting a giant tour into routes.  Models src/solver/genetic/split.rs and
    src/solver/context.rs:81-91 (vehicle bounds).

    Simplifications: the vectors [nodes], [cum_distance], [cum_load] and the matrices
    [path_cost], [predecessors] are functions of their indices.  All column indices used are in
    0..dim-1 by the loop bounds; the only index that could leave the (unchecked) matrices is the
    row [max_vehicles], which is checked explicitly ([EUB]). *)
From Coq Require Import List Arith NArith ZArith Bool.
From Verif.Model Require Import Num Prelude Evaluate Individual Config.
Import ListNotations.
Open Scope res_scope.

Definition fupd {A} (f : nat -> A) (i : nat) (a : A) : nat -> A :=
  fun j => if j =? i then a else f j.
Definition fupd2 {A} (f : nat -> nat -> A) (i j : nat) (a : A) : nat -> nat -> A :=
  fun k => if k =? i then fupd (f k) j a else f k.

Section Split.
  Context {N : Num}.

  (** src/models/problem.rs total_demand: sum over all nodes (depot included) *)
  Definition total_demand (p : problem) : F :=
    fold_left (fun a n => a +: p_demand p n) (seq 0 (p_dim p)) f0.

  (** src/solver/context.rs:81-85 *)
  Definition vehicle_lower_bound (p : problem) : nat := fceil (total_demand p /: p_cap p).

  (** src/solver/context.rs:87-91 *)
  Definition initial_num_vehicles (p : problem) : nat :=
    fceil (flit 6 5 *: fnat (vehicle_lower_bound p) +: flit 2 1).

  (** Mutable part of [Split] that survives between runs: path_cost and predecessors. *)
  Record split_state := mkSplit {
    sp_pc : nat -> nat -> F;
    sp_pred : nat -> nat -> nat
  }.

  (** split.rs:103-114: both matrices are allocated zeroed (src/models/matrix.rs Matrix::new) *)
  Definition split_new : split_state := mkSplit (fun _ _ => f0) (fun _ _ => 0).

  Section Loaded.
    Variable p : problem.
    Variable pen : F.
    Variable geno : list nat.

    (** genotype[i - 1] (individual.rs:59-61) *)
    Definition gnode (i : nat) : nat := nth (i - 1) geno 0.

    (** split.rs:116-135 load *)
    Definition sdemand (i : nat) : F := p_demand p (gnode i).
    Definition ddepot (i : nat) : F := p_dist p (gnode i) 0.
    Definition dnext (i : nat) : F :=
      match i with
      | O => f0     (* nodes[0] keeps its default *)
      | _ => if i <? p_dim p - 1 then p_dist p (gnode i) (gnode (i + 1))
             else f0 -: fbig
      end.
    Fixpoint cumD (i : nat) : F :=
      match i with O => f0 | S i' => cumD i' +: dnext i' end.
    Fixpoint cumQ (i : nat) : F :=
      match i with O => f0 | S i' => cumQ i' +: sdemand (S i') end.

    (** split.rs:156-162, on one row [pc] of path_cost *)
    Definition propagate (pc : nat -> F) (i j : nat) : F :=
      pc i +: cumD j -: cumD (i + 1) +: ddepot (i + 1) +: ddepot j
        +: pen *: fmax f0 (cumQ j -: cumQ i -: p_cap p).

    (** split.rs:165-170 *)
    Definition dominates (pc : nat -> F) (i j : nat) : bool :=
      (pc i +: ddepot (i + 1) +: cumD (j + 1) -: cumD (i + 1) +: pen *: (cumQ j -: cumQ i))
        <:? (pc j +: ddepot (j + 1)).

    (** split.rs:173-178 *)
    Definition dominates_right (pc : nat -> F) (i j : nat) : bool :=
      approx_lte (pc j +: ddepot (j + 1))
                 (pc i +: ddepot (i + 1) +: cumD (j + 1) -: cumD (i + 1)).

    (** split.rs:214-216: while queue.len() > 0 && dominates_right(back, i) pop_back.
        The queue is a list, front first. *)
    Fixpoint drop_while (f : nat -> bool) (l : list nat) : list nat :=
      match l with
      | [] => []
      | x :: t => if f x then drop_while f t else l
      end.
    Definition pop_back_while (f : nat -> bool) (q : list nat) : list nat :=
      rev (drop_while f (rev q)).

    (** split.rs:219-227: while queue.len() > 1 && cond(front, next_front) pop_front *)
    Fixpoint pop_front_while (f : nat -> nat -> bool) (q : list nat) : list nat :=
      match q with
      | a :: ((b :: _) as t) => if f a b then pop_front_while f t else q
      | _ => q
      end.

    (** split.rs:212-228 (and 321-334): queue maintenance after cell [i] *)
    Definition queue_update (pc : nat -> F) (q : list nat) (i : nat) : res (list nat) :=
      if i <? p_dim p - 1 then
        match rev q with
        | [] => Err EPanic
        | back :: _ =>
            let q := if dominates pc back i then q
                     else pop_back_while (fun b => dominates_right pc b i) q ++ [i] in
            Ok (pop_front_while
                  (fun a b => approx_gte (propagate pc a (i + 1)) (propagate pc b (i + 1))) q)
        end
      else Ok q.

    (** split.rs:207-229, one iteration: write row 0 *)
    Definition linear_step (s : (nat -> F) * (nat -> nat) * list nat) (i : nat) :
        res ((nat -> F) * (nat -> nat) * list nat) :=
      let '(pc, pr, q) := s in
      match q with
      | [] => Err EPanic
      | front :: _ =>
          let pc := fupd pc i (propagate pc front i) in
          let pr := fupd pr i front in
          q <- queue_update pc q i ;;
          Ok (pc, pr, q)
      end.

    (** split.rs:138-153 reset(false) on row 0 *)
    Definition reset_row0 (c : nat) : F := match c with O => f0 | _ => fbig end.

    Definition linear_split (pr : nat -> nat) : res ((nat -> F) * (nat -> nat)) :=
      '(pc, pr, _) <- foldm linear_step (seq 1 (p_dim p - 1)) (reset_row0, pr, [0]) ;;
      Ok (pc, pr).

    (** split.rs:236-268 (and 346-380): extend one route from [from]; [limit] is the test
        load + demand within cap * split_capacity_factor, which differs between the two
        copies of the loop. [row_from] is path_cost of the start. *)
    Fixpoint bellman_inner (limit : F -> bool) (fuel : nat) (from to : nat) (pc_from : F)
        (load cost : F) (s : (nat -> F) * (nat -> nat)) : (nat -> F) * (nat -> nat) :=
      match fuel with
      | O => s
      | S fuel =>
          if (to <? p_dim p) && limit (load +: sdemand to) then
            let load := load +: sdemand to in
            let cost := if to =? from + 1 then p_dist p 0 (gnode to)
                        else cost +: p_dist p (gnode (to - 1)) (gnode to) in
            let new := pc_from +: cost +: p_dist p (gnode to) 0 in
            let new := if approx_gt (load -: p_cap p) f0
                       then new +: (load -: p_cap p) *: pen else new in
            let s := if new <:? fst s to
                     then (fupd (fst s) to new, fupd (snd s) to from) else s in
            bellman_inner limit fuel from (to + 1) pc_from load cost s
          else s
      end.

    (** split.rs:232-269: the same row is read and written *)
    Definition bellman_split (factor : F) (pr : nat -> nat) : (nat -> F) * (nat -> nat) :=
      fold_left (fun s from =>
          bellman_inner (fun l => approx_lte l (p_cap p *: factor))
                        (p_dim p) from (from + 1) (fst s from) f0 f0 s)
        (seq 0 (p_dim p - 1)) (reset_row0, pr).

    (** split.rs:272-282: traceback of the unlimited split; routes in the order they are pushed *)
    Fixpoint traceback (fuel : nat) (pr : nat -> nat) (e : nat) : res (list (list nat)) :=
      match e with
      | O => Ok []
      | _ =>
          match fuel with
          | O => Err EFuel
          | S fuel =>
              let b := pr e in
              rest <- traceback fuel pr b ;;
              Ok (firstn (e - b) (skipn b geno) :: rest)
          end
      end.

    (** split.rs:287-289 *)
    Definition pad_routes (n : nat) (rs : list (list nat)) : list (list nat) :=
      rs ++ repeat [] (n - length rs).

    (** split.rs:309-336: layer [k] of the limited fleet linear split *)
    Definition layer_step (k : nat) (pck : nat -> F)
        (s : (nat -> F) * (nat -> nat) * list nat) (i : nat) :
        res ((nat -> F) * (nat -> nat) * list nat) :=
      let '(pc', pr', q) := s in
      match q with
      | [] => Ok s   (* queue.is_empty(): break *)
      | front :: _ =>
          let pc' := fupd pc' i (propagate pck front i) in
          let pr' := fupd pr' i front in
          q <- queue_update pck q i ;;
          Ok (pc', pr', q)
      end.

    Definition limited_layer (st : split_state) (k : nat) : res split_state :=
      '(pc', pr', _) <- foldm (layer_step k (sp_pc st k)) (seq (k + 1) (p_dim p - (k + 1)))
                             (sp_pc st (k + 1), sp_pred st (k + 1), [k]) ;;
      Ok (mkSplit (fun r => if r =? k + 1 then pc' else sp_pc st r)
                  (fun r => if r =? k + 1 then pr' else sp_pred st r)).

    (** split.rs:339-381: layer of the limited fleet Bellman split *)
    Fixpoint bellman_layer_froms (factor : F) (froms : list nat) (pck : nat -> F)
        (s : (nat -> F) * (nat -> nat)) : (nat -> F) * (nat -> nat) :=
      match froms with
      | [] => s
      | from :: froms =>
          if flit (10 ^ 29) 1 <:? pck from then s  (* break *)
          else
            let s := bellman_inner (fun l => l <=:? (p_cap p *: factor))
                       (p_dim p) from (from + 1) (pck from) f0 f0 s in
            bellman_layer_froms factor froms pck s
      end.

    Definition bellman_layer (factor : F) (st : split_state) (v : nat) : split_state :=
      let '(pc', pr') :=
        bellman_layer_froms factor (seq v (p_dim p - 1 - v)) (sp_pc st v)
                            (sp_pc st (v + 1), sp_pred st (v + 1)) in
      mkSplit (fun r => if r =? v + 1 then pc' else sp_pc st r)
              (fun r => if r =? v + 1 then pr' else sp_pred st r).

    (** split.rs:138-146 reset(true): column 0 of the rows >= 1 is not touched *)
    Definition reset_all (pc : nat -> nat -> F) : nat -> nat -> F :=
      fun r c => match c with
                 | O => match r with O => f0 | _ => pc r 0 end
                 | _ => fbig
                 end.

    (** split.rs:386-395 *)
    Definition cheapest_row (st : split_state) (max_vehicles : nat) : nat :=
      snd (fold_left
             (fun '(best, num) v =>
                if sp_pc st v (p_dim p - 1) <:? best then (sp_pc st v (p_dim p - 1), v)
                else (best, num))
             (seq 1 (max_vehicles - 1))
             (sp_pc st max_vehicles (p_dim p - 1), max_vehicles)).

    (** split.rs:397-409: routes are inserted at the front; returns the final [end] as well *)
    Fixpoint traceback_limited (st : split_state) (v e : nat) (acc : list (list nat)) :
        list (list nat) * nat :=
      match v with
      | O => (acc, e)
      | S v' =>
          let b := sp_pred st v e in
          traceback_limited st v' b (firstn (e - b) (skipn b geno) :: acc)
      end.
  End Loaded.

  Definition set_row0 (st : split_state) (pc : nat -> F) (pr : nat -> nat) : split_state :=
    mkSplit (fun r => match r with O => pc | _ => sp_pc st r end)
            (fun r => match r with O => pr | _ => sp_pred st r end).

  (** split.rs:192-293 split: returns the new state, the phenotype (padded) and whether the
      number of routes is within [max_vehicles] *)
  Definition split_unlimited (p : problem) (c : config) (pen : F) (st : split_state)
      (geno : list nat) (max_vehicles : nat) : res (split_state * list (list nat) * bool) :=
    '(pc, pr) <- (if c_linear_split c then linear_split p pen geno (sp_pred st 0)
                  else Ok (bellman_split p pen geno (c_split_capacity_factor c) (sp_pred st 0))) ;;
    rs <- traceback geno (p_dim p) pr (p_dim p - 1) ;;
    Ok (set_row0 st pc pr, pad_routes (c_num_vehicles c) rs, length rs <=? max_vehicles).

  (** split.rs:295-419 split_limited_fleet *)
  Definition split_limited (p : problem) (c : config) (pen : F) (st : split_state)
      (geno : list nat) (max_vehicles : nat) : res (split_state * list (list nat) * bool) :=
    if c_num_vehicles c <? max_vehicles then Err EUB (* row max_vehicles does not exist *)
    else
      let st := mkSplit (reset_all (sp_pc st)) (sp_pred st) in
      st <- (if c_linear_split c then foldm (limited_layer p pen geno) (seq 0 max_vehicles) st
             else Ok (fold_left (bellman_layer p pen geno (c_split_capacity_factor c))
                                (seq 0 max_vehicles) st)) ;;
      let n := cheapest_row p st max_vehicles in
      let '(rs, e) := traceback_limited geno st n (p_dim p - 1) [] in
      Ok (st, pad_routes (c_num_vehicles c) rs, e =? 0).

  (** split.rs:180-189 run.  [load] reads genotype[0 .. dim-2]. The result of
      split_limited_fleet is ignored, as in the code. *)
  Definition split_run (p : problem) (c : config) (pen : F) (st : split_state)
      (ind : individual) (max_vehicles : nat) : res (split_state * individual) :=
    let max_vehicles := Nat.max max_vehicles (vehicle_lower_bound p) in
    let geno := i_geno ind in
    if length geno <? p_dim p - 1 then Err EPanic
    else
      '(st, ph, ok) <- split_unlimited p c pen st geno max_vehicles ;;
      '(st, ph) <- (if ok then Ok (st, ph)
                    else '(st, ph, _) <- split_limited p c pen st geno max_vehicles ;;
                         Ok (st, ph)) ;;
      ind <- sort_routes p (set_pheno ind ph) ;;
      ind <- ind_evaluate p pen ind ;;
      Ok (st, ind).
End Split.
