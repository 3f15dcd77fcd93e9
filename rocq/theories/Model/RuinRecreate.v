(** Ruin and recreate.  Models src/solver/improvement/ruin_recreate/{node,ruin,recreate,mod}.rs. *)
From Coq Require Import List Arith NArith ZArith Bool.
From Verif.Model Require Import Num Prelude Evaluate Individual Config Matrix World Schedule.
Import ListNotations.
Open Scope res_scope.

Section RuinRecreate.
  Context {N : Num}.
  Variable p : problem.
  Variable c : config.
  Variable E : env.

  (** node.rs:38-47 *)
  Record rroute := mkRoute { ro_nodes : list nat; ro_dist : F; ro_over : F }.
  (** node.rs:50-56 *)
  Definition ro_empty : rroute := mkRoute [] f0 f0.

  (** mod.rs:23-29.  Locations (node.rs:5-10) are pairs (route_index, node_index).  The hash set
      [ruined_routes] is the list of its elements in order of insertion; the order in which it
      is iterated is drawn from a separate stream, see [hash_iter].  [None] is INFINITY. *)
  Record rsol := mkSol {
    so_routes : list rroute;
    so_un : list nat;
    so_ruined : list nat;
    so_loc : list (nat * nat);
    so_cost : option F
  }.
  Definition so_set_routes (s : rsol) x := mkSol x (so_un s) (so_ruined s) (so_loc s) (so_cost s).
  Definition so_set_un (s : rsol) x := mkSol (so_routes s) x (so_ruined s) (so_loc s) (so_cost s).
  Definition so_set_ruined (s : rsol) x := mkSol (so_routes s) (so_un s) x (so_loc s) (so_cost s).
  Definition so_set_loc (s : rsol) x := mkSol (so_routes s) (so_un s) (so_ruined s) x (so_cost s).
  Definition so_set_cost (s : rsol) x := mkSol (so_routes s) (so_un s) (so_ruined s) (so_loc s) x.

  (** HashSet::insert and contains *)
  Definition mem (x : nat) (l : list nat) : bool := existsb (Nat.eqb x) l.
  Definition set_insert (x : nat) (l : list nat) : list nat := if mem x l then l else l ++ [x].

  (** The iteration order of a hash set with a randomly seeded hasher
      ([RandomState::new()], mod.rs:43): an arbitrary permutation drawn from [hash]. *)
  Definition hash_iter (l : list nat) (hash : rng) : list nat * rng := shuffle l hash.

  (** mod.rs:32-47 *)
  Definition so_new : rsol :=
    mkSol (repeat ro_empty (c_num_vehicles c)) [] [] (repeat (0, 0) (p_dim p)) None.

  (** node.rs:57-79.  [-d] is written [0 - d] (the sign of a zero apart). *)
  Definition ro_remove (r : rroute) (index : nat) : res (nat * rroute) :=
    prev <- (if index =? 0 then Ok 0 else geti (ro_nodes r) (index - 1)) ;;
    next <- (if index =? length (ro_nodes r) - 1 then Ok 0 else geti (ro_nodes r) (index + 1)) ;;
    node <- geti (ro_nodes r) index ;;
    Ok (node, mkRoute (remove_nth (ro_nodes r) index)
          (ro_dist r +: (((f0 -: p_dist p prev node) -: p_dist p node next) +: p_dist p prev next))
          (ro_over r -: p_demand p node)).

  (** node.rs:81-94 *)
  Definition delta_distance (r : rroute) (index node : nat) : res F :=
    prev <- (if index =? 0 then Ok 0 else geti (ro_nodes r) (index - 1)) ;;
    next <- (if index =? length (ro_nodes r) then Ok 0 else geti (ro_nodes r) index) ;;
    Ok (((f0 -: p_dist p prev next) +: p_dist p prev node) +: p_dist p node next).

  (** node.rs:96-103 *)
  Definition ro_add (r : rroute) (index node : nat) : res rroute :=
    d <- delta_distance r index node ;;
    Ok (mkRoute (insert_nth (ro_nodes r) index node) (ro_dist r +: d) (ro_over r +: p_demand p node)).

  (** mod.rs:49-57 *)
  Definition so_from (s o : rsol) : res rsol :=
    loc <- mapm (geti (so_loc o)) (seq 0 (length (so_loc s))) ;;
    routes <- mapm (geti (so_routes o)) (seq 0 (length (so_routes s))) ;;
    Ok (mkSol routes (so_un s) (so_ruined s) loc (so_cost o)).

  (** mod.rs:75-78 and 103-106: the locations of the nodes of one route *)
  Definition place_route (r : nat) (nodes : list nat) (loc : list (nat * nat)) :
      res (list (nat * nat)) :=
    foldm (fun loc (kn : nat * nat) => seti loc (snd kn) (r, fst kn))
          (combine (seq 0 (length nodes)) nodes) loc.

  (** mod.rs:59-80 *)
  Definition load_one (i : individual) (s : list rroute * list (nat * nat)) (r : nat) :
      res (list rroute * list (nat * nat)) :=
    let '(routes, loc) := s in
    nodes <- geti (i_pheno i) r ;;
    ev <- geti (se_routes (i_eval i)) r ;;
    loc <- place_route r nodes loc ;;
    Ok (routes ++ [mkRoute nodes (re_distance ev) (re_overload ev)], loc).
  Definition so_load (s : rsol) (i : individual) : res rsol :=
    if length (i_pheno i) =? length (so_routes s) then
      '(routes, loc) <- foldm (load_one i) (seq 0 (length (so_routes s))) ([], so_loc s) ;;
      Ok (so_set_loc (so_set_routes s routes) loc)
    else Err EPanic (* assert_eq! *).

  (** mod.rs:82-89 *)
  Definition so_feasible (s : rsol) : bool :=
    approx_eq (fold_left (fun a r => a +: fmax f0 (ro_over r)) (so_routes s) f0) f0.

  (** mod.rs:96-100 and 112-116 *)
  Definition so_total (pen : F) (s : rsol) : F :=
    fold_left (fun a r => a +: (ro_dist r +: fmax f0 (ro_over r) *: pen)) (so_routes s) f0.

  (** mod.rs:91-108 *)
  Definition so_evaluate (pen : F) (updated : list nat) (s : rsol) : res rsol :=
    let s := so_set_cost s (Some (so_total pen s)) in
    loc <- foldm (fun loc r => ro <- geti (so_routes s) r ;; place_route r (ro_nodes ro) loc)
                 updated (so_loc s) ;;
    Ok (so_set_loc s loc).

  (** mod.rs:110-117 *)
  Definition so_reevaluate (pen : F) (s : rsol) : rsol := so_set_cost s (Some (so_total pen s)).

  (** ** Ruin (ruin.rs) *)

  (** ruin.rs:25-33; [round] of a non-negative number (there is at least one route) *)
  Definition average_tour_cardinality (s : rsol) : F :=
    fnat (fround (fold_left (fun a r => a +: fnat (length (ro_nodes r))) (so_routes s) f0
                  /: fnat (length (so_routes s)))).

  (** One removal: ruin.rs:58-59 and 93-94 *)
  Definition remove_at (route_number : nat) (s : rsol) (index : nat) : res rsol :=
    ro <- geti (so_routes s) route_number ;;
    '(node, ro) <- ro_remove ro index ;;
    Ok (so_set_un (so_set_routes s (upd (so_routes s) route_number ro)) (so_un s ++ [node])).

  (** ruin.rs:49-56 and 77-85: the first index of a string of [len] nodes around [node_index].
      The bounds are computed as i32 and cast to usize; a negative upper bound (which the cast
      would turn into a huge number) is reported as a panic here. *)
  Definition start_index (node_index route_length len : nat) (r : rng) : res (nat * rng) :=
    let lo := (Z.of_nat node_index - Z.of_nat len + 1)%Z in
    let hi := Z.min (Z.of_nat route_length - Z.of_nat len) (Z.of_nat node_index) in
    let lo := Z.to_nat (Z.max lo 0) in
    if (hi <? 0)%Z then Err EPanic
    else
      let hi := Z.to_nat hi in
      if lo <? hi then range_usize lo (hi + 1) r else Ok (lo, r).

  (** ruin.rs:68-70 [while m < m_max && real() > alpha { m += 1 }]; [k] is m_max - m *)
  Fixpoint grow_m (k m : nat) (r : rng) : nat * rng :=
    match k with
    | O => (m, r)
    | S k => let '(x, r) := real p r in
             if flit 1 100 <:? x then grow_m k (m + 1) r else (m, r)
    end.

  (** ruin.rs:91-102 *)
  Fixpoint split_string (route_number start m_index m : nat) (index : nat) (s : rsol) : res rsol :=
    if start <=? index then
      s <- (if (m_index + m <=? index) || (index <? m_index) then remove_at route_number s index
            else Ok s) ;;
      match index with
      | O => Ok s
      | S index => split_string route_number start m_index m index s
      end
    else Ok s.

  (** ruin.rs:35-105.  [route_length - lt] (line 64) underflows when lt > route_length. *)
  Definition ruin_route (s : rsol) (node route_number lt : nat) (r : rng) : res (rsol * rng) :=
    loc <- geti (so_loc s) node ;;
    ro <- geti (so_routes s) route_number ;;
    let node_index := snd loc in
    let route_length := length (ro_nodes ro) in
    let '(x, r) := real p r in
    '(s, r) <-
      (if x <:? flit 1 2 then
         '(start, r) <- start_index node_index route_length lt r ;;
         s <- foldm (fun s (_ : nat) => remove_at route_number s start) (seq 0 lt) s ;;
         Ok (s, r)
       else if route_length <? lt then Err EPanic
       else
         let m_max := route_length - lt in
         let '(m, r) := if 0 <? m_max then grow_m (m_max - 1) 1 r else (0, r) in
         '(start, r) <- start_index node_index route_length (lt + m) r ;;
         '(m_index, r) <- range_usize start (start + lt) r ;;
         s <- split_string route_number start m_index m (start + lt + m - 1) s ;;
         Ok (s, r)) ;;
    Ok (so_set_ruined s (set_insert route_number (so_ruined s)), r).

  (** ruin.rs:126-144: the loop over the neighbours *)
  Fixpoint ruin_loop (lsmax : F) (ks : nat) (neighbors : list nat) (s : rsol) (r : rng) :
      res (rsol * rng) :=
    match neighbors with
    | [] => Ok (s, r)
    | neighbor :: neighbors =>
        loc <- geti (so_loc s) neighbor ;;
        let neighbor_route := fst loc in
        if mem neighbor (so_un s) || mem neighbor_route (so_ruined s)
        then ruin_loop lsmax ks neighbors s r
        else
          ro <- geti (so_routes s) neighbor_route ;;
          let ltmax := fmin lsmax (fnat (length (ro_nodes ro))) in
          let '(x, r) := real p r in
          let lt := ffloor (x *: ltmax) + 1 in
          '(s, r) <- ruin_route s neighbor neighbor_route lt r ;;
          if ks <=? length (so_ruined s) then Ok (s, r)
          else ruin_loop lsmax ks neighbors s r
    end.

  (** ruin.rs:109-145; [corr] is the storage of the correlation matrix *)
  Definition ruin_run (corr : matrix nat) (s : rsol) (r : rng) : res (rsol * rng) :=
    let lsmax := fmin (average_tour_cardinality s) (fnat (c_max_ruin_string_length c)) in
    let ksmax := flit 4 1 *: fnat (c_average_ruin_cardinality c) /: (f1 +: lsmax) -: f1 in
    let '(x, r) := real p r in
    let ks := ffloor (x *: ksmax) + 1 in
    '(c_seed, r) <- range_usize 1 (p_dim p) r ;;
    neighbors <- m_slice corr c_seed 0 (m_cols corr) ;;
    ruin_loop lsmax ks neighbors s r.

  (** ** Recreate (recreate.rs) *)

  (** recreate.rs:5-33: stable sorts by a key; [partial_cmp] of a NaN panics *)
  Definition sort_key (desc : bool) (key : nat -> F) (l : list nat) : res (list nat) :=
    if (2 <=? length l) && existsb (fun n => fisnan (key n)) l then Err EPanic
    else Ok (isort (fun a b => if desc then fle (key b) (key a) else fle (key a) (key b)) l).

  (** recreate.rs:44-57 *)
  Definition sort_unassigned (un : list nat) (r : rng) : res (list nat * rng) :=
    '(number, r) <- range_usize 0 11 r ;;
    if number <? 4 then Ok (shuffle un r)
    else if number <? 8 then un <- sort_key true (p_demand p) un ;; Ok (un, r)
    else if number <? 10 then un <- sort_key true (fun n => p_dist p n 0) un ;; Ok (un, r)
    else un <- sort_key false (fun n => p_dist p n 0) un ;; Ok (un, r).

  (** A best insertion found so far (route, index, value); [None] until the first one, with the
      value f64::MAX (recreate.rs:76-78, 102-104) *)
  Definition insertion := option (nat * nat * F).
  Definition consider (route index : nat) (value : F) (best : insertion) : insertion :=
    match best with
    | Some (_, _, v) => if approx_lt value v then Some (route, index, value) else best
    | None => if flt_max value then Some (route, index, value) else None
    end.

  (** recreate.rs:83-94 and 109-121: all places of one route, [extra] added to the distance *)
  Definition try_route (customer route : nat) (ro : rroute) (cost : F -> F) (best : insertion) :
      res insertion :=
    foldm (fun best index =>
             d <- delta_distance ro index customer ;;
             Ok (consider route index (cost d) best))
          (seq 0 (length (ro_nodes ro) + 1)) best.

  (** recreate.rs:80-96 *)
  Definition try_touched (s : rsol) (customer : nat) (order : list nat) : res insertion :=
    foldm (fun best route =>
             ro <- geti (so_routes s) route ;;
             if approx_lte (ro_over ro +: p_demand p customer) f0
             then try_route customer route ro (fun d => d) best
             else Ok best)
          order None.

  (** recreate.rs:106-122 *)
  Definition try_all (pen : F) (s : rsol) (customer : nat) : res insertion :=
    foldm (fun best (kr : nat * rroute) =>
             let '(route, ro) := kr in
             let overload := ro_over ro +: p_demand p customer in
             let overload_cost := fmax f0 overload *: pen in
             try_route customer route ro (fun d => d +: overload_cost) best)
          (combine (seq 0 (length (so_routes s))) (so_routes s)) None.

  (** recreate.rs:99-100 and 124-125 *)
  Definition insert_at (s : rsol) (route index customer : nat) : res rsol :=
    ro <- geti (so_routes s) route ;;
    ro <- ro_add ro index customer ;;
    Ok (so_set_routes s (upd (so_routes s) route ro)).

  (** recreate.rs:72-127: one customer; state (solution, updated_routes, hash) *)
  Definition place_customer (pen : F) (st : rsol * list nat * rng) (customer : nat) :
      res (rsol * list nat * rng) :=
    let '(s, updated, hash) := st in
    let '(order, hash) := hash_iter updated hash in
    best <- try_touched s customer order ;;
    best <- match best with Some b => Ok (Some b) | None => try_all pen s customer end ;;
    match best with
    | Some (route, index, _) =>
        s <- insert_at s route index customer ;;
        Ok (s, set_insert route updated, hash)
    | None => Err EPanic (* expect("No best route found") *)
    end.

  (** recreate.rs:67-130.  The unassigned customers are taken from the front one by one. *)
  Definition recreate_run (pen : F) (s : rsol) (r hash : rng) : res (rsol * rng * rng) :=
    '(un, r) <- sort_unassigned (so_un s) r ;;
    '(s, updated, hash) <- foldm (place_customer pen) un (so_set_un s [], so_ruined s, hash) ;;
    let '(order, hash) := hash_iter updated hash in
    s <- so_evaluate pen order s ;;
    Ok (so_set_ruined s [], r, hash).

  (** ** The search (mod.rs) *)

  (** mod.rs:120-129; [rr_hash] is the source of hash iteration orders *)
  Record rrstate := mkRR {
    rr_sol : rsol;
    rr_cur : rsol;
    rr_best : option rsol;
    rr_acc : acceptance;
    rr_update_penalty : bool;
    rr_hash : rng
  }.

  (** mod.rs:166-171 *)
  Definition setup_mutation (st : rrstate) : rrstate :=
    let iterations := fround (c_rr_gamma c *: fnat (p_dim p - 1)) in
    mkRR (rr_sol st) (rr_cur st) (rr_best st) (AIter (is_new (c_rr_start_temp c) iterations))
         false (rr_hash st).

  (** mod.rs:132-145 *)
  Definition rr_new (hash : rng) : rrstate :=
    setup_mutation (mkRR so_new so_new None (AIter (is_new (flit 100 1) 100)) false hash).

  (** mod.rs:147-160; Duration::from_secs_f64 is taken to be exact *)
  Definition setup_elite_education (st : rrstate) (w : world) : rrstate * world :=
    let '(acc, w) :=
      if c_elite_education_time_based c then
        let duration := fnat (c_time_limit c) *: c_elite_education_time_fraction c in
        let '(s, w) := ts_new E (c_elite_education_start_temp c) duration w in
        (ATime s, w)
      else
        (AIter (is_new (c_elite_education_start_temp c)
                       (fround (c_elite_education_gamma c *: fnat (p_dim p - 1)))), w) in
    (mkRR (rr_sol st) (rr_cur st) (rr_best st) acc true (rr_hash st), w).

  (** mod.rs:173-186.  [current_solution] is cloned before the cost is computed. *)
  Definition rr_load (st : rrstate) (i : individual) (w : world) : res (rrstate * world) :=
    s <- so_load (rr_sol st) i ;;
    let cur := s in
    s <- so_evaluate (w_pen w) (seq 0 (length (so_routes s))) s ;;
    let '(acc, w) := acc_reset E (rr_acc st) w in
    Ok (mkRR s cur (Some s) acc (rr_update_penalty st) (rr_hash st), w).

  (** mod.rs:276-291 *)
  Definition write_route (g : list nat * list (list nat)) (kr : nat * rroute) :
      res (list nat * list (list nat)) :=
    ph <- seti (snd g) (fst kr) (ro_nodes (snd kr)) ;;
    Ok (fst g ++ ro_nodes (snd kr), ph).
  Definition rr_update_individual (pen : F) (s : rsol) (i : individual) : res individual :=
    match so_un s with
    | [] =>
        '(g, ph) <- foldm write_route (combine (seq 0 (length (so_routes s))) (so_routes s))
                          ([], i_pheno i) ;;
        i <- sort_routes p (set_geno (set_pheno i ph) g) ;;
        ind_evaluate p pen i
    | _ => Err EPanic (* assert_eq! *)
    end.

  (** mod.rs:192-207 *)
  Definition rr_update_best (cur : rsol) (w : world) : res world :=
    if so_feasible cur && oapprox_lt (so_cost cur) (h_best (w_hist w)) then
      let '(i, r) := ind_random p (c_num_vehicles c) 0 (w_rng w) in
      i <- rr_update_individual (w_pen w) cur i ;;
      Ok (set_w_hist (set_w_rng w r) (hist_add (w_hist w) i))
    else Ok w.

  (** mod.rs:215-231 *)
  Definition rr_penalty (st : rrstate) (w : world) : rrstate * world :=
    if rr_update_penalty st then
      let pen := if so_feasible (rr_sol st) then w_pen w *: c_penalty_dec_multiplier c
                 else w_pen w *: c_penalty_inc_multiplier c in
      (mkRR (so_reevaluate pen (rr_sol st)) (so_reevaluate pen (rr_cur st))
            (option_map (so_reevaluate pen) (rr_best st)) (rr_acc st) true (rr_hash st),
       set_w_pen w pen)
    else (st, w).

  (** mod.rs:234-252: one move *)
  Definition rr_move (corr : matrix nat) (st : rrstate) (w : world) : res (rrstate * world) :=
    let cost_before := so_cost (rr_cur st) in
    '(cur, r) <- ruin_run corr (rr_cur st) (w_rng w) ;;
    '(cur, r, hash) <- recreate_run (w_pen w) cur r (rr_hash st) ;;
    let '(ok, r) := accepts p (rr_acc st) (so_cost cur) cost_before r in
    let w := set_w_rng w r in
    '(sol, best, w) <-
      (if ok then
         '(best, w) <-
           (if match rr_best st with
               | Some b => oapprox_lt (so_cost cur) (so_cost b)
               | None => true
               end
            then w <- rr_update_best cur w ;; Ok (Some cur, w)
            else Ok (rr_best st, w)) ;;
         sol <- so_from (rr_sol st) cur ;;
         Ok (sol, best, w)
       else Ok (rr_sol st, rr_best st, w)) ;;
    cur <- so_from cur sol ;;
    let '(acc, w) := acc_update E (rr_acc st) w in
    Ok (mkRR sol cur best acc (rr_update_penalty st) hash, w).

  (** mod.rs:209-257; [k] moves are left, the penalty is updated before the last one *)
  Fixpoint rr_loop (corr : matrix nat) (k : nat) (st : rrstate) (w : world) :
      res (rrstate * world) :=
    match k with
    | O => Ok (st, w)
    | S k =>
        let '(st, w) := match k with O => rr_penalty st w | _ => (st, w) end in
        '(st, w) <- rr_move corr st w ;;
        if acc_completed (rr_acc st) then Ok (st, w) else rr_loop corr k st w
    end.
  Definition rr_search (corr : matrix nat) (st : rrstate) (w : world) : res (rrstate * world) :=
    rr_loop corr 1000 st w.

  (** mod.rs:188-190 *)
  Definition rr_complete (st : rrstate) : bool := acc_completed (rr_acc st).

  (** mod.rs:259-261 *)
  Definition rr_get_solution (pen : F) (st : rrstate) (i : individual) : res individual :=
    rr_update_individual pen (rr_sol st) i.
  (** mod.rs:263-267 *)
  Definition rr_get_best_solution (pen : F) (st : rrstate) (i : individual) : res individual :=
    match rr_best st with
    | Some b => rr_update_individual pen b i
    | None => Ok i
    end.
End RuinRecreate.
