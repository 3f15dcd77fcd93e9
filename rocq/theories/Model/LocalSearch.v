(** Local search.  Models src/solver/improvement/local_search.rs, preprocess.rs and moves/. *)
From Coq Require Import List Arith NArith ZArith Bool.
From Verif.Model Require Import Num Prelude Evaluate Individual Config Sector Matrix LinkedList.
Import ListNotations.
Open Scope nat_scope.
Open Scope res_scope.

Section LocalSearch.
  Context {N : Num}.

  (** Mutable fields of LinkNode other than the links (linked_list.rs:12-18) *)
  Record ninfo := mkNI {
    n_route : option nat;
    n_pos : nat;
    n_tested : Z;
    n_cumd : F;
    n_cuml : F;
    n_drem : F
  }.

  (** linked_list.rs:22-35 *)
  Definition ninfo_new : ninfo := mkNI None 0 0%Z f0 f0 f0.

  (** linked_list.rs:126-156, without the constant fields *)
  Record lroute := mkLR {
    r_ncust : nat;
    r_mod : Z;
    r_tss : Z;
    r_sector : sector;
    r_dist : F;
    r_load : F;
    r_over : F;
    r_cost : F
  }.

  (** linked_list.rs:159-173.  The code starts with f64::MAX / INFINITY in the last four
      fields; [load_individual] overwrites them before they are read, so 0.0 is used here. *)
  Definition lroute_new : lroute := mkLR 0 0%Z 0%Z sector_new f0 f0 f0 f0.

  (** linked_list.rs:175-177 *)
  Definition lr_empty (r : lroute) : bool := r_ncust r =? 0.

  (** preprocess.rs:7-10; cost [None] is INFINITY *)
  Definition iloc := (option F * option ptr)%type.
  (** preprocess.rs:28-31 *)
  Record tbi := mkTBI { t_one : iloc; t_two : iloc; t_three : iloc; t_calc : Z }.

  (** preprocess.rs:13-18, 34-39 *)
  Definition iloc_new : iloc := (None, None).
  Definition tbi_new : tbi := mkTBI iloc_new iloc_new iloc_new 0%Z.

  (** preprocess.rs:41-45 followed by the assignment of last_calculated (local_search.rs:123-124,
      393-396) *)
  Definition tbi_reset (calc : Z) : tbi := mkTBI iloc_new iloc_new iloc_new calc.

  (** preprocess.rs:52-65 *)
  Definition tbi_add (t : tbi) (cost : F) (node : ptr) : tbi :=
    let loc := (Some cost, Some node) in
    if olt (fst (t_three t)) (Some cost) then t
    else if olt (fst (t_two t)) (Some cost) then mkTBI (t_one t) (t_two t) loc (t_calc t)
    else if olt (fst (t_one t)) (Some cost) then mkTBI (t_one t) loc (t_two t) (t_calc t)
    else mkTBI loc (t_one t) (t_two t) (t_calc t).

  (** local_search.rs:15-40.  [s_hash] decides which element the iteration over the hash set
      [empty_routes] yields first: any element, in any order over time.
      Simplified: [s_count] (move_count) and the time stamps taken from it are [i32] in the code; the
      counter starts at 0 in every run (line 132), so that the two agree for runs of fewer than
      2^31 moves. *)
  Record lsearch := mkLS {
    s_links : links;
    s_info : ptr -> ninfo;
    s_routes : nat -> lroute;
    s_cust : list nat;
    s_corr : matrix nat;
    s_count : Z;
    s_best : nat -> nat -> tbi;
    s_empty : list nat;
    s_hash : rng
  }.

  Definition set_links (s : lsearch) h :=
    mkLS h (s_info s) (s_routes s) (s_cust s) (s_corr s) (s_count s) (s_best s) (s_empty s) (s_hash s).
  Definition set_info (s : lsearch) i :=
    mkLS (s_links s) i (s_routes s) (s_cust s) (s_corr s) (s_count s) (s_best s) (s_empty s) (s_hash s).
  Definition set_routes (s : lsearch) r :=
    mkLS (s_links s) (s_info s) r (s_cust s) (s_corr s) (s_count s) (s_best s) (s_empty s) (s_hash s).
  Definition set_cust (s : lsearch) l :=
    mkLS (s_links s) (s_info s) (s_routes s) l (s_corr s) (s_count s) (s_best s) (s_empty s) (s_hash s).
  Definition set_corr (s : lsearch) m :=
    mkLS (s_links s) (s_info s) (s_routes s) (s_cust s) m (s_count s) (s_best s) (s_empty s) (s_hash s).
  Definition set_count (s : lsearch) n :=
    mkLS (s_links s) (s_info s) (s_routes s) (s_cust s) (s_corr s) n (s_best s) (s_empty s) (s_hash s).
  Definition set_best (s : lsearch) b :=
    mkLS (s_links s) (s_info s) (s_routes s) (s_cust s) (s_corr s) (s_count s) b (s_empty s) (s_hash s).
  Definition set_empty (s : lsearch) e :=
    mkLS (s_links s) (s_info s) (s_routes s) (s_cust s) (s_corr s) (s_count s) (s_best s) e (s_hash s).
  Definition set_hash (s : lsearch) h :=
    mkLS (s_links s) (s_info s) (s_routes s) (s_cust s) (s_corr s) (s_count s) (s_best s) (s_empty s) h.

  (** Assignments to single fields *)
  Definition nupd {A} (f : nat -> A) (k : nat) (a : A) : nat -> A := fun j => if j =? k then a else f j.
  Definition set_tested (n : ninfo) t := mkNI (n_route n) (n_pos n) t (n_cumd n) (n_cuml n) (n_drem n).
  Definition set_drem (n : ninfo) d := mkNI (n_route n) (n_pos n) (n_tested n) (n_cumd n) (n_cuml n) d.
  Definition set_place (n : ninfo) r k := mkNI (Some r) k (n_tested n) (n_cumd n) (n_cuml n) (n_drem n).
  Definition set_cum (n : ninfo) d l := mkNI (n_route n) (n_pos n) (n_tested n) d l (n_drem n).
  Definition set_tss (r : lroute) t :=
    mkLR (r_ncust r) (r_mod r) t (r_sector r) (r_dist r) (r_load r) (r_over r) (r_cost r).

  Definition best_set (b : nat -> nat -> tbi) (r n : nat) (t : tbi) : nat -> nat -> tbi :=
    nupd b r (nupd (b r) n t).

  (** HashSet::insert, HashSet::remove *)
  Definition hs_insert (k : nat) (l : list nat) : list nat :=
    if existsb (Nat.eqb k) l then l else k :: l.
  Definition hs_remove (k : nat) (l : list nat) : list nat := filter (fun j => negb (j =? k)) l.

  Variable p : problem.
  Variable c : config.
  (** [penalty_capacity] of the search: configuration value times multiplier
      (local_search.rs:98-100); set once per run. *)
  Variable pen : F.

  (** Bound of the pointer walks: a chain without repetition visits at most every node and the
      two depots. *)
  Definition walk_fuel : nat := S (S (p_dim p)).

  Definition dist (a b : ptr) : F := p_dist p (num a) (num b).
  Definition dem (a : ptr) : F := p_demand p (num a).

  (** local_search.rs:51, 64-65: the angle field (only read for customers) *)
  Definition angle (a : ptr) : Z := match a with PN n => o_polar p n | _ => 0%Z end.

  (** local_search.rs:43-96 *)
  Definition ls_new (corr : matrix nat) (hash : rng) : lsearch :=
    mkLS (mkLinks (fun _ => None) (fun _ => None)) (fun _ => ninfo_new) (fun _ => lroute_new)
         (seq 1 (p_dim p - 1)) corr 0%Z (fun _ _ => tbi_new) [] hash.

  (** ** update_route *)

  (** local_search.rs:299-339: the walk; state (info, sector, distance, load, customers,
      position) *)
  Fixpoint route_walk (fuel : nat) (h : links) (r : nat)
      (st : (ptr -> ninfo) * sector * F * F * nat * nat) (prev : ptr) (node : option ptr) :
      res ((ptr -> ninfo) * sector * F * F * nat * nat) :=
    match node with
    | None => Ok st
    | Some a =>
        match fuel with
        | O => Err EFuel
        | S fuel =>
            let '(inf, sec, d, l, nc, pos) := st in
            let d := d +: dist prev a in
            let l := l +: dem a in
            let sec := if is_depot a then sec else extend sec (angle a) in
            let nc := if is_depot a then nc else S nc in
            let inf := pupd inf a (set_cum (set_place (inf a) r pos) d l) in
            route_walk fuel h r (inf, sec, d, l, nc, S pos) a (l_succ h a)
        end
    end.

  (** local_search.rs:294-366.  [start_depots[index]] and [end_depots[index]] are in range: the
      index belongs to a route of the vector. *)
  Definition update_route (s : lsearch) (r : nat) : res lsearch :=
    let h := s_links s in
    let inf := pupd (s_info s) (PS r) (set_place (s_info s (PS r)) r 0) in
    '(inf, sec, d, l, nc, _) <-
       route_walk walk_fuel h r (inf, sector_new, f0, f0, 0, 1) (PS r) (l_succ h (PS r)) ;;
    let over := l -: p_cap p in
    let rt := mkLR nc (s_count s) (r_tss (s_routes s r)) sec d l over (route_cost d over pen) in
    let h := mkLinks (pupd (l_succ h) (PE r) None) (pupd (l_pred h) (PS r) None) in
    let e := if lr_empty rt then hs_insert r (s_empty s) else hs_remove r (s_empty s) in
    Ok (set_empty (set_routes (set_info (set_links s h) inf) (nupd (s_routes s) r rt)) e).

  (** The end of every [perform]: update_route(r1), and update_route(r2) when the routes differ *)
  Definition update_two (s : lsearch) (r1 r2 : nat) : res lsearch :=
    s <- update_route s r1 ;;
    if r1 =? r2 then Ok s else update_route s r2.

  (** ** Moves (moves/mod.rs) *)

  Inductive move :=
  | RelocateSingle | RelocateDouble | RelocateDoubleReverse
  | SwapOneWithOne | SwapTwoWithOne | SwapTwoWithTwo
  | TwoOptIntraReverse | TwoOptInterReverse | TwoOptInter.

  Definition keep (b : bool) (m : move) : list move := if b then [m] else [].

  (** moves/mod.rs:38-68 *)
  Definition neighbor_moves : list move :=
    keep (c_relocate_single c) RelocateSingle ++ keep (c_relocate_double c) RelocateDouble
    ++ keep (c_relocate_double_reverse c) RelocateDoubleReverse
    ++ keep (c_swap_one_with_one c) SwapOneWithOne ++ keep (c_swap_two_with_one c) SwapTwoWithOne
    ++ keep (c_swap_two_with_two c) SwapTwoWithTwo
    ++ keep (c_two_opt_intra_reverse c) TwoOptIntraReverse
    ++ keep (c_two_opt_inter_reverse c) TwoOptInterReverse
    ++ keep (c_two_opt_inter c) TwoOptInter.

  (** moves/mod.rs:70-88 *)
  Definition depot_moves : list move :=
    keep (c_relocate_single c) RelocateSingle ++ keep (c_relocate_double c) RelocateDouble
    ++ keep (c_relocate_double_reverse c) RelocateDoubleReverse
    ++ keep (c_two_opt_inter_reverse c) TwoOptInterReverse
    ++ keep (c_two_opt_inter c) TwoOptInter.

  (** moves/mod.rs:90-105 *)
  Definition empty_moves : list move :=
    keep (c_relocate_single c) RelocateSingle ++ keep (c_relocate_double c) RelocateDouble
    ++ keep (c_relocate_double_reverse c) RelocateDoubleReverse
    ++ keep (c_two_opt_inter c) TwoOptInter.

  Definition succ_ (s : lsearch) (a : ptr) : res ptr := deref (l_succ (s_links s) a).
  Definition pred_ (s : lsearch) (a : ptr) : res ptr := deref (l_pred (s_links s) a).
  Definition route_ (s : lsearch) (a : ptr) : res nat := deref (n_route (s_info s a)).

  (** The last lines of most [delta]s: new cost of the two routes minus their old cost.  [-x] is
      written [f0 -: x] throughout (it differs only in the sign of a zero). *)
  Definition cost_change (s : lsearch) (r1 r2 : nat) (d1 d2 o1 o2 : F) : F :=
    let old_cost := r_cost (s_routes s r1) +: r_cost (s_routes s r2) in
    let new_cost := route_cost d1 o1 pen +: route_cost d2 o2 pen in
    new_cost -: old_cost.

  (** relocation.rs:10-52 *)
  Definition delta_relocate_single (s : lsearch) (u v : ptr) : res F :=
    up <- pred_ s u ;;
    x <- succ_ s u ;;
    y <- succ_ s v ;;
    r1 <- route_ s u ;;
    r2 <- route_ s v ;;
    if num y =? num u then Ok f0
    else
      let R1 := s_routes s r1 in
      let R2 := s_routes s r2 in
      let d1 := r_dist R1 -: dist up u -: dist u x +: dist up x in
      let d2 := r_dist R2 -: dist v y +: dist v u +: dist u y in
      let o1 := if r1 =? r2 then r_over R1 else r_over R1 +: (f0 -: dem u) in
      let o2 := if r1 =? r2 then r_over R2 else r_over R2 +: dem u in
      Ok (cost_change s r1 r2 d1 d2 o1 o2).

  (** relocation.rs:83-135 *)
  Definition delta_relocate_double (s : lsearch) (u v : ptr) : res F :=
    up <- pred_ s u ;;
    x <- succ_ s u ;;
    if is_depot x then Ok f0
    else
      xn <- succ_ s x ;;
      y <- succ_ s v ;;
      r1 <- route_ s u ;;
      r2 <- route_ s v ;;
      if (num u =? num y) || (num v =? num x) then Ok f0
      else
        let R1 := s_routes s r1 in
        let R2 := s_routes s r2 in
        let d1 := r_dist R1 -: dist up u -: dist u x -: dist x xn +: dist up xn in
        let d2 := r_dist R2 -: dist v y +: dist v u +: dist u x +: dist x y in
        let o1 := if r1 =? r2 then r_over R1 else r_over R1 +: (f0 -: dem u -: dem x) in
        let o2 := if r1 =? r2 then r_over R2 else r_over R2 +: (dem u +: dem x) in
        Ok (cost_change s r1 r2 d1 d2 o1 o2).

  (** relocation.rs:167-219 *)
  Definition delta_relocate_double_reverse (s : lsearch) (u v : ptr) : res F :=
    up <- pred_ s u ;;
    x <- succ_ s u ;;
    if is_depot x then Ok f0
    else
      xn <- succ_ s x ;;
      y <- succ_ s v ;;
      r1 <- route_ s u ;;
      r2 <- route_ s v ;;
      if (num u =? num y) || (num v =? num x) then Ok f0
      else
        let R1 := s_routes s r1 in
        let R2 := s_routes s r2 in
        let d1 := r_dist R1 -: dist up u -: dist u x -: dist x xn +: dist up xn in
        let d2 := r_dist R2 -: dist v y +: dist v x +: dist x u +: dist u y in
        let o1 := if r1 =? r2 then r_over R1 else r_over R1 +: (f0 -: dem u -: dem x) in
        let o2 := if r1 =? r2 then r_over R2 else r_over R2 +: (dem u +: dem x) in
        Ok (cost_change s r1 r2 d1 d2 o1 o2).

  (** swap.rs:10-58 *)
  Definition delta_swap_one_one (s : lsearch) (u v : ptr) : res F :=
    up <- pred_ s u ;;
    x <- succ_ s u ;;
    vp <- pred_ s v ;;
    y <- succ_ s v ;;
    r1 <- route_ s u ;;
    r2 <- route_ s v ;;
    if (num u =? num y) || (num u =? num vp) then Ok f0
    else
      let R1 := s_routes s r1 in
      let R2 := s_routes s r2 in
      let d1 := r_dist R1 -: dist up u -: dist u x +: dist up v +: dist v x in
      let d2 := r_dist R2 -: dist vp v -: dist v y +: dist vp u +: dist u y in
      let o1 := if r1 =? r2 then r_over R1 else r_over R1 +: (f0 -: dem u +: dem v) in
      let o2 := if r1 =? r2 then r_over R2 else r_over R2 +: (dem u -: dem v) in
      Ok (cost_change s r1 r2 d1 d2 o1 o2).

  (** swap.rs:95-151 *)
  Definition delta_swap_two_one (s : lsearch) (u v : ptr) : res F :=
    up <- pred_ s u ;;
    x <- succ_ s u ;;
    if is_depot x then Ok f0
    else
      xn <- succ_ s x ;;
      vp <- pred_ s v ;;
      y <- succ_ s v ;;
      r1 <- route_ s u ;;
      r2 <- route_ s v ;;
      if (num u =? num vp) || (num x =? num vp) || (num u =? num y) then Ok f0
      else
        let R1 := s_routes s r1 in
        let R2 := s_routes s r2 in
        let d1 := r_dist R1 -: dist up u -: dist u x -: dist x xn +: dist up v +: dist v xn in
        let d2 := r_dist R2 -: dist vp v -: dist v y +: dist vp u +: dist u x +: dist x y in
        let o1 := if r1 =? r2 then r_over R1 else r_over R1 +: (f0 -: dem u -: dem x +: dem v) in
        let o2 := if r1 =? r2 then r_over R2 else r_over R2 +: (dem u +: dem x -: dem v) in
        Ok (cost_change s r1 r2 d1 d2 o1 o2).

  (** swap.rs:189-256 *)
  Definition delta_swap_two_two (s : lsearch) (u v : ptr) : res F :=
    up <- pred_ s u ;;
    x <- succ_ s u ;;
    if is_depot x then Ok f0
    else
      xn <- succ_ s x ;;
      vp <- pred_ s v ;;
      y <- succ_ s v ;;
      if is_depot y then Ok f0
      else
        yn <- succ_ s y ;;
        r1 <- route_ s u ;;
        r2 <- route_ s v ;;
        if (num u =? num y) || (num v =? num x) || (num y =? num up) || (num v =? num xn) then Ok f0
        else
          let R1 := s_routes s r1 in
          let R2 := s_routes s r2 in
          let d1 := r_dist R1 -: dist up u -: dist u x -: dist x xn
                    +: dist up v +: dist v y +: dist y xn in
          let d2 := r_dist R2 -: dist vp v -: dist v y -: dist y yn
                    +: dist vp u +: dist u x +: dist x yn in
          let o1 := if r1 =? r2 then r_over R1
                    else r_over R1 +: (f0 -: dem u -: dem x +: dem v +: dem y) in
          let o2 := if r1 =? r2 then r_over R2
                    else r_over R2 +: (dem u +: dem x -: dem v -: dem y) in
          Ok (cost_change s r1 r2 d1 d2 o1 o2).

  (** two_opt.rs:10-37 *)
  Definition delta_two_opt_intra (s : lsearch) (u v : ptr) : res F :=
    r1 <- route_ s u ;;
    r2 <- route_ s v ;;
    if negb (r1 =? r2) then Ok f0
    else
      x <- succ_ s u ;;
      y <- succ_ s v ;;
      if (n_pos (s_info s v) <? n_pos (s_info s u)) || (num x =? num v) then Ok f0
      else Ok (f0 -: dist u x -: dist v y +: dist u v +: dist x y).

  (** two_opt.rs:56-86 *)
  Definition delta_two_opt_inter_reverse (s : lsearch) (u v : ptr) : res F :=
    r1 <- route_ s u ;;
    r2 <- route_ s v ;;
    if r1 =? r2 then Ok f0
    else
      x <- succ_ s u ;;
      y <- succ_ s v ;;
      let R1 := s_routes s r1 in
      let R2 := s_routes s r2 in
      let cd a := n_cumd (s_info s a) in
      let cl a := n_cuml (s_info s a) in
      let d1 := cd u +: cd v +: dist u v in
      let d2 := r_dist R1 -: cd x +: r_dist R2 -: cd y +: dist x y in
      let o1 := cl u +: cl v -: p_cap p in
      let o2 := r_load R1 -: cl u +: r_load R2 -: cl v -: p_cap p in
      Ok (cost_change s r1 r2 d1 d2 o1 o2).

  (** two_opt.rs:117-147 *)
  Definition delta_two_opt_inter (s : lsearch) (u v : ptr) : res F :=
    r1 <- route_ s u ;;
    r2 <- route_ s v ;;
    if r1 =? r2 then Ok f0
    else
      x <- succ_ s u ;;
      y <- succ_ s v ;;
      let R1 := s_routes s r1 in
      let R2 := s_routes s r2 in
      let cd a := n_cumd (s_info s a) in
      let cl a := n_cuml (s_info s a) in
      let d1 := cd u +: r_dist R2 -: cd y +: dist u y in
      let d2 := cd v +: r_dist R1 -: cd x +: dist v x in
      let o1 := cl u +: r_load R2 -: cl v -: p_cap p in
      let o2 := cl v +: r_load R1 -: cl u -: p_cap p in
      Ok (cost_change s r1 r2 d1 d2 o1 o2).

  Definition delta (m : move) : lsearch -> ptr -> ptr -> res F :=
    match m with
    | RelocateSingle => delta_relocate_single
    | RelocateDouble => delta_relocate_double
    | RelocateDoubleReverse => delta_relocate_double_reverse
    | SwapOneWithOne => delta_swap_one_one
    | SwapTwoWithOne => delta_swap_two_one
    | SwapTwoWithTwo => delta_swap_two_two
    | TwoOptIntraReverse => delta_two_opt_intra
    | TwoOptInterReverse => delta_two_opt_inter_reverse
    | TwoOptInter => delta_two_opt_inter
    end.

  (** relocation.rs:54-74 *)
  Definition perform_relocate_single (s : lsearch) (u v : ptr) : res lsearch :=
    r1 <- route_ s u ;;
    r2 <- route_ s v ;;
    up <- pred_ s u ;;
    x <- succ_ s u ;;
    y <- succ_ s v ;;
    let h := link_nodes (s_links s) up x in
    let h := link_nodes h v u in
    let h := link_nodes h u y in
    update_two (set_links s h) r1 r2.

  (** relocation.rs:137-158 *)
  Definition perform_relocate_double (s : lsearch) (u v : ptr) : res lsearch :=
    r1 <- route_ s u ;;
    r2 <- route_ s v ;;
    up <- pred_ s u ;;
    x <- succ_ s u ;;
    xn <- succ_ s x ;;
    y <- succ_ s v ;;
    let h := link_nodes (s_links s) up xn in
    let h := link_nodes h v u in
    let h := link_nodes h x y in
    update_two (set_links s h) r1 r2.

  (** relocation.rs:221-247 *)
  Definition perform_relocate_double_reverse (s : lsearch) (u v : ptr) : res lsearch :=
    r1 <- route_ s u ;;
    r2 <- route_ s v ;;
    up <- pred_ s u ;;
    x <- succ_ s u ;;
    xn <- succ_ s x ;;
    y <- succ_ s v ;;
    let h := link_nodes (s_links s) up xn in
    let h := link_nodes h v x in
    let h := link_nodes h x u in
    let h := link_nodes h u y in
    update_two (set_links s h) r1 r2.

  (** swap.rs:60-86 *)
  Definition perform_swap_one_one (s : lsearch) (u v : ptr) : res lsearch :=
    r1 <- route_ s u ;;
    r2 <- route_ s v ;;
    up <- pred_ s u ;;
    x <- succ_ s u ;;
    vp <- pred_ s v ;;
    y <- succ_ s v ;;
    let h := link_nodes (s_links s) up v in
    let h := link_nodes h v x in
    let h := link_nodes h vp u in
    let h := link_nodes h u y in
    update_two (set_links s h) r1 r2.

  (** swap.rs:153-180 *)
  Definition perform_swap_two_one (s : lsearch) (u v : ptr) : res lsearch :=
    r1 <- route_ s u ;;
    r2 <- route_ s v ;;
    up <- pred_ s u ;;
    x <- succ_ s u ;;
    xn <- succ_ s x ;;
    vp <- pred_ s v ;;
    y <- succ_ s v ;;
    let h := link_nodes (s_links s) up v in
    let h := link_nodes h v xn in
    let h := link_nodes h vp u in
    let h := link_nodes h x y in
    update_two (set_links s h) r1 r2.

  (** swap.rs:258-286 *)
  Definition perform_swap_two_two (s : lsearch) (u v : ptr) : res lsearch :=
    r1 <- route_ s u ;;
    r2 <- route_ s v ;;
    up <- pred_ s u ;;
    x <- succ_ s u ;;
    xn <- succ_ s x ;;
    vp <- pred_ s v ;;
    y <- succ_ s v ;;
    yn <- succ_ s y ;;
    let h := link_nodes (s_links s) up v in
    let h := link_nodes h y xn in
    let h := link_nodes h vp u in
    let h := link_nodes h x yn in
    update_two (set_links s h) r1 r2.

  (** two_opt.rs:39-47 *)
  Definition perform_two_opt_intra (s : lsearch) (u v : ptr) : res lsearch :=
    r1 <- route_ s u ;;
    x <- succ_ s u ;;
    y <- succ_ s v ;;
    h <- backward_reverse walk_fuel (s_links s) v (Some x) None ;;
    let h := link_nodes h u v in
    let h := link_nodes h x y in
    update_route (set_links s h) r1.

  (** two_opt.rs:88-108 *)
  Definition perform_two_opt_inter_reverse (s : lsearch) (u v : ptr) : res lsearch :=
    r1 <- route_ s u ;;
    r2 <- route_ s v ;;
    x <- succ_ s u ;;
    y <- succ_ s v ;;
    '(h, v) <- (if negb (is_depot v) then
                  h <- backward_reverse walk_fuel (s_links s) v None (Some (PE r1)) ;; Ok (h, v)
                else Ok (s_links s, PE r1)) ;;
    let h := link_nodes h u v in
    '(h, x) <- (if negb (is_depot x) then
                  h <- forward_reverse walk_fuel h x None (Some (PS r2)) ;; Ok (h, x)
                else Ok (h, PS r2)) ;;
    let h := link_nodes h x y in
    s <- update_route (set_links s h) r1 ;;
    update_route s r2.

  (** two_opt.rs:149-160 *)
  Definition perform_two_opt_inter (s : lsearch) (u v : ptr) : res lsearch :=
    r1 <- route_ s u ;;
    r2 <- route_ s v ;;
    x <- succ_ s u ;;
    y <- succ_ s v ;;
    let h := link_nodes (s_links s) u y in
    let h := link_nodes h v x in
    h <- replace_end_depot walk_fuel h v (PE r2) ;;
    h <- replace_end_depot walk_fuel h u (PE r1) ;;
    s <- update_route (set_links s h) r1 ;;
    update_route s r2.

  Definition perform (m : move) : lsearch -> ptr -> ptr -> res lsearch :=
    match m with
    | RelocateSingle => perform_relocate_single
    | RelocateDouble => perform_relocate_double
    | RelocateDoubleReverse => perform_relocate_double_reverse
    | SwapOneWithOne => perform_swap_one_one
    | SwapTwoWithOne => perform_swap_two_one
    | SwapTwoWithTwo => perform_swap_two_two
    | TwoOptIntraReverse => perform_two_opt_intra
    | TwoOptInterReverse => perform_two_opt_inter_reverse
    | TwoOptInter => perform_two_opt_inter
    end.

  (** ** SWAP* *)

  (** The customers met when walking from [node] until a depot (the loops
      [while !( *ptr).is_depot()] of local_search.rs:378-429, 413-426, swap_star.rs:52-99,
      104-123, 128-147).  Their bodies do not write any link, so the walk is separated from
      the body here. *)
  Fixpoint until_depot (fuel : nat) (h : links) (node : option ptr) : res (list ptr) :=
    match fuel with
    | O => Err EFuel
    | S fuel =>
        a <- deref node ;;
        if is_depot a then Ok []
        else
          l <- until_depot fuel h (l_succ h a) ;;
          Ok (a :: l)
    end.

  Definition customers_of (s : lsearch) (r : nat) : res (list ptr) :=
    until_depot walk_fuel (s_links s) (l_succ (s_links s) (PS r)).

  (** local_search.rs:392-426: the insertion positions of u in route r2.  best_inserts is
      indexed by a route index and a node number, both always inside the matrix. *)
  Definition best_inserts_of (s : lsearch) (u : ptr) (r2 : nat) (calc : Z) : res tbi :=
    first <- succ_ s (PS r2) ;;
    let cost := p_dist p 0 (num u) +: dist u first -: p_dist p 0 (num first) in
    let t := tbi_add (tbi_reset calc) cost (PS r2) in
    vs <- customers_of s r2 ;;
    foldm (fun t v =>
             y <- succ_ s v ;;
             Ok (tbi_add t (dist v u +: dist u y -: dist v y) v)) vs t.

  (** local_search.rs:379-428: one customer u of route 1 *)
  Definition preprocess_step (r2 : nat) (s : lsearch) (u : ptr) : res lsearch :=
    up <- pred_ s u ;;
    x <- succ_ s u ;;
    let dr := dist up x -: dist up u -: dist u x in
    let s := set_info s (pupd (s_info s) u (set_drem (s_info s u) dr)) in
    if (t_calc (s_best s r2 (num u)) <? r_mod (s_routes s r2))%Z then
      t <- best_inserts_of s u r2 (s_count s) ;;
      Ok (set_best s (best_set (s_best s) r2 (num u) t))
    else Ok s.

  (** local_search.rs:369-430 *)
  Definition preprocess_insertions (s : lsearch) (r1 r2 : nat) : res lsearch :=
    us <- customers_of s r1 ;;
    foldm (preprocess_step r2) us s.

  (** local_search.rs:453-454, 458 *)
  Definition away_from (s : lsearch) (node v : ptr) : res bool :=
    if num node =? num v then Ok false
    else n <- succ_ s node ;; Ok (negb (num n =? num v)).

  (** local_search.rs:434-483 *)
  Definition cheapest_insert_and_removal (s : lsearch) (u v : ptr) : res (ptr * option F) :=
    r2 <- route_ s v ;;
    let b := s_best s r2 (num u) in
    n1 <- deref (snd (t_one b)) ;;
    found <- away_from s n1 v ;;
    '(node, cost, found) <-
       (if found then Ok (n1, fst (t_one b), true)
        else
          match snd (t_two b) with
          | None => Ok (n1, fst (t_one b), false)
          | Some n2 =>
              found <- away_from s n2 v ;;
              if found then Ok (n2, fst (t_two b), true)
              else
                match snd (t_three b) with
                | None => Ok (n2, fst (t_two b), false)
                | Some n3 => Ok (n3, fst (t_three b), true)
                end
          end) ;;
    vp <- pred_ s v ;;
    y <- succ_ s v ;;
    let dc := dist vp u +: dist u y -: dist vp y in
    if negb found || oapprox_lt (Some dc) cost then Ok (vp, Some dc) else Ok (node, cost).

  (** swap_star.rs:6-14, 16-26 *)
  Record bss := mkBSS {
    b_cost : option F; b_u : option ptr; b_v : option ptr; b_pos_u : option ptr; b_pos_v : option ptr
  }.
  Definition bss_new : bss := mkBSS None None None None None.

  (** Sum where an infinite summand gives an infinite sum *)
  Definition oadd (a b : option F) : option F :=
    match a, b with Some a, Some b => Some (a +: b) | _, _ => None end.

  (** [0f64.max(new) * penalty - 0f64.max(old) * penalty] (swap_star.rs:59-66, 110-115, 134-139) *)
  Definition penalty_change (new old : F) : F := fmax f0 new *: pen -: fmax f0 old *: pen.

  (** swap_star.rs:55-97: one pair (u, v) *)
  Definition swap_pair (r1 r2 : nat) (s : lsearch) (u : ptr) (best : bss) (v : ptr) : res bss :=
    let R1 := s_routes s r1 in
    let R2 := s_routes s r2 in
    let dr a := n_drem (s_info s a) in
    let p1 := penalty_change (r_over R1 -: dem u +: dem v) (r_over R1) in
    let p2 := penalty_change (r_over R2 +: dem u -: dem v) (r_over R2) in
    if approx_lte (dr u +: dr v +: p1 +: p2) f0 then
      '(pos_u, ins_u) <- cheapest_insert_and_removal s u v ;;
      '(pos_v, ins_v) <- cheapest_insert_and_removal s v u ;;
      let cost := oadd (oadd (oadd (oadd (Some (dr u +: p1)) ins_u) (Some (dr v))) (Some p2)) ins_v in
      if olt cost (b_cost best) then Ok (mkBSS cost (Some u) (Some v) (Some pos_u) (Some pos_v))
      else Ok best
    else Ok best.

  (** swap_star.rs:104-123: relocation of u into r2 *)
  Definition swap_relocate_u (r1 r2 : nat) (s : lsearch) (best : bss) (u : ptr) : res bss :=
    let R1 := s_routes s r1 in
    let R2 := s_routes s r2 in
    let '(bcost, bnode) := t_one (s_best s r2 (num u)) in
    let p1 := penalty_change (r_over R1 -: dem u) (r_over R1) in
    let p2 := penalty_change (r_over R2 +: dem u) (r_over R2) in
    let cost := oadd (oadd (oadd (Some (n_drem (s_info s u))) bcost) (Some p1)) (Some p2) in
    if oapprox_lt cost (b_cost best) then Ok (mkBSS cost (Some u) None bnode None) else Ok best.

  (** swap_star.rs:128-147: relocation of v into r1 *)
  Definition swap_relocate_v (r1 r2 : nat) (s : lsearch) (best : bss) (v : ptr) : res bss :=
    let R1 := s_routes s r1 in
    let R2 := s_routes s r2 in
    let '(bcost, bnode) := t_one (s_best s r1 (num v)) in
    let p1 := penalty_change (r_over R1 +: dem v) (r_over R1) in
    let p2 := penalty_change (r_over R2 -: dem v) (r_over R2) in
    let cost := oadd (oadd (oadd (Some (n_drem (s_info s v))) bcost) (Some p1)) (Some p2) in
    if oapprox_lt cost (b_cost best) then Ok (mkBSS cost None (Some v) None bnode) else Ok best.

  (** swap_star.rs:35-147: preprocessing and the choice of the best move *)
  Definition swap_star_best (s : lsearch) (r1 r2 : nat) : res (lsearch * bss) :=
    s <- preprocess_insertions s r1 r2 ;;
    s <- preprocess_insertions s r2 r1 ;;
    us <- customers_of s r1 ;;
    vs <- customers_of s r2 ;;
    best <- foldm (fun best u => foldm (swap_pair r1 r2 s u) vs best) us bss_new ;;
    best <- foldm (swap_relocate_u r1 r2 s) us best ;;
    best <- foldm (swap_relocate_v r1 r2 s) vs best ;;
    Ok (s, best).

  (** swap_star.rs:156-163 *)
  Definition move_to (h : links) (a pos : option ptr) : res links :=
    match pos with
    | None => Ok h
    | Some pos => a <- deref a ;; insert_node h a pos
    end.

  (** swap_star.rs:150: approx_gte(0.0) *)
  Definition not_improving (cost : option F) : bool :=
    match cost with None => true | Some x => approx_gte x f0 end.

  (** swap_star.rs:35-170; the flag tells whether a move was performed *)
  Definition swap_star_run (s : lsearch) (r1 r2 : nat) : res (lsearch * bool) :=
    '(s, best) <- swap_star_best s r1 r2 ;;
    if not_improving (b_cost best) then Ok (s, false)
    else
      let s := set_count s (s_count s + 1)%Z in
      h <- move_to (s_links s) (b_u best) (b_pos_u best) ;;
      h <- move_to h (b_v best) (b_pos_v best) ;;
      s <- update_route (set_links s h) r1 ;;
      s <- update_route s r2 ;;
      Ok (s, true).

  (** ** search *)

  (** local_search.rs:186-195, 201-210, 224-232: the first move with an improving delta *)
  Fixpoint try_moves (ms : list move) (s : lsearch) (u v : ptr) : res (option lsearch) :=
    match ms with
    | [] => Ok None
    | m :: ms =>
        d <- delta m s u v ;;
        if approx_lt d f0 then
          s <- perform m (set_count s (s_count s + 1)%Z) u v ;;
          Ok (Some s)
        else try_moves ms s u v
    end.

  (** self.nodes[i] *)
  Definition node_at (i : nat) : res ptr := if i <? p_dim p then Ok (PN i) else Err EPanic.

  (** local_search.rs:178-212: one correlated node; state (search, route_u, improvement) *)
  Definition try_v (loop_count : nat) (u : ptr) (last_test : Z)
      (st : lsearch * option nat * bool) (v_index : nat) : res (lsearch * option nat * bool) :=
    let '(s, route_u, imp) := st in
    v <- node_at v_index ;;
    let route_v := n_route (s_info s v) in
    go <- (if loop_count =? 0 then Ok true
           else
             ru <- deref route_u ;;
             rv <- deref route_v ;;
             Ok (last_test <? Z.max (r_mod (s_routes s ru)) (r_mod (s_routes s rv)))%Z) ;;
    if go then
      t <- try_moves neighbor_moves s u v ;;
      match t with
      | Some s => Ok (s, n_route (s_info s u), true)
      | None =>
          vp <- pred_ s v ;;
          if is_depot vp then
            t <- try_moves depot_moves s u v ;;
            match t with
            | Some s => Ok (s, n_route (s_info s u), true)
            | None => Ok (s, route_u, imp)
            end
          else Ok (s, route_u, imp)
      end
    else Ok (s, route_u, imp).

  (** local_search.rs:215-233 *)
  Definition try_empty (loop_count : nat) (s : lsearch) (u : ptr) : res (lsearch * bool) :=
    if (0 <? loop_count) && (0 <? length (s_empty s)) then
      '(k, hash) <- range_usize 0 (length (s_empty s)) (s_hash s) ;;
      r <- geti (s_empty s) k ;;
      if r <? c_num_vehicles c then
        t <- try_moves empty_moves (set_hash s hash) u (PS r) ;;
        match t with
        | Some s => Ok (s, true)
        | None => Ok (set_hash s hash, false)
        end
      else Err EPanic
    else Ok (s, false).

  (** local_search.rs:159-233: one customer u *)
  Definition try_u (loop_count : nat) (st : lsearch * bool * rng) (u_index : nat) :
      res (lsearch * bool * rng) :=
    let '(s, imp, r) := st in
    let g := c_granularity c in
    cor <- m_slice (s_corr s) u_index 0 g ;;
    '(k, r) <- range_usize 0 g r ;;
    '(s, cor, r) <-
       (if k =? 0 then
          let '(cor, r) := shuffle cor r in
          m <- m_write (s_corr s) u_index 0 cor ;;
          Ok (set_corr s m, cor, r)
        else Ok (s, cor, r)) ;;
    u <- node_at u_index ;;
    let route_u := n_route (s_info s u) in
    let last_test := n_tested (s_info s u) in
    let s := set_info s (pupd (s_info s) u (set_tested (s_info s u) (s_count s))) in
    '(s, _, imp) <- foldm (try_v loop_count u last_test) cor (s, route_u, imp) ;;
    '(s, b) <- try_empty loop_count s u ;;
    Ok (s, imp || b, r).

  (** local_search.rs:242-260: the second route of the pair *)
  Definition swap_star_pair (loop_count r1 : nat) (last_tested : Z) (st : lsearch * bool) (r2 : nat) :
      res (lsearch * bool) :=
    let '(s, imp) := st in
    let R1 := s_routes s r1 in
    let R2 := s_routes s r2 in
    if negb (lr_empty R1) && negb (lr_empty R2) && (r1 <? r2)
       && ((loop_count =? 0) || (last_tested <? Z.max (r_tss R1) (r_tss R2))%Z)
    then
      if overlaps (r_sector R1) (r_sector R2) then
        '(s, b) <- swap_star_run s r1 r2 ;;
        Ok (s, imp || b)
      else Ok (s, imp)
    else Ok (s, imp).

  (** local_search.rs:238-261: the first route of the pair *)
  Definition swap_star_row (loop_count : nat) (st : lsearch * bool) (r1 : nat) : res (lsearch * bool) :=
    let '(s, imp) := st in
    let last_tested := r_tss (s_routes s r1) in
    let s := set_routes s (nupd (s_routes s) r1 (set_tss (s_routes s r1) (s_count s))) in
    foldm (swap_star_pair loop_count r1 last_tested)
          (seq (r1 + 1) (c_num_vehicles c - (r1 + 1))) (s, imp).

  (** local_search.rs:154-263: one pass of the outer loop; returns the improvement flag and the
      new loop_count *)
  Definition search_pass (loop_count : nat) (s : lsearch) (r : rng) : res (lsearch * bool * nat * rng) :=
    let '(cust, r) := shuffle (s_cust s) r in
    let s := set_cust s cust in
    '(s, imp, r) <- foldm (try_u loop_count) cust (s, false, r) ;;
    if c_swap_star c then
      '(s, imp) <- foldm (swap_star_row loop_count) (seq 0 (c_num_vehicles c)) (s, imp) ;;
      Ok (s, imp, S loop_count, r)
    else Ok (s, imp, loop_count, r).

  (** local_search.rs:149-265 *)
  Fixpoint search (fuel : nat) (loop_count : nat) (s : lsearch) (r : rng) : res (lsearch * rng) :=
    match fuel with
    | O => Err EFuel
    | S fuel =>
        '(s, imp, loop_count, r) <- search_pass loop_count s r ;;
        if imp then search fuel loop_count s r else Ok (s, r)
    end.

  (** ** Loading and unloading *)

  (** local_search.rs:109-117 *)
  Definition link_route (h : links) (r : nat) (route : list nat) : res links :=
    '(h, prev) <- foldm (fun (st : links * ptr) i =>
                           let '(h, prev) := st in
                           node <- node_at i ;;
                           Ok (link_nodes h prev node, node)) route (h, PS r) ;;
    Ok (link_nodes h prev (PE r)).

  (** local_search.rs:104-127: one route *)
  Definition load_route (s : lsearch) (ir : nat * list nat) : res lsearch :=
    let '(r, route) := ir in
    if r <? c_num_vehicles c then
      h <- link_route (s_links s) r route ;;
      let s := set_links s h in
      let s := set_routes s (nupd (s_routes s) r (set_tss (s_routes s r) (-1)%Z)) in
      let s := set_best s (nupd (s_best s) r (fun _ => tbi_reset (-1)%Z)) in
      update_route s r
    else Err EPanic.

  (** local_search.rs:102-129 *)
  Definition load_individual (s : lsearch) (pheno : list (list nat)) : res lsearch :=
    foldm load_route (combine (seq 0 (length pheno)) pheno) s.

  (** local_search.rs:131-136 *)
  Definition ls_reset (s : lsearch) : lsearch :=
    set_info (set_count s 0%Z)
      (fun a => match a with PN _ => set_tested (s_info s a) (-1)%Z | _ => s_info s a end).

  (** local_search.rs:276-282: the customers of a route, walking until null *)
  Fixpoint collect (fuel : nat) (h : links) (node : option ptr) : res (list nat) :=
    match node with
    | None => Ok []
    | Some a =>
        match fuel with
        | O => Err EFuel
        | S fuel =>
            l <- collect fuel h (l_succ h a) ;;
            Ok (if is_depot a then l else num a :: l)
        end
    end.

  (** local_search.rs:273-285: the state is (genotype, phenotype) *)
  Definition unload_route (s : lsearch) (st : list nat * list (list nat)) (r : nat) :
      res (list nat * list (list nat)) :=
    let '(g, ph) := st in
    nodes <- collect (S walk_fuel) (s_links s) (Some (PS r)) ;;
    ph <- seti ph r nodes ;;
    Ok (g ++ nodes, ph).

  (** local_search.rs:267-291; [epen] is the penalty used by [evaluate], the configured one *)
  Definition update_individual (epen : F) (s : lsearch) (i : individual) : res individual :=
    '(g, ph) <- foldm (unload_route s) (seq 0 (c_num_vehicles c)) ([], i_pheno i) ;;
    i <- sort_routes p (set_geno (set_pheno i ph) g) ;;
    ind_evaluate p epen i.

  (** local_search.rs:138-147 *)
  Definition ls_run (fuel : nat) (epen : F) (s : lsearch) (i : individual) (r : rng) :
      res (lsearch * individual * rng) :=
    let s := ls_reset s in
    s <- load_individual s (i_pheno i) ;;
    '(s, r) <- search fuel 0 s r ;;
    i <- update_individual epen s i ;;
    Ok (s, i, r).
End LocalSearch.
