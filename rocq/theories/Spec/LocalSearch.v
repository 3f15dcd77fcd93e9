(** Specification of the local search state and of its moves. *)
From Coq Require Import List Arith ZArith Bool Permutation.
From Verif.Model Require Import Num Prelude Evaluate Individual Config Sector Matrix LinkedList LocalSearch.
From Verif.Spec Require Import Solution.
Import ListNotations.
Open Scope nat_scope.

(** The nodes of route [r] with customers [l] in driving order *)
Definition stops (r : nat) (l : list nat) : list ptr := PS r :: map PN l ++ [PE r].

(** The links make route [r] a doubly linked list from its start depot through the customers
    [l] to its end depot. *)
Definition runs (h : links) (r : nat) (l : list nat) : Prop :=
  (forall A a b B, stops r l = A ++ a :: b :: B -> l_succ h a = Some b /\ l_pred h b = Some a) /\
  l_pred h (PS r) = None /\ l_succ h (PE r) = None.

Section Spec.
  Context {N : Num}.
  Variable p : problem.
  Variable c : config.
  Variable pen : F.

  (** Distance and load summed in driving order, starting from [acc] *)
  Fixpoint drive (prev : ptr) (acc : F) (l : list ptr) : F :=
    match l with
    | [] => acc
    | a :: t => drive a (acc +: p_dist p (num prev) (num a)) t
    end.
  Definition loaded (acc : F) (l : list ptr) : F :=
    fold_left (fun x a => x +: p_demand p (num a)) l acc.
  (** from the first stop of a list *)
  Definition driven (l : list ptr) : F := match l with [] => f0 | a :: t => drive a f0 t end.
  Definition carried (l : list ptr) : F := loaded f0 (tl l).

  (** The data kept for the nodes and the record of route [r] are those of the customers [l]. *)
  Definition cached (s : lsearch) (r : nat) (l : list nat) : Prop :=
    (forall A a B, stops r l = A ++ a :: B ->
       n_route (s_info s a) = Some r /\ n_pos (s_info s a) = length A /\
       n_cumd (s_info s a) = driven (A ++ [a]) /\ n_cuml (s_info s a) = carried (A ++ [a])) /\
    (let R := s_routes s r in
     r_ncust R = length l /\ r_dist R = driven (stops r l) /\ r_load R = carried (stops r l) /\
     r_over R = r_load R -: p_cap p /\ r_cost R = route_cost (r_dist R) (r_over R) pen /\
     r_sector R = fold_left extend (map (o_polar p) l) sector_new).

  (** The routes as a list *)
  Definition all_routes (rs : nat -> list nat) : list (list nat) := map rs (seq 0 (c_num_vehicles c)).

  (** The search state holds the solution [rs] (route number to customers): each customer is
      served exactly once, every route is a proper linked list, the cached data are right and
      the set of empty routes is right. *)
  Record holds (s : lsearch) (rs : nat -> list nat) : Prop := {
    h_serves : serves_all_once (p_dim p) (all_routes rs);
    h_runs : forall r, r < c_num_vehicles c -> runs (s_links s) r (rs r);
    h_cached : forall r, r < c_num_vehicles c -> cached s r (rs r);
    h_empty : forall r, In r (s_empty s) <-> r < c_num_vehicles c /\ rs r = []
  }.

  (** The two kinds of node pairs to which the search applies a move: two different customers,
      or a customer and the start depot of an empty route (only for the moves meant for it). *)
  Inductive applicable (rs : nat -> list nat) : move -> ptr -> ptr -> Prop :=
  | app_customers m u v : 0 < u < p_dim p -> 0 < v < p_dim p -> u <> v ->
      applicable rs m (PN u) (PN v)
  | app_empty m u r : 0 < u < p_dim p -> r < c_num_vehicles c -> rs r = [] ->
      In m [RelocateSingle; RelocateDouble; RelocateDoubleReverse; TwoOptInter] ->
      applicable rs m (PN u) (PS r).

  (** *** What a move does to the routes

      A substitution move replaces single stops by lists of stops, wherever they are.  [x] is
      the stop after [u] and [y] the stop after [v]. *)
  Definition substitution (m : move) (u x v y : ptr) (a : ptr) : list ptr :=
    let is b := ptr_eqb a b in
    match m with
    | RelocateSingle => if is u then [] else if is v then [v; u] else [a]
    | RelocateDouble => if is u || is x then [] else if is v then [v; u; x] else [a]
    | RelocateDoubleReverse => if is u || is x then [] else if is v then [v; x; u] else [a]
    | SwapOneWithOne => if is u then [v] else if is v then [u] else [a]
    | SwapTwoWithOne => if is u then [v] else if is x then [] else if is v then [u; x] else [a]
    | SwapTwoWithTwo =>
        if is u then [v] else if is x then [y] else if is v then [u] else if is y then [x] else [a]
    | _ => [a]
    end.

  Inductive moved (rs rs' : nat -> list nat) : move -> ptr -> ptr -> Prop :=
  | moved_subst m u v x y ru rv A B C D :
      In m [RelocateSingle; RelocateDouble; RelocateDoubleReverse;
            SwapOneWithOne; SwapTwoWithOne; SwapTwoWithTwo] ->
      stops ru (rs ru) = A ++ u :: x :: B -> stops rv (rs rv) = C ++ v :: y :: D ->
      (forall r, r < c_num_vehicles c ->
         stops r (rs' r) = flat_map (substitution m u x v y) (stops r (rs r))) ->
      moved rs rs' m u v
  | moved_two_opt_intra u v r A M D :
      rs r = A ++ u :: M ++ v :: D -> M <> [] ->
      rs' r = A ++ u :: v :: rev M ++ D ->
      (forall k, k < c_num_vehicles c -> k <> r -> rs' k = rs k) ->
      moved rs rs' TwoOptIntraReverse (PN u) (PN v)
  | moved_two_opt_inter_reverse u v r1 r2 A B C D :
      r1 <> r2 -> rs r1 = A ++ u :: B -> rs r2 = C ++ v :: D ->
      rs' r1 = A ++ u :: v :: rev C -> rs' r2 = rev B ++ D ->
      (forall k, k < c_num_vehicles c -> k <> r1 -> k <> r2 -> rs' k = rs k) ->
      moved rs rs' TwoOptInterReverse (PN u) (PN v)
  | moved_two_opt_inter u v r1 r2 A B C D :
      r1 <> r2 -> rs r1 = A ++ u :: B -> rs r2 = C ++ D ->
      (match v with PN n => exists C', C = C' ++ [n] | PS k => C = [] /\ k = r2 | PE _ => False end) ->
      rs' r1 = A ++ u :: D -> rs' r2 = C ++ B ->
      (forall k, k < c_num_vehicles c -> k <> r1 -> k <> r2 -> rs' k = rs k) ->
      moved rs rs' TwoOptInter (PN u) v.

  (** *** SWAP* steps

      Two customers change routes, each taking any place in the other route from which the
      other customer has been taken out; or one customer changes to any place of the other route. *)
  Inductive exchanged (rs rs' : nat -> list nat) (r1 r2 : nat) : Prop :=
  | ex_both u v A B C D A' B' C' D' :
      rs r1 = A ++ u :: B -> rs r2 = C ++ v :: D -> A ++ B = A' ++ B' -> C ++ D = C' ++ D' ->
      rs' r1 = A' ++ v :: B' -> rs' r2 = C' ++ u :: D' ->
      (forall k, k < c_num_vehicles c -> k <> r1 -> k <> r2 -> rs' k = rs k) ->
      exchanged rs rs' r1 r2
  | ex_one u A B C D :
      rs r1 = A ++ u :: B -> rs r2 = C ++ D -> rs' r1 = A ++ B -> rs' r2 = C ++ u :: D ->
      (forall k, k < c_num_vehicles c -> k <> r1 -> k <> r2 -> rs' k = rs k) ->
      exchanged rs rs' r1 r2.

  (** *** The neighbours of a customer: the first cells of its row of the correlation matrix *)
  Definition near (m : matrix nat) (u : nat) : list nat :=
    firstn (c_granularity c) (skipn (u * m_cols m) (m_data m)).

  (** The part of the matrix that the search looks at: the row of a customer has enough
      columns, and they hold other customers. *)
  Definition neighbours_ok (m : matrix nat) : Prop :=
    c_granularity c <= m_cols m /\ length (m_data m) = p_dim p * m_cols m /\
    forall u v, 0 < u < p_dim p -> In v (near m u) -> 0 < v < p_dim p /\ v <> u.

  (** *** The states the search can be in

      Bookkeeping: the order of customers and of the neighbours in a row, the time stamps of the
      last tests, the source of hash order. *)
  Definition bookkeeping (s s' : lsearch) : Prop :=
    s_links s' = s_links s /\ s_best s' = s_best s /\ s_empty s' = s_empty s /\ s_count s' = s_count s /\
    Permutation (s_cust s') (s_cust s) /\ (neighbours_ok (s_corr s) -> neighbours_ok (s_corr s')) /\
    (forall a, set_tested (s_info s' a) 0%Z = set_tested (s_info s a) 0%Z) /\
    (forall r, set_tss (s_routes s' r) 0%Z = set_tss (s_routes s r) 0%Z).
End Spec.

(** Every state reachable with search penalty [pen]: a solution loaded into a new search or into
    one left by an earlier run (with any penalty), moves performed because their computed change
    is an improvement, SWAP* runs, bookkeeping. *)
Inductive reached {N : Num} (p : problem) (c : config) : F -> lsearch -> Prop :=
| re_new pen corr hash pheno s : neighbours_ok p c corr ->
    length pheno = c_num_vehicles c -> serves_all_once (p_dim p) pheno ->
    load_individual p c pen (ls_reset (ls_new p corr hash)) pheno = Ok s -> reached p c pen s
| re_again pen0 s0 pen pheno s : reached p c pen0 s0 ->
    length pheno = c_num_vehicles c -> serves_all_once (p_dim p) pheno ->
    load_individual p c pen (ls_reset s0) pheno = Ok s -> reached p c pen s
| re_move pen s rs m u v d s' : reached p c pen s -> holds p c pen s rs -> applicable p c rs m (PN u) v ->
    delta p pen m s (PN u) v = Ok d -> approx_lt d f0 = true ->
    perform p pen m (set_count s (s_count s + 1)%Z) (PN u) v = Ok s' -> reached p c pen s'
| re_star pen s r1 r2 s' b : reached p c pen s -> r1 < c_num_vehicles c -> r2 < c_num_vehicles c -> r1 <> r2 ->
    swap_star_run p pen s r1 r2 = Ok (s', b) -> reached p c pen s'
| re_note pen s s' : reached p c pen s -> bookkeeping p c s s' -> reached p c pen s'.

(** A search object as the solver uses it: new, or left by an earlier run. *)
Inductive usable {N : Num} (p : problem) (c : config) : lsearch -> Prop :=
| us_new corr hash : neighbours_ok p c corr -> usable p c (ls_new p corr hash)
| us_run s pen fuel epen i r s' i' r' : usable p c s ->
    length (i_pheno i) = c_num_vehicles c -> serves_all_once (p_dim p) (i_pheno i) ->
    ls_run p c pen fuel epen s i r = Ok (s', i', r') -> usable p c s'.
