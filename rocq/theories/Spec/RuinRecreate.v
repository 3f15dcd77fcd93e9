(** What is demanded of ruin and recreate. *)
From Coq Require Import List Arith QArith Permutation.
From Verif.Model Require Import Num Prelude Evaluate Individual Config Matrix World Schedule RuinRecreate.
From Verif.Spec Require Import Solution Population.
Import ListNotations.
Local Open Scope nat_scope.

(** Taking [lt] nodes out of a route, around [node]: a whole string that contains [node], or a
    string around [node] of which a middle part is kept (at the position the string had).  The
    last argument lists the removed nodes in the order of their removal. *)
Inductive cut (node lt : nat) : list nat -> list nat -> list nat -> Prop :=
| cut_string a s b : length s = lt -> In node s -> cut node lt (a ++ s ++ b) (a ++ b) s
| cut_split a s1 m s2 b : length s1 + length s2 = lt -> s2 <> [] -> In node (s1 ++ m ++ s2) ->
    cut node lt (a ++ s1 ++ m ++ s2 ++ b) (a ++ m ++ b) (rev s2 ++ rev s1).

(** Ruining routes around the customers of a list, taken in order.  A waiting customer and a
    customer of a route that is already ruined are passed over; from the route of any other a
    string around that customer is cut.  It ends with the list, or when [ks] routes are ruined.
    The arguments are the list, the routes, the ruined ones among them and the waiting
    customers, before and after. *)
Inductive ruins (ks : nat) : list nat -> list (list nat) -> list nat -> list nat ->
    list (list nat) -> list nat -> list nat -> Prop :=
| ruins_end routes ruined un : ruins ks [] routes ruined un routes ruined un
| ruins_skip n ns routes ruined un routes' ruined' un' :
    In n un \/ (exists r nodes, In r ruined /\ nth_error routes r = Some nodes /\ In n nodes) ->
    ruins ks ns routes ruined un routes' ruined' un' ->
    ruins ks (n :: ns) routes ruined un routes' ruined' un'
| ruins_last n ns r lt nodes nodes' removed routes ruined un :
    nth_error routes r = Some nodes -> In n nodes -> ~ In r ruined -> 1 <= lt <= length nodes ->
    cut n lt nodes nodes' removed -> ks <= length ruined + 1 ->
    ruins ks (n :: ns) routes ruined un (upd routes r nodes') (ruined ++ [r]) (un ++ removed)
| ruins_one n ns r lt nodes nodes' removed routes ruined un routes' ruined' un' :
    nth_error routes r = Some nodes -> In n nodes -> ~ In r ruined -> 1 <= lt <= length nodes ->
    cut n lt nodes nodes' removed -> length ruined + 1 < ks ->
    ruins ks ns (upd routes r nodes') (ruined ++ [r]) (un ++ removed) routes' ruined' un' ->
    ruins ks (n :: ns) routes ruined un routes' ruined' un'.

(** Row [u] of a matrix. *)
Definition row {A} (m : matrix A) (u : nat) : list A :=
  firstn (m_cols m) (skipn (u * m_cols m) (m_data m)).

Section Spec.
  Context {N : Num}.
  Variable p : problem.
  Variable c : config.

  Definition routes_of (s : rsol) : list (list nat) := map ro_nodes (so_routes s).

  (** Every customer is on a route or waiting, once. *)
  Definition all_customers (s : rsol) : Prop :=
    Permutation (concat (routes_of s) ++ so_un s) (seq 1 (p_dim p - 1)).

  (** The stored location of every customer on a route [r] with [P r] is its place. *)
  Definition located_on (P : nat -> Prop) (s : rsol) : Prop :=
    forall r i nodes n, P r -> nth_error (routes_of s) r = Some nodes -> nth_error nodes i = Some n ->
      nth_error (so_loc s) n = Some (r, i).
  Definition located (s : rsol) : Prop := located_on (fun _ => True) s.

  (** A complete solution between two moves. *)
  Record settled_sol (s : rsol) : Prop := {
    ss_routes : length (so_routes s) = c_num_vehicles c;
    ss_loc : length (so_loc s) = p_dim p;
    ss_serves : serves_all_once (p_dim p) (routes_of s);
    ss_un : so_un s = [];
    ss_ruined : so_ruined s = [];
    ss_located : located s
  }.

  (** The rows of the correlation matrix hold customers. *)
  Definition rows_ok (m : matrix nat) : Prop :=
    length (m_data m) = p_dim p * m_cols m /\
    forall u v, 0 < u < p_dim p -> In v (row m u) ->
      0 < v < p_dim p.

  (** A ruin of complete routes: around the neighbours of a customer, starting with no ruined
      route and no waiting customer. *)
  Definition ruined_around (corr : matrix nat) (routes routes' : list (list nat)) (ruined un : list nat) : Prop :=
    exists ks seed, 1 <= ks /\ 0 < seed < p_dim p /\ ruins ks (row corr seed) routes [] [] routes' ruined un.

  (** The drawn string length: a random number below 1, times a bound that is at most the length
      [n] of the route, rounded down, is less than [n].  No route is longer than the number of
      customers. *)
  Definition reals_below_one : Prop :=
    forall d x n, 0 < n < p_dim p -> ffloor (o_real p d *: fmin x (fnat n)) < n.

  (** Everything that happens to a ruin and recreate object: it is new, its schedule is set up,
      finished individuals are loaded, searches run; the context (penalty, history, random
      generator, clock) may change in any way in between. *)
  Inductive rr_reached (E : env) : rrstate -> Prop :=
  | rr_is_new hash : rr_reached E (rr_new p c hash)
  | rr_mutation st : rr_reached E st -> rr_reached E (setup_mutation p c st)
  | rr_elite st w : rr_reached E st -> rr_reached E (fst (setup_elite_education p c E st w))
  | rr_loaded st i w st' w' : rr_reached E st -> finished p i -> length (i_pheno i) = c_num_vehicles c ->
      rr_load E st i w = Ok (st', w') -> rr_reached E st'
  | rr_searched st corr w st' w' : rr_reached E st -> rr_best st <> None -> rows_ok corr ->
      rr_search p c E corr st w = Ok (st', w') -> rr_reached E st'.

  (** Any number of calls of [search]. *)
  Inductive rr_searches (E : env) : rrstate -> world -> rrstate -> world -> Prop :=
  | searches_none st w : rr_searches E st w st w
  | searches_more corr st w st1 w1 st2 w2 : rows_ok corr ->
      rr_search p c E corr st w = Ok (st1, w1) -> rr_searches E st1 w1 st2 w2 ->
      rr_searches E st w st2 w2.
End Spec.

(** ** Exact arithmetic *)
Section Exact.
  Local Open Scope Q_scope.

  (** The extra distance of customer [c] between the two parts of a route. *)
  Definition extra (d : nat -> nat -> Q) (a : list nat) (c : nat) (b : list nat) : Q :=
    route_length d (a ++ c :: b) - route_length d (a ++ b).

  (** One greedy insertion.  [touched] are the routes that were ruined or have already received a
      customer.  If the customer fits into a touched route, it goes to a place of such a route
      whose extra distance is within [tol] of the smallest one.  If not, it goes to the place
      of any route where the extra distance plus the penalty for the overload which that route
      then has is within [tol] of the smallest one. *)
  Inductive greedy (d : nat -> nat -> Q) (dem : nat -> Q) (cap pen tol : Q)
      (routes : list (list nat)) (touched : list nat) (c : nat) :
      list (list nat) -> list nat -> Prop :=
  | greedy_touched r a b touched' :
      nth_error routes r = Some (a ++ b) -> In r touched ->
      route_load dem (a ++ b) + dem c < cap + tol ->
      (forall r2 a2 b2, In r2 touched -> nth_error routes r2 = Some (a2 ++ b2) ->
         route_load dem (a2 ++ b2) + dem c < cap + tol -> extra d a c b <= extra d a2 c b2 + tol) ->
      (forall x, In x touched' <-> x = r \/ In x touched) ->
      greedy d dem cap pen tol routes touched c (upd routes r (a ++ c :: b)) touched'
  | greedy_other r a b touched' :
      nth_error routes r = Some (a ++ b) ->
      (forall r2 nodes, In r2 touched -> nth_error routes r2 = Some nodes ->
         cap + tol <= route_load dem nodes + dem c) ->
      (forall r2 a2 b2, nth_error routes r2 = Some (a2 ++ b2) ->
         extra d a c b + pen * Qpos (route_load dem (a ++ b) + dem c - cap)
         <= extra d a2 c b2 + pen * Qpos (route_load dem (a2 ++ b2) + dem c - cap) + tol) ->
      (forall x, In x touched' <-> x = r \/ In x touched) ->
      greedy d dem cap pen tol routes touched c (upd routes r (a ++ c :: b)) touched'.

  (** Greedy insertion of a list of customers. *)
  Inductive greedily (d : nat -> nat -> Q) (dem : nat -> Q) (cap pen tol : Q) :
      list nat -> list (list nat) -> list nat -> list (list nat) -> Prop :=
  | greedily_nil routes touched : greedily d dem cap pen tol [] routes touched routes
  | greedily_cons c cs routes touched routes1 touched1 routes2 :
      greedy d dem cap pen tol routes touched c routes1 touched1 ->
      greedily d dem cap pen tol cs routes1 touched1 routes2 ->
      greedily d dem cap pen tol (c :: cs) routes touched routes2.

  (** The stored distance and overload of a route are those of its nodes. *)
  Definition exact_route (p : @problem NumQ) (r : @rroute NumQ) : Prop :=
    ro_dist r == route_length (p_dist p) (ro_nodes r) /\
    ro_over r == route_load (p_demand p) (ro_nodes r) - p_cap p.
  Definition exact_sol (p : @problem NumQ) (s : @rsol NumQ) : Prop :=
    forall r, In r (so_routes s) -> exact_route p r.

  (** The stored cost is that of the routes under penalty [pen]. *)
  Definition exact_cost (p : @problem NumQ) (pen : Q) (s : @rsol NumQ) : Prop :=
    exists q : Q, so_cost s = Some (q : @F NumQ) /\
      q == total_penalized (p_dist p) (p_demand p) (p_cap p) pen (routes_of s).
End Exact.
