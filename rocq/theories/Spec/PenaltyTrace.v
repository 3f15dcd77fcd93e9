(** What the capacity penalty should depend on: the verdicts (within capacity or not) on the
    children made since the algorithm started or restarted, and the number of genetic
    iterations. *)
From Coq Require Import List Arith NArith ZArith Bool.
From Verif.Model Require Import Num Prelude Evaluate Individual Config Matrix Population World Genetic.
Import ListNotations.
Local Open Scope nat_scope.

Definition lastn {A} (n : nat) (l : list A) : list A := skipn (length l - n) l.
(** The last hundred verdicts; before the first child all are favourable. *)
Definition recent (l : list bool) : list bool := lastn 100 (repeat true 100 ++ l).

Section Trace.
  Context {N : Num}.
  Variable L : lib.
  Variable p : problem.
  Variable c : config.
  Variable E : env.
  Variable log_interval : nat.
  Variable max_distance : option F.
  Variable fuel : nat.

  (** The penalty that should follow [pen] when the verdicts so far are [l]. *)
  Definition adapted (l : list bool) (pen : F) : F :=
    let good := length (filter (fun b => b) (recent l)) in
    let f := fnat good /: fnat 100 in
    let t := c_feasibility_proportion_target c in
    fmax (flit 1 10000) (fmin (flit 10000000 1)
      (if f <:? (t -: flit 5 100) then pen *: c_penalty_inc_multiplier c
       else if (t +: flit 5 100) <:? f then pen *: c_penalty_dec_multiplier c else pen)).

  (** The verdict on the child of one call of [iterate], if it makes one. *)
  Definition born (g : ga) (w : world) (g' : ga) : list bool :=
    match ga_st g', ga_st g with
    | Terminated, _ => []
    | _, Initialization =>
        if ga_num_init g <? c_initial_individuals c then
          match create_initial_individual L p c E fuel g (snd (terminate c E w)) with
          | Ok (i, _, _) => [is_feasible i]
          | Err _ => []
          end
        else []
    | _, Cycle => [is_feasible (ga_child g')]
    | _, _ => []
    end.
  Definition counts (g g' : ga) : nat :=
    match ga_st g', ga_st g with Terminated, _ => 0 | _, Cycle => 1 | _, _ => 0 end.

  (** [epoch base first k l g w]: a state between two calls.  Since the algorithm was created
      (restarted) it has performed [k] genetic iterations, the verdicts were [l]; the first of
      these iterations has the number [first], the one that caused the restart [base]. *)
  Inductive epoch (w0 : world) : nat -> nat -> nat -> list bool -> ga -> world -> Prop :=
  | ep_new corr ls_hash rr_hash g w : ga_new p c corr ls_hash rr_hash w0 = (g, w) -> epoch w0 0 0 0 [] g w
  | ep_initial base first k l g w i g' w' : epoch w0 base first k l g w -> ga_st g = Created ->
      add_initial L c g i w = Ok (g', w') -> epoch w0 base first k l g' w'
  | ep_iterate base first k l g w g' w' : epoch w0 base first k l g w ->
      ga_iterate L p c E log_interval max_distance fuel g w = Ok (g', w') -> ga_st g' <> Created ->
      epoch w0 base first (k + counts g g') (l ++ born g w g') g' w'
  | ep_restart base first k l g w g' w' : epoch w0 base first k l g w ->
      ga_iterate L p c E log_interval max_distance fuel g w = Ok (g', w') -> ga_st g' = Created ->
      epoch w0 (first + k) (first + k + 1) 0 [] g' w'.
End Trace.
