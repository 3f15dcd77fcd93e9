(** What the penalty depends on in a whole run (C68), in any arithmetic. *)
From Coq Require Import List Arith NArith ZArith QArith Bool Lia.
From Verif.Model Require Import Num Prelude Evaluate Individual Config Matrix Population World Genetic Random.
From Verif.Spec Require Import PenaltyTrace.
From Verif.Proofs Require Import GaPenalty.
From Verif.Spec Require Import Library.
From Verif.Properties Require Import P_RuinRecreate P_Genetic.
Import ListNotations.
Open Scope nat_scope.

Section Run.
Context {N : Num}.
Variable L : lib.
Variable p : problem.
Variable c : config.
Variable E : env.
Variable log_interval : nat.
Variable max_distance : option F.
Variable fuel : nat.
Notation ep := (epoch L p c E log_interval max_distance fuel).
Notation iterate := (ga_iterate L p c E log_interval max_distance fuel).

(** The feasibility history holds the verdicts on the last hundred children made since the
    algorithm started or restarted (initial ones included; neither the solutions handed in nor
    the repaired copies count), filled up with favourable ones. *)
Theorem C68_recent_verdicts w0 base first k l g w :
  1 <= c_penalty_update_interval c -> ep w0 base first k l g w ->
  po_hist (ga_pop g) = recent l /\ ga_iterations g = first + k.
Proof. intros EV R. destruct (epoch_kept L p c E log_interval max_distance fuel EV w0 base first k l g w R). auto. Qed.

(** A call of [iterate] changes the penalty in these cases only:
    - elite education is going on; when it ends the penalty is the initial one again;
    - a genetic iteration, the first after the start or restart or one whose number (counted from
      [base]) is a multiple of the interval: the penalty is then adapted to the verdicts, the one
      on the child of this iteration included. *)
Theorem C68_penalty_changes w0 base first k l g w g' w' :
  1 <= c_penalty_update_interval c -> ep w0 base first k l g w -> iterate g w = Ok (g', w') ->
  match ga_st g, ga_st g' with
  | _, Terminated => w_pen w' = w_pen w
  | EliteEducation, EliteEducation => True
  | EliteEducation, _ => exists d, max_demand p = Ok d /\ w_pen w' = initial_penalty max_distance d
  | Cycle, _ => w_pen w' = (if (k =? 0) || ((first + k - base) mod c_penalty_update_interval c =? 0)
                           then adapted c (l ++ [is_feasible (ga_child g')]) (w_pen w) else w_pen w)
  | _, _ => w_pen w' = w_pen w
  end.
Proof.
  intros EV R G. pose proof (epoch_kept L p c E log_interval max_distance fuel EV w0 base first k l g w R) as K.
  destruct (iterate_kept L p c E log_interval max_distance fuel EV base first k l g w g' w' K G) as [A B].
  assert (EL : ga_st g = EliteEducation -> ga_st g' = EliteEducation \/ ga_st g' = Initialization \/ ga_st g' = Terminated).
  { intro S. revert G. unfold ga_iterate. destruct (terminate c E w) as [[] w1]; cbn [ga_st set_st].
    - intro G. injection G as <- _. right. now right.
    - rewrite S. intro G.
      destruct (it_elite_kept L p c E log_interval max_distance base first k l g w1 g' w' K S G) as (_ & [Q|(Q & _)]); auto. }
  destruct (ga_st g') eqn:S', (ga_st g) eqn:S; try exact B; try exact I; destruct (EL eq_refl) as [Q|[Q|Q]]; discriminate.
Qed.
End Run.
Print Assumptions C68_recent_verdicts.
Print Assumptions C68_penalty_changes.

(** ** Example *)

(** A run of [ga_cfg] (three initial individuals, updates every second iteration), with the
    verdicts collected on the way. *)
Local Notation pt_c := (ga_cfg false false false).
Fixpoint pt_steps (n : nat) (k : nat) (l : list bool) (g : @ga NumQ) (w : @world NumQ) : option (nat * list bool * @ga NumQ * @world NumQ) :=
  match n with
  | O => Some (k, l, g, w)
  | S n => match @ga_iterate NumQ rust_lib rr_p pt_c rr_env 5 (Some 18%Q) 50 g w with
           | Ok (g', w') => match ga_st g' with
                            | Created => None
                            | _ => pt_steps n (k + counts g g') (l ++ born rust_lib rr_p pt_c rr_env 50 g w g') g' w'
                            end
           | Err e => None
           end
  end.
Definition pt_run n := pt_steps n 0 [] (fst (ga_start false false false 986 331)) (snd (ga_start false false false 986 331)).
Definition pt_view n := match pt_run n with Some (k, l, g, w) => Some (ga_st g, k, l, Qred (w_pen w)) | None => None end.
Local Notation pt_ep := (epoch rust_lib rr_p pt_c rr_env 5 (Some (18%Q : @F NumQ)) 50 (ga_world 986 331) 0 0).
Lemma pt_steps_epoch n k l g w : forall k0 l0 g0 w0, pt_ep k0 l0 g0 w0 -> pt_steps n k0 l0 g0 w0 = Some (k, l, g, w) -> pt_ep k l g w.
Proof.
  induction n as [|n IH]; intros k0 l0 g0 w0 R; cbn [pt_steps].
  - intro G. injection G as <- <- <- <-. exact R.
  - destruct (ga_iterate _ _ _ _ _ _ _ _ _) as [[g1 w1]|] eqn:G; [|discriminate].
    destruct (ga_st g1) eqn:S; [discriminate|..]; (apply IH; eapply ep_iterate; [exact R|exact G|rewrite S; discriminate]).
Qed.
Lemma pt_epoch n k l g w : pt_run n = Some (k, l, g, w) -> pt_ep k l g w.
Proof.
  unfold pt_run. destruct (ga_start false false false 986 331) as [g0 w0] eqn:ES. apply pt_steps_epoch. eapply ep_new; exact ES.
Qed.
Lemma pt_known n v : pt_view n = Some v -> exists k l g w, pt_run n = Some (k, l, g, w) /\ v = (ga_st g, k, l, Qred (w_pen w)).
Proof. unfold pt_view. destruct (pt_run n) as [[[[k l] g] w]|]; [|discriminate]. intro E. injection E as <-. repeat eexists. Qed.

(** The penalty is lowered in the iterations 0 and 2: of the last hundred verdicts 99 or 100 are
    favourable. *)
Example C68_applicable :
  1 <= c_penalty_update_interval pt_c /\
  map pt_view [5; 6; 7; 8] = [Some (Cycle, 0, [true; true; true], (18 # 5)%Q); Some (Cycle, 1, [true; true; true; true], (153 # 50)%Q);
    Some (Cycle, 2, [true; true; true; true; false], (153 # 50)%Q); Some (Cycle, 3, [true; true; true; true; false; false], (2601 # 1000)%Q)] /\
  exists k l g w, epoch rust_lib rr_p pt_c rr_env 5 (Some (18%Q : @F NumQ)) 50 (ga_world 986 331) 0 0 k l g w /\
    ga_st g = Cycle /\ k = 2 /\ l = [true; true; true; true; false].
Proof.
  split; [cbn; lia|]. split; [vm_compute; reflexivity|].
  assert (V : pt_view 7 = Some (Cycle, 2, [true; true; true; true; false], (153 # 50)%Q)) by (vm_compute; reflexivity).
  destruct (pt_known _ _ V) as (k & l & g & w & R & Q). injection Q as Q1 Q2 Q3 _.
  exists k, l, g, w. split; [exact (pt_epoch _ _ _ _ _ R)|]. auto.
Qed.
