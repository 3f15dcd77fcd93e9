(** Elite education in double precision can overflow (C62). *)
From Coq Require Import List Arith NArith ZArith Bool Lia Permutation Reals Lra.
From Flocq Require Import Core BinarySingleNaN.
From Verif.Model Require Import Num NumFloat Prelude Evaluate Individual Config Split Matrix LocalSearch World RuinRecreate Genetic.
From Verif.Spec Require Import Solution Library Floats LocalSearch RuinRecreate Genetic.
From Verif.Proofs Require Import FloatFacts FloatRun GaInv GaQ RustLib.
From Verif.Properties Require Import P_RuinRecreate P_FloatRun.
Import ListNotations.
Open Scope Z_scope.

(** Two customers on a line, each with a demand above the capacity of 20; elite education of 1200
    moves, in which the penalty is multiplied by 10^308. *)
Definition el_q (i : nat) : Z := nth i [0; 30; 40] 0.
Definition el_p : @problem NumF := @mkProblem NumF 3 (fun a b => d_of_Z (fr_d a b)) (fun a => d_of_Z (el_q a))
  (fun i => (d_of_Z (fr_x i), d_of_Z 0)) (d_of_Z 20) (fun i => filter (fun j => negb (Nat.eqb i j)) [1; 2]%nat)
  (fun _ _ => d_of_Z 0) unit_double (fun x => dsub x (d_of_Z 1)) Z.of_nat.
Definition el_corr : matrix nat := mkMatrix 3 1 [1; 2; 1]%nat.
Definition el_c : @config NumF := @mkConfig NumF
  (Some 6%nat) 3 4 60
  2 3 2 1 2 (d_lit 2 10) 2 (d_lit 5 10)
  (d_lit 15 10) true
  false 1 true true true true true true true true true true
  2 (d_lit (10 ^ 308) 1) (d_lit 85 100)
  3 3 true (d_lit 1 1) (d_lit 1 1) (d_lit 10 1)
  true 1 (d_lit 600 1) (d_lit 50 1) false (d_lit 2 100).
Definition el_world (a b : BinNums.N) : @world NumF :=
  @mkWorld NumF (match @max_demand NumF el_p with Ok d => @initial_penalty NumF fr_md d | Err _ => d_of_Z 0 end) hist_new 0 (rr_stream a b) 0.
Fixpoint el_steps (k : nat) (g : @ga NumF) (w : @world NumF) : res (@ga NumF * @world NumF) :=
  match k with
  | O => Ok (g, w)
  | S k => match @ga_iterate NumF rust_lib el_p el_c fr_env 5 fr_md 50 g w with
           | Ok (g, w) => el_steps k g w
           | Err e => Err e
           end
  end.
Definition el_start a b := @ga_new NumF el_p el_c el_corr (rr_stream 3 5) (rr_stream 7 1) (el_world a b).
Definition el_run a b k := el_steps k (fst (el_start a b)) (snd (el_start a b)).
Definition el_failed (r : res (@ga NumF * @world NumF)) : option err := match r with Ok _ => None | Err e => Some e end.

Fact el_instance : integral_instance el_p el_c fr_d el_q 20.
Proof.
  assert (B : forall z, 0 <= z < 100 -> is_int (d_of_Z z) z /\ 0 <= z) by (intros z H; split; [apply int_of_Z; unfold exact_bound; lia|lia]).
  assert (X : forall i, 0 <= fr_x i <= 9).
  { intro i. unfold fr_x. do 6 (destruct i as [|i]; [cbn; lia|]). destruct i; cbn; lia. }
  constructor.
  - constructor.
    + intros a b _ _. cbn [p_dist el_p]. apply B. unfold fr_d. pose proof (X a). pose proof (X b). lia.
    + intros a _. cbn [p_demand el_p]. apply B. unfold el_q. do 3 (destruct a as [|a]; [cbn; lia|]). destruct a; cbn; lia.
    + cbn [p_cap el_p]. split; [apply B; lia|unfold exact_bound; lia].
  - cbn. lia.
  - split; [cbn; lia|]. change (@vehicle_lower_bound NumF el_p <= 4)%nat. apply Nat.leb_le. vm_compute. reflexivity.
  - reflexivity.
  - exists 9. split; [lia|]. split; [|reflexivity]. intros a b _ _. unfold fr_d. pose proof (X a). pose proof (X b). lia.
  - reflexivity.
  - intro x. apply unit_double_ok.
  - cbn. lia.
Qed.
Fact el_set_up a b : set_up el_p fr_md (el_world a b).
Proof.
  split; [|split; reflexivity]. unfold el_world. cbn [w_pen].
  assert (X : match @max_demand NumF el_p with Ok _ => true | Err _ => false end = true) by (vm_compute; reflexivity).
  destruct (@max_demand NumF el_p) as [m|]; [|discriminate X]. exists m. split; reflexivity.
Qed.
(** A run that fails fails in a reached state. *)
Fact el_run_failed a b k e : el_failed (el_run a b k) = Some e ->
  exists g w, ga_reached rust_lib el_p el_c fr_env 5 fr_md 50 (el_world a b) g w /\ ga_iterate rust_lib el_p el_c fr_env 5 fr_md 50 g w = Err e.
Proof.
  unfold el_run. destruct (el_start a b) as [g0 w0] eqn:ES. cbn [fst snd].
  assert (R : ga_reached rust_lib el_p el_c fr_env 5 fr_md 50 (el_world a b) g0 w0).
  { eapply gr_new; [| |exact ES].
    - split; [cbn; lia|]. split; [reflexivity|]. intros u v Hu I. cbn in Hu.
      do 3 (destruct u as [|u]; [vm_compute in I; cbn [p_dim el_p]; lia|]). lia.
    - split; [reflexivity|]. intros u v Hu I. cbn in Hu.
      do 3 (destruct u as [|u]; [vm_compute in I; cbn [p_dim el_p]; lia|]). lia. }
  clear ES. revert g0 w0 R. induction k as [|k IH]; intros g0 w0 R; cbn [el_steps]; [discriminate|].
  destruct (ga_iterate _ _ _ _ _ _ _ g0 w0) as [[g1 w1]|e1] eqn:G; [apply IH; eapply gr_iterate; eauto|].
  cbn [el_failed]. intro H. injection H as <-. exists g0, w0. auto.
Qed.

(** The bound on elite education is needed: everything else is as demanded by
    [C62_no_panic_doubles], the education is limited by iterations and both multipliers are finite
    and positive, but the penalty, which elite education does not clamp, becomes so large that the
    costs overflow; then ruin and recreate finds no place for a customer and panics. *)
Theorem C62_elite_refuted : exists (p : @problem NumF) (c : @config NumF) d q cap E li md fuel w0 g w,
  integral_instance p c d q cap /\ drawable p /\
  (c_elite_education_time_based c = false /\
   is_finite (c_penalty_dec_multiplier c : dbl) = true /\ (0 < B2R (c_penalty_dec_multiplier c : dbl))%R /\
   is_finite (c_penalty_inc_multiplier c : dbl) = true /\ (0 < B2R (c_penalty_inc_multiplier c : dbl))%R) /\
  (1 <= c_num_diversity_closest c /\ 1 <= c_min_population_size c /\ 1 <= c_initial_individuals c /\ 1 <= c_tournament_size c)%nat /\
  set_up p md w0 /\ ga_reached rust_lib p c E li md fuel w0 g w /\ ga_iterate rust_lib p c E li md fuel g w = Err EPanic.
Proof.
  destruct (el_run_failed 802240676188735462 307058226201110381 2 EPanic) as (g & w & R & G); [vm_compute; reflexivity|].
  exists el_p, el_c, fr_d, el_q, 20, fr_env, 5%nat, fr_md, 50%nat, (el_world 802240676188735462 307058226201110381), g, w.
  split; [exact el_instance|]. split.
  - assert (B : forall z, 0 <= z < 100 -> is_finite (d_of_Z z) = true /\ (Rabs (B2R (d_of_Z z)) <= bpow radix2 900)%R).
    { intros z H. destruct (int_of_Z z) as [F E]; [unfold exact_bound; lia|]. split; [exact F|]. rewrite E, <- abs_IZR.
      eapply Rle_trans; [apply IZR_le; instantiate (1 := 2 ^ 7); lia|]. change 2 with (radix_val radix2) at 1. rewrite IZR_Zpower by lia. apply bpow_le. lia. }
    split.
    + intros a _. cbn [p_coord el_p fst snd]. assert (X : 0 <= fr_x a < 100) by (unfold fr_x; do 6 (destruct a as [|a]; [cbn; lia|]); destruct a; cbn; lia).
      destruct (B _ X), (B 0 ltac:(lia)). auto.
    + intros y x _ _. reflexivity.
  - assert (P : forall x : dbl, is_finite x = true -> dlt (d_of_Z 0) x = true -> (0 < B2R x)%R).
    { intros x F. destruct (int_of_Z 0) as [F0 E0]; [unfold exact_bound; lia|]. unfold dlt. rewrite Bltb_correct by auto. rewrite E0.
      case Rlt_bool_spec; [auto|discriminate]. }
    split; [|split; [cbn; lia|split; [apply el_set_up|split; [exact R|exact G]]]].
    split; [reflexivity|]. assert (F1 : is_finite (d_lit 85 100) = true) by (vm_compute; reflexivity).
    assert (F2 : is_finite (d_lit (10 ^ 308) 1) = true) by (vm_compute; reflexivity).
    split; [exact F1|]. split; [apply P; [exact F1|vm_compute; reflexivity]|]. split; [exact F2|]. apply P; [exact F2|vm_compute; reflexivity].
Qed.
Print Assumptions C62_elite_refuted.
