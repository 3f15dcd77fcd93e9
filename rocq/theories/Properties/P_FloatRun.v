(** Whole runs of the genetic algorithm in double precision (C58). *)
From Coq Require Import List Arith NArith ZArith Bool Lia Permutation Reals Lra.
From Flocq Require Import Core BinarySingleNaN.
From Verif.Model Require Import Num NumFloat Prelude Evaluate Individual Config Split Matrix LocalSearch World RuinRecreate Genetic.
From Verif.Spec Require Import Solution Library Floats LocalSearch RuinRecreate Genetic.
From Verif.Proofs Require Import FloatFacts FloatRun GaInv GaQ RustLib.
From Verif.Properties Require Import P_RuinRecreate.
Import ListNotations.
Open Scope Z_scope.

(** On integral data, whatever the generator, the clock and the logarithms give: every solution
    that a run records serves all customers once, is within capacity exactly, carries exactly its
    length as cost, and is shorter than the one recorded before it; what is reported is the last
    and shortest of them. *)
Theorem C58_float_run L (p : @problem NumF) (c : @config NumF) d q cap E li md fuel w0 g w :
  lib_ok L -> integral_instance p c d q cap -> set_up p md w0 -> ga_reached L p c E li md fuel w0 g w ->
  exists is, recorded hist_new is (w_hist w) /\
    Forall (fun i : @individual NumF => exact_record p d q cap (i_pheno i) (penalized_cost i)) is /\
    (forall l1 a b l2, is = l1 ++ a :: b :: l2 -> zsum (map (ztour d) (i_pheno b)) < zsum (map (ztour d) (i_pheno a))) /\
    (forall e, reported (w_hist w) e -> exact_record p d q cap (he_routes e) (he_cost e) /\
       forall i, In i is -> zsum (map (ztour d) (he_routes e)) <= zsum (map (ztour d) (i_pheno i))).
Proof.
  intros LO II SU R. pose proof (reached_recordsF p c d q cap II L LO E li md fuel w0 g w SU R) as I.
  destruct (gb_hist _ _ _ _ _ _ _ _ (in_base _ _ _ _ _ _ _ _ _ _ _ _ I)) as (is & RE & FA & IM).
  exists is. split; [exact RE|]. split; [exact FA|]. split; [exact IM|]. intros e RP.
  unfold recorded in RE. rewrite RE in RP. apply reported_last in RP as (l & i & -> & ->). cbn [he_routes he_cost].
  split; [apply Forall_app in FA as [_ FA]; now inversion FA|].
  clear -IM. revert i IM. induction l as [|a l IH] using rev_ind; intros i IM j J.
  - destruct J as [<-|[]]. apply Z.le_refl.
  - apply in_app_iff in J as [J|[<-|[]]]; [|apply Z.le_refl].
    assert (IM' : improvingF d (l ++ [a])).
    { intros l1 x y l2 EQ. apply (IM l1 x y (l2 ++ [i])). rewrite EQ, <- app_assoc. reflexivity. }
    pose proof (IH a IM' j J) as A. specialize (IM l a i [] ltac:(now rewrite <- app_assoc)). unfold length_of in IM. lia.
Qed.
Print Assumptions C58_float_run.

(** ** A case *)

(** What rand makes of 64 random bits: the upper 53 of them, divided by 2^53. *)
Definition unit_double (x : BinNums.N) : dbl := ddiv (d_of_Z (Z.of_N (N.shiftr x 11) mod exact_bound)) (d_of_Z exact_bound).

Lemma unit_double_ok x : is_finite (unit_double x) = true /\ (0 <= B2R (unit_double x) < 1)%R.
Proof.
  unfold unit_double. set (z := Z.of_N (N.shiftr x 11) mod exact_bound).
  assert (Z1 : 0 <= z < exact_bound) by (apply Z.mod_pos_bound; reflexivity). clearbody z.
  destruct (int_of_Z z) as [F1 R1]; [lia|].
  assert (E : B2SF (d_of_Z exact_bound) = SpecFloat.S754_finite false (2 ^ 52) 1) by (vm_compute; reflexivity).
  assert (R2 : B2R (d_of_Z exact_bound) = bpow radix2 53).
  { rewrite <- SF2R_B2SF, E. unfold SF2R, F2R. cbn [SpecFloat.cond_Zopp Fnum Fexp].
    change (Z.pos (2 ^ 52)) with (radix2 ^ 52)%Z. rewrite IZR_Zpower by lia. now rewrite <- bpow_plus. }
  pose proof (Bdiv_correct 53 1024 prec_pos prec_emax mode_NE (d_of_Z z) (d_of_Z exact_bound)) as B.
  assert (P : (0 < bpow radix2 53)%R) by apply bpow_gt_0.
  rewrite R1, R2 in B. specialize (B ltac:(lra)).
  assert (Q : (IZR z / bpow radix2 53)%R = F2R (Float radix2 z (-53))).
  { unfold F2R. cbn [Fnum Fexp]. change (-53) with (- (53)). rewrite bpow_opp. reflexivity. }
  assert (Q2 : (0 <= IZR z / bpow radix2 53 < 1)%R).
  { split.
    - apply Rmult_le_pos; [now apply IZR_le|]. apply Rlt_le, Rinv_0_lt_compat, P.
    - apply Rmult_lt_reg_r with (bpow radix2 53); [exact P|]. unfold Rdiv. rewrite Rmult_assoc, Rinv_l, Rmult_1_r, Rmult_1_l by lra.
      rewrite <- IZR_Zpower by lia. apply IZR_lt. apply Z1. }
  change (round_mode mode_NE) with ZnearestE in B.
  rewrite (round_generic radix2 _ ZnearestE (IZR z / bpow radix2 53)) in B.
  - rewrite Rlt_bool_true in B.
    + destruct B as (B1 & B2 & _). unfold ddiv. rewrite B1, B2. split; [exact F1|exact Q2].
    + rewrite Rabs_right by lra. apply Rlt_trans with 1%R; [apply Q2|]. change 1%R with (bpow radix2 0). apply bpow_lt. lia.
  - rewrite Q. change (SpecFloat.fexp 53 1024) with (FLT_exp (3 - 1024 - 53) 53). apply generic_format_FLT.
    exists (Float radix2 z (-53)); [reflexivity| |cbn; lia]. cbn [Fnum]. change (radix2 ^ 53) with exact_bound. lia.
Qed.

(** Customers on a line, capacity 8; the settings of [ga_cfg] (P_Genetic) in double precision,
    without local search. *)
Definition fr_x (i : nat) : Z := nth i [0; 3; 5; 4; 9; 8] 0.
Definition fr_d (a b : nat) : Z := Z.abs (fr_x a - fr_x b).
Definition fr_q (i : nat) : Z := nth i [0; 3; 4; 2; 5; 1] 0.
Definition fr_p : @problem NumF := @mkProblem NumF 6 (fun a b => d_of_Z (fr_d a b)) (fun a => d_of_Z (fr_q a))
  (fun i => (d_of_Z (fr_x i), d_of_Z 0)) (d_of_Z 8) (fun i => filter (fun j => negb (Nat.eqb i j)) [1; 2; 3; 4; 5]%nat)
  (fun _ _ => d_of_Z 0) unit_double (fun x => dsub x (d_of_Z 1)) Z.of_nat.
Definition fr_c : @config NumF := @mkConfig NumF
  (Some 6%nat) 3 4 60
  2 3 2 1 2 (d_lit 2 10) 2 (d_lit 5 10)
  (d_lit 15 10) true
  false 3 true true true true true true true true true true
  2 (d_lit 12 10) (d_lit 85 100)
  3 3 true (d_lit 1 1) (d_lit 1 1) (d_lit 10 1)
  false 1 (d_lit 3 1) (d_lit 50 1) false (d_lit 2 100).
Definition fr_env : @env NumF := @mkEnv NumF (fun x => dadd (d_of_Z 1) (ddiv x (d_of_Z 2))) (fun k => d_of_Z (Z.of_nat k)).
Definition fr_md : option (@F NumF) := Some (d_of_Z 9).
Definition fr_world (a b : BinNums.N) : @world NumF :=
  @mkWorld NumF (match @max_demand NumF fr_p with Ok d => @initial_penalty NumF fr_md d | Err _ => d_of_Z 0 end) hist_new 0 (rr_stream a b) 0.

Fixpoint fr_steps (k : nat) (g : @ga NumF) (w : @world NumF) : res (@ga NumF * @world NumF) :=
  match k with
  | O => Ok (g, w)
  | S k => match @ga_iterate NumF rust_lib fr_p fr_c fr_env 5 fr_md 50 g w with
           | Ok (g, w) => fr_steps k g w
           | Err e => Err e
           end
  end.
Definition fr_start a b := @ga_new NumF fr_p fr_c rr_corr (rr_stream 3 5) (rr_stream 7 1) (fr_world a b).
Definition fr_run a b k := fr_steps k (fst (fr_start a b)) (snd (fr_start a b)).
Definition fr_view (r : res (@ga NumF * @world NumF)) :=
  match r with
  | Ok (g, w) => Some (ga_st g, ga_iterations g, map (fun e : @entry NumF => (he_routes e, match he_cost e with Some x => B2SF (x : dbl) | None => SpecFloat.S754_nan end)) (h_entries (w_hist w)), B2SF (w_pen w : dbl))
  | Err _ => None
  end.

Fact fr_instance : integral_instance fr_p fr_c fr_d fr_q 8.
Proof.
  assert (B : forall z, 0 <= z < 100 -> is_int (d_of_Z z) z /\ 0 <= z) by (intros z H; split; [apply int_of_Z; unfold exact_bound; lia|lia]).
  assert (X : forall i, 0 <= fr_x i <= 9).
  { intro i. unfold fr_x. do 6 (destruct i as [|i]; [cbn; lia|]). destruct i; cbn; lia. }
  constructor.
  - constructor.
    + intros a b _ _. cbn [p_dist fr_p]. apply B. unfold fr_d. pose proof (X a). pose proof (X b). lia.
    + intros a _. cbn [p_demand fr_p]. apply B. unfold fr_q. do 6 (destruct a as [|a]; [cbn; lia|]). destruct a; cbn; lia.
    + cbn [p_cap fr_p]. split; [apply B; lia|unfold exact_bound; lia].
  - cbn. lia.
  - split; [cbn; lia|]. change (@vehicle_lower_bound NumF fr_p <= 4)%nat. apply Nat.leb_le. vm_compute. reflexivity.
  - reflexivity.
  - exists 9. split; [lia|]. split; [|reflexivity]. intros a b _ _. unfold fr_d. pose proof (X a). pose proof (X b). lia.
  - reflexivity.
  - intro x. apply unit_double_ok.
  - cbn. lia.
Qed.
Fact fr_set_up a b : set_up fr_p fr_md (fr_world a b).
Proof.
  split; [|split; reflexivity]. unfold fr_world. cbn [w_pen].
  assert (X : match @max_demand NumF fr_p with Ok _ => true | Err _ => false end = true) by (vm_compute; reflexivity).
  destruct (@max_demand NumF fr_p) as [m|]; [|discriminate X]. exists m. split; reflexivity.
Qed.
Fact fr_run_reached a b k g w : fr_run a b k = Ok (g, w) -> ga_reached rust_lib fr_p fr_c fr_env 5 fr_md 50 (fr_world a b) g w.
Proof.
  unfold fr_run. destruct (fr_start a b) as [g0 w0] eqn:ES. cbn [fst snd].
  assert (R : ga_reached rust_lib fr_p fr_c fr_env 5 fr_md 50 (fr_world a b) g0 w0).
  { eapply gr_new; [| |exact ES].
    - split; [cbn; lia|]. split; [reflexivity|]. intros u v Hu I. cbn in Hu.
      do 6 (destruct u as [|u]; [vm_compute in I; cbn [p_dim fr_p]; lia|]). lia.
    - split; [reflexivity|]. intros u v Hu I. cbn in Hu.
      do 6 (destruct u as [|u]; [vm_compute in I; cbn [p_dim fr_p]; lia|]). lia. }
  clear ES. revert g0 w0 R. induction k as [|k IH]; intros g0 w0 R; cbn [fr_steps].
  - intro H. injection H as <- <-. exact R.
  - destruct (ga_iterate _ _ _ _ _ _ _ _ _) as [[g1 w1]|] eqn:G; [|discriminate]. apply IH. eapply gr_iterate; eauto.
Qed.

Fact fr_view_ok r st n l pen : fr_view r = Some (st, n, l, pen) ->
  exists g w, r = Ok (g, w) /\ length (h_entries (w_hist w)) = length l.
Proof.
  destruct r as [[g w]|]; [|discriminate]. intro V. exists g, w. split; [reflexivity|]. cbn [fr_view] in V.
  injection V as _ _ <- _. now rewrite map_length.
Qed.

(** A run with ruin and recreate that records solutions of the lengths 34 = 4785074604081152 / 2^47
    and 28 = 7881299347898368 / 2^48; the routes of the first are dropped (history.rs:92-96). *)
Local Notation fr_case := (fr_run 802240676188735462 307058226201110381 12).
Example C58_run : fr_view fr_case =
  Some (Initialization, 5%nat,
    [([], SpecFloat.S754_finite false 4785074604081152 (-47));
     ([[5; 4; 3]; [1; 2]; []; []]%nat, SpecFloat.S754_finite false 7881299347898368 (-48))],
    SpecFloat.S754_finite false 4978391618086030 (-52)).
Proof. vm_compute. reflexivity. Qed.
Example C58_applicable : exists g w, ga_reached rust_lib fr_p fr_c fr_env 5 fr_md 50 (fr_world 802240676188735462 307058226201110381) g w /\
  length (h_entries (w_hist w)) = 2%nat /\ lib_ok rust_lib /\ integral_instance fr_p fr_c fr_d fr_q 8 /\
  set_up fr_p fr_md (fr_world 802240676188735462 307058226201110381) /\
  zsum (map (ztour fr_d) [[5; 4; 3]; [1; 2]; []; []]%nat) = 28.
Proof.
  destruct (fr_view_ok _ _ _ _ _ C58_run) as (g & w & G & LN). exists g, w.
  split; [exact (fr_run_reached _ _ _ _ _ G)|]. split; [exact LN|].
  split; [exact rust_lib_ok|]. split; [exact fr_instance|]. split; [apply fr_set_up|reflexivity].
Qed.
