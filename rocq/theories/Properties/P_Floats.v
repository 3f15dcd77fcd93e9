(** C31 in double precision, and C48: the arithmetic of the program is IEEE 754 binary64. *)
From Coq Require Import List Arith ZArith Reals Bool Lia Lra.
From Flocq Require Import Core BinarySingleNaN.
From Verif.Model Require Import Num NumFloat Prelude Evaluate Individual Config Population World Genetic.
From Verif.Spec Require Import Floats Library.
From Verif.Proofs Require Import EvalFacts FloatFacts FloatPenalty.
Import ListNotations.
Open Scope Z_scope.

(** ** C31 *)

(** Rust's [<=] and [<] on doubles; the numbers 0.0001, 10^7 and 10^4. *)
Local Notation "a <=. b" := (@Bleb 53 1024 a b = true) (at level 70).
Local Notation "a <. b" := (@Bltb 53 1024 a b = true) (at level 70).
Definition low : dbl := d_lit 1 10000.
Definition high : dbl := d_lit 10000000 1.

Lemma low_normal : (bpow radix2 (-100) <= B2R low)%R.
Proof.
  assert (E : B2SF low = SpecFloat.S754_finite false 7378697629483821 (-66)) by (vm_compute; reflexivity).
  rewrite <- SF2R_B2SF, E. unfold SF2R, F2R. cbn [SpecFloat.cond_Zopp Fnum Fexp].
  apply Rle_trans with (1 * bpow radix2 (-66))%R; [rewrite Rmult_1_l; apply bpow_le; lia|].
  apply Rmult_le_compat_r; [apply bpow_ge_0|lra].
Qed.
Lemma low_pos : (0 < B2R low)%R.
Proof. apply Rlt_le_trans with (2 := low_normal). apply bpow_gt_0. Qed.
Lemma low_fin : is_finite low = true. Proof. vm_compute. reflexivity. Qed.
Lemma high_fin : is_finite high = true. Proof. vm_compute. reflexivity. Qed.
Lemma low_high : dlt low high = true. Proof. vm_compute. reflexivity. Qed.

(** The share of feasible individuals as the program computes it: the rounded quotient (NaN for an
    empty history). *)
Definition share_f (l : list bool) : dbl :=
  ddiv (d_of_Z (Z.of_nat (length (filter (fun b => b) l)))) (d_of_Z (Z.of_nat (length l))).

Lemma update_penalty_eq L (p : @problem NumF) (c : @config NumF) (g g' : @ga NumF) (w w' : @world NumF) :
  update_penalty L p c g w = Ok (g', w') ->
  w_pen w' = clamp low high
    (if dlt (share_f (po_hist (ga_pop g))) (dsub (c_feasibility_proportion_target c) (d_lit 5 100)) then dmul (w_pen w) (c_penalty_inc_multiplier c)
     else if dlt (dadd (c_feasibility_proportion_target c) (d_lit 5 100)) (share_f (po_hist (ga_pop g))) then dmul (w_pen w) (c_penalty_dec_multiplier c)
     else w_pen w).
Proof.
  intros G. unfold update_penalty in G. destruct (pop_reevaluate _ _ _ _) as [po|]; [|discriminate]. cbn [rbind] in G. injection G as _ <-.
  reflexivity.
Qed.

(** Whatever the old penalty, the target, the multipliers and the history are - NaN, infinities
    and negative numbers included -, an update leaves the penalty in [0.0001, 10^7]. *)
Theorem C31_float_range L (p : @problem NumF) (c : @config NumF) (g g' : @ga NumF) (w w' : @world NumF) :
  update_penalty L p c g w = Ok (g', w') -> low <=. w_pen w' /\ w_pen w' <=. high.
Proof.
  intro G. rewrite (update_penalty_eq L p c g g' w w' G). apply clamp_range; [exact low_fin|exact high_fin|exact low_high].
Qed.
Print Assumptions C31_float_range.

(** Too few feasible individuals: a penalty in range is not lowered by a multiplier of at least 1,
    and is raised, unless at the upper end, by one of at least 1.000001.  Too many: the other way
    round.  Otherwise a penalty in range is left alone. *)
Theorem C31_float_direction L (p : @problem NumF) (c : @config NumF) (g g' : @ga NumF) (w w' : @world NumF) :
  update_penalty L p c g w = Ok (g', w') ->
  low <=. w_pen w -> w_pen w <=. high ->
  let f := share_f (po_hist (ga_pop g)) in
  let few := f <. dsub (c_feasibility_proportion_target c) (d_lit 5 100) in
  let many := dadd (c_feasibility_proportion_target c) (d_lit 5 100) <. f in
  let inc := c_penalty_inc_multiplier c in let dec := c_penalty_dec_multiplier c in
  (few -> d_of_Z 1 <=. inc -> w_pen w <=. w_pen w') /\
  (few -> d_lit 1000001 1000000 <=. inc -> w_pen w <. high -> w_pen w <. w_pen w') /\
  (~ few -> many -> d_of_Z 0 <=. dec -> dec <=. d_of_Z 1 -> w_pen w' <=. w_pen w) /\
  (~ few -> many -> d_of_Z 0 <=. dec -> dec <=. d_lit 999999 1000000 -> low <. w_pen w -> w_pen w' <. w_pen w) /\
  (~ few -> ~ many -> w_pen w' = w_pen w).
Proof.
  intros G R1 R2 f few many inc dec. pose proof (update_penalty_eq L p c g g' w w' G) as E. fold f in E.
  assert (I : in_range low high (w_pen w)) by (split; auto).
  pose proof low_fin as LF. pose proof high_fin as HF. pose proof low_pos as LP. pose proof low_high as LH. pose proof low_normal as LN.
  unfold few, many. change (@Bltb 53 1024) with dlt.
  destruct (dlt f (dsub (c_feasibility_proportion_target c) (d_lit 5 100))).
  { rewrite E. split; [|split]; [| |split; [|split]; intro X; exfalso; now apply X]; intros _ M.
    - apply raise; auto.
    - intros PH. apply raise_strict; auto. }
  split; [discriminate|]. split; [discriminate|].
  destruct (dlt (dadd (c_feasibility_proportion_target c) (d_lit 5 100)) f).
  { rewrite E. split; [|split]; [| |intros _ X; exfalso; now apply X]; intros _ _ M1 M2.
    - apply lower; auto.
    - intros PL. apply lower_strict; auto. }
  split; [discriminate|]. split; [discriminate|]. intros _ _. rewrite E. apply clamp_id; auto.
Qed.
Print Assumptions C31_float_direction.

(** The initial penalty is in [0.0001, 10^4], whatever the distances and demands. *)
Theorem C31_float_initial (distance demand : option dbl) :
  low <=. @initial_penalty NumF distance demand /\ @initial_penalty NumF distance demand <=. d_lit 10000 1.
Proof.
  destruct distance as [a|], demand as [b|].
  - exact (clamp_range low (d_lit 10000 1) low_fin ltac:(vm_compute; reflexivity) ltac:(vm_compute; reflexivity) (ddiv a b)).
  - split; vm_compute; reflexivity.
  - split; vm_compute; reflexivity.
  - split; vm_compute; reflexivity.
Qed.
Print Assumptions C31_float_initial.

(** Cases: a NaN penalty, an infinite multiplier, an empty history. *)
Example C31_float_cases :
  B2SF (@next_penalty_value NumF (@mkConfig NumF None 0 1 10 1 1 1 1 1 (d_lit 2 10) 2 (d_lit 5 10) (d_lit 15 10) true true 1
    true true true true true true true true true true 100 (d_lit 12 10) (d_lit 85 100) 10 10 true (d_lit 1 1) (d_lit 1 1) (d_lit 10 1)
    false 1 (d_lit 1 1) (d_lit 1 1) false (d_lit 1 1)) (share_f []) B754_nan) = B2SF high /\
  B2SF (clamp low high (dmul (d_lit 100 1) (B754_infinity false))) = B2SF high /\
  B2SF (clamp low high (dmul (d_lit 100 1) (d_lit 12 10))) = B2SF (d_lit 120 1) /\
  B2SF (clamp low high (share_f [])) = B2SF high /\
  is_nan (share_f []) = true.
Proof. vm_compute. repeat split. Qed.

(** ** C48 *)

(** On integral data below 2^53 the evaluation of a list of routes in double precision gives
    exactly the lengths and overloads of the routes; the verdict is exactly that no route is over
    capacity; and then the cost is exactly the total length, for any finite penalty.  [e] is
    whatever the evaluation object held before. *)
Theorem C48_evaluation_exact (p : @problem NumF) (d : nat -> nat -> Z) (q : nat -> Z) (cap : Z)
    (pen : dbl) (e : @sol_eval NumF) (routes : list (list nat)) :
  integral p d q cap -> (0 < p_dim p)%nat -> (forall n, In n (concat routes) -> (n < p_dim p)%nat) ->
  zsum (map (ztour d) routes) < exact_bound -> zsum (map (zload q) routes) < exact_bound ->
  exists e', @evaluate NumF p pen e routes = Ok e' /\
    Forall2 (fun (r : list nat) (ev : @route_eval NumF) => is_int (re_distance ev) (ztour d r) /\ is_int (re_overload ev) (zload q r - cap))
      routes (se_routes e') /\
    (se_feasible e' = true <-> forall r, In r routes -> zload q r <= cap) /\
    (is_finite pen = true -> se_feasible e' = true ->
     exists x, se_cost e' = Some x /\ is_int x (zsum (map (ztour d) routes))).
Proof.
  intros IG D HR HD HQ.
  assert (IN : forall r, In r routes -> forall n, In n r -> (n < p_dim p)%nat).
  { intros r I n J. apply HR. apply in_concat. eauto. }
  assert (NL : forall r, In r routes -> 0 <= ztour d r /\ 0 <= zload q r).
  { intros r I. split; [|apply (zload_nonneg p d q cap IG D); now apply IN]. apply (zwalk_nonneg p d q cap IG D).
    intros m [<-|J]; auto. apply in_app_iff in J. destruct J as [J|[<-|[]]]; auto. apply (IN r I m J). }
  assert (BD : forall f (l : list (list nat)) B, (forall r, In r l -> 0 <= f r) -> zsum (map f l) < B -> forall r, In r l -> f r < B).
  { clear. intros f l B. revert B. induction l as [|x l IH]; intros B N H r I; [destruct I|]. cbn [map zsum] in H.
    assert (0 <= zsum (map f l)).
    { clear -N. induction l as [|y l IH]; cbn [map zsum]; [lia|]. assert (0 <= f y) by (apply N; right; now left).
      assert (0 <= zsum (map f l)) by (apply IH; intros z [<-|Z]; apply N; [now left|right; now right]). lia. }
    assert (0 <= f x) by (apply N; now left).
    destruct I as [<-|I]; [lia|]. assert (f r < B - f x); [|lia]. apply IH; auto; [|lia]. intros; apply N; now right. }
  exists (@geval NumF p pen e routes). split; [apply evaluate_eq; auto|]. unfold geval. cbn [se_routes se_feasible se_cost].
  split; [|split].
  - assert (A : forall l, incl l routes -> Forall2 (fun (r : list nat) (ev : @route_eval NumF) => is_int (re_distance ev) (ztour d r) /\ is_int (re_overload ev) (zload q r - cap))
      l (map (fun r => mkRE (@gdist NumF p f0 0 r) (gover p r) (gcost p pen r)) l)).
    { induction l as [|r l IH]; intro H; cbn [map]; constructor.
      - assert (I : In r routes) by (apply H; now left). cbn [re_distance re_overload]. split.
        + apply (gdist_route p d q cap IG D); auto; [now apply IN|]. apply (BD (ztour d) routes); auto. intros; now apply NL.
        + apply (gover_int p d q cap IG D); [now apply IN|]. apply (BD (zload q) routes); auto. intros; now apply NL.
      - apply IH. intros x X. apply H. now right. }
    apply A. apply incl_refl.
  - apply (gfeasible_int p d q cap IG D); auto. apply (BD (zload q) routes); auto. intros; now apply NL.
  - intros FP FE. eexists. split; [reflexivity|]. apply (gtotal_int p d q cap IG D); auto.
    apply (gfeasible_int p d q cap IG D); auto. apply (BD (zload q) routes); auto. intros; now apply NL.
Qed.
Print Assumptions C48_evaluation_exact.

(** A case: three customers, demands 7, capacity 15; [[1; 2]; [3]] fits and costs 50, the route
    [1; 2; 3] is over capacity. *)
Definition fl_d (a b : nat) : Z := if Nat.eqb a b then 0 else 10.
Definition fl_p : @problem NumF :=
  @mkProblem NumF 4 (fun a b => d_of_Z (fl_d a b)) (fun a => if Nat.eqb a 0 then d_of_Z 0 else d_of_Z 7) (fun _ => (d_of_Z 0, d_of_Z 0))
    (d_of_Z 15) (fun _ => []) (fun _ _ => d_of_Z 0) (fun _ => d_of_Z 0) (fun x => x) (fun _ => 0).
Example C48_applicable :
  integral fl_p fl_d (fun a => if Nat.eqb a 0 then 0 else 7) 15 /\
  zsum (map (ztour fl_d) [[1; 2]; [3]]%nat) = 50 /\
  (forall x y, @evaluate NumF fl_p (d_lit 1 10) se_new [[1; 2]; [3]]%nat = Ok x -> @evaluate NumF fl_p (d_lit 1 10) se_new [[1; 2; 3]]%nat = Ok y ->
     se_feasible x = true /\ se_feasible y = false).
Proof.
  split; [|split; [reflexivity|]].
  - assert (B : forall z, 0 <= z < 20 -> is_int (d_of_Z z) z /\ 0 <= z) by (intros z H; split; [apply int_of_Z; unfold exact_bound; lia|lia]).
    constructor.
    + intros a b _ _. cbn [p_dist fl_p]. apply B. unfold fl_d. destruct (Nat.eqb a b); lia.
    + intros a _. cbn [p_demand fl_p]. destruct (Nat.eqb a 0); apply B; lia.
    + cbn [p_cap fl_p]. split; [apply B; lia|unfold exact_bound; lia].
  - intros x y EX EY.
    assert (A : match @evaluate NumF fl_p (d_lit 1 10) se_new [[1; 2]; [3]]%nat with Ok x => se_feasible x | Err _ => false end = true) by (vm_compute; reflexivity).
    assert (B : match @evaluate NumF fl_p (d_lit 1 10) se_new [[1; 2; 3]]%nat with Ok x => se_feasible x | Err _ => true end = false) by (vm_compute; reflexivity).
    rewrite EX in A. rewrite EY in B. auto.
Qed.
