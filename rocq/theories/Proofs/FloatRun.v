(** The genetic algorithm in double precision on integral data. *)
From Coq Require Import List Arith NArith ZArith Reals Bool Lia Lra Psatz Permutation.
From Flocq Require Import Core BinarySingleNaN Relative.
From Verif.Model Require Import Num NumFloat Prelude Evaluate Individual Config Split Matrix Population LocalSearch World Schedule RuinRecreate Genetic.
From Verif.Spec Require Import Floats Solution Library Population LocalSearch RuinRecreate Genetic.
From Verif.Proofs Require Import Lists EvalFacts EvalThms SplitStruct SplitPart RrRuin RrRecreate RrRun RrMachine GaInv GaQ FloatFacts FloatPenalty.
Import ListNotations.
Open Scope Z_scope.

Local Notation fx := (SpecFloat.fexp 53 1024).
Local Notation rnd := (round radix2 fx ZnearestE).
Local Existing Instance fx_valid.

(** ** Comparisons with the tolerance *)

Lemma eps_small : (0 < B2R (d_lit 1 1000000) < 1 / 4)%R /\ is_finite (d_lit 1 1000000) = true.
Proof.
  split; [|vm_compute; reflexivity].
  rewrite <- SF2R_B2SF. replace (B2SF (d_lit 1 1000000)) with (SpecFloat.S754_finite false 4722366482869645 (-72)) by (vm_compute; reflexivity).
  unfold SF2R, F2R. cbn [SpecFloat.cond_Zopp Fnum Fexp].
  change (bpow radix2 (-72)) with (/ IZR 4722366482869645213696)%R. lra.
Qed.

(** Subtracting the tolerance moves an integer by less than a half. *)
Lemma sub_eps x a : is_int x a -> Z.abs a < exact_bound ->
  is_finite (dsub x (d_lit 1 1000000)) = true /\
  (IZR a - 1 / 2 < B2R (dsub x (d_lit 1 1000000)) <= IZR a)%R.
Proof.
  intros [F1 R1] H. destruct eps_small as [[E1 E2] FE].
  pose proof (Bminus_correct 53 1024 prec_pos prec_emax mode_NE x _ F1 FE) as B.
  change (round_mode mode_NE) with ZnearestE in B. rewrite R1 in B.
  set (e := B2R (d_lit 1 1000000)) in *.
  assert (N : (Rabs (rnd (IZR a - e) - (IZR a - e)) <= Rabs (IZR a - (IZR a - e)))%R).
  { pose proof (round_N_pt radix2 fx (fun x => negb (Z.even x)) (IZR a - e)) as [_ P]. apply P. now apply int_format. }
  replace (IZR a - (IZR a - e))%R with e in N by ring. rewrite (Rabs_pos_eq e) in N by lra.
  assert (U : (rnd (IZR a - e) <= IZR a)%R).
  { rewrite <- (int_round a H) at 2. apply round_le; [apply fx_valid|apply valid_rnd_N|lra]. }
  assert (Lo : (IZR a - 1 / 2 < rnd (IZR a - e))%R) by (revert N; unfold Rabs; destruct (Rcase_abs _); lra).
  rewrite Rlt_bool_true in B.
  - destruct B as (B1 & B2 & _). unfold dsub. rewrite B1. auto.
  - assert (A : (Rabs (IZR a) <= IZR (exact_bound - 1))%R) by (rewrite <- abs_IZR; apply IZR_le; lia).
    apply Rle_lt_trans with (IZR exact_bound).
    + rewrite minus_IZR in A. revert A. unfold Rabs. destruct (Rcase_abs _), (Rcase_abs _); lra.
    + change exact_bound with (Zpower radix2 53). rewrite IZR_Zpower by lia. apply bpow_lt. lia.
Qed.

Lemma int_approx_lt x y a b : is_int x a -> is_int y b -> Z.abs b < exact_bound ->
  @approx_lt NumF x y = (a <? b).
Proof.
  intros X Y H. destruct (sub_eps y b Y H) as [FD [D1 D2]]. destruct X as [FX RX].
  unfold approx_lt. change (@flt NumF) with dlt. change (@fsub NumF) with dsub. change (@feps NumF) with (d_lit 1 1000000).
  set (z := dsub y _) in *. unfold dlt. rewrite Bltb_correct by auto. rewrite RX.
  destruct (Z.ltb_spec a b) as [K|K].
  - apply Rlt_bool_true. assert (IZR a <= IZR (b - 1))%R by (apply IZR_le; lia). rewrite minus_IZR in *. lra.
  - apply Rlt_bool_false. assert (IZR b <= IZR a)%R by (apply IZR_le; lia). lra.
Qed.

Lemma int_below_inf x a : is_int x a -> @flt_inf NumF x = true.
Proof. intros [FX _]. destruct x as [|[]| |[]]; try discriminate; reflexivity. Qed.

Lemma int_approx_zero x a : is_int x a -> Z.abs a < exact_bound -> @approx_eq NumF x (@f0 NumF) = (a =? 0).
Proof.
  intros X H. pose proof (int_sub _ _ _ _ X int_zero ltac:(lia)) as S. rewrite Z.sub_0_r in S.
  destruct eps_small as [[E1 E2] FE].
  unfold approx_eq. change (@flt NumF) with dlt. change (@fsub NumF) with dsub. change (@fabs NumF) with (@Babs 53 1024). change (@feps NumF) with (d_lit 1 1000000).
  destruct S as [FS RS]. set (z := dsub x (@f0 NumF)) in *. unfold dlt. rewrite Bltb_correct; [|rewrite is_finite_Babs; auto|auto].
  rewrite B2R_Babs, RS, <- abs_IZR. destruct (Z.eqb_spec a 0) as [->|K].
  - apply Rlt_bool_true. change (IZR (Z.abs 0)) with 0%R. lra.
  - apply Rlt_bool_false. assert (1 <= IZR (Z.abs a))%R by (apply (IZR_le 1); lia). lra.
Qed.

(** ** Magnitudes *)

Definition within (x : dbl) (e : Z) : Prop := is_finite x = true /\ (0 <= B2R x <= bpow radix2 e)%R.

Lemma bpow_format e : 0 <= e < 1024 -> generic_format radix2 fx (bpow radix2 e).
Proof.
  intro H. change fx with (FLT_exp (3 - 1024 - 53) 53). apply generic_format_bpow. unfold FLT_exp. lia.
Qed.
Lemma round_within x e : 0 <= e < 1024 -> (0 <= x <= bpow radix2 e)%R -> (0 <= rnd x <= bpow radix2 e)%R.
Proof.
  intros E [A B]. split.
  - replace 0%R with (rnd 0) by (apply round_0, valid_rnd_N). apply round_le; [apply fx_valid|apply valid_rnd_N|lra].
  - rewrite <- (round_generic radix2 fx ZnearestE (bpow radix2 e)) by now apply bpow_format.
    apply round_le; [apply fx_valid|apply valid_rnd_N|lra].
Qed.
Lemma within_small x e : 0 <= e < 1024 -> (0 <= x <= bpow radix2 e)%R -> Rlt_bool (Rabs (rnd x)) (bpow radix2 1024) = true.
Proof.
  intros E B. apply (round_within x e E) in B. apply Rlt_bool_true. rewrite Rabs_pos_eq by lra.
  apply Rle_lt_trans with (bpow radix2 e); [lra|]. apply bpow_lt. lia.
Qed.
Lemma add_within x y e : within x e -> within y e -> 0 <= e < 1000 -> within (dadd x y) (e + 1).
Proof.
  intros [F1 R1] [F2 R2] H. pose proof (Bplus_correct 53 1024 prec_pos prec_emax mode_NE x y F1 F2) as B.
  change (round_mode mode_NE) with ZnearestE in B.
  assert (S : (0 <= B2R x + B2R y <= bpow radix2 (e + 1))%R).
  { rewrite bpow_plus. change (bpow radix2 1) with 2%R. lra. }
  rewrite (within_small _ (e + 1)) in B by (auto; lia).
  destruct B as (B1 & B2 & _). split; [exact B2|]. unfold dadd. rewrite B1. apply round_within; auto. lia.
Qed.
Lemma mul_within x y e1 e2 : within x e1 -> within y e2 -> 0 <= e1 -> 0 <= e2 -> e1 + e2 < 1000 -> within (dmul x y) (e1 + e2).
Proof.
  intros [F1 R1] [F2 R2] H1 H2 H. pose proof (Bmult_correct 53 1024 prec_pos prec_emax mode_NE x y) as B.
  change (round_mode mode_NE) with ZnearestE in B.
  assert (S : (0 <= B2R x * B2R y <= bpow radix2 (e1 + e2))%R).
  { rewrite bpow_plus. split; [apply Rmult_le_pos; lra|]. apply Rmult_le_compat; lra. }
  rewrite (within_small _ (e1 + e2)) in B by (auto; lia).
  destruct B as (B1 & B2 & _). rewrite F1, F2 in B2. split; [exact B2|]. unfold dmul. rewrite B1. apply round_within; auto. lia.
Qed.
Lemma int_within x a : is_int x a -> 0 <= a < exact_bound -> within x 53.
Proof.
  intros [FX RX] H. split; [exact FX|]. rewrite RX. split; [apply (IZR_le 0); lia|].
  change (bpow radix2 53) with (IZR exact_bound). apply IZR_le. lia.
Qed.
Lemma within_more x e e' : within x e -> e <= e' -> within x e'.
Proof. intros [A B] H. split; auto. assert (bpow radix2 e <= bpow radix2 e')%R by now apply bpow_le. lra. Qed.

(** ** Random numbers below one *)

Lemma fx_normal e : -1000 <= e -> fx e = e - 53.
Proof. intro H. unfold SpecFloat.fexp, SpecFloat.emin. lia. Qed.

Lemma round_below_one (r : R) n : generic_format radix2 fx r -> (0 <= r < 1)%R -> 0 < n < exact_bound -> (rnd (r * IZR n) < IZR n)%R.
Proof.
  intros FR [R0 R1] HN.
  assert (RB : (r <= 1 - bpow radix2 (-53))%R).
  { change 1%R with (bpow radix2 0) in R1 |- *.
    apply (pred_ge_gt radix2 fx) in R1; [|exact FR|apply bpow_format; lia].
    rewrite pred_bpow, (fx_normal 0) in R1 by lia. exact R1. }
  assert (FN : generic_format radix2 fx (IZR n)) by (apply int_format; lia).
  assert (NP : (1 <= IZR n)%R) by (apply (IZR_le 1); lia).
  assert (B53 : (0 < bpow radix2 (-53))%R) by apply bpow_gt_0.
  assert (PL : (pred radix2 fx (IZR n) < IZR n)%R) by (apply pred_lt_id; lra).
  apply Rle_lt_trans with (2 := PL).
  apply (round_N_le_midp radix2 fx (fun x => negb (Z.even x))); [apply generic_format_pred; auto; exact fx_valid|].
  rewrite succ_pred by (exact fx_valid || exact FN).
  assert (M : (r * IZR n <= IZR n - bpow radix2 (-53) * IZR n)%R) by nra.
  apply Rle_lt_trans with (1 := M).
  assert (HE : exists e, (bpow radix2 (e - 1) <= IZR n < bpow radix2 e)%R).
  { destruct (mag radix2 (IZR n)) as [e He]. exists e. specialize (He ltac:(lra)). now rewrite Rabs_pos_eq in He by lra. }
  destruct HE as [e He].
  assert (E1 : 1 <= e).
  { assert (bpow radix2 0 < bpow radix2 e)%R by (cbn [bpow]; lra). apply lt_bpow in H. lia. }
  assert (ME : mag_val radix2 (IZR n) (mag radix2 (IZR n)) = e) by (apply mag_unique_pos; exact He).
  rewrite pred_eq_pos by lra. unfold pred_pos. rewrite ME. case Req_bool_spec; intro Q.
  - rewrite (fx_normal (e - 1)) by lia.
    replace (e - 1 - 53) with (-53 + (e - 1)) by lia. rewrite bpow_plus, <- Q. nra.
  - rewrite ulp_neq_0 by lra. unfold cexp. rewrite ME, (fx_normal e) by lia.
    replace (e - 53) with (-53 + (1 + (e - 1))) by lia. rewrite !bpow_plus.
    change (bpow radix2 1) with 2%R. assert (bpow radix2 (e - 1) < IZR n)%R by lra. nra.
Qed.

Lemma u64_below (x : dbl) n : is_finite x = true -> (B2R x < IZR (Z.of_nat n))%R -> (0 < n)%nat ->
  (d_to_u64 (@Bnearbyint 53 1024 prec_emax mode_DN x) < n)%nat.
Proof.
  intros FX H HN. destruct (Bnearbyint_correct 53 1024 prec_emax mode_DN x) as (A & B & _).
  set (y := Bnearbyint mode_DN x) in *. rewrite FX in B. change (round_mode mode_DN) with Zfloor in A. rewrite round_FIX_IZR in A.
  assert (T : Btrunc y = Zfloor (B2R x)).
  { apply eq_IZR. rewrite (Btrunc_correct 53 1024 prec_emax), round_FIX_IZR, A. f_equal. apply Ztrunc_IZR. }
  assert (ZL : Zfloor (B2R x) < Z.of_nat n).
  { apply lt_IZR. apply Rle_lt_trans with (B2R x); auto. apply Zfloor_lb. }
  assert (G : (Z.to_nat (Z.min (2 ^ 64 - 1) (Btrunc y)) < n)%nat) by (rewrite T; lia).
  unfold d_to_u64. destruct y; try discriminate; exact G.
Qed.

Lemma round_le_pos x : (x <= 0)%R -> (rnd x <= 0)%R.
Proof. intro H. replace 0%R with (rnd 0) by (apply round_0, valid_rnd_N). apply round_le; [apply fx_valid|apply valid_rnd_N|exact H]. Qed.

Lemma real_below (r x : dbl) n : is_finite r = true -> (0 <= B2R r < 1)%R -> (0 < n)%nat -> Z.of_nat n < exact_bound ->
  (@ffloor NumF (dmul r (dmin x (d_of_Z (Z.of_nat n)))) < n)%nat.
Proof.
  intros FR RB HN HB. pose proof (int_of_Z (Z.of_nat n) ltac:(lia)) as [FN RN]. set (m := d_of_Z (Z.of_nat n)) in *. clearbody m.
  assert (G : forall y : dbl, is_finite y = true -> (B2R y <= IZR (Z.of_nat n))%R -> (@ffloor NumF (dmul r y) < n)%nat).
  { intros y FY HY. pose proof (Bmult_correct 53 1024 prec_pos prec_emax mode_NE r y) as B.
    change (round_mode mode_NE) with ZnearestE in B.
    assert (S : (Rabs (rnd (B2R r * B2R y)) < bpow radix2 1024)%R).
    { apply Rle_lt_trans with (Rabs (B2R y)); [|apply abs_B2R_lt_emax].
      apply abs_round_le_generic; [apply fx_valid|apply valid_rnd_N|apply generic_format_abs, generic_format_B2R|].
      rewrite Rabs_mult. rewrite (Rabs_pos_eq (B2R r)) by lra. pose proof (Rabs_pos (B2R y)). nra. }
    rewrite Rlt_bool_true in B by exact S. destruct B as (B1 & B2 & _). rewrite FR, FY in B2.
    change (@ffloor NumF (dmul r y)) with (d_to_u64 (@Bnearbyint 53 1024 prec_emax mode_DN (dmul r y))). apply u64_below; auto. unfold dmul. rewrite B1.
    destruct (Rle_lt_dec (B2R y) 0) as [Y0|Y0].
    - apply Rle_lt_trans with 0%R; [apply round_le_pos; nra|]. apply (IZR_lt 0). lia.
    - apply Rle_lt_trans with (rnd (B2R r * IZR (Z.of_nat n))).
      + apply round_le; [apply fx_valid|apply valid_rnd_N|nra].
      + apply round_below_one; [apply generic_format_B2R|exact RB|lia]. }
  unfold dmin. destruct (is_nan x) eqn:EN; [apply G; auto; lra|]. destruct (dlt m x) eqn:EL; [apply G; auto; lra|].
  destruct (is_finite x) eqn:FX.
  - apply G; auto. rewrite <- RN. apply Rnot_lt_le. intro K. apply (dlt_R m x FN FX) in K. congruence.
  - destruct x as [|s| |]; try discriminate. destruct s.
    + destruct r as [s|s| |[] mm e H]; try discriminate; try (cbn; exact HN).
      exfalso. cbn in RB. assert (F2R (beta := radix2) {| Fnum := Z.neg mm; Fexp := e |} < 0)%R by (apply F2R_lt_0; reflexivity). lra.
    + exfalso. destruct m as [|[]| |[]]; discriminate.
Qed.

Lemma below_F (p : @problem NumF) : unit_doubles p -> Z.of_nat (p_dim p) <= exact_bound -> @reals_below_one NumF p.
Proof. intros U HD z x n Hn. destruct (U z) as [U1 U2]. apply real_below; auto; lia. Qed.

(** ** Sums over integers *)

Lemma zsum_app l1 l2 : zsum (l1 ++ l2) = zsum l1 + zsum l2.
Proof. induction l1; cbn [app zsum]; lia. Qed.
Lemma zsum_perm l l' : Permutation l l' -> zsum l = zsum l'.
Proof. induction 1; cbn [zsum]; lia. Qed.
Lemma zload_app q l1 l2 : zload q (l1 ++ l2) = zload q l1 + zload q l2.
Proof. unfold zload. now rewrite map_app, zsum_app. Qed.
Lemma zload_cons q x l : zload q (x :: l) = q x + zload q l.
Proof. reflexivity. Qed.
Lemma zload_perm q l l' : Permutation l l' -> zload q l = zload q l'.
Proof. intro H. apply zsum_perm. now apply Permutation_map. Qed.

Lemma nodup_rest {A} (l l' : list A) : NoDup l -> incl l l' -> exists rest, Permutation l' (l ++ rest).
Proof.
  revert l'. induction l as [|x l IH]; intros l' ND HI; [exists l'; reflexivity|].
  inversion ND as [|? ? NI ND']; subst.
  destruct (in_split x l' (HI x (or_introl eq_refl))) as (a & b & ->).
  destruct (IH (a ++ b) ND') as (rest & P).
  { intros y Hy. assert (K : In y (a ++ x :: b)) by (apply HI; now right). apply in_app_or in K. apply in_or_app.
    destruct K as [K|[<-|K]]; auto. contradiction. }
  exists rest. cbn [app]. rewrite <- P. symmetry. apply Permutation_middle.
Qed.

Lemma zwalk_app d a x b : zwalk d (a ++ x :: b) = zwalk d (a ++ [x]) + zwalk d (x :: b).
Proof.
  induction a as [|y a IH]; [cbn [app zwalk]; lia|]. destruct a as [|z a].
  - cbn [app]. change (zwalk d (y :: x :: b)) with (d y x + zwalk d (x :: b)). change (zwalk d [y; x]) with (d y x + 0). lia.
  - change (zwalk d ((y :: z :: a) ++ x :: b)) with (d y z + zwalk d ((z :: a) ++ x :: b)).
    change (zwalk d ((y :: z :: a) ++ [x])) with (d y z + zwalk d ((z :: a) ++ [x])). rewrite IH. lia.
Qed.
Lemma zwalk_last d a x : zwalk d (0%nat :: a ++ [x]) = zwalk d (0%nat :: a) + d (last a 0%nat) x.
Proof.
  destruct a as [|y a] using rev_ind; [cbn; lia|]. clear IHa. rewrite last_last, <- app_assoc. cbn [app].
  rewrite (app_comm_cons a), (app_comm_cons a), zwalk_app. cbn [app]. change (zwalk d [y; x]) with (d y x + 0). lia.
Qed.
Lemma zwalk_hd d x b : zwalk d (x :: b ++ [0%nat]) = d x (hd 0%nat b) + zwalk d (b ++ [0%nat]).
Proof. destruct b; reflexivity. Qed.
Lemma ztour_parts d a b : ztour d (a ++ b) = zwalk d (0%nat :: a) + d (last a 0%nat) (hd 0%nat b) + zwalk d (b ++ [0%nat]).
Proof.
  unfold ztour. rewrite <- app_assoc. destruct b as [|y b]; cbn [app hd].
  - rewrite zwalk_last. change (zwalk d [0%nat]) with 0. lia.
  - rewrite app_comm_cons, zwalk_app. cbn [app]. rewrite zwalk_last. lia.
Qed.
Lemma ztour_mid d a x b : ztour d (a ++ x :: b) =
  ztour d (a ++ b) + d (last a 0%nat) x + d x (hd 0%nat b) - d (last a 0%nat) (hd 0%nat b).
Proof.
  rewrite (ztour_parts d a (x :: b)), (ztour_parts d a b). cbn [hd app]. rewrite zwalk_hd. lia.
Qed.

(** ** Routes, costs and penalties *)
Definition lowF : dbl := d_lit 1 10000.
Definition highF : dbl := d_lit 10000000 1.
Definition usualF (x : @F NumF) : Prop := in_range lowF highF x.

Lemma range_fin (lo hi x : dbl) : is_finite lo = true -> is_finite hi = true -> in_range lo hi x -> is_finite x = true.
Proof.
  intros FL FH [A B]. destruct x as [s|s| |s m e H]; auto; exfalso.
  destruct s; unfold Bleb, SpecFloat.SFleb in *; cbn in *; [destruct lo as [|[]| |]|destruct hi as [|[]| |[]]]; discriminate.
Qed.
Lemma low_finF : is_finite lowF = true. Proof. vm_compute. reflexivity. Qed.
Lemma high_finF : is_finite highF = true. Proof. vm_compute. reflexivity. Qed.
Lemma top_finF : is_finite (d_lit 10000 1) = true. Proof. vm_compute. reflexivity. Qed.
Lemma low_highF : dlt lowF highF = true. Proof. vm_compute. reflexivity. Qed.
Lemma low_topF : dlt lowF (d_lit 10000 1) = true. Proof. vm_compute. reflexivity. Qed.
Lemma high_more : dle (d_lit 10000 1) highF = true. Proof. vm_compute. reflexivity. Qed.
Lemma low_zero : dle (d_of_Z 0) lowF = true. Proof. vm_compute. reflexivity. Qed.
Lemma high_two : dle highF (d_of_Z (2 ^ 24)) = true. Proof. vm_compute. reflexivity. Qed.
Lemma usual_clampF (x : @F NumF) : usualF (@clamp_penalty NumF x).
Proof. exact (clamp_range lowF highF low_finF high_finF low_highF x). Qed.
Lemma usual_initialF md dm : usualF (@initial_penalty NumF md dm).
Proof.
  destruct md as [a|], dm as [b|]; [|split; vm_compute; reflexivity..].
  pose proof (clamp_range lowF (d_lit 10000 1) low_finF top_finF low_topF (ddiv a b)) as R.
  change (clamp lowF (d_lit 10000 1) (ddiv a b)) with (@initial_penalty NumF (Some a) (Some b)) in R.
  set (x := @initial_penalty NumF (Some a) (Some b)) in *. clearbody x.
  pose proof (range_fin _ _ x low_finF top_finF R) as FX. destruct R as [R1 R2]. split; [exact R1|].
  pose proof (proj1 (dle_R _ _ top_finF high_finF) high_more) as HM. apply (dle_R _ _ FX top_finF) in R2.
  apply (dle_R _ _ FX high_finF). lra.
Qed.
Lemma usual_finite x : usualF x -> is_finite x = true.
Proof. exact (range_fin lowF highF x low_finF high_finF). Qed.
Lemma usual_within x : usualF x -> within x 24.
Proof.
  intro H. pose proof (usual_finite x H) as FX. destruct H as [H1 H2]. split; [exact FX|].
  apply (dle_R _ _ low_finF FX) in H1. apply (dle_R _ _ FX high_finF) in H2.
  destruct (int_of_Z 0 eq_refl) as [F0 Z0]. destruct (int_of_Z (2 ^ 24) eq_refl) as [F1 Z1].
  pose proof (proj1 (dle_R _ _ F0 low_finF) low_zero) as L0. pose proof (proj1 (dle_R _ _ high_finF F1) high_two) as H0.
  rewrite Z0 in L0. rewrite Z1 in H0.
  change (bpow radix2 24) with (IZR (2 ^ 24)). lra.
Qed.

Lemma big_large : is_finite (d_of_Z (10 ^ 30)) = true /\ (bpow radix2 99 <= B2R (d_of_Z (10 ^ 30)) <= bpow radix2 100)%R.
Proof.
  split; [vm_compute; reflexivity|]. rewrite <- SF2R_B2SF.
  replace (B2SF (d_of_Z (10 ^ 30))) with (SpecFloat.S754_finite false 7105427357601002 47) by (vm_compute; reflexivity).
  unfold SF2R, F2R. cbn [SpecFloat.cond_Zopp Fnum Fexp].
  change 99 with (52 + 47). change 100 with (53 + 47). rewrite !bpow_plus.
  assert (0 < bpow radix2 47)%R by apply bpow_gt_0.
  change (bpow radix2 52) with (IZR (2 ^ 52)). change (bpow radix2 53) with (IZR (2 ^ 53)).
  assert (IZR (2 ^ 52) <= 7105427357601002)%R by (apply IZR_le; vm_compute; discriminate).
  assert (7105427357601002 <= IZR (2 ^ 53))%R by (apply IZR_le; vm_compute; discriminate). nra.
Qed.

Section Run.
  Variable p : @problem NumF.
  Variable c : @config NumF.
  Variable d : nat -> nat -> Z.
  Variable q : nat -> Z.
  Variable cap : Z.
  Hypothesis II : integral_instance p c d q cap.
  Notation dim := (p_dim p).

  Lemma dim_pos : (0 < dim)%nat.
  Proof. pose proof (ii_dim _ _ _ _ _ II). lia. Qed.
  Lemma dim_small : Z.of_nat dim <= exact_bound.
  Proof. destruct (ii_small _ _ _ _ _ II) as (top & T1 & _ & T3). nia. Qed.

  Lemma dist_int a b : (a < dim)%nat -> (b < dim)%nat -> is_int (p_dist p a b) (d a b) /\ 0 <= d a b.
  Proof. apply (ig_dist _ _ _ _ (ii_data _ _ _ _ _ II)). Qed.
  Lemma demand_int a : (a < dim)%nat -> is_int (p_demand p a) (q a) /\ 0 <= q a.
  Proof. apply (ig_demand _ _ _ _ (ii_data _ _ _ _ _ II)). Qed.

  Lemma zwalk_bound top l : (forall a b, (a < dim)%nat -> (b < dim)%nat -> d a b <= top) -> 0 <= top -> (forall n, In n l -> (n < dim)%nat) ->
    0 <= zwalk d l <= Z.of_nat (length l - 1) * top.
  Proof.
    intros HT T0 HL. split; [apply (zwalk_nonneg p d q cap (ii_data _ _ _ _ _ II) dim_pos); auto|].
    induction l as [|a l IH]; [cbn; lia|]. destruct l as [|b l]; [cbn; lia|].
    change (zwalk d (a :: b :: l)) with (d a b + zwalk d (b :: l)).
    assert (zwalk d (b :: l) <= Z.of_nat (length (b :: l) - 1) * top) by (apply IH; intros; apply HL; now right).
    assert (d a b <= top) by (apply HT; apply HL; cbn; auto).
    cbn [length] in *. replace (S (S (length l)) - 1)%nat with (S (S (length l) - 1)) by lia. nia.
  Qed.
  Lemma route_in r : (forall n, In n r -> (n < dim)%nat) -> forall n, In n (0%nat :: r ++ [0%nat]) -> (n < dim)%nat.
  Proof.
    pose proof dim_pos. intros H1 n [<-|I]; auto. apply in_app_iff in I. destruct I as [I|[<-|[]]]; auto.
  Qed.
  Lemma ztour_bound top r : (forall a b, (a < dim)%nat -> (b < dim)%nat -> d a b <= top) -> 0 <= top -> (forall n, In n r -> (n < dim)%nat) ->
    0 <= ztour d r <= (Z.of_nat (length r) + 1) * top.
  Proof.
    intros HT T0 HL. pose proof (zwalk_bound top _ HT T0 (route_in r HL)) as B. cbn [length] in B. rewrite app_length in B. cbn [length] in B.
    replace (S (length r + 1) - 1)%nat with (length r + 1)%nat in B by lia. unfold ztour. nia.
  Qed.

  Lemma proper_in nodes : proper p nodes -> forall n, In n nodes -> (n < dim)%nat.
  Proof. intros [_ P] n H. apply P in H. lia. Qed.
  Lemma proper_length nodes : proper p nodes -> (length nodes < dim)%nat.
  Proof.
    intros [ND P]. assert (L : (length nodes <= length (seq 1 (dim - 1)))%nat).
    { apply NoDup_incl_length; auto. intros n H. apply P in H. apply in_seq. lia. }
    rewrite seq_length in L. pose proof dim_pos. lia.
  Qed.
  Lemma proper_tour nodes : proper p nodes -> 0 <= ztour d nodes < exact_bound.
  Proof.
    intro P. destruct (ii_small _ _ _ _ _ II) as (top & T1 & T2 & T3).
    pose proof (ztour_bound top nodes T2 ltac:(lia) (proper_in _ P)). pose proof (proper_length _ P). nia.
  Qed.
  Lemma proper_load nodes : proper p nodes -> 0 <= zload q nodes <= zload q (seq 1 (dim - 1)).
  Proof.
    intros P. pose proof (zload_nonneg p d q cap (ii_data _ _ _ _ _ II) dim_pos) as NN. split; [apply NN, proper_in, P|].
    destruct P as [ND P]. destruct (nodup_rest nodes (seq 1 (dim - 1)) ND) as (rest & PE).
    { intros n H. apply P in H. apply in_seq. lia. }
    rewrite (zload_perm q _ _ PE), zload_app. assert (0 <= zload q rest); [|lia]. apply NN. intros n Hn.
    assert (K : In n (seq 1 (dim - 1))) by (eapply Permutation_in; [symmetry; exact PE|apply in_or_app; auto]).
    apply in_seq in K. lia.
  Qed.

  Definition exactF (ro : @rroute NumF) : Prop :=
    proper p (ro_nodes ro) /\ is_int (ro_dist ro) (ztour d (ro_nodes ro)) /\ is_int (ro_over ro) (zload q (ro_nodes ro) - cap).

  Lemma exactF_eval nodes : proper p nodes -> exactF (mkRoute nodes (gdist p (@f0 NumF) 0 nodes) (gover p nodes)).
  Proof.
    intro P. pose proof (proper_tour _ P). pose proof (proper_load _ P). pose proof (ii_load _ _ _ _ _ II).
    split; [exact P|]. cbn [ro_nodes ro_dist ro_over]. split.
    - apply (gdist_route p d q cap (ii_data _ _ _ _ _ II) dim_pos); [apply proper_in, P|lia].
    - apply (gover_int p d q cap (ii_data _ _ _ _ _ II) dim_pos); [apply proper_in, P|lia].
  Qed.

  Lemma last_in a x b : proper p (a ++ x :: b) -> (last a 0 < dim)%nat /\ (hd 0 b < dim)%nat /\ (x < dim)%nat.
  Proof.
    intro P. pose proof (proper_in _ P) as IN. pose proof dim_pos. split; [|split].
    - destruct a as [|y a] using rev_ind; [exact H|]. rewrite last_last. apply IN. rewrite <- app_assoc. apply in_or_app. right. now left.
    - destruct b as [|y b]; [exact H|]. apply IN. apply in_or_app. right. right. now left.
    - apply IN. apply in_or_app. right. now left.
  Qed.

  Lemma proper_mid a x b : proper p (a ++ x :: b) -> proper p (a ++ b).
  Proof.
    intros [ND P]. split; [eapply NoDup_remove_1; eauto|]. intros n H. apply P. apply in_app_iff in H. apply in_or_app. cbn. tauto.
  Qed.

  (** Distances are small compared to 2^53. *)
  Lemma three_small top a b e f g h : 1 <= top -> 2 * Z.of_nat dim * top < exact_bound -> 0 <= a <= top -> 0 <= b <= top -> 0 <= e <= top ->
    f = - a - b + e \/ f = - a + b + e -> g = - a -b \/ g = - a + b -> h = - a ->
    Z.abs f < exact_bound /\ Z.abs g < exact_bound /\ Z.abs h < exact_bound.
  Proof.
    intros T1 T2 A B C. pose proof (ii_dim _ _ _ _ _ II).
    assert (4 * top < exact_bound) by nia. lia.
  Qed.

  Lemma exactF_add ro i n ro' : exactF ro -> @ro_add NumF p ro i n = Ok ro' -> proper p (ro_nodes ro') -> exactF ro'.
  Proof.
    intros (P & H1 & H2) H P'. destruct (le_lt_dec i (length (ro_nodes ro))) as [L|L].
    - assert (E : ro_nodes ro = firstn i (ro_nodes ro) ++ skipn i (ro_nodes ro)) by now rewrite firstn_skipn.
      assert (Li : length (firstn i (ro_nodes ro)) = i) by (rewrite firstn_length; lia).
      unfold ro_add in H. pose proof (@delta_distance_ok NumF p ro _ _ n E) as D. rewrite Li in D. rewrite D in H.
      cbn [rbind] in H. injection H as <-. unfold exactF. cbn [ro_nodes ro_dist ro_over] in *.
      set (a := firstn i (ro_nodes ro)) in *. set (b := skipn i (ro_nodes ro)) in *.
      replace (insert_nth (ro_nodes ro) i n) with (a ++ n :: b) in * by (rewrite E, <- Li; symmetry; apply insert_nth_mid).
      split; [exact P'|]. rewrite E in *. destruct (last_in _ _ _ P') as (L1 & L2 & L3).
      destruct (dist_int (last a 0%nat) (hd 0%nat b)) as [D1 N1]; auto. destruct (dist_int (last a 0%nat) n) as [D2 N2]; auto.
      destruct (dist_int n (hd 0%nat b)) as [D3 N3]; auto. destruct (demand_int n L3) as [D4 N4].
      destruct (ii_small _ _ _ _ _ II) as (top & T1 & T2 & T3).
      pose proof (T2 _ _ L1 L2). pose proof (T2 _ _ L1 L3). pose proof (T2 _ _ L3 L2).
      pose proof (proper_tour _ P) as B1. pose proof (proper_tour _ P') as B2. pose proof (proper_load _ P) as B3. pose proof (proper_load _ P') as B4.
      pose proof (ii_load _ _ _ _ _ II) as B5. destruct (ig_cap _ _ _ _ (ii_data _ _ _ _ _ II)) as [_ B6].
      rewrite zload_app in B3, H2. rewrite zload_app, zload_cons in B4 |- *. rewrite ztour_mid in B2 |- *.
      destruct (three_small top (d (last a 0%nat) (hd 0%nat b)) (d (last a 0%nat) n) (d n (hd 0%nat b)) _ _ _ T1 T3 ltac:(lia) ltac:(lia) ltac:(lia) (or_intror eq_refl) (or_intror eq_refl) eq_refl) as (S1 & S2 & S3).
      split.
      + replace (ztour d (a ++ b) + d (last a 0%nat) n + d n (hd 0%nat b) - d (last a 0%nat) (hd 0%nat b))
          with (ztour d (a ++ b) + (0 - d (last a 0%nat) (hd 0%nat b) + d (last a 0%nat) n + d n (hd 0%nat b))) by lia.
        apply int_add; [exact H1| |lia]. unfold pdelta. apply int_add; [|exact D3|lia]. apply int_add; [|exact D2|lia]. refine (int_sub _ _ _ _ int_zero D1 _); lia.
      + replace (zload q a + (q n + zload q b) - cap) with (zload q a + zload q b - cap + q n) by lia.
        apply int_add; auto. lia.
    - exfalso. unfold ro_add, delta_distance in H. assert (Z : (i =? 0)%nat = false) by (apply Nat.eqb_neq; lia).
      rewrite Z in H. destruct (geti (ro_nodes ro) (i - 1)); [|discriminate]. cbn [rbind] in H.
      assert (Z2 : (i =? length (ro_nodes ro))%nat = false) by (apply Nat.eqb_neq; lia). rewrite Z2 in H.
      unfold geti in H. assert (Z3 : nth_error (ro_nodes ro) i = None) by (apply nth_error_None; lia).
      rewrite Z3 in H. discriminate.
  Qed.

  Lemma exactF_remove ro i n ro' : exactF ro -> @ro_remove NumF p ro i = Ok (n, ro') -> exactF ro'.
  Proof.
    intros (P & H1 & H2) H. unfold ro_remove in H.
    destruct (if (i =? 0)%nat then Ok 0%nat else geti (ro_nodes ro) (i - 1)) as [pr|] eqn:EP; [|discriminate]. cbn [rbind] in H.
    destruct (if (i =? length (ro_nodes ro) - 1)%nat then Ok 0%nat else geti (ro_nodes ro) (i + 1)) as [nx|] eqn:EN; [|discriminate]. cbn [rbind] in H.
    destruct (geti (ro_nodes ro) i) as [x|] eqn:EX; [|discriminate]. cbn [rbind] in H. injection H as -> <-.
    apply geti_inv in EX. apply nth_error_split in EX. destruct EX as (a & b & E & La). subst i.
    assert (Pa : pr = last a 0%nat).
    { destruct a as [|y a]; cbn [length Nat.eqb] in EP; [injection EP as <-; reflexivity|].
      apply geti_inv in EP. rewrite E in EP. cbn [length] in EP.
      assert (G : nth_error ((y :: a) ++ n :: b) (length (y :: a) - 1) = Some (last (y :: a) 0%nat))
        by (apply last_nth; discriminate).
      cbn [length] in G. congruence. }
    assert (Nb : nx = hd 0%nat b).
    { rewrite E, app_length in EN. cbn [length] in EN. destruct b as [|y b].
      - replace (length a =? length a + S (length (@nil nat)) - 1)%nat with true in EN by (symmetry; apply Nat.eqb_eq; cbn; lia).
        injection EN as <-. reflexivity.
      - replace (length a =? length a + S (length (y :: b)) - 1)%nat with false in EN
          by (symmetry; apply Nat.eqb_neq; cbn; lia).
        apply geti_inv in EN. rewrite nth_error_app2 in EN by lia.
        replace (length a + 1 - length a)%nat with 1%nat in EN by lia. cbn in EN. injection EN as <-. reflexivity. }
    unfold exactF. cbn [ro_nodes ro_dist ro_over]. rewrite E, remove_nth_mid in *. subst pr nx.
    pose proof (proper_mid _ _ _ P) as P'. split; [exact P'|].
    destruct (last_in _ _ _ P) as (L1 & L2 & L3).
    destruct (dist_int (last a 0%nat) (hd 0%nat b)) as [D1 N1]; auto. destruct (dist_int (last a 0%nat) n) as [D2 N2]; auto.
    destruct (dist_int n (hd 0%nat b)) as [D3 N3]; auto. destruct (demand_int n L3) as [D4 N4].
    destruct (ii_small _ _ _ _ _ II) as (top & T1 & T2 & T3).
    pose proof (T2 _ _ L1 L2). pose proof (T2 _ _ L1 L3). pose proof (T2 _ _ L3 L2).
    pose proof (proper_tour _ P) as B1. pose proof (proper_tour _ P') as B2. pose proof (proper_load _ P) as B3. pose proof (proper_load _ P') as B4.
    pose proof (ii_load _ _ _ _ _ II) as B5. destruct (ig_cap _ _ _ _ (ii_data _ _ _ _ _ II)) as [_ B6].
    rewrite zload_app, zload_cons in H2, B3. rewrite zload_app in B4 |- *. rewrite ztour_mid in H1, B1.
    destruct (three_small top (d (last a 0%nat) n) (d n (hd 0%nat b)) (d (last a 0%nat) (hd 0%nat b)) _ _ _ T1 T3 ltac:(lia) ltac:(lia) ltac:(lia) (or_introl eq_refl) (or_introl eq_refl) eq_refl) as (S1 & S2 & S3).
    split.
    - replace (ztour d (a ++ b)) with (ztour d (a ++ b) + d (last a 0%nat) n + d n (hd 0%nat b) - d (last a 0%nat) (hd 0%nat b) +
        (0 - d (last a 0%nat) n - d n (hd 0%nat b) + d (last a 0%nat) (hd 0%nat b))) by lia.
      apply int_add; [exact H1| |lia]. apply int_add; [|exact D1|lia]. apply int_sub; [|exact D3|lia]. refine (int_sub _ _ _ _ int_zero D2 _); lia.
    - replace (zload q a + zload q b - cap) with (zload q a + (q n + zload q b) - cap - q n) by lia.
      apply int_sub; auto. lia.
  Qed.

  (** ** The split *)
  Section Split.
    Variable pen : dbl.
    Variable g : list nat.
    Hypothesis U : within pen 44.
    Hypothesis P : Permutation g (seq 1 (dim - 1)).

    Lemma gnode_in i : (gnode g i < dim)%nat.
    Proof.
      unfold gnode. destruct (le_lt_dec (length g) (i - 1)).
      - rewrite nth_overflow by lia. apply dim_pos.
      - assert (I : In (nth (i - 1) g 0%nat) (seq 1 (dim - 1))) by (eapply Permutation_in; [exact P|now apply nth_In]).
        apply in_seq in I. lia.
    Qed.
    Lemma cumD_int top : 1 <= top -> (forall a b, (a < dim)%nat -> (b < dim)%nat -> d a b <= top) -> 2 * Z.of_nat dim * top < exact_bound ->
      forall i, (i < dim)%nat -> exists z, is_int (@cumD NumF p g i) z /\ 0 <= z <= Z.of_nat i * top.
    Proof.
      intros T1 T2 T3. induction i as [|i IH]; intro Hi.
      - exists 0. split; [exact int_zero|lia].
      - destruct (IH ltac:(lia)) as (z & Z1 & Z2). cbn [cumD]. destruct i as [|i].
        + exists (z + 0). split; [apply int_add; [exact Z1|exact int_zero|unfold exact_bound in *; lia]|lia].
        + cbn [dnext]. assert (L : (S i <? dim - 1)%nat = true) by (apply Nat.ltb_lt; lia). rewrite L.
          destruct (dist_int (gnode g (S i)) (gnode g (S i + 1)) (gnode_in _) (gnode_in _)) as [D1 D2].
          pose proof (T2 _ _ (gnode_in (S i)) (gnode_in (S i + 1))) as D3.
          exists (z + d (gnode g (S i)) (gnode g (S i + 1))). split; [apply int_add; auto; nia|nia].
    Qed.
    Lemma cumQ_int i : (i <= length g)%nat -> is_int (@cumQ NumF p g i) (zload q (firstn i g)).
    Proof.
      pose proof (ii_load _ _ _ _ _ II) as B.
      assert (PR : forall i, proper p (firstn i g)).
      { intro j. assert (ND : NoDup g) by (eapply Permutation_NoDup; [symmetry; exact P|apply seq_NoDup]). split.
        - rewrite <- (firstn_skipn j g) in ND. now apply NoDup_app_inv in ND.
        - intros n Hn. assert (K : In n (seq 1 (dim - 1))); [|apply in_seq in K; lia].
          eapply Permutation_in; [exact P|]. rewrite <- (firstn_skipn j g). apply in_or_app. now left. }
      induction i as [|i IH]; intro Hi; [exact int_zero|].
      assert (E : firstn (S i) g = firstn i g ++ [gnode g (S i)]).
      { unfold gnode. replace (S i - 1)%nat with i by lia. clear -Hi. revert g Hi. induction i as [|i IH]; intros [|x l] H; cbn [length] in H; try lia; [reflexivity|].
        change (firstn (S (S i)) (x :: l)) with (x :: firstn (S i) l). rewrite IH by lia. reflexivity. }
      pose proof (proper_load _ (PR (S i))) as B1. rewrite E, zload_app, zload_cons in *. cbn [cumQ].
      change (zload q []) with 0 in *.
      destruct (demand_int _ (gnode_in (S i))) as [D1 D2]. rewrite Z.add_0_r in *.
      apply int_add; [apply IH; lia|exact D1|lia].
    Qed.

    Lemma big_enough_F : @big_enough NumF p pen g.
    Proof.
      intros i Hi. pose proof (ii_dim _ _ _ _ _ II) as D2.
      destruct (ii_small _ _ _ _ _ II) as (top & T1 & T2 & T3). pose proof (ii_load _ _ _ _ _ II) as B.
      assert (LG : length g = (dim - 1)%nat) by (rewrite (Permutation_length P); apply seq_length).
      unfold dominates. cbn [reset_row0]. destruct i as [|i0]; [lia|]. set (i := S i0) in *. cbn [reset_row0]. change (reset_row0 i) with (@fbig NumF).
      destruct (dist_int (gnode g (0 + 1)) 0%nat (gnode_in _) dim_pos) as [A1 A2]. pose proof (T2 _ _ (gnode_in (0 + 1)) dim_pos) as A3.
      destruct (dist_int (gnode g (i + 1)) 0%nat (gnode_in _) dim_pos) as [A4 A5]. pose proof (T2 _ _ (gnode_in (i + 1)) dim_pos) as A6.
      destruct (cumD_int top T1 T2 T3 (i + 1)) as (z & Z1 & Z2); [lia|].
      assert (C1 : is_int (@cumD NumF p g (0 + 1)) 0).
      { change (is_int (dadd (@f0 NumF) (@f0 NumF)) (0 + 0)). apply int_add; [exact int_zero|exact int_zero|reflexivity]. }
      pose proof (cumQ_int i ltac:(lia)) as Q1.
      assert (QB : 0 <= zload q (firstn i g) < exact_bound).
      { split.
        - apply (zload_nonneg p d q cap (ii_data _ _ _ _ _ II) dim_pos). intros n Hn.
          assert (K : In n (seq 1 (dim - 1))) by (eapply Permutation_in; [exact P|]; rewrite <- (firstn_skipn i g); apply in_or_app; now left).
          apply in_seq in K. lia.
        - assert (zload q (firstn i g) <= zload q g); [|rewrite (zload_perm q _ _ P) in *; lia].
          rewrite <- (firstn_skipn i g) at 2. rewrite zload_app.
          assert (0 <= zload q (skipn i g)); [|lia]. apply (zload_nonneg p d q cap (ii_data _ _ _ _ _ II) dim_pos). intros n Hn.
          assert (K : In n (seq 1 (dim - 1))) by (eapply Permutation_in; [exact P|]; rewrite <- (firstn_skipn i g); apply in_or_app; now right).
          apply in_seq in K. lia. }
      set (c1 := @cumD NumF p g (0 + 1)) in *. set (ci := @cumD NumF p g (i + 1)) in *. set (q0 := @cumQ NumF p g 0).
      set (qi := @cumQ NumF p g i) in *. set (lo := zload q (firstn i g)) in *.
      assert (Q2 : is_int (dsub qi q0) (lo - 0)) by (apply int_sub; [exact Q1|exact int_zero|lia]). rewrite Z.sub_0_r in Q2.
      assert (SB : 0 <= d (gnode g (0 + 1)) 0%nat + z < exact_bound).
      { assert (Z.of_nat (i + 1) <= Z.of_nat dim) by lia. assert (Z.of_nat (i + 1) * top <= Z.of_nat dim * top) by (apply Z.mul_le_mono_nonneg_r; lia).
        assert (1 * top <= Z.of_nat dim * top) by (apply Z.mul_le_mono_nonneg_r; lia). lia. }
      assert (SD : 0 <= d (gnode g (i + 1)) 0%nat < exact_bound).
      { assert (1 * top <= Z.of_nat dim * top) by (apply Z.mul_le_mono_nonneg_r; lia). lia. }
      assert (X1 : is_int (dadd (@f0 NumF) (ddepot p g (0 + 1))) (0 + d (gnode g (0 + 1)) 0%nat)).
      { apply int_add; [exact int_zero|exact A1|lia]. }
      assert (X2 : is_int (dadd (dadd (@f0 NumF) (ddepot p g (0 + 1))) ci) (0 + d (gnode g (0 + 1)) 0%nat + z)) by (apply int_add; [exact X1|exact Z1|lia]).
      assert (X3 : is_int (dsub (dadd (dadd (@f0 NumF) (ddepot p g (0 + 1))) ci) c1) (0 + d (gnode g (0 + 1)) 0%nat + z - 0)) by (apply int_sub; [exact X2|exact C1|lia]).
      apply int_within in X3; [|lia]. apply int_within in Q2; [|lia].
      pose proof (mul_within _ _ 44 53 U Q2 ltac:(lia) ltac:(lia) ltac:(lia)) as W.
      pose proof (add_within _ _ 97 (within_more _ 53 97 X3 ltac:(lia)) W ltac:(lia)) as [LF LB].
      destruct big_large as [BF BB].
      assert (DB : within (ddepot p g (i + 1)) 100).
      { apply (within_more _ 53); [|lia]. apply (int_within _ (d (gnode g (i + 1)) 0%nat)); [exact A4|lia]. }
      assert (RB : (bpow radix2 99 <= B2R (dadd (d_of_Z (10 ^ 30)) (ddepot p g (i + 1))))%R /\ is_finite (dadd (d_of_Z (10 ^ 30)) (ddepot p g (i + 1))) = true).
      { destruct DB as [DF DB]. pose proof (Bplus_correct 53 1024 prec_pos prec_emax mode_NE _ _ BF DF) as BP.
        change (round_mode mode_NE) with ZnearestE in BP.
        rewrite (within_small _ 101) in BP by (first [lia|replace 101 with (100 + 1) by lia; rewrite bpow_plus; change (bpow radix2 1) with 2%R; assert (0 < bpow radix2 99)%R by apply bpow_gt_0; lra]).
        destruct BP as (BP1 & BP2 & _). split; [|exact BP2]. unfold dadd. rewrite BP1.
        rewrite <- (round_generic radix2 fx ZnearestE (bpow radix2 99)) by (apply bpow_format; lia).
        apply round_le; [apply fx_valid|apply valid_rnd_N|lra]. }
      destruct RB as [RB RF].
      apply (dlt_R _ _ LF RF). apply Rle_lt_trans with (1 := proj2 LB). apply Rlt_le_trans with (2 := RB). apply bpow_lt. lia.
    Qed.
  End Split.

  Lemma split_fits44 : @split_fits NumF p c (fun x => within x 44).
  Proof.
    unfold split_fits. destruct (c_linear_split c); [|vm_compute; reflexivity].
    intros pen g U P. now apply big_enough_F.
  Qed.
  Lemma split_fitsF : @split_fits NumF p c usualF.
  Proof.
    pose proof split_fits44 as S. unfold split_fits in *. destruct (c_linear_split c); [|exact S].
    intros pen g U P. apply S; [|exact P]. apply (within_more _ 24); [now apply usual_within|lia].
  Qed.

  (** ** Solutions *)
  Lemma zload_concat rs : zload q (concat rs) = zsum (map (zload q) rs).
  Proof. induction rs as [|r rs IH]; [reflexivity|]. cbn [concat map zsum]. now rewrite zload_app, IH. Qed.

  Lemma serves_routes rs : serves_all_once dim rs -> forall r, In r rs -> proper p r.
  Proof. intros S r I. apply (perm_proper p rs []); [now rewrite app_nil_r|exact I]. Qed.
  Lemma serves_in rs : serves_all_once dim rs -> forall n, In n (concat rs) -> (n < dim)%nat.
  Proof. intros S n I. eapply Permutation_in in I; [|exact S]. apply in_seq in I. lia. Qed.

  Lemma serves_total rs : serves_all_once dim rs -> 0 <= zsum (map (ztour d) rs) < exact_bound.
  Proof.
    intros S. destruct (ii_small _ _ _ _ _ II) as (top & T1 & T2 & T3).
    assert (B : forall l, (forall r, In r l -> proper p r) -> 0 <= zsum (map (ztour d) l) <= 2 * Z.of_nat (length (concat l)) * top).
    { induction l as [|r l IH]; intro H; cbn [map zsum concat]; [cbn; lia|]. rewrite app_length, Nat2Z.inj_add.
      assert (IHl : 0 <= zsum (map (ztour d) l) <= 2 * Z.of_nat (length (concat l)) * top) by (apply IH; intros; apply H; now right).
      destruct r as [|x r].
      - change (ztour d []) with (d 0%nat 0%nat + 0). rewrite (ii_depot _ _ _ _ _ II). cbn [length]. lia.
      - assert (PR : proper p (x :: r)) by (apply H; now left).
        pose proof (ztour_bound top _ T2 ltac:(lia) (proper_in _ PR)) as TB. cbn [length] in *. nia. }
    specialize (B rs (serves_routes rs S)). pose proof (Permutation_length S) as PL. rewrite seq_length in PL. rewrite PL in B. nia.
  Qed.

  Lemma serves_loads rs : serves_all_once dim rs -> zsum (map (zload q) rs) < exact_bound.
  Proof. intros S. rewrite <- zload_concat, (zload_perm q _ _ S). apply (ii_load _ _ _ _ _ II). Qed.

  Lemma zload_below rs : serves_all_once dim rs -> forall r, In r rs -> zload q r < exact_bound.
  Proof.
    intros S r I. pose proof (proper_load _ (serves_routes _ S _ I)). pose proof (ii_load _ _ _ _ _ II). lia.
  Qed.

  (** Feasibility as ruin and recreate sees it. *)
  Lemma over_sum : forall (rs : list (@rroute NumF)) (acc : dbl) a, Forall exactF rs -> is_int acc a -> 0 <= a ->
    a + zsum (map (fun r => zload q (ro_nodes r)) rs) < exact_bound ->
    exists z, is_int (fold_left (fun (x : @F NumF) r => @fadd NumF x (@fmax NumF f0 (ro_over r))) rs acc) z /\
      a <= z < exact_bound /\ (z = 0 -> forall r, In r rs -> zload q (ro_nodes r) <= cap).
  Proof.
    induction rs as [|r rs IH]; intros acc a FA HA NA HB; cbn [fold_left map zsum] in *.
    - exists a. split; [exact HA|]. split; [lia|]. intros _ r [].
    - inversion FA as [|? ? (P & _ & O) FA']; subst. pose proof (proper_load _ P) as LB.
      destruct (ig_cap _ _ _ _ (ii_data _ _ _ _ _ II)) as [_ CB].
      assert (NS : 0 <= zsum (map (fun r => zload q (ro_nodes r)) rs)).
      { clear -FA' II. induction FA' as [|x l (P & _) FA' IH]; cbn [map zsum]; [lia|]. pose proof (proper_load _ P). lia. }
      pose proof (int_max _ _ _ _ int_zero O) as M.
      destruct (IH (dadd acc (dmax (@f0 NumF) (ro_over r))) (a + Z.max 0 (zload q (ro_nodes r) - cap))) as (z & Z1 & Z2 & Z3); auto.
      + apply int_add; auto. lia.
      + lia.
      + lia.
      + exists z. split; [exact Z1|]. split; [lia|]. intros E r' [<-|I]; [|now apply Z3]. lia.
  Qed.

  Lemma so_feasible_int s : Forall exactF (so_routes s) -> serves_all_once dim (routes_of s) -> @so_feasible NumF s = true ->
    forall r, In r (routes_of s) -> zload q r <= cap.
  Proof.
    intros FA S H r I. pose proof (serves_loads _ S) as LB. unfold routes_of in *. rewrite map_map in LB.
    destruct (over_sum (so_routes s) (@f0 NumF) 0 FA int_zero ltac:(lia) ltac:(lia)) as (z & Z1 & Z2 & Z3).
    unfold so_feasible in H. rewrite (int_approx_zero _ z Z1 ltac:(lia)) in H. apply Z.eqb_eq in H.
    apply in_map_iff in I. destruct I as (ro & <- & I). now apply Z3.
  Qed.

  Lemma int_mul_zero (x y : dbl) : is_int x 0 -> is_finite y = true -> is_int (dmul x y) 0.
  Proof.
    intros [F2 R2] F1. pose proof (Bmult_correct 53 1024 prec_pos prec_emax mode_NE x y) as B.
    change (round_mode mode_NE) with ZnearestE in B. rewrite R2, Rmult_0_l in B. change 0%R with (IZR 0) in B.
    rewrite int_small in B by reflexivity.
    destruct B as (B1 & B2 & _). rewrite F1, F2 in B2. split; [exact B2|]. unfold dmul. rewrite B1. now apply int_round.
  Qed.

  Lemma total_int (pen : dbl) : is_finite pen = true -> forall (rs : list (@rroute NumF)) (acc : dbl) a, Forall exactF rs ->
    (forall r, In r rs -> zload q (ro_nodes r) <= cap) -> is_int acc a -> 0 <= a ->
    a + zsum (map (fun r => ztour d (ro_nodes r)) rs) < exact_bound ->
    is_int (fold_left (fun (x : @F NumF) r => @fadd NumF x (@fadd NumF (ro_dist r) (@fmul NumF (@fmax NumF f0 (ro_over r)) pen))) rs acc)
      (a + zsum (map (fun r => ztour d (ro_nodes r)) rs)).
  Proof.
    intro FP. induction rs as [|r rs IH]; intros acc a FA HC HA NA HB; cbn [fold_left map zsum] in *.
    - now rewrite Z.add_0_r.
    - inversion FA as [|? ? (P & D & O) FA']; subst. pose proof (proper_tour _ P) as TB.
      assert (NS : 0 <= zsum (map (fun r => ztour d (ro_nodes r)) rs)).
      { clear -FA' II. induction FA' as [|x l (P & _) FA' IH]; cbn [map zsum]; [lia|]. pose proof (proper_tour _ P). lia. }
      assert (CA : zload q (ro_nodes r) <= cap) by (apply HC; now left).
      pose proof (int_max _ _ _ _ int_zero O) as M. rewrite Z.max_l in M by lia.
      rewrite Z.add_assoc. apply IH; auto; try lia; [intros; apply HC; now right|].
      apply int_add; [exact HA| |lia]. replace (ztour d (ro_nodes r)) with (ztour d (ro_nodes r) + 0) by lia.
      apply int_add; [exact D| |lia]. apply int_mul_zero; auto.
  Qed.

  Lemma so_total_int (pen : dbl) s : is_finite pen = true -> Forall exactF (so_routes s) -> serves_all_once dim (routes_of s) ->
    @so_feasible NumF s = true -> is_int (@so_total NumF pen s) (zsum (map (ztour d) (routes_of s))).
  Proof.
    intros FP FA S H. pose proof (so_feasible_int s FA S H) as HC. pose proof (serves_total _ S) as TB.
    unfold routes_of in *. rewrite map_map in *. apply (total_int pen FP (so_routes s) (@f0 NumF) 0 FA); auto using int_zero; try lia.
    intros r I. apply HC. now apply in_map.
  Qed.

  (** ** The history *)
  Definition length_of (i : @individual NumF) : Z := zsum (map (ztour d) (i_pheno i)).
  Definition record_okF (i : @individual NumF) : Prop := exact_record p d q cap (i_pheno i) (penalized_cost i).
  Definition improvingF (is : list (@individual NumF)) : Prop :=
    forall l1 a b l2, is = l1 ++ a :: b :: l2 -> length_of b < length_of a.
  Definition recordsF (b : option (@individual NumF)) (h : @history NumF) : Prop :=
    exists is, recorded hist_new is h /\ Forall record_okF is /\ improvingF is.

  Lemma improving_snocF is b : improvingF is -> (forall l a, is = l ++ [a] -> length_of b < length_of a) -> improvingF (is ++ [b]).
  Proof.
    intros IM HL l1 a b' l2 EQ. destruct l2 as [|z l2] using rev_ind.
    - change (is ++ [b] = l1 ++ [a] ++ [b']) in EQ. rewrite app_assoc in EQ. apply app_inj_tail in EQ as [-> <-]. eapply HL; eauto.
    - clear IHl2. rewrite app_comm_cons, app_comm_cons, app_assoc in EQ. apply app_inj_tail in EQ as [EQ _]. eapply IM; eauto.
  Qed.

  (** [cost]: what is compared with the best cost so far. *)
  Lemma recordsF_add b h i b' (cost : dbl) : recordsF b h -> record_okF i -> is_int cost (length_of i) ->
    oapprox_lt (Some (cost : @F NumF)) (h_best h) = true -> recordsF b' (hist_add h i).
  Proof.
    intros (is & RE & FA & IM) RO CI LT. exists (is ++ [i]). unfold recorded in *. split.
    { rewrite fold_left_app, <- RE. reflexivity. }
    split; [apply Forall_app; auto|]. apply improving_snocF; auto. intros l a ->.
    rewrite RE, recorded_best in LT. apply Forall_app in FA as [_ FA]. inversion FA as [|? ? (S & _ & x & EX & XI) _]; subst.
    rewrite EX in LT. cbn [oapprox_lt] in LT.
    pose proof (serves_total _ S). rewrite (int_approx_lt _ _ _ _ CI XI ltac:(lia)) in LT. now apply Z.ltb_lt in LT.
  Qed.

  Lemma geval_record (pen : dbl) e i : is_finite pen = true -> serves_all_once dim (i_pheno i) -> i_eval i = geval p pen e (i_pheno i) ->
    (forall r, In r (i_pheno i) -> zload q r <= cap) ->
    record_okF i /\ exists x : dbl, penalized_cost i = Some (x : @F NumF) /\ is_int x (length_of i).
  Proof.
    intros FP S EV HC. assert (X : exists x : dbl, penalized_cost i = Some (x : @F NumF) /\ is_int x (length_of i)).
    { exists (@gtotal NumF p pen (i_pheno i)). split; [unfold penalized_cost; now rewrite EV|].
      apply (gtotal_int p d q cap (ii_data _ _ _ _ _ II) dim_pos); auto; [now apply serves_in|]. apply serves_total; auto. }
    split; [|exact X]. split; [exact S|]. split; [exact HC|]. exact X.
  Qed.

  (** With an infinite penalty (or NaN) the cost of a feasible solution is NaN, which is not below
      any other cost: nothing is recorded. *)
  Lemma nan_add_l (x y : dbl) : is_nan x = true -> is_nan (dadd x y) = true.
  Proof. destruct x; try discriminate. intros _. destruct y; reflexivity. Qed.
  Lemma nan_add_r (x y : dbl) : is_nan y = true -> is_nan (dadd x y) = true.
  Proof. destruct y; try discriminate. intros _. destruct x; reflexivity. Qed.
  Lemma zero_int (x : dbl) : is_int x 0 -> exists s, x = B754_zero s.
  Proof.
    intros [FX RX]. destruct x as [s|s| |s m e b]; try discriminate FX; [now exists s|]. exfalso. cbn [B2R] in RX.
    apply eq_0_F2R in RX. destruct s; discriminate RX.
  Qed.
  Lemma nan_mul_l (pen x : dbl) : is_finite pen = false -> is_int x 0 -> is_nan (dmul pen x) = true.
  Proof. intros FP X. destruct (zero_int x X) as (s & ->). destruct pen; try discriminate FP; reflexivity. Qed.
  Lemma nan_mul_r (pen x : dbl) : is_finite pen = false -> is_int x 0 -> is_nan (dmul x pen) = true.
  Proof. intros FP X. destruct (zero_int x X) as (s & ->). destruct pen; try discriminate FP; reflexivity. Qed.
  Lemma nan_lt (x y : dbl) : is_nan x = true -> dlt x y = false.
  Proof. destruct x; try discriminate. reflexivity. Qed.
  Lemma nan_approx (x : dbl) o : is_nan x = true -> @oapprox_lt NumF (Some (x : @F NumF)) o = false.
  Proof. intro X. destruct o as [y|]; apply nan_lt, X. Qed.
  Lemma nan_fold {A} (f : A -> dbl) l : forall a, is_nan a = true -> is_nan (fold_left (fun a r => dadd a (f r)) l a) = true.
  Proof. induction l as [|x l IH]; intros a HA; [exact HA|]. apply IH, nan_add_l, HA. Qed.
  Lemma serves_some rs : serves_all_once dim rs -> rs <> [].
  Proof.
    intros S ->. unfold serves_all_once in S. apply Permutation_length in S. rewrite seq_length in S. cbn in S.
    pose proof (ii_dim _ _ _ _ _ II). lia.
  Qed.

  Lemma gtotal_nan (pen : dbl) rs : is_finite pen = false -> serves_all_once dim rs -> (forall r, In r rs -> zload q r <= cap) ->
    is_nan (@gtotal NumF p pen rs : dbl) = true.
  Proof.
    intros FP S HC. destruct rs as [|r rs]; [now apply serves_some in S|]. unfold gtotal. cbn [fold_left].
    apply (nan_fold (@gcost NumF p pen)). apply nan_add_r. unfold gcost, route_cost. apply nan_add_r, nan_mul_l; [exact FP|].
    assert (O : is_int (@gover NumF p r) (zload q r - cap)).
    { apply (gover_int p d q cap (ii_data _ _ _ _ _ II) dim_pos).
      - intros n I. apply (serves_in _ S). apply in_concat. exists r. split; [now left|exact I].
      - apply (zload_below (r :: rs)); [exact S|now left]. }
    pose proof (int_max _ _ _ _ int_zero O) as M. rewrite Z.max_l in M; [exact M|]. specialize (HC r (or_introl eq_refl)). lia.
  Qed.
  Lemma so_total_nan (pen : dbl) s : is_finite pen = false -> Forall exactF (so_routes s) -> serves_all_once dim (routes_of s) ->
    (forall r, In r (routes_of s) -> zload q r <= cap) -> is_nan (@so_total NumF pen s : dbl) = true.
  Proof.
    intros FP FA S HC. unfold so_total. unfold routes_of in *. destruct (so_routes s) as [|r rs]; [now apply serves_some in S|]. cbn [fold_left].
    apply (nan_fold (fun r : @rroute NumF => @fadd NumF (ro_dist r) (@fmul NumF (@fmax NumF f0 (ro_over r)) pen))).
    apply nan_add_r. apply nan_add_r, nan_mul_r; [exact FP|]. inversion FA as [|? ? (P & D & O) FA']; subst.
    pose proof (int_max _ _ _ _ int_zero O) as M. rewrite Z.max_l in M; [exact M|]. specialize (HC (ro_nodes r) (or_introl eq_refl)). lia.
  Qed.

  Lemma recordsF_ga (pen : @F NumF) b h i : True -> recordsF b h -> evaluated p pen i -> is_feasible i = true ->
    oapprox_lt (penalized_cost i) (h_best h) = true -> recordsF (Some i) (hist_add h i).
  Proof.
    intros _ R (S & G & e & EV) FE LT.
    assert (HC : forall r, In r (i_pheno i) -> zload q r <= cap).
    { apply (gfeasible_int p d q cap (ii_data _ _ _ _ _ II) dim_pos); [now apply serves_in|now apply zload_below|].
      unfold is_feasible in FE. now rewrite EV in FE. }
    destruct (is_finite (pen : dbl)) eqn:FP.
    - destruct (geval_record pen e i FP S EV HC) as (RO & x & EX & XI). rewrite EX in LT. eapply recordsF_add; eauto.
    - exfalso. assert (EX : penalized_cost i = Some (@gtotal NumF p pen (i_pheno i))) by (unfold penalized_cost; now rewrite EV).
      rewrite EX, nan_approx in LT; [discriminate|]. now apply gtotal_nan.
  Qed.

  Lemma recordsF_rr (pen : @F NumF) b h cand h' : True -> recordsF b h -> sound p c exactF cand -> priced pen cand ->
      rr_recorded p c pen h cand h' -> recordsF b h'.
  Proof.
    intros _ R [SS SF] PC (FE & LT & i0 & i & _ & (P1 & P2 & P3 & P4 & P5 & _) & ->).
    pose proof (ss_serves _ _ _ SS) as SV.
    pose proof (so_feasible_int cand SF SV FE) as HC. unfold priced in PC. rewrite PC in LT.
    destruct (is_finite (pen : dbl)) eqn:FP.
    2: { exfalso. rewrite nan_approx in LT; [discriminate|]. now apply so_total_nan. }
    destruct (geval_record pen (i_eval i0) i FP P3 P5) as (RO & x & EX & XI).
    { intros r I. apply HC. eapply Permutation_in; eauto. }
    refine (recordsF_add b h i b _ R RO _ LT).
    unfold length_of. rewrite (zsum_perm _ _ (Permutation_map (ztour d) P1)). now apply so_total_int.
  Qed.

  Lemma recordsF_none b : recordsF b hist_new.
  Proof.
    exists []. split; [reflexivity|]. split; [constructor|]. intros l1 a b' l2 EQ. destruct l1; discriminate.
  Qed.

  Section Ga.
    Variable L : lib.
    Hypothesis LOK : lib_ok L.
    Variable E : @env NumF.
    Variable log_interval : nat.
    Variable max_distance : option (@F NumF).
    Variable fuel : nat.
    Notation reached := (@ga_reached NumF L p c E log_interval max_distance fuel).

    Lemma reached_recordsF w0 g w : set_up p max_distance w0 -> reached w0 g w ->
      inv L p c exactF usualF (fun _ => True) recordsF (fun _ _ => True) True 0 g w.
    Proof.
      intros ((dm & _ & HP) & HH & _) R. pose proof II as [O1 O2 [O3 O3'] O4 O5 O6 O7 O8].
      refine (proj1 (reached_inv L LOK p c E log_interval max_distance fuel exactF exactF_remove exactF_add exactF_eval
        _ O2 O3 _ O8 O3' usualF (fun _ => True) (usual_initialF max_distance) usual_clampF (fun _ _ => I) split_fitsF
        recordsF recordsF_ga True True (fun _ => I) (fun _ => I) (fun _ => I) (fun _ _ => True) (fun _ _ _ => I) (fun _ _ _ _ => I) (fun _ _ _ _ _ => conj I I) (fun _ => recordsF_rr) True 0 (or_introl I) (fun _ => I)
        (fun _ _ _ _ _ _ _ _ _ _ => I) (fun _ => True) _ w0 g w _ _ (fun _ _ _ => I) R)).
      - apply below_F; auto. pose proof dim_small. lia.
      - exact (int_approx_lt _ _ _ _ int_zero int_zero eq_refl).
      - auto.
      - rewrite HP. apply usual_initialF.
      - rewrite HH. apply recordsF_none.
    Qed.
  End Ga.
End Run.
