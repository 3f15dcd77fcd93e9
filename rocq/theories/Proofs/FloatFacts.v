(** Facts about double precision. *)
From Coq Require Import List Arith ZArith Reals Bool Lia Lra Psatz.
From Flocq Require Import Core BinarySingleNaN Relative.
From Verif.Model Require Import Num NumFloat Prelude Evaluate.
From Verif.Spec Require Import Floats.
From Verif.Proofs Require Import Lists EvalFacts.
Import ListNotations.
Open Scope Z_scope.

Local Notation fx := (SpecFloat.fexp 53 1024).
Local Notation rnd := (round radix2 fx ZnearestE).

Lemma fx_valid : Valid_exp fx.
Proof. apply (fexp_correct 53 1024). exact prec_pos. Qed.
Local Existing Instance fx_valid.

(** Small integers are doubles. *)
Lemma int_format z : Z.abs z < exact_bound -> generic_format radix2 fx (IZR z).
Proof.
  intro H. change fx with (FLT_exp (3 - 1024 - 53) 53). apply generic_format_FLT.
  exists (Float radix2 z 0).
  - unfold F2R. cbn. lra.
  - exact H.
  - cbn. lia.
Qed.
Lemma int_round z : Z.abs z < exact_bound -> rnd (IZR z) = IZR z.
Proof. intro H. apply round_generic; [apply valid_rnd_N|]. now apply int_format. Qed.
Lemma int_small z : Z.abs z < exact_bound -> Rlt_bool (Rabs (rnd (IZR z))) (bpow radix2 1024) = true.
Proof.
  intro H. rewrite int_round by auto. apply Rlt_bool_true. rewrite <- abs_IZR.
  apply Rlt_le_trans with (IZR exact_bound); [now apply IZR_lt|].
  change exact_bound with (Zpower radix2 53). rewrite IZR_Zpower by lia. apply bpow_le. lia.
Qed.

Lemma int_of_Z z : Z.abs z < exact_bound -> is_int (d_of_Z z) z.
Proof.
  intro H. pose proof (binary_normalize_correct 53 1024 prec_pos prec_emax mode_NE z 0 false) as B. cbv zeta in B.
  change (round_mode mode_NE) with ZnearestE in B.
  assert (E' : F2R (beta := radix2) {| Fnum := z; Fexp := 0 |} = IZR z) by (unfold F2R; cbn; lra).
  rewrite E' in B. rewrite int_small in B by auto. destruct B as (B1 & B2 & _). split; [exact B2|].
  unfold d_of_Z. rewrite B1. now apply int_round.
Qed.
Lemma int_add x y a b : is_int x a -> is_int y b -> Z.abs (a + b) < exact_bound -> is_int (dadd x y) (a + b).
Proof.
  intros [F1 R1] [F2 R2] H. pose proof (Bplus_correct 53 1024 prec_pos prec_emax mode_NE x y F1 F2) as B.
  change (round_mode mode_NE) with ZnearestE in B. rewrite R1, R2, <- plus_IZR, int_small in B by auto.
  destruct B as (B1 & B2 & _). split; [exact B2|]. unfold dadd. rewrite B1. now apply int_round.
Qed.
Lemma int_sub x y a b : is_int x a -> is_int y b -> Z.abs (a - b) < exact_bound -> is_int (dsub x y) (a - b).
Proof.
  intros [F1 R1] [F2 R2] H. pose proof (Bminus_correct 53 1024 prec_pos prec_emax mode_NE x y F1 F2) as B.
  change (round_mode mode_NE) with ZnearestE in B. rewrite R1, R2, <- minus_IZR, int_small in B by auto.
  destruct B as (B1 & B2 & _). split; [exact B2|]. unfold dsub. rewrite B1. now apply int_round.
Qed.
Lemma int_mul x y a b : is_int x a -> is_int y b -> Z.abs (a * b) < exact_bound -> is_int (dmul x y) (a * b).
Proof.
  intros [F1 R1] [F2 R2] H. pose proof (Bmult_correct 53 1024 prec_pos prec_emax mode_NE x y) as B.
  change (round_mode mode_NE) with ZnearestE in B. rewrite R1, R2, <- mult_IZR, int_small in B by auto.
  destruct B as (B1 & B2 & _). rewrite F1, F2 in B2. split; [exact B2|]. unfold dmul. rewrite B1. now apply int_round.
Qed.
Lemma int_zero_mul x y : is_finite x = true -> is_int y 0 -> is_int (dmul x y) 0.
Proof.
  intros F1 [F2 R2]. pose proof (Bmult_correct 53 1024 prec_pos prec_emax mode_NE x y) as B.
  change (round_mode mode_NE) with ZnearestE in B. rewrite R2, Rmult_0_r in B. change 0%R with (IZR 0) in B.
  rewrite int_small in B by reflexivity.
  destruct B as (B1 & B2 & _). rewrite F1, F2 in B2. split; [exact B2|]. unfold dmul. rewrite B1. now apply int_round.
Qed.
Lemma int_lt x y a b : is_int x a -> is_int y b -> dlt x y = (a <? b).
Proof.
  intros [F1 R1] [F2 R2]. unfold dlt. rewrite Bltb_correct by auto. rewrite R1, R2.
  destruct (Z.ltb_spec a b); [apply Rlt_bool_true; now apply IZR_lt|apply Rlt_bool_false; now apply IZR_le].
Qed.
Lemma int_not_nan x a : is_int x a -> is_nan x = false.
Proof. intros [F1 _]. destruct x; auto; discriminate. Qed.
Lemma int_max x y a b : is_int x a -> is_int y b -> is_int (dmax x y) (Z.max a b).
Proof.
  intros X Y. unfold dmax. rewrite (int_not_nan _ _ X), (int_lt _ _ _ _ X Y).
  destruct (Z.ltb_spec a b); [rewrite Z.max_r by lia|rewrite Z.max_l by lia]; auto.
Qed.
Lemma int_zero : is_int (@f0 NumF) 0.
Proof. apply int_of_Z. reflexivity. Qed.

(** The tolerance does not matter for integers. *)
Lemma int_gt_zero x a : is_int x a -> @approx_gt NumF x (@f0 NumF) = (0 <? a).
Proof.
  intros [F1 R1].
  assert (FE : is_finite (dadd (d_of_Z 0) (d_lit 1 1000000)) = true) by (vm_compute; reflexivity).
  assert (E0 : (0 < B2R (dadd (d_of_Z 0) (d_lit 1 1000000)))%R).
  { assert (X : dlt (d_of_Z 0) (dadd (d_of_Z 0) (d_lit 1 1000000)) = true) by (vm_compute; reflexivity).
    unfold dlt in X. rewrite Bltb_correct in X; [|reflexivity|exact FE]. destruct (int_of_Z 0 eq_refl) as [_ R0]. rewrite R0 in X.
    revert X. case Rlt_bool_spec; auto; discriminate. }
  assert (E1 : (B2R (dadd (d_of_Z 0) (d_lit 1 1000000)) < 1)%R).
  { assert (X : dlt (dadd (d_of_Z 0) (d_lit 1 1000000)) (d_of_Z 1) = true) by (vm_compute; reflexivity).
    unfold dlt in X. rewrite Bltb_correct in X; [|exact FE|reflexivity]. destruct (int_of_Z 1 eq_refl) as [_ R0]. rewrite R0 in X.
    revert X. case Rlt_bool_spec; auto; discriminate. }
  unfold approx_gt. change (@flt NumF) with dlt. change (@fadd NumF) with dadd. change (@f0 NumF) with (d_of_Z 0). change (@feps NumF) with (d_lit 1 1000000).
  set (e := dadd _ _) in *. unfold dlt. rewrite Bltb_correct by auto. rewrite R1.
  destruct (Z.ltb_spec 0 a) as [H|H].
  - apply Rlt_bool_true. apply Rlt_le_trans with 1%R; auto. apply IZR_le. lia.
  - apply Rlt_bool_false. apply Rle_trans with 0%R; [apply IZR_le; lia|lra].
Qed.

(** ** Evaluation *)
Section Eval.
  Variable p : @problem NumF.
  Variable d : nat -> nat -> Z.
  Variable q : nat -> Z.
  Variable cap : Z.
  Hypothesis ok : integral p d q cap.
  Hypothesis dim : (0 < p_dim p)%nat.

  Lemma zwalk_nonneg l : (forall n, In n l -> (n < p_dim p)%nat) -> 0 <= zwalk d l.
  Proof.
    induction l as [|a l IH]; intro H; cbn [zwalk]; [lia|]. destruct l as [|b l]; [lia|].
    destruct (ig_dist _ _ _ _ ok a b) as [_ D]; [apply H; cbn; auto|apply H; cbn; auto|].
    assert (0 <= zwalk d (b :: l)) by (apply IH; intros n I; apply H; now right). lia.
  Qed.
  Lemma zload_nonneg r : (forall n, In n r -> (n < p_dim p)%nat) -> 0 <= zload q r.
  Proof.
    induction r as [|a r IH]; intro H; unfold zload in *; cbn [map zsum]; [lia|].
    destruct (ig_demand _ _ _ _ ok a) as [_ D]; [apply H; cbn; auto|].
    assert (0 <= zsum (map q r)) by (apply IH; intros n I; apply H; now right). lia.
  Qed.

  Lemma gdist_int r : forall (acc : dbl) a last, is_int acc a -> 0 <= a -> (last < p_dim p)%nat ->
    (forall n, In n r -> (n < p_dim p)%nat) -> a + zwalk d (last :: r ++ [0%nat]) < exact_bound ->
    is_int (@gdist NumF p acc last r) (a + zwalk d (last :: r ++ [0%nat])).
  Proof.
    induction r as [|n r IH]; intros acc a last HA NA HL HR HB; cbn [app zwalk gdist] in *.
    - destruct (ig_dist _ _ _ _ ok last 0) as [D1 D2]; auto. rewrite Z.add_0_r in *. apply int_add; auto. lia.
    - assert (HN : (n < p_dim p)%nat) by (apply HR; now left). destruct (ig_dist _ _ _ _ ok last n) as [D1 D2]; auto.
      assert (0 <= zwalk d (n :: r ++ [0%nat])).
      { apply zwalk_nonneg. intros m [<-|I]; auto. apply in_app_iff in I. destruct I as [I|[<-|[]]]; auto. apply HR. now right. }
      change (match r ++ [0%nat] with [] => 0 | b :: _ => d n b + zwalk d (r ++ [0%nat]) end) with (zwalk d (n :: r ++ [0%nat])) in *.
      rewrite Z.add_assoc in *. apply IH; auto; try lia; [|intros; apply HR; now right].
      apply int_add; auto. lia.
  Qed.
  Lemma gload_int r : forall (acc : dbl) a, is_int acc a -> 0 <= a ->
    (forall n, In n r -> (n < p_dim p)%nat) -> a + zload q r < exact_bound ->
    is_int (@gload NumF p acc r) (a + zload q r).
  Proof.
    induction r as [|n r IH]; intros acc a HA NA HR HB; unfold zload in *; cbn [map zsum] in *.
    - rewrite Z.add_0_r. exact HA.
    - assert (HN : (n < p_dim p)%nat) by (apply HR; now left). destruct (ig_demand _ _ _ _ ok n) as [D1 D2]; auto.
      assert (0 <= zsum (map q r)) by (apply zload_nonneg; intros; apply HR; now right).
      rewrite Z.add_assoc in *. change (@gload NumF p acc (n :: r)) with (@gload NumF p (dadd acc (p_demand p n)) r).
      apply IH; auto; try lia; [|intros; apply HR; now right]. apply int_add; auto. lia.
  Qed.
  Lemma gover_int r : (forall n, In n r -> (n < p_dim p)%nat) -> zload q r < exact_bound ->
    is_int (@gover NumF p r) (zload q r - cap).
  Proof.
    intros HR HB. destruct (ig_cap _ _ _ _ ok) as [C1 C2]. pose proof (zload_nonneg r HR).
    apply int_sub; auto; [|lia]. replace (zload q r) with (0 + zload q r) by lia. apply gload_int; auto using int_zero; lia.
  Qed.
  Lemma gdist_route r : (forall n, In n r -> (n < p_dim p)%nat) -> ztour d r < exact_bound ->
    is_int (@gdist NumF p (@f0 NumF) 0 r) (ztour d r).
  Proof.
    intros HR HB. replace (ztour d r) with (0 + ztour d r) by lia. apply gdist_int; auto using int_zero; lia.
  Qed.

  (** A route within capacity costs its length. *)
  Lemma gcost_int (pen : dbl) r : is_finite pen = true -> (forall n, In n r -> (n < p_dim p)%nat) ->
    zload q r <= cap -> ztour d r < exact_bound -> is_int (@gcost NumF p pen r) (ztour d r).
  Proof.
    intros FP HR HC HB. destruct (ig_cap _ _ _ _ ok) as [C1 C2]. pose proof (gover_int r HR ltac:(lia)) as O.
    pose proof (int_max _ _ _ _ int_zero O) as M. rewrite Z.max_l in M by lia.
    pose proof (int_zero_mul _ _ FP M) as PM. unfold gcost, route_cost.
    pose proof (gdist_route r HR HB) as D. replace (ztour d r) with (ztour d r + 0) by lia.
    assert (0 <= ztour d r). { apply zwalk_nonneg. intros m [<-|I]; auto. apply in_app_iff in I. destruct I as [I|[<-|[]]]; auto. }
    apply int_add; auto. lia.
  Qed.

  Lemma gfeasible_int rs : (forall n, In n (concat rs) -> (n < p_dim p)%nat) ->
    (forall r, In r rs -> zload q r < exact_bound) ->
    @gfeasible NumF p rs = true <-> forall r, In r rs -> zload q r <= cap.
  Proof.
    intros HR HB. unfold gfeasible. rewrite forallb_forall.
    assert (E : forall r, In r rs -> negb (@approx_gt NumF (@gover NumF p r) f0) = true <-> zload q r <= cap).
    { intros r I. assert (HR' : forall n, In n r -> (n < p_dim p)%nat).
      { intros n J. apply HR. apply in_concat. eauto. }
      rewrite (int_gt_zero _ _ (gover_int r HR' (HB r I))). destruct (Z.ltb_spec 0 (zload q r - cap)); cbn; split; intros; auto; try discriminate; lia. }
    split; intros H r I; [apply E; auto|apply E; auto].
  Qed.

  Lemma gtotal_int (pen : dbl) rs : is_finite pen = true -> (forall n, In n (concat rs) -> (n < p_dim p)%nat) ->
    (forall r, In r rs -> zload q r <= cap) -> zsum (map (ztour d) rs) < exact_bound ->
    is_int (@gtotal NumF p pen rs) (zsum (map (ztour d) rs)).
  Proof.
    intros FP. unfold gtotal.
    assert (G : forall rs (acc : dbl) a, is_int acc a -> 0 <= a -> (forall n, In n (concat rs) -> (n < p_dim p)%nat) ->
      (forall r, In r rs -> zload q r <= cap) -> a + zsum (map (ztour d) rs) < exact_bound ->
      is_int (fold_left (fun a r => @fadd NumF a (@gcost NumF p pen r)) rs acc) (a + zsum (map (ztour d) rs))).
    { clear rs. induction rs as [|r rs IH]; intros acc a HA NA HR HC HB; cbn [map zsum fold_left concat] in *.
      - rewrite Z.add_0_r. exact HA.
      - assert (HR' : forall n, In n r -> (n < p_dim p)%nat) by (intros; apply HR; apply in_app_iff; auto).
        assert (NN : forall r, (forall n, In n r -> (n < p_dim p)%nat) -> 0 <= ztour d r).
        { intros x Hx. apply zwalk_nonneg. intros m [<-|I]; auto. apply in_app_iff in I. destruct I as [I|[<-|[]]]; auto. }
        pose proof (NN r HR').
        assert (0 <= zsum (map (ztour d) rs)).
        { assert (HR2 : forall n, In n (concat rs) -> (n < p_dim p)%nat) by (intros; apply HR; apply in_app_iff; auto).
          clear -HR2 NN. induction rs as [|x rs IH]; cbn [map zsum concat] in *; [lia|].
          assert (0 <= ztour d x) by (apply NN; intros; apply HR2; apply in_app_iff; auto).
          assert (0 <= zsum (map (ztour d) rs)) by (apply IH; intros; apply HR2; apply in_app_iff; auto). lia. }
        rewrite Z.add_assoc in *. apply IH; auto; try lia; [|intros; apply HR; apply in_app_iff; auto|intros; apply HC; now right].
        apply int_add; auto; [|lia]. apply gcost_int; auto; [apply HC; now left|lia]. }
    intros HR HC HB. replace (zsum (map (ztour d) rs)) with (0 + zsum (map (ztour d) rs)) by lia. apply G; auto using int_zero; lia.
  Qed.
End Eval.
