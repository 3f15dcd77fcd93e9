(** The constant of the annealing schedule is the rounded value of exp(-2). *)
From Coq Require Import Reals QArith Qreals ZArith Lia Lra Psatz.
Local Open Scope R_scope.

Fixpoint zfact (n : nat) : Z := match n with O => 1 | S n => Z.of_nat (S n) * zfact n end.
Lemma fact_zfact n : INR (fact n) = IZR (zfact n).
Proof.
  induction n as [|n IH]; [reflexivity|].
  change (fact (S n)) with ((S n) * fact n)%nat. rewrite mult_INR, IH.
  cbn [zfact]. rewrite mult_IZR. f_equal. apply INR_IZR_INZ.
Qed.
Lemma zfact_pos n : (0 < zfact n)%Z.
Proof. induction n; cbn [zfact]; lia. Qed.

(** Partial sums of the series of exp(-1) *)
Definition sgn (n : nat) : Z := if Nat.even n then 1 else -1.
Fixpoint psum (n : nat) : Q :=
  match n with
  | O => 1
  | S n => Qred (psum n + (sgn (S n) # Z.to_pos (zfact (S n))))
  end.

Lemma pow_sgn n : (-1) ^ n = IZR (sgn n).
Proof.
  induction n as [|n IH]; [reflexivity|]. cbn [pow]. rewrite IH. unfold sgn.
  rewrite Nat.even_succ, <- Nat.negb_even. destruct (Nat.even n); cbn [negb]; lra.
Qed.

Lemma psum_R n : sum_f_R0 (tg_alt (fun i => / INR (fact i))) n = Q2R (psum n).
Proof.
  induction n as [|n IH].
  - cbn. unfold tg_alt. cbn. unfold Q2R. cbn. lra.
  - cbn [sum_f_R0]. rewrite IH. cbn [psum]. rewrite (Qeq_eqR _ _ (Qred_correct _)), Q2R_plus.
    f_equal. unfold tg_alt. rewrite pow_sgn, fact_zfact. unfold Q2R. cbn [Qnum Qden].
    rewrite Z2Pos.id by apply zfact_pos. reflexivity.
Qed.

Lemma exp_m1_sum : Un_cv (fun n => sum_f_R0 (tg_alt (fun i => / INR (fact i))) n) (exp (-1)).
Proof.
  pose proof (proj2_sig (exist_exp (-1))) as H. unfold exp_in, infinite_sum in H.
  unfold exp. intros eps He. destruct (H eps He) as [N HN]. exists N. intros n Hn.
  specialize (HN n Hn). erewrite sum_eq; [exact HN|]. intros i Hi. unfold tg_alt. lra.
Qed.

Lemma inv_fact_decreasing : Un_decreasing (fun i => / INR (fact i)).
Proof.
  intro n. apply Rinv_le_contravar; [apply lt_INR_0; apply lt_O_fact|].
  apply le_INR. cbn [fact]. lia.
Qed.
Lemma inv_fact_cv : Un_cv (fun i => / INR (fact i)) 0.
Proof.
  intros eps He.
  destruct (cv_speed_pow_fact 1 eps He) as [N HN]. exists N. intros n Hn.
  specialize (HN n Hn). rewrite pow1 in HN. unfold Rdiv in HN. rewrite Rmult_1_l in HN. exact HN.
Qed.

Lemma exp_m1_bounds : Q2R (psum 21) <= exp (-1) <= Q2R (psum 20).
Proof.
  pose proof (alternated_series_ineq (fun i => / INR (fact i)) (exp (-1)) 10 inv_fact_decreasing inv_fact_cv exp_m1_sum) as H.
  rewrite !psum_R in H. exact H.
Qed.

(** 0.1353352832366127 is exp(-2) up to 1e-17. *)
Lemma exp_m2_bounds : Rabs (exp (-2) - 1353352832366127 / 10000000000000000) <= 1 / 10 ^ 17.
Proof.
  assert (E : exp (-2) = exp (-1) * exp (-1)) by (rewrite <- exp_plus; f_equal; lra).
  destruct exp_m1_bounds as [L U].
  set (lo := (36787944117144232156 # 100000000000000000000)%Q).
  set (hi := (36787944117144232164 # 100000000000000000000)%Q).
  assert (L' : Q2R lo <= Q2R (psum 21)) by (apply Qle_Rle; unfold lo; vm_compute; discriminate).
  assert (U' : Q2R (psum 20) <= Q2R hi) by (apply Qle_Rle; unfold hi; vm_compute; discriminate).
  assert (Rlo : Q2R lo = 36787944117144232156 / 100000000000000000000) by (unfold lo, Q2R; cbn [Qnum Qden]; lra).
  assert (Rhi : Q2R hi = 36787944117144232164 / 100000000000000000000) by (unfold hi, Q2R; cbn [Qnum Qden]; lra).
  rewrite Rlo in L'. rewrite Rhi in U'. clear Rlo Rhi.
  set (x := exp (-1)) in *.
  assert (Lx : 36787944117144232156 / 100000000000000000000 <= x) by lra.
  assert (Ux : x <= 36787944117144232164 / 100000000000000000000) by lra.
  clear L U L' U'. rewrite E. clearbody x.
  assert (L2 : (36787944117144232156 / 100000000000000000000) * (36787944117144232156 / 100000000000000000000) <= x * x) by nra.
  assert (U2 : x * x <= (36787944117144232164 / 100000000000000000000) * (36787944117144232164 / 100000000000000000000)) by nra.
  apply Rabs_le. split; lra.
Qed.
