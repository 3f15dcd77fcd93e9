(** Facts and tactics for the exact instance [NumQ]. *)
From Coq Require Import ZArith QArith Qabs Qminmax Qround Bool List Lia Lqa.
From Verif.Model Require Import Num.

(** Turn operations of [NumQ] into operations on Q. *)
Ltac numq :=
  cbn [F f0 f1 fadd fsub fmul fdiv fabs fmax fmin flt fle feqb feps fbig flt_inf flt_max
       flit fnat ffloor fceil fround NumQ] in *.

Lemma Qltb_lt a b : Qltb a b = true <-> a < b.
Proof.
  unfold Qltb. rewrite negb_true_iff. split.
  - intros H. apply Qnot_le_lt. intros H2. apply Qle_bool_iff in H2. congruence.
  - intros H. destruct (Qle_bool b a) eqn:E; auto. apply Qle_bool_iff in E. lra.
Qed.
Lemma Qltb_ge a b : Qltb a b = false <-> b <= a.
Proof.
  unfold Qltb. rewrite negb_false_iff. apply Qle_bool_iff.
Qed.
Lemma Qleb_gt a b : Qle_bool a b = false <-> b < a.
Proof.
  split; intros H.
  - apply Qnot_le_lt. intros H2. apply Qle_bool_iff in H2. congruence.
  - destruct (Qle_bool a b) eqn:E; auto. apply Qle_bool_iff in E. lra.
Qed.

(** Decide a rational test and keep the fact. *)
Ltac qdec :=
  repeat match goal with
  | H : Qltb _ _ = true |- _ => apply Qltb_lt in H
  | H : Qltb _ _ = false |- _ => apply Qltb_ge in H
  | H : Qle_bool _ _ = true |- _ => apply Qle_bool_iff in H
  | H : Qle_bool _ _ = false |- _ => apply Qleb_gt in H
  end.

Lemma Qmaxb_spec a b : (a < b /\ Qmaxb a b = b) \/ (b <= a /\ Qmaxb a b = a).
Proof. unfold Qmaxb. destruct (Qltb a b) eqn:E; qdec; auto. Qed.
Lemma Qminb_spec a b : (b < a /\ Qminb a b = b) \/ (a <= b /\ Qminb a b = a).
Proof. unfold Qminb. destruct (Qltb b a) eqn:E; qdec; auto. Qed.

Lemma approx_lt_Q (a b : Q) : @approx_lt NumQ a b = true <-> a < b - (1 # 1000000).
Proof. unfold approx_lt. numq. apply Qltb_lt. Qed.
Lemma approx_lt_Q_false (a b : Q) : @approx_lt NumQ a b = false <-> b - (1 # 1000000) <= a.
Proof. unfold approx_lt. numq. apply Qltb_ge. Qed.
Lemma approx_gt_Q (a b : Q) : @approx_gt NumQ a b = true <-> b + (1 # 1000000) < a.
Proof. unfold approx_gt. numq. apply Qltb_lt. Qed.
Lemma approx_gt_Q_false (a b : Q) : @approx_gt NumQ a b = false <-> a <= b + (1 # 1000000).
Proof. unfold approx_gt. numq. apply Qltb_ge. Qed.

Lemma Qabs_lt_iff x e : Qabs x < e <-> - e < x /\ x < e.
Proof.
  apply Qabs_case; intros H; split; intros; try lra.
Qed.

Lemma approx_eq_Q (a b : Q) :
  @approx_eq NumQ a b = true <-> b - (1 # 1000000) < a /\ a < b + (1 # 1000000).
Proof.
  unfold approx_eq. numq. rewrite Qltb_lt, Qabs_lt_iff. split; intros; lra.
Qed.
Lemma approx_lte_Q (a b : Q) : @approx_lte NumQ a b = true <-> a < b + (1 # 1000000).
Proof.
  unfold approx_lte. rewrite orb_true_iff, approx_eq_Q. numq. rewrite Qltb_lt.
  split; intros H; [lra|]. destruct (Qlt_le_dec a b); [left|right]; lra.
Qed.
Lemma approx_gte_Q (a b : Q) : @approx_gte NumQ a b = true <-> b - (1 # 1000000) < a.
Proof.
  unfold approx_gte. rewrite orb_true_iff, approx_eq_Q. numq. rewrite Qltb_lt.
  split; intros H; [lra|]. destruct (Qlt_le_dec b a); [left|right]; lra.
Qed.
Lemma approx_lte_Q_false (a b : Q) : @approx_lte NumQ a b = false <-> b + (1 # 1000000) <= a.
Proof.
  destruct (@approx_lte NumQ a b) eqn:E.
  - apply approx_lte_Q in E. split; [congruence|lra].
  - split; auto. intros _. apply Qnot_lt_le. intros H. apply approx_lte_Q in H. congruence.
Qed.
Lemma approx_gte_Q_false (a b : Q) : @approx_gte NumQ a b = false <-> a <= b - (1 # 1000000).
Proof.
  destruct (@approx_gte NumQ a b) eqn:E.
  - apply approx_gte_Q in E. split; [congruence|lra].
  - split; auto. intros _. apply Qnot_lt_le. intros H. apply approx_gte_Q in H. congruence.
Qed.

Ltac qapx :=
  repeat match goal with
  | H : @approx_lt NumQ _ _ = true |- _ => apply approx_lt_Q in H
  | H : @approx_lt NumQ _ _ = false |- _ => apply approx_lt_Q_false in H
  | H : @approx_gt NumQ _ _ = true |- _ => apply approx_gt_Q in H
  | H : @approx_gt NumQ _ _ = false |- _ => apply approx_gt_Q_false in H
  | H : @approx_lte NumQ _ _ = true |- _ => apply approx_lte_Q in H
  | H : @approx_lte NumQ _ _ = false |- _ => apply approx_lte_Q_false in H
  | H : @approx_gte NumQ _ _ = true |- _ => apply approx_gte_Q in H
  | H : @approx_gte NumQ _ _ = false |- _ => apply approx_gte_Q_false in H
  | H : @approx_eq NumQ _ _ = true |- _ => apply approx_eq_Q in H
  end; qdec.
