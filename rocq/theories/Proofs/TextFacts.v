(** Facts on texts: splitting, numbers, files. *)
From Coq Require Import Ascii String List Arith NArith ZArith Bool Lia Permutation.
From Verif.Model Require Import Num Prelude Text Parser Display.
From Verif.Spec Require Import Output Instance.
Import ListNotations.
Local Open Scope nat_scope.

Lemma text_eqb_spec a : forall b, text_eqb a b = true <-> a = b.
Proof.
  induction a as [|x a IH]; intros [|y b]; cbn; try (split; congruence).
  rewrite andb_true_iff, IH, Ascii.eqb_eq. split; [intros [-> ->]; auto|intro H; injection H as -> ->; auto].
Qed.
Lemma text_eqb_refl a : text_eqb a a = true.
Proof. now apply text_eqb_spec. Qed.
Lemma text_eqb_neq a b : a <> b -> text_eqb a b = false.
Proof. intro H. destruct (text_eqb a b) eqn:E; auto. apply text_eqb_spec in E. contradiction. Qed.

(** ** Splitting *)
Section Split.
  Variable sep : ascii -> bool.

  Lemma split_nonempty s : split_by sep s <> [].
  Proof. destruct s as [|c s]; cbn; [discriminate|]. destruct (sep c); [discriminate|]. destruct (split_by sep s); discriminate. Qed.
  Lemma split_no_sep w : Forall (fun c => sep c = false) w -> split_by sep w = [w].
  Proof. induction 1 as [|c w H _ IH]; cbn; auto. rewrite H, IH. reflexivity. Qed.
  (** a part that contains no separator, then a separator *)
  Lemma split_app w c s : Forall (fun c => sep c = false) w -> sep c = true ->
    split_by sep (w ++ c :: s) = w :: split_by sep s.
  Proof. induction 1 as [|x w H _ IH]; cbn; intros HC; [now rewrite HC|]. rewrite H, IH; auto. Qed.
End Split.

(** ** Words *)
Lemma is_separator_spec c : is_separator c = true <-> separator c.
Proof.
  unfold is_separator, separator. rewrite !orb_true_iff, !Ascii.eqb_eq. tauto.
Qed.
Lemma words_sep c s : separator c -> words (c :: s) = words s.
Proof. intro H. apply is_separator_spec in H. unfold words. cbn. now rewrite H. Qed.
Lemma words_seps a s : Forall separator a -> words (a ++ s) = words s.
Proof. induction 1; cbn [app]; auto. now rewrite words_sep. Qed.
Lemma word_no_sep w : word w -> Forall (fun c => is_separator c = false) w.
Proof.
  intros [_ H]. eapply Forall_impl; [|exact H]. cbn. intros c (H1 & _).
  destruct (is_separator c) eqn:E; auto. apply is_separator_spec in E. contradiction.
Qed.
Lemma words_line ws l : line_text ws l -> words l = ws.
Proof.
  induction 1 as [s H|s w ws rest H HW HR _ IH].
  - rewrite <- (app_nil_r s), words_seps; auto.
  - rewrite words_seps by auto. pose proof (word_no_sep w HW) as HN. destruct HW as [HE _].
    destruct HR as [->|(c & r & HC & ->)].
    + rewrite app_nil_r. cbn in IH. subst ws. unfold words. rewrite split_no_sep by auto. cbn. destruct w; [contradiction|reflexivity].
    + rewrite words_sep in IH by auto. apply is_separator_spec in HC. unfold words. rewrite split_app by auto. cbn [filter].
      destruct w; [contradiction|]. f_equal. exact IH.
Qed.
Lemma line_chars ws l : line_text ws l -> Forall (fun c => c <> LF /\ c <> CR) l.
Proof.
  assert (HS : forall c, separator c -> c <> LF /\ c <> CR).
  { intros c [->|[->| ->]]; split; discriminate. }
  induction 1 as [s H|s w ws rest H HW HR _ IH].
  - eapply Forall_impl; eauto.
  - apply Forall_app. split; [eapply Forall_impl; eauto|]. apply Forall_app. split; auto.
    eapply Forall_impl; [|apply HW]. cbn. tauto.
Qed.

(** ** Lines *)
Lemma strip_no_cr l : Forall (fun c => c <> CR) l -> strip_cr l = l.
Proof.
  intro H. unfold strip_cr. apply Forall_rev in H. destruct (rev l) as [|c r]; auto.
  inversion H; subst. destruct (Ascii.eqb_spec c CR); congruence.
Qed.
Lemma strip_one_cr l : strip_cr (l ++ [CR]) = l.
Proof. unfold strip_cr. rewrite rev_app_distr. cbn. apply rev_involutive. Qed.

Lemma lines_file ls f : file_text ls f -> Forall (Forall (fun c => c <> LF /\ c <> CR)) ls -> lines_of f = ls.
Proof.
  assert (HN : forall l, Forall (fun c => c <> LF /\ c <> CR) l -> Forall (fun c => Ascii.eqb c LF = false) l).
  { intros l H. eapply Forall_impl; [|exact H]. cbn. intros c [H1 _]. now apply Ascii.eqb_neq. }
  induction 1 as [|l H|l eol ls rest HE _ IH]; intro HL.
  - reflexivity.
  - inversion HL; subst. unfold lines_of. rewrite split_no_sep by auto. cbn. destruct l; [contradiction|reflexivity].
  - inversion HL as [|? ? H1 H2]; subst. specialize (IH H2).
    assert (HC : exists l', l ++ eol ++ rest = l' ++ LF :: rest /\ Forall (fun c => Ascii.eqb c LF = false) l' /\ strip_cr l' = l).
    { destruct HE as [->| ->].
      - exists l. split; auto. split; auto. apply strip_no_cr. eapply Forall_impl; [|exact H1]. cbn. tauto.
      - exists (l ++ [CR]). split; [now rewrite <- app_assoc|]. split; [|apply strip_one_cr].
        apply Forall_app. split; [auto|repeat constructor]. }
    destruct HC as (l' & -> & HC1 & HC2). unfold lines_of in *.
    rewrite split_app; auto. pose proof (split_nonempty (fun c => Ascii.eqb c LF) rest) as HNE.
    cbn [end_lines]. destruct (split_by _ rest); [contradiction|]. now rewrite HC2, IH.
Qed.

(** ** Numbers *)
Lemma digit_of_spec d c : digit d c -> digit_of c = Some (N.of_nat d).
Proof.
  intros [H1 H2]. unfold digit_of. unfold nat_of_ascii in H2.
  assert (E : N_of_ascii c = N.of_nat (48 + d)) by lia. rewrite E.
  replace (48 <=? N.of_nat (48 + d))%N with true by (symmetry; apply N.leb_le; lia).
  replace (N.of_nat (48 + d) <=? 57)%N with true by (symmetry; apply N.leb_le; lia).
  cbn [andb]. f_equal. lia.
Qed.
Lemma digits_value_app a : forall acc b, digits_value (a ++ b) acc =
  match digits_value a acc with Some n => digits_value b n | None => None end.
Proof. induction a as [|c a IH]; intros acc b; cbn; auto. destruct (digit_of c); auto. Qed.
Lemma decimal_value n t : decimal n t -> digits_value t 0 = Some (N.of_nat n).
Proof.
  induction 1 as [d c H|n t d c _ IH Hn H].
  - cbn [digits_value]. rewrite (digit_of_spec _ _ H). f_equal; lia.
  - rewrite digits_value_app, IH. cbn [digits_value]. rewrite (digit_of_spec _ _ H). f_equal. lia.
Qed.
Lemma decimal_nonempty n t : decimal n t -> t <> [].
Proof. destruct 1; [discriminate|]. destruct t; discriminate. Qed.
Definition is_digit (c : ascii) : Prop := exists d, digit d c.
Lemma decimal_digits n t : decimal n t -> Forall is_digit t.
Proof.
  induction 1 as [d c H|n t d c _ IH Hn H].
  - repeat constructor. now exists d.
  - apply Forall_app. split; auto. repeat constructor. now exists d.
Qed.
Lemma not_digit c : (nat_of_ascii c < 48 \/ 57 < nat_of_ascii c) -> ~ is_digit c.
Proof. intros H (d & H1 & H2). lia. Qed.

Lemma parse_decimal n t : decimal n t -> (N.of_nat n < 2 ^ 64)%N -> parse_u64 t = Some (N.of_nat n).
Proof.
  intros H HB. unfold parse_u64. pose proof (decimal_nonempty _ _ H) as HN. pose proof (decimal_digits _ _ H) as HD.
  destruct t as [|c t]; [contradiction|].
  assert (HC : Ascii.eqb c "+"%char = false).
  { apply Ascii.eqb_neq. intros ->. inversion HD as [|? ? HX _]. revert HX. apply not_digit. left. cbn. lia. }
  rewrite HC, (decimal_value _ _ H). unfold u64_max.
  replace (N.of_nat n <=? 2 ^ 64 - 1)%N with true by (symmetry; apply N.leb_le; lia). reflexivity.
Qed.
Lemma decimal_inj n t n' t' : decimal n t -> decimal n' t' -> t = t' -> n = n'.
Proof. intros H H' ->. apply decimal_value in H, H'. rewrite H in H'. injection H' as E. lia. Qed.

(** The printer of numbers. *)
Lemma digit_char_spec d : (d < 10)%N -> digit (N.to_nat d) (digit_char d).
Proof.
  intro H. split; [lia|]. unfold digit_char, nat_of_ascii. rewrite N_ascii_embedding by lia. lia.
Qed.
Lemma print_digits_spec k : forall n acc, N.to_nat n < k -> exists t, decimal (N.to_nat n) t /\ print_digits k n acc = t ++ acc.
Proof.
  induction k as [|k IH]; intros n acc H; [lia|]. cbn [print_digits].
  pose proof (N.div_mod n 10 ltac:(discriminate)) as HD. pose proof (N.mod_lt n 10 ltac:(discriminate)) as HM.
  pose proof (digit_char_spec _ HM) as HC. generalize dependent (n mod 10)%N. intros m HD HM HC.
  generalize dependent (n / 10)%N. intros q HD.
  destruct (N.eqb_spec q 0) as [E|E].
  - subst q. exists [digit_char m]. split; auto. replace n with m by lia. now constructor.
  - destruct (IH q (digit_char m :: acc)) as (t & HT & ->); [lia|].
    exists (t ++ [digit_char m]). split; [|now rewrite <- app_assoc].
    replace (N.to_nat n) with (10 * N.to_nat q + N.to_nat m) by lia. constructor; auto. lia.
Qed.
Lemma print_nat_spec n : decimal n (print_nat n).
Proof.
  unfold print_nat. destruct (print_digits_spec (n + 1) (N.of_nat n) []) as (t & H & E); [lia|].
  rewrite E, app_nil_r. now rewrite Nat2N.id in H.
Qed.
