(** The printed solution follows the grammar, and the grammar is unambiguous. *)
From Coq Require Import Ascii String List Arith NArith Bool Lia.
From Verif.Model Require Import Num Prelude Evaluate Individual Text World Parser Display.
From Verif.Spec Require Import Solution Output.
From Verif.Proofs Require Import TextFacts.
Import ListNotations.
Local Open Scope nat_scope.

Lemma span_eq (P : ascii -> Prop) t1 : forall x1 r1 t2 x2 r2, Forall P t1 -> Forall P t2 -> ~ P x1 -> ~ P x2 ->
  t1 ++ x1 :: r1 = t2 ++ x2 :: r2 -> t1 = t2 /\ x1 = x2 /\ r1 = r2.
Proof.
  induction t1 as [|c t1 IH]; intros x1 r1 [|c2 t2] x2 r2 H1 H2 N1 N2 E; cbn in E; injection E as E1 E2.
  - auto.
  - inversion H2; subst. contradiction.
  - inversion H1; subst. contradiction.
  - inversion H1; inversion H2; subst. destruct (IH x1 r1 t2 x2 r2) as (-> & -> & ->); auto.
Qed.

Lemma lf_not_digit : ~ is_digit LF.
Proof. apply not_digit. left. cbn. lia. Qed.
Lemma blank_not_digit : ~ is_digit " "%char.
Proof. apply not_digit. left. cbn. lia. Qed.
Lemma colon_not_digit : ~ is_digit ":"%char.
Proof. apply not_digit. right. cbn. lia. Qed.

Lemma stops_next r rt rest : stops_text r rt -> exists c x, rt ++ LF :: rest = c :: x /\ ~ is_digit c.
Proof.
  destruct 1 as [|n t ns x H HS].
  - exists LF, rest. split; auto. apply lf_not_digit.
  - exists " "%char, ((t ++ x) ++ LF :: rest). split; auto. apply blank_not_digit.
Qed.
Lemma stops_unique r rt rest : stops_text r rt -> forall r' rt' rest', stops_text r' rt' ->
  rt ++ LF :: rest = rt' ++ LF :: rest' -> r = r' /\ rest = rest'.
Proof.
  induction 1 as [|n t ns x HD HS IH]; intros r' rt' rest' H' E; destruct H' as [|n' t' ns' x' HD' HS'].
  - injection E as E. auto.
  - discriminate.
  - discriminate.
  - cbn in E. injection E as E. rewrite <- !app_assoc in E.
    destruct (stops_next ns x rest HS) as (c & y & EY & NC). destruct (stops_next ns' x' rest' HS') as (c' & y' & EY' & NC').
    rewrite EY, EY' in E. destruct (span_eq is_digit t c y t' c' y') as (-> & -> & ->); eauto using decimal_digits.
    rewrite <- EY' in EY. destruct (IH _ _ _ HS' EY) as [-> ->]. split; auto. f_equal. eapply decimal_inj; eauto.
Qed.
Lemma solution_unique k rs c t : solution_text k rs c t -> forall k' rs' c' t', solution_text k' rs' c' t' -> t = t' -> rs = rs' /\ c = c'.
Proof.
  induction 1 as [k c t H|k kt r rt rs c rest HK HR HS IH]; intros k' rs' c' t'; destruct 1 as [k2 c2 t2 H2|k2 kt2 r2 rt2 rs2 c2 rest2 HK2 HR2 HS2]; intro E.
  - apply app_inv_head in E. split; auto. eapply decimal_inj; eauto.
  - discriminate.
  - discriminate.
  - apply app_inv_head in E. cbn [txt list_ascii_of_string app] in E.
    destruct (span_eq is_digit kt ":"%char (rt ++ LF :: rest) kt2 ":"%char (rt2 ++ LF :: rest2)) as (_ & _ & E2);
      eauto using decimal_digits, colon_not_digit.
    destruct (stops_unique _ _ _ HR _ _ _ HR2 E2) as [-> ->]. destruct (IH _ _ _ _ HS2 eq_refl) as [-> ->]. auto.
Qed.

(** ** The printer *)
Lemma stops_printed route : forall s, exists t, stops_text route t /\
  fold_left (fun s stop => s ++ txt " " ++ print_nat stop) route s = s ++ t.
Proof.
  induction route as [|n route IH]; intro s; cbn [fold_left].
  - exists []. split; [constructor|]. now rewrite app_nil_r.
  - destruct (IH (s ++ txt " " ++ print_nat n)) as (t & HT & ->). exists (txt " " ++ print_nat n ++ t). split.
    + constructor; auto. apply print_nat_spec.
    + now rewrite <- !app_assoc.
Qed.
Lemma routes_printed c ct routes : decimal c ct -> forall k, solution_text k (used_routes routes) c (route_lines k routes ++ txt "Cost " ++ ct).
Proof.
  intro HC. induction routes as [|r routes IH]; intro k; cbn [route_lines].
  - apply so_cost. exact HC.
  - unfold used_routes in *. cbn [filter]. destruct r as [|n r]; cbn [length]; [apply IH|].
    destruct (0 <? S (length r)) eqn:E; [|apply Nat.ltb_ge in E; lia].
    unfold route_string. destruct (stops_printed (n :: r) (txt "Route #" ++ print_nat k ++ txt ":")) as (t & HT & ->).
    rewrite <- !app_assoc. constructor; auto. apply print_nat_spec.
Qed.
