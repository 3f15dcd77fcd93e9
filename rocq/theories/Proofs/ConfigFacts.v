(** Merging the sources of the configuration. *)
From Coq Require Import Ascii String List Arith NArith ZArith Bool Lia.
From Verif.Model Require Import Num Prelude Text ConfigFile.
From Verif.Spec Require Import ConfigFile.
From Verif.Proofs Require Import Lists MatrixFacts TextFacts.
Import ListNotations.
Local Open Scope nat_scope.

Fixpoint distinct (l : list text) : bool :=
  match l with [] => true | x :: l => negb (existsb (text_eqb x) l) && distinct l end.
Lemma distinct_ok l : distinct l = true -> NoDup l.
Proof.
  induction l as [|x l IH]; cbn; [constructor|]. rewrite andb_true_iff, negb_true_iff. intros [H1 H2]. constructor; auto.
  intro I. assert (E : existsb (text_eqb x) l = true) by (apply existsb_exists; exists x; split; auto; apply text_eqb_refl). congruence.
Qed.

Section Facts.
  Context {N : Num}.

  Lemma schema_names : NoDup (map fst schema).
  Proof. apply distinct_ok. vm_compute. reflexivity. Qed.

  Lemma lookup_has f name v : NoDup (map fst f) -> (lookup name f = Some v <-> has f name v).
  Proof.
    unfold has. induction f as [|[k x] f IH]; cbn; intro ND; [split; [discriminate|tauto]|].
    inversion ND as [|? ? NI ND']; subst. destruct (text_eqb k name) eqn:E.
    - apply text_eqb_spec in E. subst k. split.
      + intro H. injection H as ->. now left.
      + intros [H|H]; [congruence|]. exfalso. apply NI. apply (in_map fst) in H. exact H.
    - rewrite IH by auto. split; [tauto|]. intros [H|H]; auto. injection H as -> ->. rewrite text_eqb_refl in E. discriminate.
  Qed.
  Lemma has_unique f name v w : NoDup (map fst f) -> has f name v -> has f name w -> v = w.
  Proof. intros ND H1 H2. apply lookup_has in H1, H2; auto. congruence. Qed.
  Lemma lookup_name f name : In name (map fst f) -> exists v, lookup name f = Some v.
  Proof.
    induction f as [|[k x] f IH]; cbn; [tauto|]. destruct (text_eqb k name) eqn:E; eauto.
    intros [->|H]; auto. rewrite text_eqb_refl in E. discriminate.
  Qed.

  Lemma set_names name v f : map fst (set_field name v f) = map fst f.
  Proof. induction f as [|[k x] f IH]; cbn; auto. destruct (text_eqb k name); cbn; congruence. Qed.
  Lemma lookup_set_same name v f : In name (map fst f) -> lookup name (set_field name v f) = Some v.
  Proof.
    induction f as [|[k x] f IH]; cbn; [tauto|]. destruct (text_eqb k name) eqn:E; cbn; rewrite E; auto.
    intros [->|H]; auto. rewrite text_eqb_refl in E. discriminate.
  Qed.
  Lemma lookup_set_other name name' v f : name <> name' -> lookup name' (set_field name v f) = lookup name' f.
  Proof.
    intro H. induction f as [|[k x] f IH]; cbn; auto. destruct (text_eqb k name) eqn:E; cbn; [|now rewrite IH].
    apply text_eqb_spec in E. subst k. now rewrite text_eqb_neq.
  Qed.

  (** ** Patching *)
  Lemma patch_names m : forall f, map fst (fold_left patch m f) = map fst f.
  Proof.
    induction m as [|[k v] m IH]; intro f; cbn [fold_left]; auto. rewrite IH. unfold patch. cbn [fst snd]. destruct k; auto. apply set_names.
  Qed.
  Lemma patch_none m name : gives_none m name -> forall f, lookup name (fold_left patch m f) = lookup name f.
  Proof.
    induction m as [|[k v] m IH]; intros H f; cbn [fold_left]; auto.
    rewrite IH by (intros w Hw; apply (H w); now right). unfold patch. cbn [fst snd]. destruct k; auto.
    apply lookup_set_other. intros ->. apply (H v). now left.
  Qed.
  Lemma patch_given m name v : NoDup (map fst m) -> gives m name v ->
    forall f, In name (map fst f) -> lookup name (fold_left patch m f) = Some v.
  Proof.
    unfold gives. induction m as [|[k x] m IH]; intros ND I f Hf; [destruct I|]. cbn [map fst] in ND. inversion ND as [|? ? NI ND']; subst.
    cbn [fold_left]. destruct I as [E|I].
    - injection E as -> ->. rewrite patch_none.
      + unfold patch. cbn [fst snd]. now apply lookup_set_same.
      + intros w Hw. apply NI. apply (in_map fst) in Hw. exact Hw.
    - apply IH; auto. unfold patch. cbn [fst snd]. destruct k; auto. now rewrite set_names.
  Qed.

  (** ** Types *)
  Lemma in_u64_spec z : in_u64 z = true <-> exists n, z = Z.of_N n /\ (n < 2 ^ 64)%N.
  Proof.
    unfold in_u64. rewrite andb_true_iff, Z.leb_le, Z.ltb_lt. split.
    - intros [H1 H2]. exists (Z.to_N z). split; [lia|].
      apply N2Z.inj_lt. rewrite Z2N.id by auto. exact H2.
    - intros (n & -> & H). split; [lia|]. apply N2Z.inj_lt in H. exact H.
  Qed.
  Lemma decode_spec k v w : decode k v = Some w <-> stands_for k v w.
  Proof.
    split.
    - destruct k, v; cbn; try discriminate; intro H;
        try (injection H as <-; constructor);
        (destruct (in_u64 z) eqn:E; [|discriminate]; injection H as <-; apply in_u64_spec in E; destruct E as (n & -> & E); now constructor).
    - destruct 1; cbn; auto; (replace (in_u64 (Z.of_N n)) with true; auto; symmetry; apply in_u64_spec; eauto).
  Qed.
  Lemma stands_twice k v w : stands_for k v w -> stands_for k w w.
  Proof. destruct 1; now constructor. Qed.

  (** ** Decoding all fields *)
  Lemma decode_all f : map fst f = map fst schema ->
    (forall name k v, In (name, k) schema -> lookup name f = Some v -> exists w, stands_for k v w) ->
    exists f', mapm (decode_field f) schema = Ok f' /\ map fst f' = map fst schema /\
      forall name k, In (name, k) schema -> exists v w, lookup name f = Some v /\ stands_for k v w /\ has f' name w.
  Proof.
    intros HN HA.
    assert (G : forall s, incl s schema -> exists f', mapm (decode_field f) s = Ok f' /\ map fst f' = map fst s /\
      forall name k, In (name, k) s -> exists v w, lookup name f = Some v /\ stands_for k v w /\ has f' name w).
    { induction s as [|[name k] s IH]; intro HI.
      - exists []. split; [reflexivity|]. split; [reflexivity|]. intros ? ? [].
      - destruct IH as (f' & E & H1 & H2); [intros x Hx; apply HI; now right|].
        assert (I : In (name, k) schema) by (apply HI; now left).
        destruct (lookup_name f name) as (v & EV). { rewrite HN. apply (in_map fst) in I. exact I. }
        destruct (HA name k v I EV) as (w & SW). pose proof SW as SW'. apply decode_spec in SW.
        cbn [mapm]. unfold decode_field at 1. cbn [fst snd]. rewrite EV, SW. cbn [rbind]. rewrite E. cbn [rbind].
        eexists. split; [reflexivity|]. cbn [map fst]. rewrite H1. split; auto.
        intros name' k' [HX|HX].
        + injection HX as <- <-. exists v, w. split; auto. split; auto. now left.
        + destruct (H2 name' k' HX) as (v' & w' & A & B & C). exists v', w'. split; auto. split; auto. now right. }
    apply (G schema). intros x Hx. exact Hx.
  Qed.
  Lemma decode_bad f name k v : In (name, k) schema -> lookup name f = Some v -> (forall w, ~ stands_for k v w) ->
    exists e, mapm (decode_field f) schema = Err e.
  Proof.
    intros HI HL HB. destruct (mapm (decode_field f) schema) as [f'|e] eqn:E; [|eauto]. exfalso.
    apply mapm_spec in E. revert E HI. generalize schema. intros s E. revert HL HB. clear -E. intros HL HB HI.
    induction E as [|[n' k'] [a b] s f' H _ IH]; [destruct HI|]. destruct HI as [HI|HI]; [|now apply IH].
    injection HI as -> ->. unfold decode_field in H. cbn [fst snd] in H. rewrite HL in H.
    destruct (decode k v) as [w|] eqn:D; [|discriminate]. apply decode_spec in D. exact (HB w D).
  Qed.
End Facts.
