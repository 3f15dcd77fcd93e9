(** Lemmas about the list utilities of the model. *)
From Coq Require Import List Arith NArith Bool Lia Permutation Sorted.
From Verif.Model Require Import Prelude.
Import ListNotations.

Lemma upd_length {A} (l : list A) i a : length (upd l i a) = length l.
Proof. revert i; induction l; destruct i; simpl; auto. Qed.

Lemma nth_error_upd {A} (l : list A) i j a :
  nth_error (upd l i a) j =
  if (i =? j)%nat then (if j <? length l then Some a else None) else nth_error l j.
Proof.
  revert i j; induction l; intros i j; simpl.
  - destruct (i =? j); destruct j; reflexivity.
  - destruct i, j; simpl; auto.
    rewrite IHl. destruct (i =? j) eqn:E; simpl; reflexivity.
Qed.

Lemma nth_upd {A} (l : list A) i j a d :
  (i < length l)%nat -> nth j (upd l i a) d = if (i =? j)%nat then a else nth j l d.
Proof.
  revert i j; induction l; intros i j H; simpl in *; [lia|].
  destruct i, j; simpl; auto. apply IHl; lia.
Qed.

Lemma nth_upd_neq {A} (l : list A) i j a d :
  i <> j -> nth j (upd l i a) d = nth j l d.
Proof.
  revert i j; induction l; intros i j H; simpl; auto.
  destruct i, j; simpl; auto; try lia.
Qed.

Lemma upd_upd_same {A} (l : list A) i a b : upd (upd l i a) i b = upd l i b.
Proof. revert i; induction l; destruct i; simpl; auto. f_equal; auto. Qed.

Lemma upd_same_nth {A} (l : list A) i a : nth_error l i = Some a -> upd l i a = l.
Proof.
  revert i; induction l; destruct i; simpl; intros H; auto; try congruence.
  f_equal; auto.
Qed.

Lemma upd_app_mid {A} (l1 l2 : list A) b a :
  upd (l1 ++ b :: l2) (length l1) a = l1 ++ a :: l2.
Proof. induction l1; simpl; congruence. Qed.

Lemma seti_ok {A} (l : list A) i a : i < length l -> seti l i a = Ok (upd l i a).
Proof. intros H. unfold seti. apply Nat.ltb_lt in H. now rewrite H. Qed.

Lemma geti_ok {A} (l : list A) i d : i < length l -> geti l i = Ok (nth i l d).
Proof.
  intros H. unfold geti. rewrite (nth_error_nth' l d H). reflexivity.
Qed.

Lemma geti_some {A} (l : list A) i a : nth_error l i = Some a -> geti l i = Ok a.
Proof. intros H. unfold geti. now rewrite H. Qed.

Lemma geti_inv {A} (l : list A) i a : geti l i = Ok a -> nth_error l i = Some a.
Proof. unfold geti. destruct (nth_error l i); congruence. Qed.

Lemma resize_length {A} (l : list A) n d : length (resize l n d) = n.
Proof. unfold resize. rewrite app_length, firstn_length, repeat_length. lia. Qed.

Lemma resize_same {A} (l : list A) d : resize l (length l) d = l.
Proof. unfold resize. rewrite firstn_all, Nat.sub_diag. simpl. apply app_nil_r. Qed.

Lemma nth_error_split_eq {A} (l : list A) i a :
  nth_error l i = Some a -> l = firstn i l ++ a :: skipn (S i) l.
Proof.
  revert i; induction l; destruct i; intros H; simpl in H; try discriminate.
  - injection H as ->. reflexivity.
  - change (a0 :: l = a0 :: (firstn i l ++ a :: skipn (S i) l)). f_equal; auto.
Qed.

Lemma remove_nth_perm {A} (l : list A) i a :
  nth_error l i = Some a -> Permutation l (a :: remove_nth l i).
Proof.
  intros H. rewrite (nth_error_split_eq l i a H) at 1.
  unfold remove_nth. symmetry. apply Permutation_middle.
Qed.

Lemma remove_nth_length {A} (l : list A) i :
  i < length l -> length (remove_nth l i) = length l - 1.
Proof.
  intros H. unfold remove_nth. rewrite app_length, firstn_length, skipn_length. lia.
Qed.

Lemma insert_nth_perm {A} (l : list A) i a :
  Permutation (insert_nth l i a) (a :: l).
Proof.
  unfold insert_nth. rewrite <- (firstn_skipn i l) at 3.
  symmetry. apply Permutation_middle.
Qed.

Lemma insert_nth_length {A} (l : list A) i a : length (insert_nth l i a) = S (length l).
Proof. apply (Permutation_length (insert_nth_perm l i a)). Qed.

(** *** Monadic folds *)
Lemma foldm_app {A S} (f : S -> A -> res S) l1 l2 s :
  foldm f (l1 ++ l2) s = rbind (foldm f l1 s) (foldm f l2).
Proof.
  revert s; induction l1; intros s; simpl; auto.
  destruct (f s a); simpl; auto.
Qed.

(** Invariant rule: a fold whose every step preserves [P] preserves [P]. *)
Lemma foldm_inv {A S} (f : S -> A -> res S) (P : S -> Prop) l s s' :
  (forall s a s', In a l -> P s -> f s a = Ok s' -> P s') ->
  P s -> foldm f l s = Ok s' -> P s'.
Proof.
  revert s; induction l; intros s Hstep H0 H; simpl in H.
  - congruence.
  - destruct (f s a) eqn:E; [|congruence].
    apply (IHl a0); auto.
    + intros s1 a1 s2 Hin. apply Hstep. now right.
    + apply (Hstep s a a0); auto. now left.
Qed.

Lemma foldm_ok {A S} (f : S -> A -> res S) (P : S -> Prop) l s :
  (forall s a, In a l -> P s -> exists s', f s a = Ok s' /\ P s') ->
  P s -> exists s', foldm f l s = Ok s' /\ P s'.
Proof.
  revert s; induction l; intros s Hstep H0; simpl.
  - eauto.
  - destruct (Hstep s a (or_introl eq_refl) H0) as (s1 & E & H1).
    rewrite E. apply IHl; auto. intros; apply Hstep; auto. now right.
Qed.

(** *** Swap and shuffle *)
Lemma swap_nth_perm {A} (l : list A) i j : Permutation (swap_nth l i j) l.
Proof.
  unfold swap_nth.
  destruct (nth_error l i) as [a|] eqn:Ei; [|reflexivity].
  destruct (nth_error l j) as [b|] eqn:Ej; [|reflexivity].
  revert i j Ei Ej; induction l as [|x l IH]; intros i j Ei Ej.
  - destruct i; discriminate.
  - destruct i, j; simpl in *.
    + injection Ei as ->. injection Ej as ->. reflexivity.
    + injection Ei as ->.
      destruct (nth_error_split l j Ej) as (l1 & l2 & -> & <-).
      rewrite upd_app_mid. rewrite <- !Permutation_middle. apply perm_swap.
    + injection Ej as ->.
      destruct (nth_error_split l i Ei) as (l1 & l2 & -> & <-).
      rewrite upd_app_mid. rewrite <- !Permutation_middle. apply perm_swap.
    + apply perm_skip. apply IH; auto.
Qed.

Lemma shuffle_from_perm {A} k i (l : list A) r l' r' :
  shuffle_from k i l r = (l', r') -> Permutation l' l.
Proof.
  revert i l r; induction k; intros i l r H; simpl in H.
  - injection H as <- <-. reflexivity.
  - apply IHk in H. rewrite H. apply swap_nth_perm.
Qed.

Lemma shuffle_perm {A} (l : list A) r l' r' :
  shuffle l r = (l', r') -> Permutation l' l.
Proof. apply shuffle_from_perm. Qed.

Lemma range_usize_spec lo hi r k r' :
  range_usize lo hi r = Ok (k, r') -> lo <= k < hi.
Proof.
  unfold range_usize. destruct (lo <? hi) eqn:E; [|congruence].
  apply Nat.ltb_lt in E. simpl. intros H; injection H as <- <-.
  assert (Hnz : N.of_nat (hi - lo) <> 0%N) by lia.
  pose proof (N.mod_lt (rdraw r (rpos r)) _ Hnz).
  revert H. generalize (N.modulo (rdraw r (rpos r)) (N.of_nat (hi - lo))). intros n Hn. lia.
Qed.

Lemma range_usize_ok lo hi r : lo < hi -> exists k r', range_usize lo hi r = Ok (k, r').
Proof.
  intros H. unfold range_usize. apply Nat.ltb_lt in H. rewrite H. simpl. eauto.
Qed.

(** *** Insertion sort *)
Section Sort.
  Context {A : Type} (leb : A -> A -> bool).
  Lemma insert_sorted_perm a l : Permutation (insert_sorted leb a l) (a :: l).
  Proof.
    induction l; simpl; auto. destruct (leb a a0); auto.
    rewrite IHl. apply perm_swap.
  Qed.
  Lemma isort_perm l : Permutation (isort leb l) l.
  Proof. induction l; simpl; auto. rewrite insert_sorted_perm. now constructor. Qed.

  Lemma isort_length l : length (isort leb l) = length l.
  Proof. apply Permutation_length, isort_perm. Qed.

  (** Sortedness under a total and transitive test on the elements at hand. *)
  Lemma insert_sorted_sorted (P : A -> Prop) a l :
    (forall x y, P x -> P y -> leb x y = true \/ leb y x = true) ->
    (forall x y z, P x -> P y -> P z -> leb x y = true -> leb y z = true -> leb x z = true) ->
    P a -> Forall P l ->
    StronglySorted (fun x y => leb x y = true) l ->
    StronglySorted (fun x y => leb x y = true) (insert_sorted leb a l).
  Proof.
    intros Htot Htr Pa Pl Hs. induction Hs as [|b t Hs IH Hb]; simpl.
    - repeat constructor.
    - inversion Pl as [|? ? Pb Pt]; subst.
      destruct (leb a b) eqn:E.
      + constructor; [constructor; auto|]. constructor; auto.
        rewrite Forall_forall in *. intros x Hx. eapply (Htr a b x); eauto.
      + constructor; [auto|].
        assert (leb b a = true) by (destruct (Htot a b Pa Pb); congruence).
        rewrite Forall_forall in *. intros x Hx.
        eapply Permutation_in in Hx; [|apply insert_sorted_perm].
        destruct Hx as [<-|Hx]; auto.
  Qed.

  Lemma isort_sorted (P : A -> Prop) l :
    (forall x y, P x -> P y -> leb x y = true \/ leb y x = true) ->
    (forall x y z, P x -> P y -> P z -> leb x y = true -> leb y z = true -> leb x z = true) ->
    Forall P l ->
    StronglySorted (fun x y => leb x y = true) (isort leb l).
  Proof.
    intros Htot Htr Pl. induction l; simpl; [constructor|].
    inversion Pl; subst. apply insert_sorted_sorted with (P := P); auto.
    rewrite Forall_forall in *. intros x Hx. apply H2.
    eapply Permutation_in; [apply isort_perm|]; auto.
  Qed.
End Sort.

(** *** Permutations of sequences *)
Lemma NoDup_app_inv {A} (l1 l2 : list A) :
  NoDup (l1 ++ l2) -> NoDup l1 /\ NoDup l2 /\ (forall x, In x l1 -> In x l2 -> False).
Proof.
  induction l1; simpl; intros H.
  - repeat split; auto using NoDup_nil.
  - inversion H; subst. destruct (IHl1 H3) as (H4 & H5 & H6).
    repeat split; auto.
    + constructor; auto. intros Hin. apply H2, in_or_app; auto.
    + intros x [<-|Hx] Hx2; eauto. apply H2, in_or_app; auto.
Qed.

Lemma NoDup_app_intro {A} (l1 l2 : list A) :
  NoDup l1 -> NoDup l2 -> (forall x, In x l1 -> In x l2 -> False) -> NoDup (l1 ++ l2).
Proof.
  induction l1; simpl; intros H1 H2 H3; auto.
  inversion H1; subst. constructor.
  - rewrite in_app_iff. intros [H|H]; eauto.
  - apply IHl1; eauto.
Qed.

Lemma concat_perm {A} (l1 l2 : list (list A)) :
  Permutation l1 l2 -> Permutation (concat l1) (concat l2).
Proof.
  induction 1; simpl; auto.
  - now apply Permutation_app_head.
  - rewrite !app_assoc. apply Permutation_app_tail, Permutation_app_comm.
  - etransitivity; eauto.
Qed.

Lemma concat_repeat_nil {A} n : concat (repeat (@nil A) n) = [].
Proof. induction n; simpl; auto. Qed.

Lemma concat_rev_perm {A} (l : list (list A)) : Permutation (concat (rev l)) (concat l).
Proof. apply concat_perm. symmetry. apply Permutation_rev. Qed.

Lemma NoDup_firstn_l {A} n (l : list A) : NoDup l -> NoDup (firstn n l).
Proof.
  intros H. rewrite <- (firstn_skipn n l) in H. now apply NoDup_app_inv in H.
Qed.
