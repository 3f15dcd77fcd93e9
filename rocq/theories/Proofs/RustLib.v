(** The example library meets the library contract. *)
From Coq Require Import List Arith Lia Permutation Sorted.
From Verif.Model Require Import Prelude Population.
From Verif.Spec Require Import Library.
From Verif.Proofs Require Import Lists.
Import ListNotations.

Lemma bsearch_range {A} cmp (l : list A) fuel : forall left right, left <= right <= length l ->
  left <= bsearch_loop fuel cmp l left right <= right.
Proof.
  induction fuel as [|fuel IH]; intros left right H; cbn [bsearch_loop]; [lia|].
  destruct (Nat.ltb_spec left right); [|lia].
  assert (Hm : left + (right - left) / 2 < right).
  { pose proof (Nat.div_lt (right - left) 2). lia. }
  set (mid := left + (right - left) / 2) in *. assert (left <= mid) by (unfold mid; lia).
  destruct (nth_error l mid) as [x|]; [|lia]. destruct (cmp x); [lia| |].
  - specialize (IH (mid + 1) right). lia.
  - specialize (IH left mid). lia.
Qed.

Lemma bsearch_part {A} cmp (l a b c : list A) : l = a ++ b ++ c ->
  Forall (fun x => cmp x = Lt) a -> Forall (fun x => cmp x = Eq) b -> Forall (fun x => cmp x = Gt) c ->
  forall fuel left right, left <= length a -> length a + length b <= right <= length l -> right - left <= fuel ->
  length a <= bsearch_loop fuel cmp l left right <= length a + length b.
Proof.
  intros El Ha Hb Hc.
  assert (Hn : forall k x, nth_error l k = Some x ->
    match cmp x with Lt => k < length a | Eq => length a <= k < length a + length b | Gt => length a + length b <= k end).
  { intros k x Hk. rewrite El in Hk. rewrite Forall_forall in *.
    destruct (Nat.lt_ge_cases k (length a)) as [H1|H1].
    - rewrite nth_error_app1 in Hk by auto. rewrite Ha by (eapply nth_error_In; eauto). auto.
    - rewrite nth_error_app2 in Hk by auto. destruct (Nat.lt_ge_cases (k - length a) (length b)) as [H2|H2].
      + rewrite nth_error_app1 in Hk by auto. rewrite Hb by (eapply nth_error_In; eauto). lia.
      + rewrite nth_error_app2 in Hk by auto. rewrite Hc by (eapply nth_error_In; eauto). lia. }
  induction fuel as [|fuel IH]; intros left right H1 H2 H3; cbn [bsearch_loop]; [lia|].
  destruct (Nat.ltb_spec left right); [|lia].
  assert (Hm : left + (right - left) / 2 < right).
  { pose proof (Nat.div_lt (right - left) 2). lia. }
  set (mid := left + (right - left) / 2) in *. assert (left <= mid) by (unfold mid; lia).
  destruct (nth_error l mid) as [x|] eqn:E.
  - specialize (Hn _ _ E). destruct (cmp x); [lia| |].
    + apply IH; lia.
    + apply IH; lia.
  - apply nth_error_None in E. lia.
Qed.

Lemma rust_lib_ok : lib_ok rust_lib.
Proof.
  split.
  - intros A cmp l. cbn. pose proof (bsearch_range cmp l (length l) 0 (length l)). lia.
  - intros A cmp a b c Ha Hb Hc. cbn. apply (bsearch_part cmp (a ++ b ++ c) a b c); auto; rewrite ?app_length; lia.
  - intros A cmp l. cbn. apply isort_perm.
  - intros A cmp l Htot Htr. cbn.
    assert (Hs : StronglySorted (fun x y => match cmp x y with Gt => false | _ => true end = true)
       (isort (fun a b => match cmp a b with Gt => false | _ => true end) l)).
    { apply (isort_sorted _ (fun x => In x l)).
      - intros x y Hx Hy. destruct (Htot x y Hx Hy) as [H|H]; [left|right];
          [destruct (cmp x y)|destruct (cmp y x)]; congruence.
      - intros x y z Hx Hy Hz H1 H2. specialize (Htr x y z Hx Hy Hz).
        destruct (cmp x y); try discriminate; destruct (cmp y z); try discriminate;
        destruct (cmp x z); auto; exfalso; apply Htr; congruence.
      - apply Forall_forall. auto. }
    revert Hs. generalize (isort (fun a b => match cmp a b with Gt => false | _ => true end) l). clear. intros l' Hs.
    induction Hs as [|x l' Hs IH Hf]; constructor; auto.
    rewrite Forall_forall in *. intros y Hy. specialize (Hf y Hy). destruct (cmp x y); congruence.
Qed.
