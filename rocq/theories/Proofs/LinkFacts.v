(** Facts about the linked lists of the local search. *)
From Coq Require Import List Arith Bool Lia Permutation.
From Verif.Model Require Import Prelude LinkedList.
From Verif.Proofs Require Import Lists.
Import ListNotations.

Lemma ptr_eqb_eq a b : ptr_eqb a b = true <-> a = b.
Proof.
  destruct a, b; cbn; rewrite ?Nat.eqb_eq; split; intros H; try discriminate; try congruence.
Qed.
Lemma ptr_eqb_refl a : ptr_eqb a a = true.
Proof. apply ptr_eqb_eq; auto. Qed.
Lemma ptr_eqb_neq a b : ptr_eqb a b = false <-> a <> b.
Proof.
  destruct (ptr_eqb a b) eqn:E.
  - apply ptr_eqb_eq in E. split; congruence.
  - split; auto. intros _ H. apply ptr_eqb_eq in H. congruence.
Qed.
Lemma ptr_dec (a b : ptr) : {a = b} + {a <> b}.
Proof. decide equality; apply Nat.eq_dec. Qed.

Lemma pupd_same {A} (f : ptr -> A) k a : pupd f k a k = a.
Proof. unfold pupd. rewrite ptr_eqb_refl. auto. Qed.
Lemma pupd_other {A} (f : ptr -> A) k a j : j <> k -> pupd f k a j = f j.
Proof. intros H. unfold pupd. apply ptr_eqb_neq in H. rewrite H. auto. Qed.

(** ** Counting occurrences *)

Definition eq01 (a b : ptr) : nat := if ptr_dec b a then 1 else 0.
Definition cnt (a : ptr) (l : list ptr) : nat := count_occ ptr_dec l a.

Lemma eq01_refl a : eq01 a a = 1.
Proof. unfold eq01. destruct (ptr_dec a a); congruence. Qed.
Lemma eq01_eq a b : a = b -> eq01 a b = 1.
Proof. intros ->. apply eq01_refl. Qed.
Lemma cnt_nil a : cnt a [] = 0.
Proof. reflexivity. Qed.
Lemma cnt_cons a b l : cnt a (b :: l) = eq01 a b + cnt a l.
Proof. unfold cnt, eq01. cbn. destruct (ptr_dec b a); auto. Qed.
Lemma cnt_app a l m : cnt a (l ++ m) = cnt a l + cnt a m.
Proof. apply count_occ_app. Qed.
Lemma cnt_rev a l : cnt a (rev l) = cnt a l.
Proof. unfold cnt. induction l; cbn; auto. rewrite count_occ_app. cbn. destruct (ptr_dec a0 a); lia. Qed.
Lemma in_cnt a l : In a l <-> 1 <= cnt a l.
Proof. unfold cnt. rewrite (count_occ_In ptr_dec). lia. Qed.
Lemma NoDup_cnt l : NoDup l <-> forall a, cnt a l <= 1.
Proof. unfold cnt. apply NoDup_count_occ. Qed.

Create HintDb cntdb.
Global Hint Rewrite cnt_nil cnt_cons cnt_app cnt_rev : cntdb.

(** Close [a <> b], [~ In a l] from a bound on the occurrences of every pointer. *)
Ltac cnt_at Hc a :=
  let K := fresh "K" in
  pose proof (Hc a) as K; pose proof (eq01_refl a);
  repeat match goal with H : In a ?X |- _ => apply in_cnt in H end;
  autorewrite with cntdb in *; lia.
Ltac neqc :=
  match goal with
  | Hc : forall z, cnt z _ <= 1 |- ?a <> ?c =>
      let E := fresh "E" in
      intro E;
      match goal with
      | E : a = c |- _ =>
          pose proof (eq01_eq a c E);
          repeat match goal with H : In c ?X |- _ => rewrite <- E in H end;
          cnt_at Hc a
      end
  end.
Ltac notinc :=
  match goal with
  | Hc : forall z, cnt z _ <= 1 |- ~ In ?a ?X =>
      let I := fresh "I" in intro I; cnt_at Hc a
  end.

(** ** Links *)

Lemma l_succ_link h a b z :
  l_succ (link_nodes h a b) z = if ptr_eqb z a then Some b else l_succ h z.
Proof. reflexivity. Qed.
Lemma l_pred_link h a b z :
  l_pred (link_nodes h a b) z = if ptr_eqb z b then Some a else l_pred h z.
Proof. reflexivity. Qed.

Lemma l_succ_link_neq h a b z : z <> a -> l_succ (link_nodes h a b) z = l_succ h z.
Proof. intros H. rewrite l_succ_link. apply ptr_eqb_neq in H. rewrite H. auto. Qed.
Lemma l_pred_link_neq h a b z : z <> b -> l_pred (link_nodes h a b) z = l_pred h z.
Proof. intros H. rewrite l_pred_link. apply ptr_eqb_neq in H. rewrite H. auto. Qed.

Definition linked (h : links) (a b : ptr) : Prop := l_succ h a = Some b /\ l_pred h b = Some a.

Fixpoint seg (h : links) (l : list ptr) : Prop :=
  match l with
  | a :: ((b :: _) as t) => linked h a b /\ seg h t
  | _ => True
  end.

Lemma linked_here h a b : linked (link_nodes h a b) a b.
Proof. split; cbn; apply pupd_same. Qed.
Lemma linked_there h a b c d :
  a <> c -> b <> d -> linked h a b -> linked (link_nodes h c d) a b.
Proof.
  intros H1 H2 [L1 L2]. split.
  - rewrite l_succ_link_neq; auto.
  - rewrite l_pred_link_neq; auto.
Qed.

Lemma seg_app h l a m : seg h (l ++ a :: m) <-> seg h (l ++ [a]) /\ seg h (a :: m).
Proof.
  induction l as [|b l IH]; cbn [app].
  - cbn [seg]. tauto.
  - destruct l as [|c l]; cbn [app] in *.
    + cbn [seg] in *. tauto.
    + change (linked h b c /\ seg h (c :: l ++ a :: m)
              <-> (linked h b c /\ seg h (c :: l ++ [a])) /\ seg h (a :: m)). tauto.
Qed.
Lemma seg_cons2 h a b m : seg h (a :: b :: m) <-> linked h a b /\ seg h (b :: m).
Proof. reflexivity. Qed.
Lemma seg_mid h l a b m :
  seg h (l ++ a :: b :: m) <-> seg h (l ++ [a]) /\ linked h a b /\ seg h (b :: m).
Proof. rewrite seg_app, seg_cons2. tauto. Qed.
Lemma seg_one h a : seg h [a].
Proof. exact I. Qed.
Lemma seg_tail h a l : seg h (a :: l) -> seg h l.
Proof. destruct l; cbn; tauto. Qed.

Lemma seg_link h a b l :
  seg h l -> ~ In a (removelast l) -> ~ In b (tl l) -> seg (link_nodes h a b) l.
Proof.
  induction l as [|c l IH]; auto. destruct l as [|d l]; auto.
  intros [L S] Ha Hb. cbn [tl] in Hb. split.
  - apply linked_there; auto; intros ->; [apply Ha|apply Hb]; cbn; auto.
  - apply IH; auto.
    + intros I. apply Ha. right. exact I.
    + intros I. apply Hb. right. exact I.
Qed.

Lemma removelast_In {A} (l : list A) a : In a (removelast l) -> In a l.
Proof.
  induction l as [|b l IH]; auto. destruct l as [|d l]; [intros []|].
  intros [H|H]; [left; auto|right; auto].
Qed.
Lemma tl_In {A} (l : list A) a : In a (tl l) -> In a l.
Proof. destruct l; cbn; auto. Qed.

(** Adjacent pairs *)
Fixpoint pairs (l : list ptr) : list (ptr * ptr) :=
  match l with
  | a :: ((b :: _) as t) => (a, b) :: pairs t
  | _ => []
  end.

Lemma seg_pairs h l : seg h l <-> forall a b, In (a, b) (pairs l) -> linked h a b.
Proof.
  induction l as [|c l IH]; [cbn; tauto|]. destruct l as [|d l]; [cbn; tauto|].
  change (seg h (c :: d :: l)) with (linked h c d /\ seg h (d :: l)).
  change (pairs (c :: d :: l)) with ((c, d) :: pairs (d :: l)). rewrite IH. split.
  - intros [L S] a b [E|E]; [injection E as <- <-; auto|auto].
  - intros H. split; [apply H; left; auto|intros a b E; apply H; right; auto].
Qed.

Lemma pairs_In l a b : In (a, b) (pairs l) -> In a l /\ In b l.
Proof.
  induction l as [|c l IH]; [intros []|]. destruct l as [|d l]; [intros []|].
  intros [E|E].
  - injection E as <- <-. split; cbn; auto.
  - destruct (IH E) as [I1 I2]. split; right; auto.
Qed.

Lemma pairs_fst l : map fst (pairs l) = removelast l.
Proof.
  induction l as [|c l IH]; auto. destruct l as [|d l]; auto.
  change (c :: map fst (pairs (d :: l)) = c :: removelast (d :: l)). rewrite IH. auto.
Qed.
Lemma pairs_snd l : map snd (pairs l) = tl l.
Proof.
  induction l as [|c l IH]; auto. destruct l as [|d l]; auto.
  change (d :: map snd (pairs (d :: l)) = d :: l). rewrite IH. auto.
Qed.

(** ** Sequences of link operations *)

Definition do_links (h : links) (ls : list (ptr * ptr)) : links :=
  fold_left (fun h e => link_nodes h (fst e) (snd e)) ls h.

Lemma do_links_app h l1 l2 : do_links h (l1 ++ l2) = do_links (do_links h l1) l2.
Proof. apply fold_left_app. Qed.

Lemma do_links_succ h ls z : ~ In z (map fst ls) -> l_succ (do_links h ls) z = l_succ h z.
Proof.
  revert h. induction ls as [|[a b] ls IH]; intros h H; auto.
  cbn [do_links fold_left fst snd]. cbn [map fst In] in H.
  change (l_succ (do_links (link_nodes h a b) ls) z = l_succ h z).
  rewrite IH by tauto. apply l_succ_link_neq. intros ->. tauto.
Qed.
Lemma do_links_pred h ls z : ~ In z (map snd ls) -> l_pred (do_links h ls) z = l_pred h z.
Proof.
  revert h. induction ls as [|[a b] ls IH]; intros h H; auto.
  cbn [map snd In] in H.
  change (l_pred (do_links (link_nodes h a b) ls) z = l_pred h z).
  rewrite IH by tauto. apply l_pred_link_neq. intros ->. tauto.
Qed.

Lemma do_links_linked h ls a b :
  NoDup (map fst ls) -> NoDup (map snd ls) -> In (a, b) ls -> linked (do_links h ls) a b.
Proof.
  revert h. induction ls as [|[c d] ls IH]; intros h N1 N2 I; [destruct I|].
  cbn [map fst snd] in N1, N2. inversion N1; subst. inversion N2; subst.
  change (linked (do_links (link_nodes h c d) ls) a b).
  destruct I as [E|I]; [|auto].
  injection E as <- <-. destruct (linked_here h c d) as [L1 L2]. split.
  - rewrite do_links_succ; auto.
  - rewrite do_links_pred; auto.
Qed.

Lemma do_links_seg h ls l :
  seg h l -> (forall a, In a (map fst ls) -> ~ In a (removelast l)) ->
  (forall b, In b (map snd ls) -> ~ In b (tl l)) -> seg (do_links h ls) l.
Proof.
  revert h. induction ls as [|[c d] ls IH]; intros h S H1 H2; auto.
  change (seg (do_links (link_nodes h c d) ls) l). apply IH.
  - apply seg_link; auto; [apply H1|apply H2]; cbn; auto.
  - intros a I. apply H1. cbn; auto.
  - intros a I. apply H2. cbn; auto.
Qed.

(** A freshly linked list *)
Lemma do_links_pairs h l : NoDup l -> seg (do_links h (pairs l)) l.
Proof.
  intros ND. apply seg_pairs. intros a b I. apply do_links_linked; auto.
  - rewrite pairs_fst. clear I. induction l as [|c l IH]; [constructor|].
    inversion ND; subst. destruct l as [|d l]; [constructor|].
    change (NoDup (c :: removelast (d :: l))). constructor; auto.
    intros I. apply removelast_In in I. auto.
  - rewrite pairs_snd. destruct l; [constructor|]. inversion ND; auto.
Qed.

(** ** Walks *)

(** Following successors from [a] visits [l] and then ends *)
Fixpoint fpath (h : links) (a : ptr) (l : list ptr) : Prop :=
  match l with
  | [] => l_succ h a = None
  | b :: t => l_succ h a = Some b /\ fpath h b t
  end.
Fixpoint bpath (h : links) (a : ptr) (l : list ptr) : Prop :=
  match l with
  | [] => l_pred h a = None
  | b :: t => l_pred h a = Some b /\ bpath h b t
  end.

Lemma seg_fpath h a l e : seg h (a :: l ++ [e]) -> l_succ h e = None -> fpath h a (l ++ [e]).
Proof.
  revert a. induction l as [|b l IH]; intros a S E; cbn [app] in *.
  - destruct S as [[S _] _]. cbn. auto.
  - destruct S as [[S _] T]. cbn. split; auto.
Qed.

Lemma fpath_link h a b c l : ~ In c (a :: l) -> fpath h a l -> fpath (link_nodes h c b) a l.
Proof.
  revert a. induction l as [|d l IH]; intros a H P; cbn [fpath] in *.
  - rewrite l_succ_link_neq; auto. intros ->. cbn in H. tauto.
  - destruct P as [P1 P2]. rewrite l_succ_link_neq; [|intros ->; cbn in H; tauto].
    split; auto. apply IH; auto. cbn in *. tauto.
Qed.

Lemma bpath_link h a b c l : ~ In c (a :: l) -> bpath h a l -> bpath (link_nodes h b c) a l.
Proof.
  revert a. induction l as [|d l IH]; intros a H P; cbn [bpath] in *.
  - rewrite l_pred_link_neq; auto. intros ->. cbn in H. tauto.
  - destruct P as [P1 P2]. rewrite l_pred_link_neq; [|intros ->; cbn in H; tauto].
    split; auto. apply IH; auto. cbn in *. tauto.
Qed.

(** Backward walk of a segment: from its last element *)
Lemma seg_bpath h s l a : seg h (s :: l ++ [a]) -> l_pred h s = None -> bpath h a (rev l ++ [s]).
Proof.
  revert a. induction l as [|b l IH] using rev_ind; intros a S E; cbn [app rev] in *.
  - destruct S as [[_ S] _]. cbn. auto.
  - rewrite <- app_assoc in S. cbn [app] in S.
    rewrite app_comm_cons in S. apply seg_app in S. destruct S as [S1 S2].
    rewrite rev_app_distr. cbn [rev app bpath]. split.
    + destruct S2 as [[_ S2] _]. auto.
    + apply IH; auto.
Qed.

(** forward_reverse: the links set when walking over [l] from [from], then ending with [f] *)
Fixpoint flinks (f from : ptr) (l : list ptr) : list (ptr * ptr) :=
  match l with
  | [] => [(f, from)]
  | a :: t => (a, from) :: flinks f a t
  end.

Lemma forward_loop_ok l : forall fuel h from a f e,
  length l + 1 <= fuel -> NoDup (a :: l) -> a :: l = removelast (a :: l) ++ [e] ->
  fpath h a l ->
  forward_loop fuel h from (Some a) None (Some f)
  = Ok (do_links h (flinks f from (removelast (a :: l)))).
Proof.
  induction l as [|b l IH]; intros fuel h from a f e F ND E P.
  - destruct fuel; [cbn in F; lia|]. cbn [forward_loop]. cbn [fpath] in P. rewrite P.
    cbn [reached]. destruct fuel; reflexivity.
  - destruct fuel; [cbn in F; lia|]. cbn [forward_loop]. destruct P as [P1 P2]. rewrite P1.
    cbn [reached]. inversion ND; subst.
    assert (E2 : b :: l = removelast (b :: l) ++ [e]).
    { change (removelast (a :: b :: l)) with (a :: removelast (b :: l)) in E.
      injection E as E. exact E. }
    rewrite (IH fuel (link_nodes h a from) a b f e); auto.
    + cbn in F. lia.
    + apply fpath_link; auto.
Qed.

Lemma forward_reverse_ok fuel h x l e f :
  length l + 1 <= fuel -> NoDup (x :: l ++ [e]) -> fpath h x (l ++ [e]) ->
  forward_reverse fuel h x None (Some f) = Ok (do_links h (flinks f x l)).
Proof.
  intros F ND P. unfold forward_reverse. inversion ND; subst.
  destruct l as [|b l]; cbn [app fpath] in P.
  - destruct P as [P1 P2]. rewrite P1.
    rewrite (forward_loop_ok [] fuel h x e f e); auto.
  - destruct P as [P1 P2]. rewrite P1.
    rewrite (forward_loop_ok (l ++ [e]) fuel h x b f e); auto.
    + rewrite app_comm_cons, removelast_last. auto.
    + rewrite app_length. cbn in *. lia.
    + rewrite app_comm_cons, removelast_last. auto.
Qed.

Lemma flinks_fst f from l : map fst (flinks f from l) = l ++ [f].
Proof. revert from. induction l; intros from; cbn; auto. rewrite IHl. auto. Qed.
Lemma flinks_snd f from l : map snd (flinks f from l) = from :: l.
Proof. revert from. induction l; intros from; cbn; auto. rewrite IHl. auto. Qed.
Lemma pairs_app l a m : pairs (l ++ a :: m) = pairs (l ++ [a]) ++ pairs (a :: m).
Proof.
  induction l as [|b l IH]; cbn [app]; auto.
  destruct l as [|c l]; cbn [app] in *; auto.
  change ((b, c) :: pairs (c :: l ++ a :: m)
          = ((b, c) :: pairs (c :: l ++ [a])) ++ pairs (a :: m)).
  rewrite IH. auto.
Qed.
Lemma flinks_pairs f from l a b :
  In (a, b) (pairs (f :: rev l ++ [from])) -> In (a, b) (flinks f from l).
Proof.
  revert from. induction l as [|c l IH]; intros from; cbn [rev app flinks].
  - cbn. auto.
  - rewrite <- app_assoc. cbn [app]. rewrite app_comm_cons, pairs_app, in_app_iff.
    intros [H|H].
    + right. apply IH. exact H.
    + left. cbn in H. destruct H as [H|[]]. auto.
Qed.

Lemma flinks_seg h f x l :
  NoDup (f :: x :: l) -> seg (do_links h (flinks f x l)) (f :: rev l ++ [x]).
Proof.
  intros ND. inversion ND; subst. inversion H2; subst.
  apply seg_pairs. intros a b I. apply do_links_linked.
  - rewrite flinks_fst. apply NoDup_app_intro; auto.
    + constructor; [intros []|constructor].
    + intros z I1 [<-|[]]. apply H1. right. auto.
  - rewrite flinks_snd. auto.
  - apply flinks_pairs; auto.
Qed.

(** backward_reverse over the whole beginning of a route, ending with [e] *)
Lemma backward_loop_ok l : forall fuel h from a e,
  length l + 1 <= fuel -> NoDup (a :: l) -> bpath h a l ->
  backward_loop fuel h from (Some a) None (Some e)
  = Ok (do_links h (pairs (from :: removelast (a :: l) ++ [e]))).
Proof.
  induction l as [|b l IH]; intros fuel h from a e F ND P.
  - destruct fuel; [cbn in F; lia|]. cbn [backward_loop]. cbn [bpath] in P. rewrite P.
    cbn [reached]. destruct fuel; reflexivity.
  - destruct fuel; [cbn in F; lia|]. cbn [backward_loop]. destruct P as [P1 P2]. rewrite P1.
    cbn [reached]. inversion ND; subst.
    rewrite (IH fuel (link_nodes h from a) a b e); auto.
    + cbn in F. lia.
    + apply bpath_link; auto.
Qed.

Lemma backward_reverse_ok fuel h v l s e :
  length l + 1 <= fuel -> NoDup (v :: l ++ [s]) -> bpath h v (l ++ [s]) ->
  backward_reverse fuel h v None (Some e) = Ok (do_links h (pairs (v :: l ++ [e]))).
Proof.
  intros F ND P. unfold backward_reverse. inversion ND; subst.
  destruct l as [|b l]; cbn [app bpath] in P; destruct P as [P1 P2]; rewrite P1.
  - rewrite (backward_loop_ok [] fuel h v s e); auto.
  - rewrite (backward_loop_ok (l ++ [s]) fuel h v b e); auto.
    + rewrite (app_comm_cons l [s] b), removelast_last. auto.
    + rewrite app_length. cbn in *. lia.
Qed.

(** Following predecessors from [a] starts with [l] *)
Fixpoint bwalk (h : links) (a : ptr) (l : list ptr) : Prop :=
  match l with
  | [] => True
  | b :: t => l_pred h a = Some b /\ bwalk h b t
  end.

Lemma bwalk_link h a b c l : ~ In c (removelast (a :: l)) -> bwalk h a l -> bwalk (link_nodes h b c) a l.
Proof.
  revert a. induction l as [|d l IH]; intros a H P; cbn [bwalk] in *; auto.
  destruct P as [P1 P2]. change (~ In c (a :: removelast (d :: l))) in H.
  rewrite l_pred_link_neq; [|intros ->; apply H; left; auto].
  split; auto. apply IH; auto. intros I. apply H. right. auto.
Qed.

Lemma seg_bwalk h l a : seg h (l ++ [a]) -> bwalk h a (rev l).
Proof.
  revert a. induction l as [|b l IH] using rev_ind; intros a S; cbn [bwalk rev]; auto.
  rewrite <- app_assoc in S. cbn [app] in S. apply seg_app in S. destruct S as [S1 S2].
  rewrite rev_app_distr. cbn [rev app bwalk]. split.
  - destruct S2 as [[_ S2] _]. auto.
  - apply IH; auto.
Qed.

(** backward_reverse until the node [x] *)
Lemma backward_loop_to l : forall fuel h from a x,
  length l + 1 <= fuel -> NoDup (a :: l) ->
  (forall b, In b (a :: l) -> num b = num x -> b = x) ->
  a :: l = removelast (a :: l) ++ [x] ->
  bwalk h a l ->
  backward_loop fuel h from (Some a) (Some x) None = Ok (do_links h (pairs (from :: a :: l))).
Proof.
  induction l as [|b l IH]; intros fuel h from a x F ND HN E P.
  - destruct fuel; [cbn in F; lia|]. cbn [backward_loop]. cbn in E. injection E as ->.
    cbn [reached]. rewrite Nat.eqb_refl. destruct (l_pred h x); reflexivity.
  - destruct fuel; [cbn in F; lia|]. cbn [backward_loop]. cbn [bwalk] in P.
    destruct P as [P1 P2]. rewrite P1. inversion ND; subst.
    assert (E2 : b :: l = removelast (b :: l) ++ [x]).
    { change (removelast (a :: b :: l)) with (a :: removelast (b :: l)) in E.
      injection E as E. exact E. }
    cbn [reached]. destruct (num a =? num x) eqn:EN.
    + apply Nat.eqb_eq in EN. apply HN in EN; [|left; auto]. subst a.
      exfalso. apply H1. rewrite E2. apply in_or_app. right. left. auto.
    + rewrite (IH fuel (link_nodes h from a) a b x); auto.
      * cbn in F. lia.
      * intros z I. apply HN. right. auto.
      * apply bwalk_link; auto. intros I. apply H1. apply removelast_In in I. auto.
Qed.

(** [v] is followed backwards by the nodes of [m] reversed and finally [x] *)
Lemma backward_reverse_to fuel h x m v :
  length m + 1 <= fuel -> NoDup (x :: m ++ [v]) ->
  (forall b, In b (x :: m) -> num b = num x -> b = x) ->
  seg h (x :: m ++ [v]) ->
  backward_reverse fuel h v (Some x) None = Ok (do_links h (pairs (rev (x :: m ++ [v])))).
Proof.
  intros F ND HN S. unfold backward_reverse.
  rewrite app_comm_cons, rev_app_distr. cbn [rev app].
  rewrite app_comm_cons in S. apply seg_bwalk in S. cbn [rev] in S.
  assert (ND2 : NoDup (rev m ++ [x])).
  { change (NoDup (rev (x :: m))). apply NoDup_rev. rewrite app_comm_cons in ND.
    apply NoDup_app_inv in ND. tauto. }
  assert (HN2 : forall b, In b (rev m ++ [x]) -> num b = num x -> b = x).
  { intros b I. apply HN. apply in_rev. exact I. }
  assert (F2 : length (rev m) + 1 <= fuel) by (rewrite rev_length; lia).
  clear ND HN F. revert S ND2 HN2 F2. generalize (rev m). clear m.
  intros [|b l]; cbn [app bwalk]; intros [S1 S2] ND2 HN2 F2; rewrite S1.
  - rewrite (backward_loop_to [] fuel h v x x); auto.
  - rewrite (backward_loop_to (l ++ [x]) fuel h v b x); auto.
    + rewrite app_length. cbn in *. lia.
    + rewrite app_comm_cons, removelast_last. auto.
Qed.

(** replace_end_depot: [d] replaces the end [e] of the route *)
Lemma replace_loop_ok l : forall fuel h from e d m z,
  length l + 2 <= fuel -> from :: l = m ++ [z] -> NoDup (from :: l ++ [e]) ->
  fpath h from (l ++ [e]) ->
  replace_loop fuel h from (l_succ h from) d = Ok (link_nodes h z d).
Proof.
  induction l as [|b l IH]; intros fuel h from e d m z F E ND P.
  - destruct m as [|? [|? ?]]; [injection E as ->|discriminate|discriminate].
    cbn [app fpath] in P. destruct P as [P1 P2]. rewrite P1.
    destruct fuel as [|[|fuel]]; [cbn in F; lia|cbn in F; lia|].
    cbn [replace_loop]. rewrite P2. inversion ND; subst.
    rewrite l_succ_link_neq by (intros ->; cbn in *; tauto).
    rewrite P2. reflexivity.
  - cbn [app fpath] in P. destruct P as [P1 P2]. rewrite P1.
    destruct fuel as [|fuel]; [cbn in F; lia|]. cbn [replace_loop].
    destruct m as [|w m]; [discriminate|]. cbn [app] in E. injection E as -> E.
    inversion ND; subst.
    assert (NE : exists q, l_succ h b = Some q).
    { destruct l; cbn [app fpath] in P2; destruct P2; eauto. }
    destruct NE as [q Q]. rewrite Q. cbv beta iota zeta.
    apply (IH fuel h b e d m z); auto. cbn in F. lia.
Qed.

Lemma replace_end_depot_ok fuel h from l e d m z :
  length l + 2 <= fuel -> from :: l = m ++ [z] -> NoDup (from :: l ++ [e]) ->
  fpath h from (l ++ [e]) ->
  replace_end_depot fuel h from d = Ok (link_nodes h z d).
Proof. intros. unfold replace_end_depot. eapply replace_loop_ok; eauto. Qed.
