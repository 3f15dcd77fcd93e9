(** The nine moves keep the state consistent and do to the routes what they should. *)
From Coq Require Import List Arith ZArith Bool Lia Permutation.
From Verif.Model Require Import Num Prelude Evaluate Config Sector Matrix LinkedList LocalSearch.
From Verif.Spec Require Import Solution LocalSearch.
From Verif.Proofs Require Import Lists LinkFacts EvalThms LsState.
Import ListNotations.
Open Scope nat_scope.

(** ** Adjacent pairs of concatenated blocks *)

Definition d0 : ptr := PS 0.
Notation hd0 := (hd d0).
Notation last0 l := (last l d0).

Lemma in_pairs_app (A B : list ptr) e : A <> [] -> B <> [] ->
  (In e (pairs (A ++ B)) <-> In e (pairs A) \/ e = (last0 A, hd0 B) \/ In e (pairs B)).
Proof.
  intros HA HB. destruct B as [|b B]; [congruence|]. clear HB.
  destruct (exists_last HA) as (A' & a & ->). clear HA.
  rewrite last_last. cbn [hd]. rewrite <- app_assoc. cbn [app].
  rewrite pairs_app, in_app_iff. cbn [pairs In]. intuition.
Qed.
Lemma in_pairs_one a e : In e (pairs [a]) <-> False.
Proof. cbn. tauto. Qed.
Lemma in_pairs_cons a b l e : In e (pairs (a :: b :: l)) <-> e = (a, b) \/ In e (pairs (b :: l)).
Proof. cbn [pairs In]. intuition. Qed.

Lemma hd0_app (A B : list ptr) : A <> [] -> hd0 (A ++ B) = hd0 A.
Proof. destruct A; [congruence|]. auto. Qed.
Lemma last0_app (A B : list ptr) : B <> [] -> last0 (A ++ B) = last0 B.
Proof.
  intros H. destruct (exists_last H) as (B' & b & ->). rewrite app_assoc, !last_last. auto.
Qed.
Lemma pre_ne r A : pre r A <> [].
Proof. discriminate. Qed.
Lemma suf_ne r A : suf r A <> [].
Proof. unfold suf. destruct (map PN A); discriminate. Qed.
Lemma mapPN_ne M : M <> [] -> map PN M <> [].
Proof. destruct M; [congruence|discriminate]. Qed.
Lemma cons_ne {A} (a : A) l : a :: l <> [].
Proof. discriminate. Qed.
Lemma app_ne_l {A} (l m : list A) : l <> [] -> l ++ m <> [].
Proof. destruct l; [congruence|discriminate]. Qed.
Lemma app_ne_r {A} (l m : list A) : m <> [] -> l ++ m <> [].
Proof. destruct l; [auto|discriminate]. Qed.
Global Hint Resolve pre_ne suf_ne mapPN_ne cons_ne app_ne_l app_ne_r : ne.

Lemma hd0_pre r A : hd0 (pre r A) = PS r.
Proof. auto. Qed.
Lemma last0_suf r A : last0 (suf r A) = PE r.
Proof. apply last_last. Qed.

Lemma pairs_fun l a b b' : NoDup l -> In (a, b) (pairs l) -> In (a, b') (pairs l) -> b = b'.
Proof.
  induction l as [|c l IH]; [intros _ []|]. destruct l as [|d l]; [intros _ []|].
  intros ND. inversion ND; subst. rewrite !in_pairs_cons.
  intros [E|I] [E'|I'].
  - congruence.
  - injection E as <- <-. apply pairs_In in I'. tauto.
  - injection E' as <- <-. apply pairs_In in I. tauto.
  - auto.
Qed.
Lemma pairs_snd_In l a b : In (a, b) (pairs l) -> In b (tl l).
Proof. intros I. rewrite <- pairs_snd. change b with (snd (a, b)). apply in_map. auto. Qed.
Lemma pairs_fst_In l a b : In (a, b) (pairs l) -> In a (removelast l).
Proof. intros I. rewrite <- pairs_fst. change a with (fst (a, b)). apply in_map. auto. Qed.
Lemma pairs_inj l a a' b : NoDup l -> In (a, b) (pairs l) -> In (a', b) (pairs l) -> a = a'.
Proof.
  induction l as [|c l IH]; [intros _ []|]. destruct l as [|d l]; [intros _ []|].
  intros ND. inversion ND; subst. rewrite !in_pairs_cons.
  intros [E|I] [E'|I'].
  - congruence.
  - injection E as <- <-. apply pairs_snd_In in I'. cbn in I'. inversion H2; tauto.
  - injection E' as <- <-. apply pairs_snd_In in I. cbn in I. inversion H2; tauto.
  - auto.
Qed.

Lemma pair_dec (x y : ptr * ptr) : {x = y} + {x <> y}.
Proof. decide equality; apply ptr_dec. Qed.

(** Links that agree with each other *)
Lemma do_links_fun h ls a b :
  (forall b', In (a, b') ls -> b' = b) -> (forall a', In (a', b) ls -> a' = a) ->
  In (a, b) ls -> linked (do_links h ls) a b.
Proof.
  revert h. induction ls as [|[x y] ls IH] using rev_ind; intros h F1 F2 I; [destruct I|].
  rewrite do_links_app. cbn [do_links fold_left fst snd].
  assert (G1 : In (x, y) (ls ++ [(x, y)])) by (apply in_or_app; right; left; auto).
  destruct (ptr_dec x a) as [->|NE].
  - rewrite (F1 y) by auto. split; [rewrite l_succ_link|rewrite l_pred_link]; rewrite ptr_eqb_refl; auto.
  - assert (NE' : y <> b) by (intros ->; apply NE; apply F2; auto).
    apply in_app_or in I. destruct I as [I|[I|[]]]; [|congruence].
    destruct (IH h) as [L1 L2]; auto.
    + intros b' I'. apply F1. apply in_or_app; auto.
    + intros a' I'. apply F2. apply in_or_app; auto.
    + split; [rewrite l_succ_link_neq|rewrite l_pred_link_neq]; auto.
Qed.

Lemma runs_ext h h' r l :
  (forall a, l_succ h' a = l_succ h a) -> (forall a, l_pred h' a = l_pred h a) ->
  runs h r l -> runs h' r l.
Proof.
  intros H1 H2 (R1 & R2 & R3). split; [|split].
  - intros A a b B E. rewrite H1, H2. eapply R1; eauto.
  - rewrite H2; auto.
  - rewrite H1; auto.
Qed.

Lemma PS_pairs r k l a : In (a, PS r) (pairs (stops k l)) -> False.
Proof.
  intros I. apply pairs_snd_In in I. cbn [stops tl] in I. apply in_app_or in I.
  destruct I as [I|[I|[]]]; [|discriminate]. apply in_map_iff in I. destruct I as (n & I & _).
  discriminate.
Qed.
Lemma PE_pairs r k l a : In (PE r, a) (pairs (stops k l)) -> False.
Proof.
  intros I. apply pairs_fst_In in I. rewrite stops_pre, removelast_last in I.
  destruct I as [I|I]; [discriminate|]. apply in_map_iff in I. destruct I as (n & I & _).
  discriminate.
Qed.

Section Moves.
  Context {N : Num}.
  Variable p : problem.
  Variable c : config.
  Variable pen : F.
  Notation nv := (c_num_vehicles c).
  Notation holds := (holds p c pen).
  Notation stepped := (stepped p c pen).

  Section Relink.
    Variables rs rs' : nat -> list nat.
    Variable h : links.
    Hypothesis S : serves_all_once (p_dim p) (all_routes c rs).
    Hypothesis S' : serves_all_once (p_dim p) (all_routes c rs').

    Lemma all_pairs_fun r1 r2 a b b' : r1 < nv -> r2 < nv ->
      In (a, b) (pairs (stops r1 (rs' r1))) -> In (a, b') (pairs (stops r2 (rs' r2))) -> b' = b.
    Proof using S'.
      intros H1 H2 I1 I2. destruct (Nat.eq_dec r1 r2) as [->|NE].
      - eapply pairs_fun; eauto. eapply serves_stops_nodup; eauto.
      - exfalso. apply pairs_In in I1, I2. destruct I1 as [I1 _], I2 as [I2 _].
        revert I1 I2. eapply serves_stops_apart; eauto.
    Qed.
    Lemma all_pairs_inj r1 r2 a a' b : r1 < nv -> r2 < nv ->
      In (a, b) (pairs (stops r1 (rs' r1))) -> In (a', b) (pairs (stops r2 (rs' r2))) -> a' = a.
    Proof using S'.
      intros H1 H2 I1 I2. destruct (Nat.eq_dec r1 r2) as [->|NE].
      - eapply pairs_inj; eauto. eapply serves_stops_nodup; eauto.
      - exfalso. apply pairs_In in I1, I2. destruct I1 as [_ I1], I2 as [_ I2].
        revert I1 I2. eapply serves_stops_apart; eauto.
    Qed.

    Lemma relink_runs r1 r2 ls :
      (forall r, r < nv -> runs h r (rs r)) -> r1 < nv -> r2 < nv ->
      (forall r, r < nv -> r <> r1 -> r <> r2 -> rs' r = rs r) ->
      (forall a b, In (a, b) ls -> exists r, (r = r1 \/ r = r2) /\ In (a, b) (pairs (stops r (rs' r)))) ->
      (forall r a b, r = r1 \/ r = r2 -> In (a, b) (pairs (stops r (rs' r))) ->
         In (a, b) ls \/ exists k, (k = r1 \/ k = r2) /\ In (a, b) (pairs (stops k (rs k)))) ->
      forall r, r < nv -> runs (do_links h ls) r (rs' r).
    Proof using S'.
      intros R H1 H2 O F1 F2 r Hr.
      assert (B : forall k, k = r1 \/ k = r2 -> k < nv) by (intros k [->| ->]; auto).
      apply runs_seg. split; [|split].
      - apply seg_pairs. intros a b I.
        assert (D : In (a, b) ls \/ linked h a b).
        { destruct (Nat.eq_dec r r1) as [E1|E1]; [|destruct (Nat.eq_dec r r2) as [E2|E2]].
          1,2: destruct (F2 r a b) as [J|(k & K & J)]; auto; right;
               destruct (proj1 (runs_seg h k (rs k))) as (G & _); auto;
               eapply seg_pairs; eauto.
          right. destruct (proj1 (runs_seg h r (rs r))) as (G & _); auto.
          rewrite O in I by auto. eapply seg_pairs; eauto. }
        assert (G1 : forall b', In (a, b') ls -> b' = b).
        { intros b' I'. destruct (F1 a b' I') as (k & K & J).
          eapply (all_pairs_fun r k); eauto. }
        assert (G2 : forall a', In (a', b) ls -> a' = a).
        { intros a' I'. destruct (F1 a' b I') as (k & K & J).
          eapply (all_pairs_inj r k); eauto. }
        destruct (in_dec pair_dec (a, b) ls) as [J|NJ].
        + apply do_links_fun; auto.
        + destruct D as [D|[D1 D2]]; [tauto|]. split.
          * rewrite do_links_succ; auto. rewrite in_map_iff. intros ([x y] & <- & J).
            cbn [fst] in *. rewrite (G1 y) in J by auto. tauto.
          * rewrite do_links_pred; auto. rewrite in_map_iff. intros ([x y] & <- & J).
            cbn [snd] in *. rewrite (G2 x) in J by auto. tauto.
      - rewrite do_links_pred.
        + apply R; auto.
        + rewrite in_map_iff. intros ([x y] & E & J). cbn [snd] in E. subst y.
          destruct (F1 _ _ J) as (k & _ & K). eapply PS_pairs; eauto.
      - rewrite do_links_succ.
        + apply R; auto.
        + rewrite in_map_iff. intros ([x y] & E & J). cbn [fst] in E. subst x.
          destruct (F1 _ _ J) as (k & _ & K). eapply PE_pairs; eauto.
    Qed.
  End Relink.

  (** Two different routes rebuilt *)
  Lemma relink_two_ext s rs r1 r2 l1 l2 ls h :
    (forall a, l_succ h a = l_succ (do_links (s_links s) ls) a) ->
    (forall a, l_pred h a = l_pred (do_links (s_links s) ls) a) ->
    holds s rs -> r1 < nv -> r2 < nv -> r1 <> r2 ->
    Permutation (l1 ++ l2) (rs r1 ++ rs r2) ->
    (forall e, In e ls -> In e (pairs (stops r1 l1)) \/ In e (pairs (stops r2 l2))) ->
    (forall e, In e (pairs (stops r1 l1)) ->
       In e ls \/ In e (pairs (stops r1 (rs r1))) \/ In e (pairs (stops r2 (rs r2)))) ->
    (forall e, In e (pairs (stops r2 l2)) ->
       In e ls \/ In e (pairs (stops r1 (rs r1))) \/ In e (pairs (stops r2 (rs r2)))) ->
    exists s', update_two p pen (set_links s h) r1 r2 = Ok s' /\
               stepped s s' (nupd (nupd rs r1 l1) r2 l2) r1 r2.
  Proof.
    intros X1 X2 H H1 H2 NE P F0 F1 F2.
    set (rs' := nupd (nupd rs r1 l1) r2 l2).
    assert (E1 : rs' r1 = l1) by (unfold rs'; rewrite nupd_other, nupd_same; auto).
    assert (E2 : rs' r2 = l2) by (unfold rs'; rewrite nupd_same; auto).
    assert (O : forall r, r < nv -> r <> r1 -> r <> r2 -> rs' r = rs r)
      by (intros; unfold rs'; rewrite !nupd_other; auto).
    assert (S' : serves_all_once (p_dim p) (all_routes c rs')).
    { apply (serves_two p c rs rs' r1 r2); auto; [apply H|]. rewrite E1, E2. auto. }
    apply (relink_ok p c pen s rs rs'); auto.
    intros k Hk. apply (runs_ext (do_links (s_links s) ls)); auto. revert k Hk.
    apply (relink_runs rs rs' (s_links s) S' r1 r2); auto.
    - apply H.
    - intros a b I. destruct (F0 _ I) as [J|J]; [exists r1; rewrite E1|exists r2; rewrite E2]; auto.
    - intros r a b [->| ->] I.
      + rewrite E1 in I. destruct (F1 _ I) as [J|[J|J]]; eauto.
      + rewrite E2 in I. destruct (F2 _ I) as [J|[J|J]]; eauto.
  Qed.

  Lemma relink_two s rs r1 r2 l1 l2 ls :
    holds s rs -> r1 < nv -> r2 < nv -> r1 <> r2 ->
    Permutation (l1 ++ l2) (rs r1 ++ rs r2) ->
    (forall e, In e ls -> In e (pairs (stops r1 l1)) \/ In e (pairs (stops r2 l2))) ->
    (forall e, In e (pairs (stops r1 l1)) ->
       In e ls \/ In e (pairs (stops r1 (rs r1))) \/ In e (pairs (stops r2 (rs r2)))) ->
    (forall e, In e (pairs (stops r2 l2)) ->
       In e ls \/ In e (pairs (stops r1 (rs r1))) \/ In e (pairs (stops r2 (rs r2)))) ->
    exists s', update_two p pen (set_links s (do_links (s_links s) ls)) r1 r2 = Ok s' /\
               stepped s s' (nupd (nupd rs r1 l1) r2 l2) r1 r2.
  Proof. intros. eapply relink_two_ext; eauto. Qed.

  (** One route rebuilt *)
  Lemma relink_one s rs r l ls :
    holds s rs -> r < nv -> Permutation l (rs r) ->
    (forall e, In e ls -> In e (pairs (stops r l))) ->
    (forall e, In e (pairs (stops r l)) -> In e ls \/ In e (pairs (stops r (rs r)))) ->
    exists s', update_two p pen (set_links s (do_links (s_links s) ls)) r r = Ok s' /\
               stepped s s' (nupd (nupd rs r l) r l) r r.
  Proof.
    intros H H1 P F0 F1.
    set (rs' := nupd (nupd rs r l) r l).
    assert (E1 : rs' r = l) by (unfold rs'; rewrite nupd_same; auto).
    assert (O : forall k, k < nv -> k <> r -> rs' k = rs k)
      by (intros; unfold rs'; rewrite !nupd_other; auto).
    assert (S' : serves_all_once (p_dim p) (all_routes c rs')).
    { apply (serves_one p c rs rs' r); auto; [apply H|]. rewrite E1. auto. }
    apply (relink_ok p c pen s rs rs'); auto.
    apply (relink_runs rs rs' (s_links s) S' r r); auto.
    - apply H.
    - intros a b I. exists r. rewrite E1. auto.
    - intros k a b K I. assert (k = r) by tauto. subst k.
      rewrite E1 in I. destruct (F1 _ I) as [J|J]; eauto.
  Qed.

  (** ** Reading the state *)

  Section Read.
    Variable s : lsearch.
    Variable rs : nat -> list nat.
    Hypothesis H : holds s rs.

    Lemma read_stop r A a B : r < nv -> stops r (rs r) = A ++ a :: B ->
      (A <> [] -> pred_ s a = Ok (last0 A)) /\ (B <> [] -> succ_ s a = Ok (hd0 B)) /\
      route_ s a = Ok r /\ n_pos (s_info s a) = length A /\
      n_cumd (s_info s a) = driven p (A ++ [a]) /\ n_cuml (s_info s a) = carried p (A ++ [a]).
    Proof using H.
      intros Hr E. destruct (h_cached _ _ _ _ _ H r Hr) as [C _].
      destruct (C A a B E) as (C1 & C2 & C3 & C4).
      destruct (h_runs _ _ _ _ _ H r Hr) as [R _].
      split; [|split; [|split; [unfold route_; rewrite C1|]; auto]].
      - intros NE. destruct (exists_last NE) as (A' & x & ->). rewrite last_last.
        rewrite <- app_assoc in E. cbn [app] in E. destruct (R _ _ _ _ E) as [_ R2].
        unfold pred_. rewrite R2. auto.
      - intros NE. destruct B as [|b B]; [congruence|]. destruct (R _ _ _ _ E) as [R1 _].
        unfold succ_. rewrite R1. auto.
    Qed.

    Lemma read_pred r L1 L2 : r < nv -> stops r (rs r) = L1 ++ L2 -> L1 <> [] -> L2 <> [] ->
      pred_ s (hd0 L2) = Ok (last0 L1).
    Proof using H.
      intros Hr E N1 N2. destruct L2 as [|b L2]; [congruence|].
      destruct (read_stop r L1 b L2 Hr E) as (Q & _). auto.
    Qed.
    Lemma read_succ r L1 L2 : r < nv -> stops r (rs r) = L1 ++ L2 -> L1 <> [] -> L2 <> [] ->
      succ_ s (last0 L1) = Ok (hd0 L2).
    Proof using H.
      intros Hr E N1 N2. destruct (exists_last N1) as (A & a & ->). rewrite last_last.
      rewrite <- app_assoc in E. cbn [app] in E.
      destruct (read_stop r A a L2 Hr E) as (_ & Q & _). auto.
    Qed.
    Lemma read_route r a : r < nv -> In a (stops r (rs r)) -> route_ s a = Ok r.
    Proof using H.
      intros Hr I. apply in_split in I. destruct I as (A & B & E).
      destruct (read_stop r A a B Hr E) as (_ & _ & Q & _). auto.
    Qed.
  End Read.

  (** ** Relocations

      [blk] is the block of customers taken out and [ins] the block put back, behind [v]. *)

  Inductive reloc (rs : nat -> list nat) (blk ins : list nat) (v : ptr) :
    nat -> nat -> list nat -> list nat -> ptr -> ptr -> ptr -> Prop :=
  | rl_diff r1 r2 A B C D : r1 < nv -> r2 < nv -> r1 <> r2 ->
      rs r1 = A ++ blk ++ B -> rs r2 = C ++ D -> last0 (pre r2 C) = v ->
      reloc rs blk ins v r1 r2 (A ++ B) (C ++ ins ++ D)
            (last0 (pre r1 A)) (hd0 (suf r1 B)) (hd0 (suf r2 D))
  | rl_before r A M D : r < nv -> M <> [] -> rs r = A ++ blk ++ M ++ D -> last0 (map PN M) = v ->
      reloc rs blk ins v r r (A ++ M ++ ins ++ D) (A ++ M ++ ins ++ D)
            (last0 (pre r A)) (hd0 (map PN M)) (hd0 (suf r D))
  | rl_after r C M B : r < nv -> M <> [] -> rs r = C ++ M ++ blk ++ B -> last0 (pre r C) = v ->
      reloc rs blk ins v r r (C ++ ins ++ M ++ B) (C ++ ins ++ M ++ B)
            (last0 (map PN M)) (hd0 (suf r B)) (hd0 (map PN M)).

  Ltac nepos := auto 6 with ne.
  Ltac blocks := rewrite ?stops_app, ?suf_app.
  Ltac blocks_in H := rewrite ?stops_app, ?suf_app in H.
  Lemma in_cons_eq {X} (e x : X) l : In e (x :: l) <-> e = x \/ In e l.
  Proof. cbn. intuition. Qed.
  Ltac pair_goal :=
    intros e; blocks;
    repeat first [rewrite in_pairs_app by nepos | rewrite hd0_app by nepos
                 | rewrite last0_app by nepos | rewrite in_cons_eq | rewrite in_app_iff];
    cbn [In]; try tauto.

  Lemma reloc_perform s rs blk ins v r1 r2 l1 l2 up xn y mid :
    holds s rs -> reloc rs blk ins v r1 r2 l1 l2 up xn y ->
    blk <> [] -> ins <> [] -> Permutation ins blk ->
    (forall e, In e mid -> In e (pairs (map PN ins))) ->
    (forall e, In e (pairs (map PN ins)) -> In e mid \/ In e (pairs (map PN blk))) ->
    exists s',
      update_two p pen (set_links s (do_links (s_links s)
        ((up, xn) :: (v, hd0 (map PN ins)) :: mid ++ [(last0 (map PN ins), y)]))) r1 r2 = Ok s' /\
      stepped s s' (nupd (nupd rs r1 l1) r2 l2) r1 r2.
  Proof.
    intros H R NB NI P M1 M2.
    destruct R as [r1 r2 A B C D H1 H2 NE E1 E2 EV|r A M D H1 NM E EV|r C M B H1 NM E EV]; subst v.
    - apply (relink_two s rs); auto.
      + rewrite E1, E2. rewrite P. rewrite !app_assoc.
        rewrite <- (app_assoc (A ++ B)). rewrite <- (app_assoc A).
        rewrite <- !app_assoc. apply Permutation_app_head.
        rewrite (app_assoc blk), (Permutation_app_comm blk B), <- app_assoc.
        apply Permutation_app_head. rewrite !app_assoc. apply Permutation_app_tail.
        apply Permutation_app_comm.
      + pair_goal. specialize (M1 e). tauto.
      + rewrite E1, E2. pair_goal.
      + rewrite E1, E2. pair_goal. specialize (M2 e). tauto.
    - apply (relink_one s rs); auto.
      + rewrite E. apply Permutation_app_head. rewrite P, !app_assoc.
        apply Permutation_app_tail. apply Permutation_app_comm.
      + pair_goal. specialize (M1 e). tauto.
      + rewrite E. pair_goal. specialize (M2 e). tauto.
    - apply (relink_one s rs); auto.
      + rewrite E. apply Permutation_app_head. rewrite P, !app_assoc.
        apply Permutation_app_tail. apply Permutation_app_comm.
      + pair_goal. specialize (M1 e). tauto.
      + rewrite E. pair_goal. specialize (M2 e). tauto.
  Qed.

  Lemma in_stops_app r A B a : In a (stops r (A ++ B)) <-> In a (pre r A) \/ In a (suf r B).
  Proof. rewrite stops_app, in_app_iff. tauto. Qed.
  Lemma last0_In (l : list ptr) : l <> [] -> In (last0 l) l.
  Proof.
    intros H. destruct (exists_last H) as (L & a & ->). rewrite last_last.
    apply in_or_app. right. left. auto.
  Qed.
  Lemma hd0_In (l : list ptr) : l <> [] -> In (hd0 l) l.
  Proof. destruct l; [congruence|left; auto]. Qed.

  Ltac find_cut :=
    match goal with
    | H : holds ?s ?rs, E : ?rs ?r = _ |- pred_ ?s (hd0 ?L2) = Ok (last0 ?L1) => idtac
    end.

  Lemma reloc_read s rs blk ins v r1 r2 l1 l2 up xn y :
    holds s rs -> reloc rs blk ins v r1 r2 l1 l2 up xn y -> blk <> [] ->
    pred_ s (hd0 (map PN blk)) = Ok up /\ succ_ s (last0 (map PN blk)) = Ok xn /\
    succ_ s v = Ok y /\ (forall u, In u blk -> route_ s (PN u) = Ok r1) /\ route_ s v = Ok r2 /\
    r1 < nv /\ r2 < nv.
  Proof.
    intros H R NB.
    destruct R as [r1 r2 A B C D H1 H2 NE E1 E2 EV|r A M D H1 NM E EV|r C M B H1 NM E EV]; subst v.
    - assert (S1 : stops r1 (rs r1) = pre r1 A ++ map PN blk ++ suf r1 B)
        by (rewrite E1; blocks; auto).
      assert (S2 : stops r2 (rs r2) = pre r2 C ++ suf r2 D) by (rewrite E2; blocks; auto).
      split; [|split; [|split; [|split; [|split; [|split]]]]]; auto.
      + rewrite <- (hd0_app (map PN blk) (suf r1 B)) by nepos.
        eapply (read_pred s rs H r1); eauto; nepos.
      + rewrite <- (last0_app (pre r1 A)) by nepos. eapply (read_succ s rs H r1); eauto; nepos.
        rewrite S1, app_assoc. auto.
      + eapply (read_succ s rs H r2); eauto; nepos.
      + intros u I. eapply (read_route s rs H r1); eauto. rewrite S1, !in_app_iff. right; left. apply in_map; auto.
      + eapply (read_route s rs H r2); eauto. rewrite S2. apply in_or_app. left. apply last0_In. nepos.
    - assert (S1 : stops r (rs r) = pre r A ++ map PN blk ++ map PN M ++ suf r D)
        by (rewrite E; blocks; auto).
      split; [|split; [|split; [|split; [|split; [|split]]]]]; auto.
      + rewrite <- (hd0_app (map PN blk) (map PN M ++ suf r D)) by nepos.
        eapply (read_pred s rs H r); eauto; nepos.
      + rewrite <- (last0_app (pre r A)) by nepos.
        rewrite <- (hd0_app (map PN M) (suf r D)) by nepos.
        eapply (read_succ s rs H r); eauto; nepos. rewrite S1, <- app_assoc. auto.
      + rewrite <- (last0_app (pre r A ++ map PN blk)) by nepos.
        eapply (read_succ s rs H r); eauto; nepos. rewrite S1, <- !app_assoc. auto.
      + intros u I. eapply (read_route s rs H r); eauto. rewrite S1, !in_app_iff. right; left. apply in_map; auto.
      + eapply (read_route s rs H r); eauto. rewrite S1, !in_app_iff. do 2 right. left. apply last0_In. nepos.
    - assert (S1 : stops r (rs r) = pre r C ++ map PN M ++ map PN blk ++ suf r B)
        by (rewrite E; blocks; auto).
      split; [|split; [|split; [|split; [|split; [|split]]]]]; auto.
      + rewrite <- (hd0_app (map PN blk) (suf r B)) by nepos.
        rewrite <- (last0_app (pre r C) (map PN M)) by nepos.
        eapply (read_pred s rs H r); eauto; nepos. rewrite S1, <- app_assoc. auto.
      + rewrite <- (last0_app (pre r C ++ map PN M)) by nepos. eapply (read_succ s rs H r); eauto; nepos.
        rewrite S1, <- !app_assoc. auto.
      + rewrite <- (hd0_app (map PN M) (map PN blk ++ suf r B)) by nepos.
        eapply (read_succ s rs H r); eauto; nepos.
      + intros u I. eapply (read_route s rs H r); eauto. rewrite S1, !in_app_iff. do 2 right; left. apply in_map; auto.
      + eapply (read_route s rs H r); eauto. rewrite S1, !in_app_iff. left. apply last0_In. nepos.
  Qed.

  (** ** Swaps of the blocks [ub] and [vb] *)

  Inductive swp (rs : nat -> list nat) (ub vb : list nat) :
    nat -> nat -> list nat -> list nat -> ptr -> ptr -> ptr -> ptr -> Prop :=
  | sw_diff r1 r2 A B C D : r1 < nv -> r2 < nv -> r1 <> r2 ->
      rs r1 = A ++ ub ++ B -> rs r2 = C ++ vb ++ D ->
      swp rs ub vb r1 r2 (A ++ vb ++ B) (C ++ ub ++ D)
          (last0 (pre r1 A)) (hd0 (suf r1 B)) (last0 (pre r2 C)) (hd0 (suf r2 D))
  | sw_before r A M D : r < nv -> M <> [] -> rs r = A ++ ub ++ M ++ vb ++ D ->
      swp rs ub vb r r (A ++ vb ++ M ++ ub ++ D) (A ++ vb ++ M ++ ub ++ D)
          (last0 (pre r A)) (hd0 (map PN M)) (last0 (map PN M)) (hd0 (suf r D))
  | sw_after r A M D : r < nv -> M <> [] -> rs r = A ++ vb ++ M ++ ub ++ D ->
      swp rs ub vb r r (A ++ ub ++ M ++ vb ++ D) (A ++ ub ++ M ++ vb ++ D)
          (last0 (map PN M)) (hd0 (suf r D)) (last0 (pre r A)) (hd0 (map PN M)).

  Lemma perm_swap_blocks (A ub M vb D : list nat) :
    Permutation (A ++ vb ++ M ++ ub ++ D) (A ++ ub ++ M ++ vb ++ D).
  Proof.
    apply Permutation_app_head. rewrite (app_assoc M ub D), (app_assoc vb).
    rewrite (Permutation_app_comm vb). rewrite <- !app_assoc.
    rewrite (app_assoc M ub), (Permutation_app_comm M ub), <- app_assoc. auto.
  Qed.

  Lemma swp_perform s rs ub vb r1 r2 l1 l2 up xn vp yn :
    holds s rs -> swp rs ub vb r1 r2 l1 l2 up xn vp yn -> ub <> [] -> vb <> [] ->
    exists s',
      update_two p pen (set_links s (do_links (s_links s)
        [(up, hd0 (map PN vb)); (last0 (map PN vb), xn);
         (vp, hd0 (map PN ub)); (last0 (map PN ub), yn)])) r1 r2 = Ok s' /\
      stepped s s' (nupd (nupd rs r1 l1) r2 l2) r1 r2.
  Proof.
    intros H R NU NV.
    destruct R as [r1 r2 A B C D H1 H2 NE E1 E2|r A M D H1 NM E|r A M D H1 NM E].
    - apply (relink_two s rs); auto.
      + rewrite E1, E2. rewrite <- !app_assoc. 
        replace (A ++ ub ++ B ++ C ++ vb ++ D) with (A ++ ub ++ (B ++ C) ++ vb ++ D) by (rewrite <- !app_assoc; auto).
        replace (A ++ vb ++ B ++ C ++ ub ++ D) with (A ++ vb ++ (B ++ C) ++ ub ++ D) by (rewrite <- !app_assoc; auto).
        apply perm_swap_blocks.
      + pair_goal.
      + rewrite E1, E2. pair_goal.
      + rewrite E1, E2. pair_goal.
    - apply (relink_one s rs); auto.
      + rewrite E. apply perm_swap_blocks.
      + pair_goal.
      + rewrite E. pair_goal.
    - apply (relink_one s rs); auto.
      + rewrite E. apply perm_swap_blocks.
      + pair_goal.
      + rewrite E. pair_goal.
  Qed.

  Lemma swp_sym rs ub vb r1 r2 l1 l2 up xn vp yn :
    swp rs ub vb r1 r2 l1 l2 up xn vp yn -> swp rs vb ub r2 r1 l2 l1 vp yn up xn.
  Proof.
    intros R. destruct R as [r1 r2 A B C D H1 H2 NE E1 E2|r A M D H1 NM E|r A M D H1 NM E];
      econstructor; eauto.
  Qed.

  Lemma swp_read1 s rs ub vb r1 r2 l1 l2 up xn vp yn :
    holds s rs -> swp rs ub vb r1 r2 l1 l2 up xn vp yn -> ub <> [] -> vb <> [] ->
    pred_ s (hd0 (map PN ub)) = Ok up /\ succ_ s (last0 (map PN ub)) = Ok xn /\
    (forall u, In u ub -> route_ s (PN u) = Ok r1) /\ r1 < nv.
  Proof.
    intros H R NU NV.
    destruct R as [r1 r2 A B C D H1 H2 NE E1 E2|r A M D H1 NM E|r A M D H1 NM E].
    - assert (S1 : stops r1 (rs r1) = pre r1 A ++ map PN ub ++ suf r1 B)
        by (rewrite E1; blocks; auto).
      split; [|split; [|split]]; auto.
      + rewrite <- (hd0_app (map PN ub) (suf r1 B)) by nepos. eapply (read_pred s rs H r1); eauto; nepos.
      + rewrite <- (last0_app (pre r1 A)) by nepos. eapply (read_succ s rs H r1); eauto; nepos.
        rewrite S1, app_assoc. auto.
      + intros u I. eapply (read_route s rs H r1); eauto. rewrite S1, !in_app_iff. right; left. apply in_map; auto.
    - assert (S1 : stops r (rs r) = pre r A ++ map PN ub ++ map PN M ++ map PN vb ++ suf r D)
        by (rewrite E; blocks; auto).
      split; [|split; [|split]]; auto.
      + rewrite <- (hd0_app (map PN ub) (map PN M ++ map PN vb ++ suf r D)) by nepos.
        eapply (read_pred s rs H r); eauto; nepos.
      + rewrite <- (last0_app (pre r A)) by nepos.
        rewrite <- (hd0_app (map PN M) (map PN vb ++ suf r D)) by nepos.
        eapply (read_succ s rs H r); eauto; nepos. rewrite S1, <- !app_assoc. auto.
      + intros u I. eapply (read_route s rs H r); eauto. rewrite S1, !in_app_iff. right; left. apply in_map; auto.
    - assert (S1 : stops r (rs r) = pre r A ++ map PN vb ++ map PN M ++ map PN ub ++ suf r D)
        by (rewrite E; blocks; auto).
      split; [|split; [|split]]; auto.
      + rewrite <- (hd0_app (map PN ub) (suf r D)) by nepos.
        rewrite <- (last0_app (pre r A ++ map PN vb) (map PN M)) by nepos.
        eapply (read_pred s rs H r); eauto; nepos. rewrite S1, <- !app_assoc. auto.
      + rewrite <- (last0_app (pre r A ++ map PN vb ++ map PN M)) by nepos.
        eapply (read_succ s rs H r); eauto; nepos. rewrite S1, <- !app_assoc. auto.
      + intros u I. eapply (read_route s rs H r); eauto. rewrite S1, !in_app_iff. do 3 right; left. apply in_map; auto.
  Qed.
  Lemma swp_read s rs ub vb r1 r2 l1 l2 up xn vp yn :
    holds s rs -> swp rs ub vb r1 r2 l1 l2 up xn vp yn -> ub <> [] -> vb <> [] ->
    pred_ s (hd0 (map PN ub)) = Ok up /\ succ_ s (last0 (map PN ub)) = Ok xn /\
    (forall u, In u ub -> route_ s (PN u) = Ok r1) /\ r1 < nv /\
    pred_ s (hd0 (map PN vb)) = Ok vp /\ succ_ s (last0 (map PN vb)) = Ok yn /\
    (forall u, In u vb -> route_ s (PN u) = Ok r2) /\ r2 < nv.
  Proof.
    intros H R NU NV. pose proof (swp_read1 _ _ _ _ _ _ _ _ _ _ _ _ H R NU NV).
    pose proof (swp_read1 _ _ _ _ _ _ _ _ _ _ _ _ H (swp_sym _ _ _ _ _ _ _ _ _ _ _ R) NV NU). tauto.
  Qed.

  (** ** Where the two nodes are *)

  Inductive placed (rs : nat -> list nat) (u : nat) (v : ptr) : Prop :=
  | pl_diff r1 r2 A B C D : r1 < nv -> r2 < nv -> r1 <> r2 ->
      rs r1 = A ++ u :: B -> rs r2 = C ++ D -> last0 (pre r2 C) = v -> placed rs u v
  | pl_before r A M D : r < nv -> M <> [] ->
      rs r = A ++ u :: M ++ D -> last0 (map PN M) = v -> placed rs u v
  | pl_after r C M B : r < nv -> rs r = C ++ M ++ u :: B -> last0 (pre r C) = v -> placed rs u v.

  Lemma last0_pre_snoc r C n : last0 (pre r (C ++ [n])) = PN n.
  Proof. rewrite pre_app, last0_app by nepos. auto. Qed.
  Lemma last0_map_snoc M n : last0 (map PN (M ++ [n])) = PN n.
  Proof. rewrite map_app, last0_app by nepos. auto. Qed.
  Lemma last0_pre_PN r C n : last0 (pre r C) = PN n -> exists C', C = C' ++ [n].
  Proof.
    destruct C as [|a C] using rev_ind; [discriminate|]. rewrite last0_pre_snoc.
    intros E. injection E as ->. eauto.
  Qed.
  Lemma last0_map_PN M n : M <> [] -> last0 (map PN M) = PN n -> exists M', M = M' ++ [n].
  Proof.
    intros NE. destruct M as [|a M] using rev_ind; [congruence|]. rewrite last0_map_snoc.
    intros E. injection E as ->. eauto.
  Qed.

  Lemma applicable_placed s rs m u v :
    holds s rs -> applicable p c rs m (PN u) v -> placed rs u v.
  Proof.
    intros H AP. inversion AP as [? ? n HU HN NE|? ? k HU HK EK IM]; subst.
    - destruct (serves_find p c rs (h_serves _ _ _ _ _ H) u HU) as (r1 & H1 & I1).
      destruct (serves_find p c rs (h_serves _ _ _ _ _ H) n HN) as (r2 & H2 & I2).
      destruct (Nat.eq_dec r1 r2) as [->|NR].
      + apply in_split in I1. destruct I1 as (A & B & E). rewrite E in I2.
        apply in_app_or in I2. destruct I2 as [I2|[I2|I2]].
        * apply in_split in I2. destruct I2 as (C & M & ->).
          apply (pl_after rs u (PN n) r2 (C ++ [n]) M B); auto.
          -- rewrite E, <- !app_assoc. auto.
          -- apply last0_pre_snoc.
        * congruence.
        * apply in_split in I2. destruct I2 as (M & D & ->).
          apply (pl_before rs u (PN n) r2 A (M ++ [n]) D); auto.
          -- nepos.
          -- rewrite E, <- app_assoc. auto.
          -- apply last0_map_snoc.
      + apply in_split in I1. destruct I1 as (A & B & E1).
        apply in_split in I2. destruct I2 as (C & D & E2).
        apply (pl_diff rs u (PN n) r1 r2 A B (C ++ [n]) D); auto.
        * rewrite E2, <- app_assoc. auto.
        * apply last0_pre_snoc.
    - destruct (serves_find p c rs (h_serves _ _ _ _ _ H) u HU) as (r1 & H1 & I1).
      apply in_split in I1. destruct I1 as (A & B & E1).
      apply (pl_diff rs u (PS k) r1 k A B [] []); auto.
      intros ->. rewrite EK in E1. destruct A; discriminate.
  Qed.

  Section Effect.
    Variable s : lsearch.
    Variable rs : nat -> list nat.
    Hypothesis H : holds s rs.

    Lemma read_u r A u B : r < nv -> rs r = A ++ u :: B ->
      pred_ s (PN u) = Ok (last0 (pre r A)) /\ succ_ s (PN u) = Ok (hd0 (suf r B)) /\
      route_ s (PN u) = Ok r.
    Proof using H.
      intros Hr E. assert (S : stops r (rs r) = pre r A ++ PN u :: suf r B) by (rewrite E; apply stops_mid).
      destruct (read_stop s rs H r _ _ _ Hr S) as (Q1 & Q2 & Q3 & _). split; [|split]; auto.
      - apply Q1. nepos.
      - apply Q2. nepos.
    Qed.
    Lemma read_v r C D v : r < nv -> rs r = C ++ D -> last0 (pre r C) = v ->
      succ_ s v = Ok (hd0 (suf r D)) /\ route_ s v = Ok r.
    Proof using H.
      intros Hr E <-. assert (S : stops r (rs r) = pre r C ++ suf r D) by (rewrite E; apply stops_app).
      split.
      - apply (read_succ s rs H r); auto; nepos.
      - apply (read_route s rs H r); auto. rewrite S. apply in_or_app. left. apply last0_In. nepos.
    Qed.

    (** How a move called with [u] and [v] rebuilds the routes r1 and r2 (into l1 and l2), and
        the cost change it computes *)
    Inductive effect : move -> nat -> ptr -> nat -> nat -> list nat -> list nat -> F -> Prop :=
    | ef_relocate_single u v r1 r2 l1 l2 up x y :
        reloc rs [u] [u] v r1 r2 l1 l2 up x y ->
        let R1 := s_routes s r1 in
        let R2 := s_routes s r2 in
        let U := PN u in
        let d1 := r_dist R1 -: dist p up U -: dist p U x +: dist p up x in
        let d2 := r_dist R2 -: dist p v y +: dist p v U +: dist p U y in
        let o1 := if r1 =? r2 then r_over R1 else r_over R1 +: (f0 -: dem p U) in
        let o2 := if r1 =? r2 then r_over R2 else r_over R2 +: dem p U in
        effect RelocateSingle u v r1 r2 l1 l2 (cost_change pen s r1 r2 d1 d2 o1 o2)
    | ef_relocate_double u v r1 r2 l1 l2 up x xn y :
        reloc rs [u; x] [u; x] v r1 r2 l1 l2 up xn y ->
        let R1 := s_routes s r1 in
        let R2 := s_routes s r2 in
        let U := PN u in
        let X := PN x in
        let d1 := r_dist R1 -: dist p up U -: dist p U X -: dist p X xn +: dist p up xn in
        let d2 := r_dist R2 -: dist p v y +: dist p v U +: dist p U X +: dist p X y in
        let o1 := if r1 =? r2 then r_over R1 else r_over R1 +: (f0 -: dem p U -: dem p X) in
        let o2 := if r1 =? r2 then r_over R2 else r_over R2 +: (dem p U +: dem p X) in
        effect RelocateDouble u v r1 r2 l1 l2 (cost_change pen s r1 r2 d1 d2 o1 o2)
    | ef_relocate_double_reverse u v r1 r2 l1 l2 up x xn y :
        reloc rs [u; x] [x; u] v r1 r2 l1 l2 up xn y ->
        let R1 := s_routes s r1 in
        let R2 := s_routes s r2 in
        let U := PN u in
        let X := PN x in
        let d1 := r_dist R1 -: dist p up U -: dist p U X -: dist p X xn +: dist p up xn in
        let d2 := r_dist R2 -: dist p v y +: dist p v X +: dist p X U +: dist p U y in
        let o1 := if r1 =? r2 then r_over R1 else r_over R1 +: (f0 -: dem p U -: dem p X) in
        let o2 := if r1 =? r2 then r_over R2 else r_over R2 +: (dem p U +: dem p X) in
        effect RelocateDoubleReverse u v r1 r2 l1 l2 (cost_change pen s r1 r2 d1 d2 o1 o2)
    | ef_swap_one_one u v r1 r2 l1 l2 up x vp y :
        swp rs [u] [v] r1 r2 l1 l2 up x vp y ->
        let R1 := s_routes s r1 in
        let R2 := s_routes s r2 in
        let U := PN u in
        let V := PN v in
        let d1 := r_dist R1 -: dist p up U -: dist p U x +: dist p up V +: dist p V x in
        let d2 := r_dist R2 -: dist p vp V -: dist p V y +: dist p vp U +: dist p U y in
        let o1 := if r1 =? r2 then r_over R1 else r_over R1 +: (f0 -: dem p U +: dem p V) in
        let o2 := if r1 =? r2 then r_over R2 else r_over R2 +: (dem p U -: dem p V) in
        effect SwapOneWithOne u (PN v) r1 r2 l1 l2 (cost_change pen s r1 r2 d1 d2 o1 o2)
    | ef_swap_two_one u v r1 r2 l1 l2 up x xn vp y :
        swp rs [u; x] [v] r1 r2 l1 l2 up xn vp y ->
        let R1 := s_routes s r1 in
        let R2 := s_routes s r2 in
        let U := PN u in
        let V := PN v in
        let X := PN x in
        let d1 := r_dist R1 -: dist p up U -: dist p U X -: dist p X xn +: dist p up V +: dist p V xn in
        let d2 := r_dist R2 -: dist p vp V -: dist p V y +: dist p vp U +: dist p U X +: dist p X y in
        let o1 := if r1 =? r2 then r_over R1 else r_over R1 +: (f0 -: dem p U -: dem p X +: dem p V) in
        let o2 := if r1 =? r2 then r_over R2 else r_over R2 +: (dem p U +: dem p X -: dem p V) in
        effect SwapTwoWithOne u (PN v) r1 r2 l1 l2 (cost_change pen s r1 r2 d1 d2 o1 o2)
    | ef_swap_two_two u v r1 r2 l1 l2 up x xn vp y yn :
        swp rs [u; x] [v; y] r1 r2 l1 l2 up xn vp yn ->
        let R1 := s_routes s r1 in
        let R2 := s_routes s r2 in
        let U := PN u in
        let V := PN v in
        let X := PN x in
        let Y := PN y in
        let d1 := r_dist R1 -: dist p up U -: dist p U X -: dist p X xn
                  +: dist p up V +: dist p V Y +: dist p Y xn in
        let d2 := r_dist R2 -: dist p vp V -: dist p V Y -: dist p Y yn
                  +: dist p vp U +: dist p U X +: dist p X yn in
        let o1 := if r1 =? r2 then r_over R1
                  else r_over R1 +: (f0 -: dem p U -: dem p X +: dem p V +: dem p Y) in
        let o2 := if r1 =? r2 then r_over R2
                  else r_over R2 +: (dem p U +: dem p X -: dem p V -: dem p Y) in
        effect SwapTwoWithTwo u (PN v) r1 r2 l1 l2 (cost_change pen s r1 r2 d1 d2 o1 o2)
    | ef_two_opt_intra u v r A M x M' D :
        r < nv -> M = x :: M' -> M' <> [] -> last M' 0 = v ->
        rs r = A ++ u :: M ++ D ->
        effect TwoOptIntraReverse u (PN v) r r (A ++ u :: rev M ++ D) (A ++ u :: rev M ++ D)
          (f0 -: dist p (PN u) (PN x) -: dist p (PN v) (hd0 (suf r D)) +: dist p (PN u) (PN v)
           +: dist p (PN x) (hd0 (suf r D)))
    | ef_two_opt_inter_reverse u v r1 r2 A B C D x y :
        r1 < nv -> r2 < nv -> r1 <> r2 ->
        rs r1 = A ++ u :: B -> rs r2 = C ++ v :: D -> x = hd0 (suf r1 B) -> y = hd0 (suf r2 D) ->
        let R1 := s_routes s r1 in
        let R2 := s_routes s r2 in
        let cd a := n_cumd (s_info s a) in
        let cl a := n_cuml (s_info s a) in
        let U := PN u in
        let V := PN v in
        let d1 := cd U +: cd V +: dist p U V in
        let d2 := r_dist R1 -: cd x +: r_dist R2 -: cd y +: dist p x y in
        let o1 := cl U +: cl V -: p_cap p in
        let o2 := r_load R1 -: cl U +: r_load R2 -: cl V -: p_cap p in
        effect TwoOptInterReverse u (PN v) r1 r2 (A ++ u :: v :: rev C) (rev B ++ D)
          (cost_change pen s r1 r2 d1 d2 o1 o2)
    | ef_two_opt_inter u v r1 r2 A B C D x y :
        r1 < nv -> r2 < nv -> r1 <> r2 ->
        rs r1 = A ++ u :: B -> rs r2 = C ++ D -> last0 (pre r2 C) = v ->
        x = hd0 (suf r1 B) -> y = hd0 (suf r2 D) ->
        let R1 := s_routes s r1 in
        let R2 := s_routes s r2 in
        let cd a := n_cumd (s_info s a) in
        let cl a := n_cuml (s_info s a) in
        let U := PN u in
        let d1 := cd U +: r_dist R2 -: cd y +: dist p U y in
        let d2 := cd v +: r_dist R1 -: cd x +: dist p v x in
        let o1 := cl U +: r_load R2 -: cl v -: p_cap p in
        let o2 := cl v +: r_load R1 -: cl U -: p_cap p in
        effect TwoOptInter u v r1 r2 (A ++ u :: D) (C ++ B)
          (cost_change pen s r1 r2 d1 d2 o1 o2).

    Ltac gate G :=
      match goal with |- context [if ?g then Ok f0 else _] => destruct g eqn:G end; [left; auto|].

    (** The three readings of u and v *)
    Lemma before_v r A u M D v : rs r = A ++ u :: M ++ D -> M <> [] -> last0 (map PN M) = v ->
      rs r = (A ++ u :: M) ++ D /\ last0 (pre r (A ++ u :: M)) = v.
    Proof using.
      intros E NM EV. split; [rewrite E, <- app_assoc; auto|].
      rewrite <- EV, pre_app. cbn [map]. rewrite last0_app by nepos.
      change (PN u :: map PN M) with ([PN u] ++ map PN M). rewrite last0_app by nepos. auto.
    Qed.

    Lemma eqb_num_PN n : (num (PN n) =? num (PN n)) = true.
    Proof using. apply Nat.eqb_refl. Qed.

    Lemma relocate_single_cases u v : placed rs u v ->
      delta_relocate_single p pen s (PN u) v = Ok f0 \/
      exists r1 r2 l1 l2 d, delta_relocate_single p pen s (PN u) v = Ok d /\
                            effect RelocateSingle u v r1 r2 l1 l2 d.
    Proof using H.
      intros PL. unfold delta_relocate_single.
      destruct PL as [r1 r2 A B C D H1 H2 NE E1 E2 EV|r A M D H1 NM E EV|r C M B H1 E EV].
      - destruct (read_u r1 A u B H1 E1) as (-> & -> & ->).
        destruct (read_v r2 C D v H2 E2 EV) as (-> & ->). cbn [rbind].
        gate G. right.
        do 5 eexists. split; [reflexivity|]. apply ef_relocate_single. eapply rl_diff; eauto.
      - destruct (read_u r A u (M ++ D) H1 E) as (-> & -> & ->).
        destruct (before_v r A u M D v E NM EV) as [E' EV'].
        destruct (read_v r (A ++ u :: M) D v H1 E' EV') as (-> & ->). cbn [rbind].
        gate G. right.
        rewrite suf_app, hd0_app by nepos.
        do 5 eexists. split; [reflexivity|]. apply ef_relocate_single. eapply rl_before; eauto.
      - destruct (read_u r (C ++ M) u B H1) as (-> & -> & ->).
        { rewrite E, <- app_assoc. auto. }
        destruct (read_v r C (M ++ u :: B) v H1 E EV) as (-> & ->). cbn [rbind].
        gate G. right.
        destruct M as [|m M].
        { cbn in G. rewrite Nat.eqb_refl in G. discriminate. }
        rewrite pre_app, last0_app, suf_app, hd0_app by nepos.
        do 5 eexists. split; [reflexivity|]. apply ef_relocate_single. eapply rl_after; eauto; nepos.
    Qed.

    Lemma relocate_double_cases u v : placed rs u v ->
      delta_relocate_double p pen s (PN u) v = Ok f0 \/
      exists r1 r2 l1 l2 d, delta_relocate_double p pen s (PN u) v = Ok d /\
                            effect RelocateDouble u v r1 r2 l1 l2 d.
    Proof using H.
      intros PL. unfold delta_relocate_double.
      destruct PL as [r1 r2 A B C D H1 H2 NE E1 E2 EV|r A M D H1 NM E EV|r C M B H1 E EV].
      - destruct (read_u r1 A u B H1 E1) as (-> & -> & ->).
        destruct (read_v r2 C D v H2 E2 EV) as (-> & ->). cbn [rbind].
        destruct B as [|x B]; [left; auto|]. cbn [suf map app hd].
        destruct (read_u r1 (A ++ [u]) x B H1) as (_ & -> & _).
        { rewrite E1, <- app_assoc. auto. }
        gate G0. cbn [rbind]. gate G. right.
        do 5 eexists. split; [reflexivity|]. eapply ef_relocate_double. eapply rl_diff; eauto.
      - destruct (read_u r A u (M ++ D) H1 E) as (-> & -> & ->).
        destruct (before_v r A u M D v E NM EV) as [E' EV'].
        destruct (read_v r (A ++ u :: M) D v H1 E' EV') as (-> & ->). cbn [rbind].
        destruct M as [|x M]; [congruence|]. cbn [suf map app hd].
        destruct (read_u r (A ++ [u]) x (M ++ D) H1) as (_ & -> & _).
        { rewrite E, <- app_assoc. auto. }
        gate G0. cbn [rbind]. gate G. right.
        destruct M as [|m M].
        { cbn in EV. subst v. rewrite eqb_num_PN, orb_true_r in G. discriminate. }
        rewrite suf_app, hd0_app by nepos.
        do 5 eexists. split; [reflexivity|]. eapply ef_relocate_double.
        eapply (rl_before rs [u; x] [u; x] v r A (m :: M)); eauto; nepos.
      - destruct (read_u r (C ++ M) u B H1) as (-> & -> & ->).
        { rewrite E, <- app_assoc. auto. }
        destruct (read_v r C (M ++ u :: B) v H1 E EV) as (-> & ->). cbn [rbind].
        destruct B as [|x B]; [left; auto|]. cbn [suf map app hd].
        destruct (read_u r (C ++ M ++ [u]) x B H1) as (_ & -> & _).
        { rewrite E, <- !app_assoc. auto. }
        gate G0. cbn [rbind]. gate G. right.
        destruct M as [|m M].
        { cbn in G. rewrite Nat.eqb_refl in G. discriminate. }
        rewrite pre_app, last0_app by nepos.
        change (hd0 (map PN ((m :: M) ++ u :: x :: B) ++ [PE r])) with (hd0 (map PN (m :: M))).
        do 5 eexists. split; [reflexivity|]. eapply ef_relocate_double.
        eapply (rl_after rs [u; x] [u; x] v r C (m :: M)); eauto; nepos.
    Qed.

    Lemma relocate_double_reverse_cases u v : placed rs u v ->
      delta_relocate_double_reverse p pen s (PN u) v = Ok f0 \/
      exists r1 r2 l1 l2 d, delta_relocate_double_reverse p pen s (PN u) v = Ok d /\
                            effect RelocateDoubleReverse u v r1 r2 l1 l2 d.
    Proof using H.
      intros PL. unfold delta_relocate_double_reverse.
      destruct PL as [r1 r2 A B C D H1 H2 NE E1 E2 EV|r A M D H1 NM E EV|r C M B H1 E EV].
      - destruct (read_u r1 A u B H1 E1) as (-> & -> & ->).
        destruct (read_v r2 C D v H2 E2 EV) as (-> & ->). cbn [rbind].
        destruct B as [|x B]; [left; auto|]. cbn [suf map app hd].
        destruct (read_u r1 (A ++ [u]) x B H1) as (_ & -> & _).
        { rewrite E1, <- app_assoc. auto. }
        gate G0. cbn [rbind]. gate G. right.
        do 5 eexists. split; [reflexivity|]. eapply ef_relocate_double_reverse. eapply rl_diff; eauto.
      - destruct (read_u r A u (M ++ D) H1 E) as (-> & -> & ->).
        destruct (before_v r A u M D v E NM EV) as [E' EV'].
        destruct (read_v r (A ++ u :: M) D v H1 E' EV') as (-> & ->). cbn [rbind].
        destruct M as [|x M]; [congruence|]. cbn [suf map app hd].
        destruct (read_u r (A ++ [u]) x (M ++ D) H1) as (_ & -> & _).
        { rewrite E, <- app_assoc. auto. }
        gate G0. cbn [rbind]. gate G. right.
        destruct M as [|m M].
        { cbn in EV. subst v. rewrite eqb_num_PN, orb_true_r in G. discriminate. }
        rewrite suf_app, hd0_app by nepos.
        do 5 eexists. split; [reflexivity|]. eapply ef_relocate_double_reverse.
        eapply (rl_before rs [u; x] [x; u] v r A (m :: M)); eauto; nepos.
      - destruct (read_u r (C ++ M) u B H1) as (-> & -> & ->).
        { rewrite E, <- app_assoc. auto. }
        destruct (read_v r C (M ++ u :: B) v H1 E EV) as (-> & ->). cbn [rbind].
        destruct B as [|x B]; [left; auto|]. cbn [suf map app hd].
        destruct (read_u r (C ++ M ++ [u]) x B H1) as (_ & -> & _).
        { rewrite E, <- !app_assoc. auto. }
        gate G0. cbn [rbind]. gate G. right.
        destruct M as [|m M].
        { cbn in G. rewrite Nat.eqb_refl in G. discriminate. }
        rewrite pre_app, last0_app by nepos.
        change (hd0 (map PN ((m :: M) ++ u :: x :: B) ++ [PE r])) with (hd0 (map PN (m :: M))).
        do 5 eexists. split; [reflexivity|]. eapply ef_relocate_double_reverse.
        eapply (rl_after rs [u; x] [x; u] v r C (m :: M)); eauto; nepos.
    Qed.

    (** For the swaps both nodes are customers. *)
    Inductive both (u v : nat) : Prop :=
    | bo_diff r1 r2 A B C D : r1 < nv -> r2 < nv -> r1 <> r2 ->
        rs r1 = A ++ u :: B -> rs r2 = C ++ v :: D -> both u v
    | bo_before r A M D : r < nv -> rs r = A ++ u :: M ++ v :: D -> both u v
    | bo_after r A M D : r < nv -> rs r = A ++ v :: M ++ u :: D -> both u v.

    Lemma placed_both u v : placed rs u (PN v) -> both u v.
    Proof using.
      intros [r1 r2 A B C D H1 H2 NE E1 E2 EV|r A M D H1 NM E EV|r C M B H1 E EV].
      - apply last0_pre_PN in EV. destruct EV as (C' & ->). rewrite <- app_assoc in E2.
        apply (bo_diff u v r1 r2 A B C' D); auto.
      - apply last0_map_PN in EV; auto. destruct EV as (M' & ->). rewrite <- app_assoc in E.
        apply (bo_before u v r A M' D); auto.
      - apply last0_pre_PN in EV. destruct EV as (C' & ->). rewrite <- app_assoc in E.
        apply (bo_after u v r C' M B); auto.
    Qed.

    Lemma last0_cons (a : ptr) L : L <> [] -> last0 (a :: L) = last0 L.
    Proof using. destruct L; [congruence|auto]. Qed.
    Lemma snoc_pre r A u M : pre r (A ++ u :: M) = pre r A ++ PN u :: map PN M.
    Proof using. rewrite pre_app. auto. Qed.

    Lemma swap_one_one_cases u v : both u v ->
      delta_swap_one_one p pen s (PN u) (PN v) = Ok f0 \/
      exists r1 r2 l1 l2 d, delta_swap_one_one p pen s (PN u) (PN v) = Ok d /\
                            effect SwapOneWithOne u (PN v) r1 r2 l1 l2 d.
    Proof using H.
      intros PL. unfold delta_swap_one_one.
      destruct PL as [r1 r2 A B C D H1 H2 NE E1 E2|r A M D H1 E|r A M D H1 E].
      - destruct (read_u r1 A u B H1 E1) as (-> & -> & ->).
        destruct (read_u r2 C v D H2 E2) as (-> & -> & ->). cbn [rbind].
        gate G. right. do 5 eexists. split; [reflexivity|]. eapply ef_swap_one_one.
        eapply (sw_diff rs [u] [v]); eauto.
      - destruct (read_u r A u (M ++ v :: D) H1 E) as (-> & -> & ->).
        destruct (read_u r (A ++ u :: M) v D H1) as (-> & -> & ->).
        { rewrite E, <- app_assoc. auto. }
        cbn [rbind]. gate G. right.
        destruct M as [|m M].
        { rewrite last0_pre_snoc, eqb_num_PN, orb_true_r in G. discriminate. }
        rewrite snoc_pre, last0_app, last0_cons by nepos.
        change (hd0 (suf r ((m :: M) ++ v :: D))) with (hd0 (map PN (m :: M))).
        do 5 eexists. split; [reflexivity|]. eapply ef_swap_one_one.
        eapply (sw_before rs [u] [v] r A (m :: M)); eauto; nepos.
      - destruct (read_u r A v (M ++ u :: D) H1 E) as (-> & -> & ->).
        destruct (read_u r (A ++ v :: M) u D H1) as (-> & -> & ->).
        { rewrite E, <- app_assoc. auto. }
        cbn [rbind]. gate G. right.
        destruct M as [|m M].
        { cbn [app suf map hd] in G. rewrite eqb_num_PN in G. discriminate. }
        rewrite snoc_pre, last0_app, last0_cons by nepos.
        change (hd0 (suf r ((m :: M) ++ u :: D))) with (hd0 (map PN (m :: M))).
        do 5 eexists. split; [reflexivity|]. eapply ef_swap_one_one.
        eapply (sw_after rs [u] [v] r A (m :: M)); eauto; nepos.
    Qed.

    Lemma swap_two_one_cases u v : both u v ->
      delta_swap_two_one p pen s (PN u) (PN v) = Ok f0 \/
      exists r1 r2 l1 l2 d, delta_swap_two_one p pen s (PN u) (PN v) = Ok d /\
                            effect SwapTwoWithOne u (PN v) r1 r2 l1 l2 d.
    Proof using H.
      intros PL. unfold delta_swap_two_one.
      destruct PL as [r1 r2 A B C D H1 H2 NE E1 E2|r A M D H1 E|r A M D H1 E].
      - destruct (read_u r1 A u B H1 E1) as (-> & -> & ->).
        destruct (read_u r2 C v D H2 E2) as (-> & -> & ->). cbn [rbind].
        destruct B as [|x B]; [left; auto|]. rewrite suf_cons. cbn [hd].
        destruct (read_u r1 (A ++ [u]) x B H1) as (_ & -> & _).
        { rewrite E1, <- app_assoc. auto. }
        gate G0. cbn [rbind]. gate G. right.
        do 5 eexists. split; [reflexivity|]. eapply ef_swap_two_one.
        eapply (sw_diff rs [u; x] [v]); eauto.
      - destruct (read_u r A u (M ++ v :: D) H1 E) as (-> & -> & ->).
        destruct (read_u r (A ++ u :: M) v D H1) as (-> & -> & ->).
        { rewrite E, <- app_assoc. auto. }
        cbn [rbind].
        destruct M as [|x M].
        { cbn [app]. rewrite suf_cons. cbn [hd].
          destruct (read_u r (A ++ [u]) v D H1) as (_ & -> & _).
          { rewrite E, <- app_assoc. auto. }
          gate G0. cbn [rbind]. rewrite last0_pre_snoc, eqb_num_PN. left. auto. }
        cbn [app]. rewrite suf_cons. cbn [hd].
        destruct (read_u r (A ++ [u]) x (M ++ v :: D) H1) as (_ & -> & _).
        { rewrite E, <- app_assoc. auto. }
        gate G0. cbn [rbind]. gate G. right.
        destruct M as [|m M].
        { rewrite (snoc_pre r A u [x]), last0_app, last0_cons in G by nepos. cbn [map last] in G.
          rewrite eqb_num_PN, orb_true_r in G. discriminate. }
        rewrite snoc_pre, last0_app, last0_cons by nepos. cbn [map]. rewrite last0_cons by nepos.
        change (hd0 (suf r ((m :: M) ++ v :: D))) with (hd0 (map PN (m :: M))).
        do 5 eexists. split; [reflexivity|]. eapply ef_swap_two_one.
        eapply (sw_before rs [u; x] [v] r A (m :: M)); eauto; nepos.
      - destruct (read_u r A v (M ++ u :: D) H1 E) as (-> & -> & ->).
        destruct (read_u r (A ++ v :: M) u D H1) as (-> & -> & ->).
        { rewrite E, <- app_assoc. auto. }
        cbn [rbind].
        destruct D as [|x D]; [left; auto|]. rewrite suf_cons. cbn [hd].
        destruct (read_u r (A ++ v :: M ++ [u]) x D H1) as (_ & -> & _).
        { rewrite E, <- app_assoc. cbn. rewrite <- app_assoc. auto. }
        gate G0. cbn [rbind]. gate G. right.
        destruct M as [|m M].
        { cbn [app] in G. rewrite suf_cons in G. cbn [hd] in G. rewrite eqb_num_PN, orb_true_r in G. discriminate. }
        rewrite snoc_pre, last0_app, last0_cons by nepos.
        change (hd0 (suf r ((m :: M) ++ u :: x :: D))) with (hd0 (map PN (m :: M))).
        do 5 eexists. split; [reflexivity|]. eapply ef_swap_two_one.
        eapply (sw_after rs [u; x] [v] r A (m :: M)); eauto; nepos.
    Qed.

    Lemma swap_two_two_cases u v : both u v ->
      delta_swap_two_two p pen s (PN u) (PN v) = Ok f0 \/
      exists r1 r2 l1 l2 d, delta_swap_two_two p pen s (PN u) (PN v) = Ok d /\
                            effect SwapTwoWithTwo u (PN v) r1 r2 l1 l2 d.
    Proof using H.
      intros PL. unfold delta_swap_two_two.
      destruct PL as [r1 r2 A B C D H1 H2 NE E1 E2|r A M D H1 E|r A M D H1 E].
      - destruct (read_u r1 A u B H1 E1) as (-> & -> & ->).
        destruct (read_u r2 C v D H2 E2) as (-> & -> & ->). cbn [rbind].
        destruct B as [|x B]; [left; auto|]. rewrite suf_cons. cbn [hd].
        destruct (read_u r1 (A ++ [u]) x B H1) as (_ & -> & _).
        { rewrite E1, <- app_assoc. auto. }
        gate G0. cbn [rbind].
        destruct D as [|y D]; [left; auto|]. rewrite suf_cons. cbn [hd].
        destruct (read_u r2 (C ++ [v]) y D H2) as (_ & -> & _).
        { rewrite E2, <- app_assoc. auto. }
        gate G1. cbn [rbind]. gate G. right.
        do 5 eexists. split; [reflexivity|]. eapply ef_swap_two_two.
        eapply (sw_diff rs [u; x] [v; y]); eauto.
      - destruct (read_u r A u (M ++ v :: D) H1 E) as (-> & -> & ->).
        destruct (read_u r (A ++ u :: M) v D H1) as (-> & -> & ->).
        { rewrite E, <- app_assoc. auto. }
        cbn [rbind].
        destruct D as [|y D].
        { destruct M as [|x M].
          - cbn [app]. rewrite suf_cons. cbn [hd].
            destruct (read_u r (A ++ [u]) v [] H1) as (_ & -> & _).
            { rewrite E, <- app_assoc. auto. }
            gate G0. cbn [rbind]. left. auto.
          - cbn [app]. rewrite suf_cons. cbn [hd].
            destruct (read_u r (A ++ [u]) x (M ++ [v]) H1) as (_ & -> & _).
            { rewrite E, <- app_assoc. auto. }
            gate G0. cbn [rbind]. left. auto. }
        assert (EY : succ_ s (PN y) = Ok (hd0 (suf r D))).
        { apply (read_u r (A ++ u :: M ++ [v]) y D H1).
          rewrite E, <- app_assoc. cbn. rewrite <- app_assoc. auto. }
        rewrite (suf_cons r y D). cbn [hd]. rewrite EY. cbn [rbind].
        destruct M as [|x M].
        { cbn [app]. rewrite (suf_cons r v). cbn [hd].
          destruct (read_u r (A ++ [u]) v (y :: D) H1) as (_ & -> & _).
          { rewrite E, <- app_assoc. auto. }
          gate G0. cbn [rbind]. gate G1. rewrite eqb_num_PN, orb_true_r. left. auto. }
        cbn [app]. rewrite (suf_cons r x). cbn [hd].
        destruct (read_u r (A ++ [u]) x (M ++ v :: y :: D) H1) as (_ & -> & _).
        { rewrite E, <- app_assoc. auto. }
        gate G0. cbn [rbind]. gate G1. gate G. right.
        destruct M as [|m M].
        { cbn [app] in G. rewrite (suf_cons r v) in G. cbn [hd] in G.
          rewrite eqb_num_PN, orb_true_r in G. discriminate. }
        rewrite snoc_pre, last0_app, last0_cons by nepos. cbn [map]. rewrite last0_cons by nepos.
        change (hd0 (suf r ((m :: M) ++ v :: y :: D))) with (hd0 (map PN (m :: M))).
        do 5 eexists. split; [reflexivity|]. eapply ef_swap_two_two.
        eapply (sw_before rs [u; x] [v; y] r A (m :: M)); eauto; nepos.
      - destruct (read_u r A v (M ++ u :: D) H1 E) as (-> & -> & ->).
        destruct (read_u r (A ++ v :: M) u D H1) as (-> & -> & ->).
        { rewrite E, <- app_assoc. auto. }
        cbn [rbind].
        destruct D as [|x D]; [left; auto|]. rewrite (suf_cons r x D). cbn [hd].
        destruct (read_u r (A ++ v :: M ++ [u]) x D H1) as (_ & -> & _).
        { rewrite E, <- app_assoc. cbn. rewrite <- app_assoc. auto. }
        gate G0. cbn [rbind].
        destruct M as [|y M].
        { cbn [app]. rewrite (suf_cons r u). cbn [hd].
          destruct (read_u r (A ++ [v]) u (x :: D) H1) as (_ & -> & _).
          { rewrite E, <- app_assoc. auto. }
          gate G1. cbn [rbind]. rewrite eqb_num_PN. left. auto. }
        cbn [app]. rewrite (suf_cons r y). cbn [hd].
        destruct (read_u r (A ++ [v]) y (M ++ u :: x :: D) H1) as (_ & -> & _).
        { rewrite E, <- app_assoc. auto. }
        gate G1. cbn [rbind]. gate G. right.
        destruct M as [|m M].
        { rewrite (snoc_pre r A v [y]), last0_app, last0_cons in G by nepos. cbn [map last] in G.
          rewrite eqb_num_PN, orb_true_r in G. discriminate. }
        rewrite snoc_pre, last0_app, last0_cons by nepos. cbn [map]. rewrite last0_cons by nepos.
        change (hd0 (suf r ((m :: M) ++ u :: x :: D))) with (hd0 (map PN (m :: M))).
        do 5 eexists. split; [reflexivity|]. eapply ef_swap_two_two.
        eapply (sw_after rs [u; x] [v; y] r A (m :: M)); eauto; nepos.
    Qed.

    Lemma two_opt_intra_cases u v : both u v ->
      delta_two_opt_intra p s (PN u) (PN v) = Ok f0 \/
      exists r1 r2 l1 l2 d, delta_two_opt_intra p s (PN u) (PN v) = Ok d /\
                            effect TwoOptIntraReverse u (PN v) r1 r2 l1 l2 d.
    Proof using H.
      intros PL. unfold delta_two_opt_intra.
      destruct PL as [r1 r2 A B C D H1 H2 NE E1 E2|r A M D H1 E|r A M D H1 E].
      - destruct (read_u r1 A u B H1 E1) as (_ & _ & ->).
        destruct (read_u r2 C v D H2 E2) as (_ & _ & ->). cbn [rbind].
        apply Nat.eqb_neq in NE. rewrite NE. left. auto.
      - destruct (read_u r A u (M ++ v :: D) H1 E) as (_ & -> & ->).
        destruct (read_u r (A ++ u :: M) v D H1) as (_ & -> & ->).
        { rewrite E, <- app_assoc. auto. }
        cbn [rbind]. rewrite Nat.eqb_refl. cbn [negb].
        gate G. right. destruct M as [|x M].
        { cbn [app] in G. rewrite suf_cons in G. cbn [hd] in G. rewrite eqb_num_PN, orb_true_r in G. discriminate. }
        cbn [app]. rewrite suf_cons. cbn [hd].
        do 5 eexists. split; [reflexivity|].
        eapply (ef_two_opt_intra u v r A (x :: M ++ [v]) x (M ++ [v]) D); eauto; nepos.
        + apply last_last.
        + rewrite E. cbn. rewrite <- app_assoc. auto.
      - destruct (read_u r A v (M ++ u :: D) H1 E) as (_ & -> & ->).
        destruct (read_u r (A ++ v :: M) u D H1) as (_ & -> & ->).
        { rewrite E, <- app_assoc. auto. }
        cbn [rbind]. rewrite Nat.eqb_refl. cbn [negb].
        destruct (read_stop s rs H r (pre r A) (PN v) (suf r (M ++ u :: D))) as (_ & _ & _ & -> & _); auto.
        { rewrite E. apply stops_mid. }
        destruct (read_stop s rs H r (pre r (A ++ v :: M)) (PN u) (suf r D)) as (_ & _ & _ & -> & _); auto.
        { rewrite E. replace (A ++ v :: M ++ u :: D) with ((A ++ v :: M) ++ u :: D) by (rewrite <- app_assoc; auto).
          apply stops_mid. }
        left. replace (length (pre r A) <? length (pre r (A ++ v :: M))) with true; auto.
        symmetry. apply Nat.ltb_lt. rewrite snoc_pre, app_length. cbn. lia.
    Qed.

    Lemma two_opt_inter_reverse_cases u v : both u v ->
      delta_two_opt_inter_reverse p pen s (PN u) (PN v) = Ok f0 \/
      exists r1 r2 l1 l2 d, delta_two_opt_inter_reverse p pen s (PN u) (PN v) = Ok d /\
                            effect TwoOptInterReverse u (PN v) r1 r2 l1 l2 d.
    Proof using H.
      intros PL. unfold delta_two_opt_inter_reverse.
      destruct PL as [r1 r2 A B C D H1 H2 NE E1 E2|r A M D H1 E|r A M D H1 E].
      - destruct (read_u r1 A u B H1 E1) as (_ & -> & ->).
        destruct (read_u r2 C v D H2 E2) as (_ & -> & ->). cbn [rbind].
        gate G. right. do 5 eexists. split; [reflexivity|].
        eapply ef_two_opt_inter_reverse; eauto.
      - destruct (read_u r A u (M ++ v :: D) H1 E) as (_ & _ & ->).
        destruct (read_u r (A ++ u :: M) v D H1) as (_ & _ & ->).
        { rewrite E, <- app_assoc. auto. }
        cbn [rbind]. rewrite Nat.eqb_refl. left. auto.
      - destruct (read_u r A v (M ++ u :: D) H1 E) as (_ & _ & ->).
        destruct (read_u r (A ++ v :: M) u D H1) as (_ & _ & ->).
        { rewrite E, <- app_assoc. auto. }
        cbn [rbind]. rewrite Nat.eqb_refl. left. auto.
    Qed.

    Lemma two_opt_inter_cases u v : placed rs u v ->
      delta_two_opt_inter p pen s (PN u) v = Ok f0 \/
      exists r1 r2 l1 l2 d, delta_two_opt_inter p pen s (PN u) v = Ok d /\
                            effect TwoOptInter u v r1 r2 l1 l2 d.
    Proof using H.
      intros PL. unfold delta_two_opt_inter.
      destruct PL as [r1 r2 A B C D H1 H2 NE E1 E2 EV|r A M D H1 NM E EV|r C M B H1 E EV].
      - destruct (read_u r1 A u B H1 E1) as (_ & -> & ->).
        destruct (read_v r2 C D v H2 E2 EV) as (-> & ->). cbn [rbind].
        gate G. right. do 5 eexists. split; [reflexivity|].
        eapply ef_two_opt_inter; eauto.
      - destruct (read_u r A u (M ++ D) H1 E) as (_ & _ & ->).
        destruct (before_v r A u M D v E NM EV) as [E' EV'].
        destruct (read_v r (A ++ u :: M) D v H1 E' EV') as (_ & ->). cbn [rbind].
        rewrite Nat.eqb_refl. left. auto.
      - destruct (read_u r (C ++ M) u B H1) as (_ & _ & ->).
        { rewrite E, <- app_assoc. auto. }
        destruct (read_v r C (M ++ u :: B) v H1 E EV) as (_ & ->). cbn [rbind].
        rewrite Nat.eqb_refl. left. auto.
    Qed.

    (** Every delta is computed without an error.  It is 0 for a pair to which the move does not
        apply; otherwise it is the cost change of an [effect]. *)
    Lemma delta_cases m u v : applicable p c rs m (PN u) v ->
      delta p pen m s (PN u) v = Ok f0 \/
      exists r1 r2 l1 l2 d, delta p pen m s (PN u) v = Ok d /\ effect m u v r1 r2 l1 l2 d.
    Proof using H.
      intros AP. pose proof (applicable_placed s rs m u v H AP) as PL.
      assert (V : (exists n, v = PN n) \/
                  In m [RelocateSingle; RelocateDouble; RelocateDoubleReverse; TwoOptInter]).
      { inversion AP; subst; eauto. }
      destruct m; cbn [delta];
        try (destruct V as [[n ->]|V]; [|exfalso; cbn in V; intuition discriminate];
             apply placed_both in PL).
      - apply relocate_single_cases; auto.
      - apply relocate_double_cases; auto.
      - apply relocate_double_reverse_cases; auto.
      - apply swap_one_one_cases; auto.
      - apply swap_two_one_cases; auto.
      - apply swap_two_two_cases; auto.
      - apply two_opt_intra_cases; auto.
      - apply two_opt_inter_reverse_cases; auto.
      - apply two_opt_inter_cases; auto.
    Qed.

    (** *** Performing *)

    Lemma reloc_do blk ins v r1 r2 l1 l2 up xn y mid : reloc rs blk ins v r1 r2 l1 l2 up xn y ->
      blk <> [] -> ins <> [] -> Permutation ins blk ->
      (forall e, In e mid -> In e (pairs (map PN ins))) ->
      (forall e, In e (pairs (map PN ins)) -> In e mid \/ In e (pairs (map PN blk))) ->
      exists s',
        update_two p pen (set_links s (do_links (s_links s)
          ((up, xn) :: (v, hd0 (map PN ins)) :: mid ++ [(last0 (map PN ins), y)]))) r1 r2 = Ok s' /\
        stepped s s' (nupd (nupd rs r1 l1) r2 l2) r1 r2.
    Proof using H. intros. eapply reloc_perform; eauto. Qed.

    Lemma flinks_iff f from l e : In e (flinks f from l) <-> In e (pairs (f :: rev l ++ [from])).
    Proof using.
      revert from. induction l as [|a l IH]; intros from; cbn [rev app flinks].
      - cbn. intuition.
      - rewrite <- app_assoc. cbn [app]. rewrite app_comm_cons, pairs_app, in_app_iff, in_cons_eq.
        rewrite IH. rewrite in_pairs_cons, in_pairs_one. cbn [app]. tauto.
    Qed.

    Lemma do_links_fpath h ls a l :
      (forall z, In z (map fst ls) -> ~ In z (a :: l)) -> fpath h a l -> fpath (do_links h ls) a l.
    Proof using.
      revert h. induction ls as [|[x y] ls IH]; intros h O P; auto.
      cbn [do_links fold_left fst snd]. apply IH.
      - intros z I. apply O. right. auto.
      - apply fpath_link; auto. apply O. left. auto.
    Qed.

    Lemma perform_two_opt_intra_ok u v r l1 l2 d r2 :
      effect TwoOptIntraReverse u (PN v) r r2 l1 l2 d ->
      exists s', perform_two_opt_intra p pen s (PN u) (PN v) = Ok s' /\
                 stepped s s' (nupd (nupd rs r l1) r2 l2) r r2.
    Proof using H.
      intros EF. inversion EF as [| | | | | |? ? ? A M x M' D Hr EM NM EV E| |]; subst; clear EF.
      destruct (exists_last NM) as (M0 & z & ->). rewrite last_last in *.
      set (v := z) in *.
      unfold perform_two_opt_intra.
      destruct (read_u r2 A u ((x :: M0 ++ [v]) ++ D) Hr E) as (_ & -> & ->).
      assert (E' : rs r2 = (A ++ u :: x :: M0) ++ v :: D).
      { rewrite E. rewrite <- app_assoc. cbn. rewrite <- app_assoc. auto. }
      destruct (read_u r2 _ v D Hr E') as (_ & -> & _). cbn [rbind].
      assert (S : stops r2 (rs r2) = pre r2 A ++ [PN u] ++ map PN (x :: M0 ++ [v]) ++ suf r2 D).
      { rewrite E. change (u :: (x :: M0 ++ [v]) ++ D) with ([u] ++ (x :: M0 ++ [v]) ++ D). blocks. auto. }
      pose proof (serves_stops_nodup p c rs (h_serves _ _ _ _ _ H) r2 Hr) as ND.
      pose proof (serves_length p c rs (h_serves _ _ _ _ _ H) r2 Hr) as LEN.
      destruct (proj1 (runs_seg _ _ _) (h_runs _ _ _ _ _ H r2 Hr)) as (SG & _).
      rewrite (backward_reverse_to _ (s_links s) (PN x) (map PN M0) (PN v)).
      2: { unfold walk_fuel. rewrite map_length. rewrite E, app_length in LEN. cbn in LEN.
           rewrite !app_length in LEN. lia. }
      2: { rewrite S in ND. apply NoDup_app_inv in ND. destruct ND as (_ & ND & _).
           apply NoDup_app_inv in ND. destruct ND as (_ & ND & _).
           apply NoDup_app_inv in ND. destruct ND as (ND & _).
           cbn [map] in ND. rewrite map_app in ND. exact ND. }
      2: { intros b [<-|I] EN; auto. apply in_map_iff in I. destruct I as (n & <- & _). cbn in EN. subst; auto. }
      2: { rewrite S in SG. apply seg_pairs. intros a b I. rewrite seg_pairs in SG. apply SG.
           cbn [map] in *. rewrite map_app in *. repeat rewrite in_pairs_app by nepos.
           rewrite app_comm_cons. repeat rewrite in_pairs_app by nepos.
           rewrite app_comm_cons in I. cbn [map] in I. rewrite in_pairs_app in I by nepos. tauto. }
      cbn [rbind].
      destruct (relink_one s rs r2 (A ++ u :: rev (x :: M0 ++ [v]) ++ D)
                 (pairs (rev (PN x :: map PN M0 ++ [PN v])) ++ [(PN u, PN v); (PN x, hd0 (suf r2 D))]))
        as (s' & E1 & ST); auto.
      - rewrite E. apply Permutation_app_head. apply perm_skip. apply Permutation_app_tail.
        symmetry. apply Permutation_rev.
      - intros e. change (A ++ u :: rev (x :: M0 ++ [v]) ++ D) with (A ++ [u] ++ rev (x :: M0 ++ [v]) ++ D).
        blocks. rewrite map_rev.
        replace (rev (map PN (x :: M0 ++ [v]))) with (rev (PN x :: map PN M0 ++ [PN v]))
          by (cbn [map]; rewrite map_app; auto).
        set (RV := rev (PN x :: map PN M0 ++ [PN v])).
        assert (RVE : RV = PN v :: rev (map PN M0) ++ [PN x]).
        { unfold RV. cbn [rev]. rewrite rev_app_distr. auto. }
        assert (HD : hd0 RV = PN v) by (rewrite RVE; auto).
        assert (LA : last0 RV = PN x) by (rewrite RVE, app_comm_cons, last_last; auto).
        assert (NR : RV <> []) by (rewrite RVE; discriminate).
        cbn [map]. rewrite !in_pairs_app by nepos. rewrite !hd0_app by nepos.
        rewrite in_app_iff, !in_cons_eq, HD, LA. cbn [last hd In]. tauto.
      - rewrite S. intros e. change (A ++ u :: rev (x :: M0 ++ [v]) ++ D) with (A ++ [u] ++ rev (x :: M0 ++ [v]) ++ D).
        blocks. rewrite map_rev.
        replace (rev (map PN (x :: M0 ++ [v]))) with (rev (PN x :: map PN M0 ++ [PN v]))
          by (cbn [map]; rewrite map_app; auto).
        set (RV := rev (PN x :: map PN M0 ++ [PN v])).
        assert (RVE : RV = PN v :: rev (map PN M0) ++ [PN x]).
        { unfold RV. cbn [rev]. rewrite rev_app_distr. auto. }
        assert (HD : hd0 RV = PN v) by (rewrite RVE; auto).
        assert (LA : last0 RV = PN x) by (rewrite RVE, app_comm_cons, last_last; auto).
        assert (NR : RV <> []) by (rewrite RVE; discriminate).
        change (map PN [u]) with [PN u].
        repeat (rewrite in_pairs_app by nepos). repeat rewrite hd0_app by nepos.
        rewrite in_app_iff, !in_cons_eq, HD, LA. cbn [last hd In]. tauto.
      - exists s'. split; auto. rewrite <- E1. unfold update_two. rewrite Nat.eqb_refl.
        rewrite do_links_app. cbn [do_links fold_left fst snd].
        cbn [app]. rewrite suf_cons. cbn [hd].
        match goal with |- ?a = (x <- ?a ;; Ok x) => destruct a; auto end.
    Qed.

    Lemma perform_two_opt_inter_reverse_ok u v r1 r2 l1 l2 d :
      effect TwoOptInterReverse u (PN v) r1 r2 l1 l2 d ->
      exists s', perform_two_opt_inter_reverse p pen s (PN u) (PN v) = Ok s' /\
                 stepped s s' (nupd (nupd rs r1 l1) r2 l2) r1 r2.
    Proof using H.
      intros EF. inversion EF as [| | | | | | |? ? ? ? A B C D x y H1 H2 NE E1 E2 EX EY|]; subst; clear EF.
      unfold perform_two_opt_inter_reverse.
      destruct (read_u r1 A u B H1 E1) as (_ & -> & ->).
      destruct (read_u r2 C v D H2 E2) as (_ & -> & ->). cbn [rbind].
      pose proof (h_serves _ _ _ _ _ H) as SV.
      pose proof (serves_stops_nodup2 p c rs SV r1 r2 H1 H2 NE) as ND.
      assert (S1 : stops r1 (rs r1) = pre r1 A ++ PN u :: suf r1 B) by (rewrite E1; apply stops_mid).
      assert (S2 : stops r2 (rs r2) = pre r2 C ++ PN v :: suf r2 D) by (rewrite E2; apply stops_mid).
      assert (DV : is_depot (PN v) = false).
      { unfold is_depot. apply Nat.eqb_neq. cbn.
        assert (I : In v (rs r2)) by (rewrite E2; apply in_or_app; right; left; auto).
        pose proof (serves_bound p c rs SV r2 v H2 I). lia. }
      rewrite DV. cbn [negb].
      pose proof (serves_length p c rs SV r1 H1) as LEN1.
      pose proof (serves_length p c rs SV r2 H2) as LEN2.
      destruct (proj1 (runs_seg _ _ _) (h_runs _ _ _ _ _ H r1 H1)) as (SG1 & _ & PE1).
      destruct (proj1 (runs_seg _ _ _) (h_runs _ _ _ _ _ H r2 H2)) as (SG2 & PS2 & _).
      rewrite (backward_reverse_ok _ (s_links s) (PN v) (rev (map PN C)) (PS r2) (PE r1)).
      2: { unfold walk_fuel. rewrite rev_length, map_length. rewrite E2, app_length in LEN2. cbn in LEN2. lia. }
      2: { rewrite S2 in ND. apply NoDup_app_inv in ND. destruct ND as (_ & ND & _).
           change (pre r2 C ++ PN v :: suf r2 D) with (PS r2 :: map PN C ++ [PN v] ++ suf r2 D) in ND.
           rewrite app_assoc, app_comm_cons in ND. apply NoDup_app_inv in ND. destruct ND as (ND & _).
           apply (Permutation_NoDup (l := PS r2 :: map PN C ++ [PN v])); auto.
           replace (PN v :: rev (map PN C) ++ [PS r2]) with (rev (PS r2 :: map PN C ++ [PN v]))
             by (cbn [rev]; rewrite rev_app_distr; auto).
           apply Permutation_rev. }
      2: { apply seg_bpath; auto. rewrite S2 in SG2. unfold pre in SG2.
           change ((PS r2 :: map PN C) ++ PN v :: suf r2 D) with (PS r2 :: map PN C ++ [PN v] ++ suf r2 D) in SG2.
           rewrite app_assoc, app_comm_cons in SG2.
           apply seg_pairs. rewrite seg_pairs in SG2. intros a b I. apply SG2.
           rewrite in_pairs_app; nepos. }
      cbn [rbind].
      set (lsv := pairs (PN v :: rev (map PN C) ++ [PE r1])).
      set (h1 := link_nodes (do_links (s_links s) lsv) (PN u) (PN v)).
      assert (EH1 : h1 = do_links (s_links s) (lsv ++ [(PN u, PN v)])) by (rewrite do_links_app; auto).
      (* the links of the new second route *)
      set (lsx := match B with [] => [] | b :: B' => flinks (PS r2) (PN b) (map PN B') end).
      set (xx := match B with [] => PS r2 | b :: _ => PN b end).
      match goal with |- exists s', (' (_, _) <- ?m ;; _) = _ /\ _ =>
        assert (EM : m = Ok (do_links h1 lsx, xx)) end.
      { unfold lsx, xx. destruct B as [|b B]; [reflexivity|]. rewrite suf_cons. cbn [hd].
        replace (negb (is_depot (PN b))) with true.
        2: { symmetry. apply negb_true_iff. unfold is_depot. apply Nat.eqb_neq. cbn.
             assert (I : In b (rs r1)) by (rewrite E1; apply in_or_app; right; right; left; auto).
             pose proof (serves_bound p c rs SV r1 b H1 I). lia. }
        rewrite (forward_reverse_ok _ h1 (PN b) (map PN B) (PE r1) (PS r2)).
        - auto.
        - unfold walk_fuel. rewrite map_length. rewrite E1, app_length in LEN1. cbn in LEN1. lia.
        - apply NoDup_app_inv in ND. destruct ND as (ND & _). rewrite S1 in ND.
          rewrite suf_cons in ND. apply NoDup_app_inv in ND. destruct ND as (_ & ND & _).
          inversion ND; auto.
        - rewrite EH1. apply do_links_fpath.
          + intros z. rewrite map_app, in_app_iff. unfold lsv. rewrite pairs_fst.
            rewrite app_comm_cons, removelast_last. cbn [map fst In].
            intros [[<-|I]|[<-|[]]] J.
            * apply NoDup_app_inv in ND. destruct ND as (_ & _ & DJ). apply (DJ (PN v)).
              -- rewrite S1. apply in_or_app. right. right. rewrite suf_cons. exact J.
              -- rewrite S2. apply in_or_app. right. left. auto.
            * apply NoDup_app_inv in ND. destruct ND as (_ & _ & DJ). apply (DJ z).
              -- rewrite S1. apply in_or_app. right. right. rewrite suf_cons. exact J.
              -- rewrite S2. apply in_or_app. left. right. apply in_rev; auto.
            * apply NoDup_app_inv in ND. destruct ND as (ND & _). rewrite S1 in ND.
              apply NoDup_app_inv in ND. destruct ND as (_ & ND & _). inversion ND; subst.
              apply H4. rewrite suf_cons. exact J.
          + rewrite S1 in SG1. apply seg_app in SG1. destruct SG1 as [_ SG1].
            rewrite suf_cons in SG1. destruct SG1 as [_ SG1]. apply seg_fpath; auto. }
      rewrite EM. clear EM. cbn [rbind].
      assert (N1 : stops r1 (A ++ u :: v :: rev C)
                   = pre r1 A ++ [PN u] ++ (PN v :: rev (map PN C) ++ [PE r1])).
      { rewrite stops_mid. unfold suf. cbn [map]. rewrite map_rev. auto. }
      assert (N2 : stops r2 (rev B ++ D) = (PS r2 :: rev (map PN B)) ++ suf r2 D).
      { rewrite stops_app. unfold pre. rewrite map_rev. auto. }
      assert (LX : forall e, In e lsx <-> In e (pairs (PS r2 :: rev (map PN B)))).
      { intros e. unfold lsx. destruct B as [|b B]; [cbn; tauto|]. rewrite flinks_iff. cbn [map rev]. tauto. }
      assert (XX : last0 (PS r2 :: rev (map PN B)) = xx).
      { unfold xx. destruct B as [|b B]; auto. cbn [map rev]. rewrite app_comm_cons. apply last_last. }
      clearbody lsx xx.
      destruct (relink_two s rs r1 r2 (A ++ u :: v :: rev C) (rev B ++ D)
                  ((lsv ++ [(PN u, PN v)]) ++ lsx ++ [(xx, hd0 (suf r2 D))]))
        as (s' & EU & ST); auto.
      - rewrite E1, E2. rewrite <- !app_assoc. apply Permutation_app_head. cbn [app]. apply perm_skip.
        rewrite <- (Permutation_rev C), <- (Permutation_rev B).
        rewrite <- (Permutation_middle C D v), <- (Permutation_middle B (C ++ D) v).
        apply perm_skip. rewrite !app_assoc. apply Permutation_app_tail, Permutation_app_comm.
      - intros e. rewrite N1, N2. rewrite !in_app_iff, !in_cons_eq.
        rewrite !in_pairs_app by nepos. rewrite XX, LX. fold lsv. cbn [last hd In]. tauto.
      - intros e. rewrite N1, S1. change (PN u :: suf r1 B) with ([PN u] ++ suf r1 B).
        rewrite !in_app_iff, !in_cons_eq.
        rewrite !in_pairs_app by nepos. fold lsv. cbn [last hd In app]. tauto.
      - intros e. rewrite N2, S2. change (PN v :: suf r2 D) with ([PN v] ++ suf r2 D).
        rewrite !in_app_iff, !in_cons_eq.
        rewrite !in_pairs_app by nepos. rewrite XX, LX. cbn [last hd In app]. tauto.
      - exists s'. split; auto. rewrite <- EU. unfold update_two.
        apply Nat.eqb_neq in NE. rewrite NE. rewrite !do_links_app. auto.
    Qed.

    Lemma do_links_det h h' ls w : In w (map fst ls) ->
      l_succ (do_links h ls) w = l_succ (do_links h' ls) w.
    Proof using.
      revert h h'. induction ls as [|[a b] ls IH]; intros h h' I; [destruct I|].
      cbn [do_links fold_left fst snd].
      destruct (in_dec ptr_dec w (map fst ls)) as [J|J]; [apply IH; auto|].
      destruct I as [I|I]; [|tauto]. cbn [fst] in I. subst w.
      change (l_succ (do_links (link_nodes h a b) ls) a = l_succ (do_links (link_nodes h' a b) ls) a).
      rewrite !do_links_succ by auto. rewrite !l_succ_link, ptr_eqb_refl. auto.
    Qed.
    Lemma do_links_det_pred h h' ls w : In w (map snd ls) ->
      l_pred (do_links h ls) w = l_pred (do_links h' ls) w.
    Proof using.
      revert h h'. induction ls as [|[a b] ls IH]; intros h h' I; [destruct I|].
      cbn [do_links fold_left fst snd].
      destruct (in_dec ptr_dec w (map snd ls)) as [J|J]; [apply IH; auto|].
      destruct I as [I|I]; [|tauto]. cbn [snd] in I. subst w.
      change (l_pred (do_links (link_nodes h a b) ls) b = l_pred (do_links (link_nodes h' a b) ls) b).
      rewrite !do_links_pred by auto. rewrite !l_pred_link, ptr_eqb_refl. auto.
    Qed.
    Lemma do_links_shadow h a b ls w : In a (map fst ls) -> In b (map snd ls) ->
      l_succ (do_links (link_nodes h a b) ls) w = l_succ (do_links h ls) w /\
      l_pred (do_links (link_nodes h a b) ls) w = l_pred (do_links h ls) w.
    Proof using.
      intros I1 I2. split.
      - destruct (in_dec ptr_dec w (map fst ls)) as [J|J]; [apply do_links_det; auto|].
        rewrite !do_links_succ by auto. apply l_succ_link_neq. intros ->. tauto.
      - destruct (in_dec ptr_dec w (map snd ls)) as [J|J]; [apply do_links_det_pred; auto|].
        rewrite !do_links_pred by auto. apply l_pred_link_neq. intros ->. tauto.
    Qed.

    Lemma snoc_last0 (L : list ptr) : L <> [] -> exists m, L = m ++ [last0 L].
    Proof using.
      intros NE. destruct (exists_last NE) as (m & z & ->). exists m. rewrite last_last. auto.
    Qed.

    Lemma perform_two_opt_inter_ok u v r1 r2 l1 l2 d :
      effect TwoOptInter u v r1 r2 l1 l2 d ->
      exists s', perform_two_opt_inter p pen s (PN u) v = Ok s' /\
                 stepped s s' (nupd (nupd rs r1 l1) r2 l2) r1 r2.
    Proof using H.
      intros EF. inversion EF as [| | | | | | | |? ? ? ? A B C D x y H1 H2 NE E1 E2 EV EX EY]; subst; clear EF.
      unfold perform_two_opt_inter.
      destruct (read_u r1 A u B H1 E1) as (_ & -> & ->).
      destruct (read_v r2 C D _ H2 E2 eq_refl) as (-> & ->). cbn [rbind].
      set (v := last0 (pre r2 C)). set (x := hd0 (suf r1 B)). set (y := hd0 (suf r2 D)).
      pose proof (h_serves _ _ _ _ _ H) as SV.
      pose proof (serves_stops_nodup2 p c rs SV r1 r2 H1 H2 NE) as ND.
      assert (S1 : stops r1 (rs r1) = pre r1 A ++ [PN u] ++ suf r1 B) by (rewrite E1; apply stops_mid).
      assert (S2 : stops r2 (rs r2) = pre r2 C ++ suf r2 D) by (rewrite E2; apply stops_app).
      pose proof (serves_length p c rs SV r1 H1) as LEN1.
      pose proof (serves_length p c rs SV r2 H2) as LEN2.
      destruct (proj1 (runs_seg _ _ _) (h_runs _ _ _ _ _ H r1 H1)) as (SG1 & _ & PE1).
      destruct (proj1 (runs_seg _ _ _) (h_runs _ _ _ _ _ H r2 H2)) as (SG2 & _ & PE2).
      rewrite S1, S2 in ND. destruct (snoc_last0 (pre r2 C)) as (C' & EC); [nepos|]. fold v in EC.
      rewrite S1 in SG1. rewrite S2 in SG2.
      assert (Hc : forall w, cnt w ((pre r1 A ++ [PN u] ++ suf r1 B) ++ (C' ++ [v]) ++ suf r2 D) <= 1).
      { apply NoDup_cnt. rewrite <- EC. auto. }
      assert (FB : fpath (s_links s) (PN u) (suf r1 B)).
      { apply seg_app in SG1. destruct SG1 as [_ SG1]. apply seg_fpath; auto. }
      assert (FD : fpath (s_links s) v (suf r2 D)).
      { rewrite EC, <- app_assoc in SG2. apply seg_app in SG2. destruct SG2 as [_ SG2]. apply seg_fpath; auto. }
      set (h2 := link_nodes (link_nodes (s_links s) (PN u) y) v x).
      assert (NvB : ~ In v (suf r1 B)) by notinc.
      assert (NuB : ~ In (PN u) (suf r1 B)) by notinc.
      assert (NvD : ~ In v (suf r2 D)) by notinc.
      assert (NuD : ~ In (PN u) (suf r2 D)) by notinc.
      assert (Nuv : PN u <> v) by neqc.
      assert (F2 : fpath h2 v (suf r1 B)).
      { unfold h2, x. destruct (suf_head r1 B) as (b & L & EB). rewrite EB in *. cbn [hd].
        destruct FB as [_ FB]. split.
        - rewrite l_succ_link, ptr_eqb_refl. auto.
        - apply fpath_link; auto. apply fpath_link; auto. }
      set (z := last0 (v :: map PN B)). set (z' := last0 (PN u :: map PN D)).
      destruct (snoc_last0 (v :: map PN B)) as (mz & EZ); [nepos|]. fold z in EZ.
      destruct (snoc_last0 (PN u :: map PN D)) as (mz' & EZ'); [nepos|]. fold z' in EZ'.
      rewrite (replace_end_depot_ok _ h2 v (map PN B) (PE r1) (PE r2) mz z); auto.
      2: { unfold walk_fuel. rewrite map_length. rewrite E1, app_length in LEN1. cbn in LEN1. lia. }
      2: { constructor; auto. apply NoDup_app_inv in ND. destruct ND as (ND & _).
           apply NoDup_app_inv in ND. destruct ND as (_ & ND & _). inversion ND; auto. }
      cbn [rbind].
      assert (Iz : In z (v :: map PN B)) by (rewrite EZ; apply in_or_app; right; left; auto).
      assert (NzD : ~ In z (PN u :: suf r2 D)).
      { intros J. destruct Iz as [<-|Iz].
        - destruct J as [J|J]; auto.
        - assert (Iz' : In z (suf r1 B)) by (apply in_or_app; auto).
          destruct J as [J|J].
          + subst z. rewrite <- J in Iz'. tauto.
          + apply NoDup_app_inv in ND. destruct ND as (_ & _ & DJ). apply (DJ z).
            * rewrite !in_app_iff. auto.
            * apply in_or_app. auto. }
      assert (F3 : fpath (link_nodes h2 z (PE r2)) (PN u) (suf r2 D)).
      { apply fpath_link; auto.
        unfold h2, y. destruct (suf_head r2 D) as (b & L & EB). rewrite EB in *. cbn [hd].
        destruct FD as [_ FD]. split.
        - rewrite l_succ_link_neq by auto. rewrite l_succ_link, ptr_eqb_refl. auto.
        - apply fpath_link; auto. apply fpath_link; auto. }
      rewrite (replace_end_depot_ok _ _ (PN u) (map PN D) (PE r2) (PE r1) mz' z'); auto.
      2: { unfold walk_fuel. rewrite map_length. rewrite E2, app_length in LEN2. lia. }
      2: { constructor; auto. apply NoDup_app_inv in ND. destruct ND as (_ & ND & _).
           apply NoDup_app_inv in ND. tauto. }
      cbn [rbind].
      set (hf := link_nodes (link_nodes h2 z (PE r2)) z' (PE r1)).
      set (lu := match D with [] => [] | _ => [(PN u, y)] end).
      set (lv := match B with [] => [] | _ => [(v, x)] end).
      assert (SH : forall w,
        l_succ hf w = l_succ (do_links (s_links s) (lu ++ lv ++ [(z, PE r2); (z', PE r1)])) w /\
        l_pred hf w = l_pred (do_links (s_links s) (lu ++ lv ++ [(z, PE r2); (z', PE r1)])) w).
      { intros w. rewrite do_links_app.
        assert (SV1 : forall h, 
          l_succ (do_links (link_nodes h v x) [(z, PE r2); (z', PE r1)]) w
          = l_succ (do_links h (lv ++ [(z, PE r2); (z', PE r1)])) w /\
          l_pred (do_links (link_nodes h v x) [(z, PE r2); (z', PE r1)]) w
          = l_pred (do_links h (lv ++ [(z, PE r2); (z', PE r1)])) w).
        { intros h. unfold lv, x, z. destruct B as [|b B]; [|auto].
          cbn [app map last suf hd]. apply do_links_shadow; cbn; auto. }
        destruct (SV1 (link_nodes (s_links s) (PN u) y)) as [Q1 Q2].
        change (l_succ hf w) with (l_succ (do_links (link_nodes (link_nodes (s_links s) (PN u) y) v x) [(z, PE r2); (z', PE r1)]) w).
        change (l_pred hf w) with (l_pred (do_links (link_nodes (link_nodes (s_links s) (PN u) y) v x) [(z, PE r2); (z', PE r1)]) w).
        rewrite Q1, Q2. unfold lu, y, z'. destruct D as [|b D]; [|auto].
        cbn [map last app suf hd]. cbn [do_links fold_left].
        apply do_links_shadow; rewrite map_app, in_app_iff; cbn; auto. }
      assert (N1 : stops r1 (A ++ u :: D) = pre r1 A ++ (PN u :: map PN D) ++ [PE r1]).
      { rewrite stops_mid. auto. }
      assert (N2 : stops r2 (C ++ B) = (C' ++ v :: map PN B) ++ [PE r2]).
      { rewrite stops_app, EC. unfold suf. rewrite <- !app_assoc. auto. }
      assert (LU : forall e, In e lu <-> D <> [] /\ e = (PN u, y)).
      { intros e. unfold lu. destruct D; cbn; intuition; congruence. }
      assert (LV : forall e, In e lv <-> B <> [] /\ e = (v, x)).
      { intros e. unfold lv. destruct B; cbn; intuition; congruence. }
      assert (PD : forall e, In e (pairs (PN u :: map PN D)) <-> In e lu \/ In e (pairs (map PN D))).
      { intros e. rewrite LU. unfold y. destruct D as [|b D]; [cbn; tauto|].
        cbn [map]. rewrite in_pairs_cons, suf_cons. cbn [hd].
        assert (b :: D <> []) by discriminate. tauto. }
      assert (PB : forall e, In e (pairs (v :: map PN B)) <-> In e lv \/ In e (pairs (map PN B))).
      { intros e. rewrite LV. unfold x. destruct B as [|b B]; [cbn; tauto|].
        cbn [map]. rewrite in_pairs_cons, suf_cons. cbn [hd].
        assert (b :: B <> []) by discriminate. tauto. }
      assert (PC : forall e L, In e (pairs (C' ++ v :: L)) <-> In e (pairs (pre r2 C)) \/ In e (pairs (v :: L))).
      { intros e L. rewrite EC, pairs_app, in_app_iff. tauto. }
      assert (OD : forall e, In e (pairs (map PN D)) -> In e (pairs (suf r2 D))).
      { intros e I. unfold suf. destruct D as [|b D]; [destruct I|]. rewrite in_pairs_app by nepos. auto. }
      assert (OB : forall e, In e (pairs (map PN B)) -> In e (pairs (suf r1 B))).
      { intros e I. unfold suf. destruct B as [|b B]; [destruct I|]. rewrite in_pairs_app by nepos. auto. }
      destruct (relink_two_ext s rs r1 r2 (A ++ u :: D) (C ++ B) (lu ++ lv ++ [(z, PE r2); (z', PE r1)]) hf)
        as (s' & EU & ST); auto.
      - intros w. apply SH.
      - intros w. apply SH.
      - rewrite E1, E2. rewrite <- !app_assoc. apply Permutation_app_head. cbn [app]. apply perm_skip.
        rewrite Permutation_app_comm. rewrite <- app_assoc, (Permutation_app_comm C (B ++ D)), <- app_assoc.
        apply Permutation_app_head. apply Permutation_app_comm.
      - intros e. rewrite N1, N2. rewrite !in_app_iff, !in_cons_eq.
        rewrite !in_pairs_app by nepos. rewrite PC, PD, PB.
        rewrite last0_app by nepos. fold z z'. cbn [hd In]. tauto.
      - intros e. rewrite N1, S1, S2. rewrite !in_app_iff, !in_cons_eq.
        rewrite !in_pairs_app by nepos. rewrite PD. fold z'. specialize (OD e).
        cbn [hd app In]. tauto.
      - intros e. rewrite N2, S1, S2. rewrite !in_app_iff, !in_cons_eq.
        rewrite in_pairs_app by nepos. rewrite PC, PB.
        repeat rewrite in_pairs_app by nepos.
        rewrite last0_app by nepos. fold z. specialize (OB e). cbn [hd In]. tauto.
      - exists s'. split; auto. rewrite <- EU. unfold update_two.
        apply Nat.eqb_neq in NE. rewrite NE. auto.
    Qed.

    Theorem perform_ok m u v r1 r2 l1 l2 d : effect m u v r1 r2 l1 l2 d ->
      exists s', perform p pen m s (PN u) v = Ok s' /\
                 stepped s s' (nupd (nupd rs r1 l1) r2 l2) r1 r2.
    Proof using H.
      intros EF. destruct m; cbn [perform].
      - inversion EF as [? ? ? ? ? ? up x y RL| | | | | | | |]; subst.
        destruct (reloc_read _ _ _ _ _ _ _ _ _ _ _ _ H RL) as (Q1 & Q2 & Q3 & Q4 & Q5 & _); [nepos|].
        cbn [map hd last] in *. unfold perform_relocate_single.
        rewrite Q4 by (left; auto). rewrite Q1, Q2, Q3, Q5. cbn [rbind].
        apply (reloc_do _ _ _ _ _ _ _ _ _ _ [] RL); nepos.
      - inversion EF as [|? ? ? ? ? ? up x xn y RL| | | | | | |]; subst.
        destruct (reloc_read _ _ _ _ _ _ _ _ _ _ _ _ H RL) as (Q1 & Q2 & Q3 & Q4 & Q5 & _); [nepos|].
        cbn [map hd last] in *. unfold perform_relocate_double.
        rewrite Q4 by (left; auto). rewrite Q1, Q3, Q5.
        assert (QX : succ_ s (PN u) = Ok (PN x)).
        { inversion RL as [? ? A B C D H1 H2 NE E1 E2 EV|? A M D H1 NM E EV|? C M B H1 NM E EV]; subst.
          - apply (read_u r1 A u (x :: B)); auto.
          - apply (read_u r2 A u (x :: M ++ D)); auto.
          - apply (read_u r2 (C ++ M) u (x :: B)); auto. rewrite E, <- app_assoc. auto. }
        rewrite QX. cbn [rbind]. rewrite Q2. cbn [rbind].
        apply (reloc_do _ _ _ _ _ _ _ _ _ _ [] RL); nepos. intros e [].
      - inversion EF as [| |? ? ? ? ? ? up x xn y RL| | | | | |]; subst.
        destruct (reloc_read _ _ _ _ _ _ _ _ _ _ _ _ H RL) as (Q1 & Q2 & Q3 & Q4 & Q5 & _); [nepos|].
        cbn [map hd last] in *. unfold perform_relocate_double_reverse.
        rewrite Q4 by (left; auto). rewrite Q1, Q3, Q5.
        assert (QX : succ_ s (PN u) = Ok (PN x)).
        { inversion RL as [? ? A B C D H1 H2 NE E1 E2 EV|? A M D H1 NM E EV|? C M B H1 NM E EV]; subst.
          - apply (read_u r1 A u (x :: B)); auto.
          - apply (read_u r2 A u (x :: M ++ D)); auto.
          - apply (read_u r2 (C ++ M) u (x :: B)); auto. rewrite E, <- app_assoc. auto. }
        rewrite QX. cbn [rbind]. rewrite Q2. cbn [rbind].
        apply (reloc_do _ _ _ _ _ _ _ _ _ _ [(PN x, PN u)] RL); nepos.
        apply perm_swap.
      - inversion EF as [| | |? vn ? ? ? ? up x vp y RL| | | | |]; subst.
        destruct (swp_read _ _ _ _ _ _ _ _ _ _ _ _ H RL) as (Q1 & Q2 & Q3 & _ & Q5 & Q6 & Q7 & _); [nepos|nepos|].
        cbn [map hd last] in *. unfold perform_swap_one_one.
        rewrite Q3, Q7 by (left; auto). rewrite Q1, Q2, Q5, Q6. cbn [rbind].
        exact (swp_perform _ _ _ _ _ _ _ _ _ _ _ _ H RL ltac:(discriminate) ltac:(discriminate)).
      - inversion EF as [| | | |? vn ? ? ? ? up x xn vp y RL| | | |]; subst.
        destruct (swp_read _ _ _ _ _ _ _ _ _ _ _ _ H RL) as (Q1 & Q2 & Q3 & _ & Q5 & Q6 & Q7 & _); [nepos|nepos|].
        cbn [map hd last] in *. unfold perform_swap_two_one.
        rewrite Q3, Q7 by (left; auto).
        assert (QX : succ_ s (PN u) = Ok (PN x)).
        { inversion RL as [? ? A B C D H1 H2 NE E1 E2|? A M D H1 NM E|? A M D H1 NM E]; subst.
          - apply (read_u r1 A u (x :: B)); auto.
          - apply (read_u r2 A u (x :: M ++ vn :: D)); auto.
          - apply (read_u r2 (A ++ vn :: M) u (x :: D)); auto. rewrite E, <- app_assoc. auto. }
        rewrite QX, Q1. cbn [rbind]. rewrite Q2, Q5, Q6. cbn [rbind].
        exact (swp_perform _ _ _ _ _ _ _ _ _ _ _ _ H RL ltac:(discriminate) ltac:(discriminate)).
      - inversion EF as [| | | | |? vn ? ? ? ? up x xn vp y yn RL| | |]; subst.
        destruct (swp_read _ _ _ _ _ _ _ _ _ _ _ _ H RL) as (Q1 & Q2 & Q3 & _ & Q5 & Q6 & Q7 & _); [nepos|nepos|].
        cbn [map hd last] in *. unfold perform_swap_two_two.
        rewrite Q3, Q7 by (left; auto).
        assert (QX : succ_ s (PN u) = Ok (PN x) /\ succ_ s (PN vn) = Ok (PN y)).
        { inversion RL as [? ? A B C D H1 H2 NE E1 E2|? A M D H1 NM E|? A M D H1 NM E]; subst; split.
          - apply (read_u r1 A u (x :: B)); auto.
          - apply (read_u r2 C vn (y :: D)); auto.
          - apply (read_u r2 A u (x :: M ++ vn :: y :: D)); auto.
          - apply (read_u r2 (A ++ u :: x :: M) vn (y :: D)); auto. rewrite E, <- app_assoc. auto.
          - apply (read_u r2 (A ++ vn :: y :: M) u (x :: D)); auto. rewrite E, <- app_assoc. auto.
          - apply (read_u r2 A vn (y :: M ++ u :: x :: D)); auto. }
        destruct QX as [QX QY]. rewrite QX, Q1. cbn [rbind]. rewrite Q2, Q5, QY. cbn [rbind].
        rewrite Q6. cbn [rbind].
        exact (swp_perform _ _ _ _ _ _ _ _ _ _ _ _ H RL ltac:(discriminate) ltac:(discriminate)).
      - assert (X : exists n, v = PN n) by (inversion EF; subst; eauto). destruct X as [n ->].
        eapply perform_two_opt_intra_ok; eauto.
      - assert (X : exists n, v = PN n) by (inversion EF; subst; eauto). destruct X as [n ->].
        eapply perform_two_opt_inter_reverse_ok; eauto.
      - eapply perform_two_opt_inter_ok; eauto.
    Qed.
  End Effect.
End Moves.
