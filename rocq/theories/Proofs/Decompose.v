(** Taking routes out of a solution and putting others back. *)
From Coq Require Import List Arith NArith ZArith Bool Lia Permutation.
From Verif.Model Require Import Num Prelude Evaluate Individual Config Crossover Split Matrix Population
  LocalSearch World Schedule RuinRecreate Genetic Decomposition.
From Verif.Spec Require Import Solution Population LocalSearch RuinRecreate Genetic Decomposition.
From Verif.Proofs Require Import Lists EvalFacts EvalThms SplitStruct MatrixFacts.
Import ListNotations.
Local Open Scope nat_scope.

Lemma mem_In x l : mem x l = true <-> In x l.
Proof.
  unfold mem. rewrite existsb_exists. split.
  - intros (y & H & E). apply Nat.eqb_eq in E. now subst.
  - intros H. exists x. split; auto. apply Nat.eqb_refl.
Qed.
Lemma mem_false x l : mem x l = false <-> ~ In x l.
Proof. rewrite <- mem_In. destruct (mem x l); split; intros; congruence. Qed.

Lemma set_insert_new x l : ~ In x l -> set_insert x l = l ++ [x].
Proof. intros H. unfold set_insert. now rewrite (proj2 (mem_false x l) H). Qed.

Lemma set_inserts l : forall s, NoDup (s ++ l) -> fold_left (fun s x => set_insert x s) l s = s ++ l.
Proof.
  induction l as [|x l IH]; intros s ND; cbn [fold_left]; [now rewrite app_nil_r|].
  rewrite set_insert_new.
  - rewrite IH; rewrite <- app_assoc; auto.
  - apply NoDup_remove_2 in ND. intro. apply ND. apply in_or_app. now left.
Qed.

Lemma perm_split {A} (f : A -> bool) l : Permutation l (filter f l ++ filter (fun x => negb (f x)) l).
Proof.
  induction l as [|x l IH]; cbn; auto. destruct (f x); cbn; [now constructor|].
  rewrite <- Permutation_middle. now constructor.
Qed.

Lemma in_numbered {A} (l : list A) k x : In (k, x) (combine (seq 0 (length l)) l) <-> nth_error l k = Some x.
Proof. rewrite in_combine_seq. rewrite Nat.sub_0_r. split; [intros [_ H]; auto|intros H; split; [lia|auto]]. Qed.

Section Pick.
  Variable ph : list (list nat).
  Notation R := (fun k => nth k ph []).
  Definition unpicked (ks : list nat) : list (list nat) :=
    map snd (filter (fun kr => negb (mem (fst kr) ks)) (combine (seq 0 (length ph)) ph)).

  Lemma combine_fst {A B} (l : list A) (l' : list B) : length l = length l' -> map fst (combine l l') = l.
  Proof. revert l'. induction l as [|a l IH]; intros [|b l'] H; cbn in *; try lia; auto. f_equal. auto. Qed.
  Lemma combine_snd {A B} (l : list A) (l' : list B) : length l = length l' -> map snd (combine l l') = l'.
  Proof. revert l'. induction l as [|a l IH]; intros [|b l'] H; cbn in *; try lia; auto. f_equal. auto. Qed.

  Lemma NoDup_map_filter {A B} (f : A -> B) g l : NoDup (map f l) -> NoDup (map f (filter g l)).
  Proof.
    induction l as [|a l IH]; cbn; auto. intros H. inversion H as [|? ? H1 H2]; subst. destruct (g a); cbn; auto.
    constructor; auto. intro C. apply H1. apply in_map_iff in C as (y & E & C). apply filter_In in C as [C _].
    apply in_map_iff. eauto.
  Qed.

  Lemma pick_perm ks : NoDup ks -> (forall k, In k ks -> k < length ph) ->
    Permutation ph (map R ks ++ unpicked ks).
  Proof.
    intros ND HR. set (l := combine (seq 0 (length ph)) ph).
    assert (EL : ph = map snd l) by (unfold l; rewrite combine_snd; auto; now rewrite seq_length).
    rewrite EL at 1. rewrite (Permutation_map snd (perm_split (fun kr => mem (fst kr) ks) l)), map_app.
    apply Permutation_app_tail.
    assert (E1 : map snd (filter (fun kr => mem (fst kr) ks) l) = map R (map fst (filter (fun kr => mem (fst kr) ks) l))).
    { rewrite map_map. apply map_ext_in. intros [k x] H. apply filter_In in H as [H _]. apply in_numbered in H. cbn.
      symmetry. now apply nth_error_nth. }
    rewrite E1. apply Permutation_map. apply NoDup_Permutation; auto.
    - apply NoDup_map_filter. unfold l. rewrite combine_fst; [apply seq_NoDup|apply seq_length].
    - intros k. rewrite in_map_iff. split.
      + intros ([k' x] & <- & H). apply filter_In in H as [_ H]. now apply mem_In in H.
      + intros H. destruct (nth_error ph k) as [x|] eqn:EN; [|apply nth_error_None in EN; specialize (HR k H); lia].
        exists (k, x). split; auto. apply filter_In. split; [now apply in_numbered|]. now apply mem_In.
  Qed.
End Pick.

(** ** The table of routes *)
Section Table.
  Variable dim : nat.

  Lemma mark_route_ok k route : forall t, length t = dim -> (forall x, In x route -> x < dim) ->
    exists t', mark_route t (k, route) = Ok t' /\ length t' = dim /\
      forall x, nth x t' 0 = if mem x route then k else nth x t 0.
  Proof.
    unfold mark_route. cbn [fst snd]. induction route as [|y route IH]; intros t HL HR; cbn [foldm].
    - exists t. auto.
    - assert (HY : y < length t) by (rewrite HL; apply HR; now left). rewrite seti_ok by auto. cbn [rbind].
      destruct (IH (upd t y k)) as (t' & E & L' & H'); [now rewrite upd_length|intros; apply HR; now right|].
      exists t'. split; auto. split; auto. intros x. rewrite H', nth_upd by auto. cbn [mem existsb]. unfold mem.
      rewrite (Nat.eqb_sym x y). destruct (existsb (Nat.eqb x) route); cbn [orb].
      + now rewrite orb_true_r.
      + rewrite orb_false_r. reflexivity.
  Qed.

  Lemma mark_routes_ok ph : forall k0 t, length t = dim -> NoDup (concat ph) -> (forall x, In x (concat ph) -> x < dim) ->
    exists t', foldm mark_route (combine (seq k0 (length ph)) ph) t = Ok t' /\ length t' = dim /\
      (forall k route x, nth_error ph k = Some route -> In x route -> nth x t' 0 = k0 + k) /\
      (forall x, ~ In x (concat ph) -> nth x t' 0 = nth x t 0).
  Proof.
    induction ph as [|r ph IH]; intros k0 t HL ND HR; cbn [length seq combine foldm].
    - exists t. repeat split; auto. intros [|k]; discriminate.
    - cbn [concat] in ND, HR. destruct (mark_route_ok k0 r t HL) as (t1 & E1 & L1 & H1).
      { intros. apply HR. apply in_or_app. now left. }
      rewrite E1. cbn [rbind]. apply NoDup_app_inv in ND as (ND1 & ND2 & ND3).
      destruct (IH (S k0) t1 L1 ND2) as (t' & E & L' & H2 & H3).
      { intros. apply HR. apply in_or_app. now right. }
      exists t'. split; auto. split; auto. split.
      + intros [|k] route x EK HX; cbn in EK.
        * injection EK as <-. rewrite H3, H1, (proj2 (mem_In x r) HX); [lia|]. exact (ND3 x HX).
        * rewrite (H2 _ _ _ EK HX). lia.
      + intros x HX. cbn [concat] in HX. rewrite H3, H1.
        * destruct (mem x r) eqn:EM; auto. apply mem_In in EM. exfalso. apply HX. apply in_or_app. now left.
        * intro. apply HX. apply in_or_app. now right.
  Qed.

  Lemma route_for_ok ph : serves_all_once dim ph ->
    exists t, route_for_customer dim ph = Ok t /\ length t = dim /\
      (forall k route x, nth_error ph k = Some route -> In x route -> nth x t 0 = k) /\ nth 0 t 0 = 0.
  Proof.
    intros H. unfold route_for_customer.
    destruct (mark_routes_ok ph 0 (repeat 0 dim)) as (t & E & L & H1 & H2).
    - now rewrite repeat_length.
    - eapply serves_NoDup; eauto.
    - intros x HX. apply (serves_In _ _ _ H) in HX. lia.
    - exists t. split; auto. split; auto. split; auto. rewrite H2.
      + clear. destruct dim; reflexivity.
      + intros C. apply (serves_In _ _ _ H) in C. lia.
  Qed.
End Table.

(** ** The selection *)
Section Select.
  Variable dim min_size : nat.
  Variable ph : list (list nat).
  Variable t : list nat.
  Notation R := (fun k => nth k ph []).
  Hypothesis complete_ph : serves_all_once dim ph.
  Hypothesis t_len : length t = dim.
  Hypothesis t_route : forall k route x, nth_error ph k = Some route -> In x route -> nth x t 0 = k.
  Hypothesis t_depot : nth 0 t 0 = 0.
  Hypothesis some_route : 0 < length ph.

  Lemma on_route n : 0 < n < dim -> exists k, nth_error t n = Some k /\ k < length ph /\ In n (R k).
  Proof.
    intros H. assert (HI : In n (concat ph)) by (apply (serves_In _ _ _ complete_ph); auto).
    apply in_concat in HI as (route & H1 & H2). apply In_nth_error in H1 as (k & EK).
    exists k. split.
    - rewrite (nth_error_nth' t 0) by lia. f_equal. eapply t_route; eauto.
    - split; [apply nth_error_Some; congruence|]. now rewrite (nth_error_nth _ _ _ EK).
  Qed.
  Lemma on_route_any n : n < dim -> exists k, nth_error t n = Some k /\ k < length ph /\ (n <> 0 -> In n (R k)).
  Proof.
    intros H. destruct n.
    - exists 0. split; [rewrite (nth_error_nth' t 0) by lia; now rewrite t_depot|]. split; auto. congruence.
    - destruct (on_route (S n)) as (k & ? & ? & ?); [lia|]. exists k. auto.
  Qed.

  Definition selected (customers routes : list nat) : Prop :=
    NoDup routes /\ (forall k, In k routes -> k < length ph) /\ customers = concat (map R routes).

  Lemma selected_NoDup customers routes : selected customers routes -> NoDup customers.
  Proof.
    intros (H1 & H2 & ->). pose proof (pick_perm ph routes H1 H2) as H3.
    apply concat_perm in H3. rewrite concat_app in H3.
    pose proof (Permutation_NoDup H3 (serves_NoDup _ _ complete_ph)) as H4. now apply NoDup_app_inv in H4 as [H4 _].
  Qed.

  Lemma select_ok neighbors : (forall n, In n neighbors -> n < dim) ->
    forall customers routes, selected customers routes ->
    exists customers' routes', select min_size t ph neighbors customers routes = Ok (customers', routes') /\
      selected customers' routes' /\ (forall k, In k routes -> In k routes') /\
      (min_size <= length customers' \/ forall n, In n neighbors -> n <> 0 -> In n customers') /\
      (0 < min_size -> length customers = 0 -> neighbors <> [] -> 0 < length routes').
  Proof.
    induction neighbors as [|n ns IH]; intros HN customers routes HS; cbn [select].
    - exists customers, routes. repeat split; auto; try apply HS; [|congruence]. right. intros ? [].
    - destruct (Nat.leb_spec min_size (length customers)) as [LE|LT].
      + exists customers, routes. repeat split; auto; try apply HS. intros. lia.
      + destruct (on_route_any n) as (k & EK & KL & KI); [apply HN; now left|].
        rewrite (geti_some _ _ _ EK). cbn [rbind].
        destruct (nth_error ph k) as [route|] eqn:EP; [|apply nth_error_None in EP; lia].
        rewrite (geti_some _ _ _ EP). cbn [rbind].
        assert (ER : R k = route) by (now apply nth_error_nth).
        assert (HN' : forall n, In n ns -> n < dim) by (intros; apply HN; now right).
        destruct (mem k routes) eqn:EM.
        * apply mem_In in EM. destruct (IH HN' _ _ HS) as (c' & r' & E & S1 & S2 & S3 & S4).
          exists c', r'. split; auto. split; auto. split; auto. split.
          -- destruct S3 as [S3|S3]; auto. right. intros x [<-|HX] NZ; auto.
             destruct S1 as (_ & _ & ->). apply in_concat. exists route. split.
             ++ apply in_map_iff. exists k. split; auto.
             ++ rewrite <- ER. auto.
          -- intros. apply S2 in EM. destruct r'; [destruct EM|cbn; lia].
        * apply mem_false in EM. rewrite set_insert_new by auto.
          assert (HS' : selected (customers ++ route) (routes ++ [k])).
          { destruct HS as (A1 & A2 & A3). split; [|split].
            - apply NoDup_app_intro; auto; [constructor; auto; constructor|]. intros x H1 [<-|[]]. auto.
            - intros x HX. apply in_app_iff in HX as [HX|[<-|[]]]; auto.
            - rewrite map_app, concat_app. cbn [map concat]. rewrite app_nil_r, ER. congruence. }
          rewrite set_inserts by (eapply selected_NoDup; eauto).
          destruct (IH HN' _ _ HS') as (c' & r' & E & S1 & S2 & S3 & S4).
          assert (IK : In k r') by (apply S2, in_or_app; right; now left).
          exists c', r'. split; auto. split; auto. split; [intros; apply S2, in_or_app; now left|]. split.
          -- destruct S3 as [S3|S3]; auto. right. intros x [<-|HX] NZ; auto.
             destruct S1 as (_ & _ & ->). apply in_concat. exists route. split.
             ++ apply in_map_iff. exists k. split; auto.
             ++ rewrite <- ER. auto.
          -- intros. destruct r'; [destruct IK|cbn; lia].
  Qed.
End Select.

(** ** The new numbers *)

(** The routes [rs] with their customers numbered consecutively from [k]. *)
Fixpoint numbered (k : nat) (rs : list (list nat)) : list (list nat) :=
  match rs with
  | [] => []
  | r :: rs => seq k (length r) :: numbered (k + length r) rs
  end.

Lemma numbered_concat rs : forall k, concat (numbered k rs) = seq k (length (concat rs)).
Proof.
  induction rs as [|r rs IH]; intros k; cbn [numbered concat]; auto.
  rewrite IH, app_length, seq_app. reflexivity.
Qed.
Lemma numbered_length rs : forall k, length (numbered k rs) = length rs.
Proof. induction rs; intros; cbn; auto. Qed.

Lemma map_at_seq (pre l post : list nat) : map (fun i => nth i (pre ++ l ++ post) 0) (seq (length pre) (length l)) = l.
Proof.
  revert pre. induction l as [|x l IH]; intros pre; cbn [length seq map]; auto. f_equal.
  - rewrite app_nth2 by lia. now rewrite Nat.sub_diag.
  - specialize (IH (pre ++ [x])). rewrite app_length in IH. cbn [length] in IH.
    rewrite Nat.add_1_r in IH. rewrite <- app_assoc in IH. exact IH.
Qed.

(** Renumbering and then reading the mapping gives the routes back. *)
Lemma numbered_map rs : forall pre, map (map (fun i => nth i (pre ++ concat rs) 0)) (numbered (length pre) rs) = rs.
Proof.
  induction rs as [|r rs IH]; intros pre; cbn [numbered concat map]; auto. f_equal.
  - apply map_at_seq.
  - specialize (IH (pre ++ r)). rewrite app_length, <- app_assoc in IH. exact IH.
Qed.

Lemma upd_middle {A} (pre post : list A) x y : upd (pre ++ x :: post) (length pre) y = pre ++ y :: post.
Proof. induction pre; cbn; auto. f_equal. auto. Qed.

Lemma renumber_customers r : forall pre m out,
  foldm renumber_customer r (pre ++ repeat 0 (length r + m), length pre, out) =
  Ok (pre ++ r ++ repeat 0 m, length pre + length r, out ++ seq (length pre) (length r)).
Proof.
  induction r as [|x r IH]; intros pre m out; cbn [foldm length seq repeat Nat.add].
  - rewrite app_nil_r, Nat.add_0_r. reflexivity.
  - cbn [renumber_customer]. rewrite seti_ok by (rewrite app_length; cbn; lia). cbn [rbind].
    rewrite upd_middle. specialize (IH (pre ++ [x]) m (out ++ [length pre])).
    rewrite app_length, <- !app_assoc in IH. cbn [length app] in IH. rewrite IH.
    rewrite !Nat.add_1_r. cbn [app]. f_equal. f_equal. f_equal. lia.
Qed.

Lemma renumber_routes rs : forall pre m out,
  foldm renumber_route rs (pre ++ repeat 0 (length (concat rs) + m), length pre, out) =
  Ok (pre ++ concat rs ++ repeat 0 m, length pre + length (concat rs), out ++ numbered (length pre) rs).
Proof.
  induction rs as [|r rs IH]; intros pre m out; cbn [foldm concat numbered].
  - cbn. rewrite Nat.add_0_r, app_nil_r. reflexivity.
  - cbn [renumber_route]. rewrite app_length, <- Nat.add_assoc, renumber_customers. cbn [rbind app].
    specialize (IH (pre ++ r) m (out ++ [seq (length pre) (length r)])).
    rewrite app_length, <- !app_assoc in IH. cbn [app] in IH. rewrite IH. rewrite <- !app_assoc.
    f_equal. f_equal. f_equal. lia.
Qed.

(** ** The subproblem evaluates routes as the problem evaluates them under their own names *)
Section Sub.
  Context {N : Num}.
  Variable p : problem.
  Variable mapping : list nat.
  Notation at_ := (fun i => nth i mapping 0).
  Hypothesis depot : nth 0 mapping 0 = 0.

  Lemma sub_gdist r : forall acc last, gdist (sub_problem p mapping) acc last r = gdist p acc (at_ last) (map at_ r).
  Proof.
    induction r as [|n r IH]; intros acc last; cbn [gdist map]; [cbn [p_dist sub_problem]; now rewrite depot|]. rewrite IH. reflexivity.
  Qed.
  Lemma sub_gload r : forall acc, gload (sub_problem p mapping) acc r = gload p acc (map at_ r).
  Proof. unfold gload. induction r as [|n r IH]; intros acc; cbn [fold_left map]; auto. Qed.
  Lemma sub_gover r : gover (sub_problem p mapping) r = gover p (map at_ r).
  Proof. unfold gover. now rewrite sub_gload. Qed.
  Lemma sub_gcost pen r : gcost (sub_problem p mapping) pen r = gcost p pen (map at_ r).
  Proof. unfold gcost. rewrite sub_gdist, sub_gover. cbn beta. now rewrite depot. Qed.
  Lemma sub_gtotal pen rs : gtotal (sub_problem p mapping) pen rs = gtotal p pen (renamed mapping rs).
  Proof.
    unfold gtotal, renamed. generalize f0. induction rs as [|r rs IH]; intros acc; cbn [fold_left map]; auto. now rewrite sub_gcost, IH.
  Qed.
  Lemma sub_gfeasible rs : gfeasible (sub_problem p mapping) rs = gfeasible p (renamed mapping rs).
  Proof.
    unfold gfeasible, renamed. induction rs as [|r rs IH]; cbn [forallb map]; auto. now rewrite sub_gover, IH.
  Qed.
End Sub.

(** The giant tour left over *)
Lemma left_over (ph : list (list nat)) (customers routes : list nat) : forall k0,
  (forall k route x, nth_error ph k = Some route -> In x route -> In x customers <-> In (k0 + k) routes) ->
  filter (fun x => negb (mem x customers)) (concat ph) =
  concat (map snd (filter (fun kr => negb (mem (fst kr) routes)) (combine (seq k0 (length ph)) ph))).
Proof.
  induction ph as [|r ph IH]; intros k0 H; cbn [concat length seq combine filter map]; auto.
  rewrite filter_app, (IH (S k0)).
  2:{ intros k route x E I. rewrite (H (S k) route x E I). now rewrite Nat.add_succ_r. }
  cbn [fst]. assert (HR : forall x, In x r -> In x customers <-> In k0 routes).
  { intros x I. rewrite (H 0 r x eq_refl I). now rewrite Nat.add_0_r. }
  destruct (mem k0 routes) eqn:EM; cbn [negb map snd concat].
  - apply mem_In in EM. replace (filter (fun x => negb (mem x customers)) r) with (@nil nat); auto. symmetry.
    clear -HR EM. induction r as [|x r IH]; cbn; auto. rewrite (proj2 (mem_In x customers)) by (apply HR; auto; now left). apply IH.
    intros y I. apply HR. now right.
  - apply mem_false in EM. f_equal. clear -HR EM. induction r as [|x r IH]; cbn; auto.
    rewrite (proj2 (mem_false x customers)) by (intro X; apply EM, (HR x); auto; now left). cbn [negb]. f_equal. apply IH. intros y I. apply HR. now right.
Qed.

(** ** Taking out *)
Section Global.
  Context {N : Num}.
  Variable p : problem.
  Variable min_size : nat.
  Notation dim := (p_dim p).

  (** The selected routes [rs] and the three parts of the result. *)
  Record taken (corr : matrix nat) (global sub : individual) (mapping : list nat) (rest : individual)
      (rs : list (list nat)) : Prop := {
    tk_perm : Permutation (i_pheno global) (rs ++ i_pheno rest);
    tk_mapping : mapping = 0 :: concat rs;
    tk_pheno : i_pheno sub = numbered 1 rs ++ repeat [] (extra_empty_routes (length rs));
    tk_geno : i_geno sub = concat (i_pheno sub);
    tk_size : min_size <= length (concat rs) \/ m_cols corr <= length (concat rs);
    tk_some : 0 < min_size -> rs <> [];
    tk_number : i_number rest = i_number global;
    tk_rest : i_geno rest = concat (i_pheno rest)
  }.

  Lemma row_slice (m : matrix nat) u : length (m_data m) = dim * m_cols m -> u < dim ->
    m_slice m u 0 (m_cols m) = Ok (row m u) /\ length (row m u) = m_cols m.
  Proof.
    intros HL HU. unfold m_slice, row. rewrite Nat.add_0_r.
    assert (LE : u * m_cols m + m_cols m <= length (m_data m)) by (rewrite HL; nia).
    rewrite (proj2 (Nat.leb_le _ _) LE). split; auto. rewrite firstn_length, skipn_length. lia.
  Qed.

  Lemma mapm_geti {A} (l : list A) d ks : (forall k, In k ks -> k < length l) ->
    mapm (geti l) ks = Ok (map (fun k => nth k l d) ks).
  Proof.
    intros H. apply mapm_spec. induction ks as [|k ks IH]; cbn; constructor; auto.
    - apply geti_some. apply nth_error_nth'. apply H. now left.
    - apply IH. intros. apply H. now right.
  Qed.

  Lemma decompose_global_ok corr global hash r :
    whole_solution (p_dim p) global -> 0 < length (i_pheno global) -> 2 <= dim -> rows_distinct p corr ->
    exists sub mapping rest r' rs, decompose_global p min_size corr global hash r = Ok (sub, mapping, rest, r') /\
      taken corr global sub mapping rest rs.
  Proof.
    intros (S & G) HL D2 (RL & RD). unfold decompose_global.
    destruct (route_for_ok dim (i_pheno global) S) as (t & -> & TL & TR & T0). cbn [rbind].
    assert (GL : length (i_geno global) = dim - 1) by (rewrite G, (Permutation_length S); apply seq_length).
    destruct (range_usize_ok 0 (length (i_geno global)) r) as (seed & r1 & ER); [lia|]. rewrite ER. cbn [rbind].
    apply range_usize_spec in ER. rewrite GL in ER.
    destruct (row_slice corr seed RL) as [-> RW]; [lia|]. cbn [rbind].
    destruct (RD seed) as [RN RB]; [lia|].
    destruct (select_ok dim min_size (i_pheno global) t S TL TR T0 HL (seed :: row corr seed)) with
      (customers := @nil nat) (routes := @nil nat) as (customers & routes & ES & SS & _ & S3 & S4).
    { intros n [<-|Hn]; [lia|]. apply RB in Hn. lia. }
    { split; [constructor|]. split; [intros ? []|reflexivity]. }
    rewrite ES. cbn [rbind]. destruct (shuffle routes hash) as [order h'] eqn:EH.
    pose proof (shuffle_perm _ _ _ _ EH) as PO. pose proof SS as (S5 & S6 & S7).
    rewrite (mapm_geti _ []). 2:{ intros k Hk. apply S6. eapply Permutation_in; eauto. }
    cbn [rbind]. set (rs := map (fun k => nth k (i_pheno global) []) order).
    assert (PC : Permutation (concat rs) customers).
    { rewrite S7. apply concat_perm. unfold rs. now apply Permutation_map. }
    pose proof (renumber_routes rs [0] 0 []) as RR. cbn [length app repeat] in RR.
    assert (EM : repeat 0 (length customers + 1) = 0 :: repeat 0 (length (concat rs) + 0)).
    { rewrite (Permutation_length PC), Nat.add_0_r, Nat.add_1_r. reflexivity. }
    rewrite EM, RR. cbn [rbind]. rewrite app_nil_r.
    eexists _, _, _, _, rs. split; [reflexivity|]. constructor; cbn [i_pheno i_geno i_number set_pheno set_geno].
    - etransitivity; [apply (pick_perm (i_pheno global) routes S5 S6)|]. apply Permutation_app_tail.
      unfold rs. symmetry. now apply Permutation_map.
    - reflexivity.
    - now rewrite numbered_length.
    - rewrite concat_app, concat_repeat_nil, app_nil_r. reflexivity.
    - rewrite (Permutation_length PC). destruct S3 as [S3|S3]; auto. right. rewrite <- RW.
      apply NoDup_incl_length; auto. intros v Hv. apply S3; [now right|]. apply RB in Hv. lia.
    - intros HM C. assert (0 < length routes) by (apply S4; auto; discriminate).
      apply (f_equal (@length _)) in C. unfold rs in C. rewrite map_length, (Permutation_length PO) in C. cbn in C. lia.
    - reflexivity.
    - rewrite G. apply (left_over (i_pheno global) customers routes 0). intros k route x EK IX. cbn [Nat.add].
      assert (KL : k < length (i_pheno global)) by (apply nth_error_Some; congruence).
      split; intro I.
      + rewrite S7 in I. apply in_concat in I as (route' & I1 & I2). apply in_map_iff in I1 as (k' & <- & I1).
        rewrite <- (TR k route x EK IX). rewrite (TR k' (nth k' (i_pheno global) []) x); auto.
        apply nth_error_nth'. now apply S6.
      + rewrite S7. apply in_concat. exists route. split; auto. apply in_map_iff. exists k. split; auto.
        now apply nth_error_nth.
  Qed.

  (** *** What was taken out is complete *)
  Section Taken.
    Variable corr : matrix nat.
    Variable global sub rest : individual.
    Variable mapping : list nat.
    Variable rs : list (list nat).
    Hypothesis D2 : 2 <= dim.
    Hypothesis C : whole_solution (p_dim p) global.
    Hypothesis T : taken corr global sub mapping rest rs.

    Lemma taken_serves : serves_all_once (length mapping) (i_pheno sub).
    Proof.
      unfold serves_all_once. rewrite (tk_pheno _ _ _ _ _ _ T), concat_app, concat_repeat_nil, app_nil_r, numbered_concat.
      rewrite (tk_mapping _ _ _ _ _ _ T). cbn [length]. now rewrite Nat.sub_succ, Nat.sub_0_r.
    Qed.

    Lemma taken_split : Permutation (seq 1 (dim - 1)) (concat rs ++ concat (i_pheno rest)).
    Proof.
      destruct C as (S & _). etransitivity; [symmetry; exact S|]. rewrite <- concat_app. apply concat_perm.
      apply (tk_perm _ _ _ _ _ _ T).
    Qed.
    Lemma taken_NoDup : NoDup mapping.
    Proof.
      rewrite (tk_mapping _ _ _ _ _ _ T). pose proof (Permutation_NoDup taken_split (seq_NoDup _ _)) as H.
      constructor; [|now apply NoDup_app_inv in H as [H _]]. intro Z.
      assert (In 0 (seq 1 (dim - 1))) as Q; [|apply in_seq in Q; lia].
      eapply Permutation_in; [symmetry; apply taken_split|]. apply in_or_app. now left.
    Qed.
    Lemma taken_range i : 0 < i < length mapping -> 0 < nth i mapping 0 < dim.
    Proof.
      intros H. assert (HI : In (nth i mapping 0) (concat rs)).
      { rewrite (tk_mapping _ _ _ _ _ _ T) in *. destruct i; [lia|]. cbn [nth]. apply nth_In. cbn in H. lia. }
      assert (Q : In (nth i mapping 0) (seq 1 (dim - 1))).
      { eapply Permutation_in; [symmetry; apply taken_split|]. apply in_or_app. now left. }
      apply in_seq in Q. lia.
    Qed.
    Lemma taken_nth0 : nth 0 mapping 0 = 0.
    Proof. rewrite (tk_mapping _ _ _ _ _ _ T). reflexivity. Qed.
    Lemma taken_routes : map (map (fun i => nth i mapping 0)) (numbered 1 rs) = rs.
    Proof. rewrite (tk_mapping _ _ _ _ _ _ T). exact (numbered_map rs [0]). Qed.

    Lemma taken_cut : cut_out p global sub mapping rest rs.
    Proof.
      constructor.
      - apply T.
      - apply taken_nth0.
      - apply taken_NoDup.
      - apply taken_range.
      - split; [apply taken_serves|apply T].
      - exists (extra_empty_routes (length rs)). unfold renamed.
        rewrite (tk_pheno _ _ _ _ _ _ T), map_app, taken_routes. f_equal.
        generalize (extra_empty_routes (length rs)). intros k. induction k; cbn; congruence.
      - apply T.
    Qed.
  End Taken.

  (** *** Putting back *)
  Lemma filter_nonempty_concat {A} (l : list (list A)) :
    concat (filter (fun r => negb (length r =? 0)) l) = concat l.
  Proof. induction l as [|[|a r] l IH]; cbn; auto. now rewrite IH. Qed.
  Lemma used_filter l : filter (fun r : list nat => negb (length r =? 0)) l = used_routes l.
  Proof. unfold used_routes. apply filter_ext. now intros []. Qed.
  Lemma used_renamed mapping l : length (used_routes (renamed mapping l)) = length (used_routes l).
  Proof. unfold used_routes, renamed. induction l as [|[|a r] l IH]; cbn; auto. Qed.

  Lemma sort_routes_total (i : individual) : (forall a : F, fisnan a = false) ->
    length (i_geno i) = length (concat (i_pheno i)) -> exists i', sort_routes p i = Ok i'.
  Proof.
    intros NN HL. unfold sort_routes. set (keyed := map _ _).
    replace (existsb (fun k => fisnan (fst k)) keyed) with false.
    2:{ symmetry. apply not_true_is_false. intro X. apply existsb_exists in X as (x & _ & X). rewrite NN in X. discriminate. }
    rewrite andb_false_r. set (ph := map snd (isort _ keyed)).
    assert (HP : Permutation ph (i_pheno i)).
    { unfold ph. rewrite isort_perm. unfold keyed. rewrite map_map, map_id. reflexivity. }
    rewrite overwrite_exact; [cbn; eauto|]. rewrite HL. apply Permutation_length. symmetry. now apply concat_perm.
  Qed.

  Section Cut.
    Variable global sub rest : individual.
    Variable mapping : list nat.
    Variable chosen : list (list nat).
    Hypothesis D2 : 2 <= dim.
    Hypothesis C : whole_solution (p_dim p) global.
    Hypothesis CO : cut_out p global sub mapping rest chosen.

    (** A complete solution of the subproblem visits the customers of the selected routes. *)
    Lemma back_perm sol : serves_all_once (length mapping) (i_pheno sol) ->
      Permutation (concat (renamed mapping (i_pheno sol))) (concat chosen).
    Proof.
      intros S. unfold renamed. rewrite <- concat_map.
      destruct (co_renamed _ _ _ _ _ _ CO) as (k & ER). unfold renamed in ER.
      apply (f_equal (@concat _)) in ER. rewrite <- concat_map, concat_app, concat_repeat_nil, app_nil_r in ER. rewrite <- ER.
      apply Permutation_map. rewrite S. symmetry. apply (co_whole _ _ _ _ _ _ CO).
    Qed.

    Lemma mapping_reads sol : serves_all_once (length mapping) (i_pheno sol) ->
      mapm (mapm (geti mapping)) (i_pheno sol) = Ok (renamed mapping (i_pheno sol)).
    Proof.
      intros S. apply mapm_spec. assert (HR : forall r, In r (i_pheno sol) -> forall n, In n r -> n < length mapping).
      { intros r H1 n H2. assert (Q : In n (concat (i_pheno sol))) by (apply in_concat; eauto).
        apply (serves_In _ _ _ S) in Q. lia. }
      clear S. unfold renamed. induction (i_pheno sol) as [|r l IH]; cbn; constructor.
      - apply mapm_geti. intros. eapply HR; [now left|auto].
      - apply IH. intros r' H1. apply HR. now right.
    Qed.

    Lemma merged_serves sol (g : individual) : serves_all_once (length mapping) (i_pheno sol) ->
      Permutation (i_pheno g) (i_pheno rest ++ used_routes (renamed mapping (i_pheno sol))) ->
      serves_all_once dim (i_pheno g).
    Proof.
      intros S P1. unfold serves_all_once. etransitivity; [apply concat_perm; exact P1|]. rewrite concat_app.
      rewrite <- used_filter, filter_nonempty_concat. rewrite Permutation_app_comm.
      etransitivity; [apply Permutation_app_tail, back_perm, S|]. rewrite <- concat_app.
      etransitivity; [apply concat_perm; symmetry; apply (co_routes _ _ _ _ _ _ CO)|]. apply C.
    Qed.

    Lemma finish_ok pen sol global' :
      serves_all_once (length mapping) (i_pheno sol) ->
      decomposition_finish p pen sol mapping rest = Ok global' ->
      whole_solution dim global' /\
      Permutation (i_pheno global') (i_pheno rest ++ used_routes (renamed mapping (i_pheno sol))) /\
      exists e, i_eval global' = geval p pen e (i_pheno global').
    Proof.
      intros S H. unfold decomposition_finish in H. rewrite (mapping_reads sol S) in H. cbn [rbind] in H.
      rewrite used_filter in H. set (l := used_routes _) in H.
      destruct (sort_routes p _) as [g|] eqn:ES in H; [|discriminate]. cbn [rbind] in H.
      apply sort_routes_spec in ES as (P1 & P2 & _).
      2:{ reflexivity. }
      cbn [i_pheno i_geno set_pheno set_geno] in P1.
      assert (SG : serves_all_once dim (i_pheno g)) by (eapply merged_serves; eauto).
      unfold ind_evaluate in H. rewrite evaluate_eq in H.
      - cbn [rbind] in H. injection H as <-. unfold set_eval. cbn [i_pheno i_geno i_eval]. split; [split; auto|]. split; auto. eauto.
      - intros n Hn. apply (serves_In _ _ _ SG) in Hn. lia.
      - lia.
    Qed.

    Lemma finish_total_angles pen sol : angles_ok p ->
      serves_all_once (length mapping) (i_pheno sol) ->
      exists global', decomposition_finish p pen sol mapping rest = Ok global'.
    Proof.
      intros AO S. unfold decomposition_finish. rewrite (mapping_reads sol S). cbn [rbind]. rewrite used_filter.
      set (l := used_routes _). set (i := set_geno _ _).
      assert (SI : serves_all_once dim (i_pheno i)) by (apply (merged_serves sol); [exact S|reflexivity]).
      destruct (SplitStruct.sort_routes_total p i) as (g & ES); auto. rewrite ES. cbn [rbind].
      apply sort_routes_spec in ES as (P1 & P2 & _); [|reflexivity].
      unfold i in P1. cbn [i_pheno i_geno set_pheno set_geno] in P1.
      assert (SG : serves_all_once dim (i_pheno g)) by (eapply merged_serves; eauto).
      unfold ind_evaluate. rewrite evaluate_eq.
      - cbn [rbind]. eauto.
      - intros n Hn. apply (serves_In _ _ _ SG) in Hn. lia.
      - lia.
    Qed.

    Lemma finish_total_any pen sol : (forall a : F, fisnan a = false) ->
      serves_all_once (length mapping) (i_pheno sol) ->
      exists global', decomposition_finish p pen sol mapping rest = Ok global'.
    Proof. intros NN. apply finish_total_angles. intros r _. apply NN. Qed.
  End Cut.
End Global.
