(** Reading back an instance file. *)
From Coq Require Import Ascii String List Arith NArith Bool Lia Permutation.
From Verif.Model Require Import Num Prelude Evaluate Matrix Text Parser.
From Verif.Spec Require Import Output Instance.
From Verif.Proofs Require Import Lists MatrixFacts TextFacts.
Import ListNotations.
Local Open Scope nat_scope.

Lemma Forall2_impl {A B} (P Q : A -> B -> Prop) l1 l2 : (forall a b, P a b -> Q a b) -> Forall2 P l1 l2 -> Forall2 Q l1 l2.
Proof. intros H. induction 1; constructor; auto. Qed.

(** ** Finding a key word *)
Definition starts (key : text) (row : list text) : Prop := exists more, row = key :: more.

Lemma find_none key lines : (forall row, In row lines -> ~ starts key row) -> find_key key lines = Err EPanic.
Proof.
  induction lines as [|row lines IH]; intro H; cbn; auto.
  assert (HI : find_key key lines = Err EPanic) by (apply IH; intros r Hr; apply H; now right).
  destruct row as [|w row]; auto. rewrite text_eqb_neq; auto. intros ->. apply (H (key :: row)); [now left|]. now exists row.
Qed.
Lemma find_first key l1 more l2 : (forall row, In row l1 -> ~ starts key row) ->
  find_key key (l1 ++ (key :: more) :: l2) = Ok (key :: more, l2).
Proof.
  induction l1 as [|row l1 IH]; intro H; cbn.
  - now rewrite text_eqb_refl.
  - assert (HI : find_key key (l1 ++ (key :: more) :: l2) = Ok (key :: more, l2)) by (apply IH; intros r Hr; apply H; now right).
    destruct row as [|w row]; auto. rewrite text_eqb_neq; auto. intros ->. apply (H (key :: row)); [now left|]. now exists row.
Qed.

(** ** Parts *)
Definition avoids (key : text) (q : part) : Prop := forall row, In row (part_lines q) -> ~ starts key row.
Lemma avoids_header key k v m : k <> key -> avoids key (Header k v m).
Proof. intros H row [<-|[]] (more & E). injection E as E _. contradiction. Qed.
Lemma find_part key q more rows parts pre post :
  Permutation parts (pre ++ q :: post) -> part_lines q = (key :: more) :: rows ->
  (forall x, In x (pre ++ post) -> avoids key x) ->
  exists l2, find_key key (concat (map part_lines parts)) = Ok (key :: more, rows ++ l2).
Proof.
  intros HP HQ HA.
  assert (HI : In q parts) by (eapply Permutation_in; [apply Permutation_sym; exact HP|apply in_or_app; right; now left]).
  apply in_split in HI. destruct HI as (p1 & p2 & ->).
  assert (HP2 : Permutation (p1 ++ p2) (pre ++ post)) by (apply (Permutation_app_inv p1 p2 pre post q HP)).
  exists (concat (map part_lines p2)). rewrite map_app, concat_app. cbn [map concat]. rewrite HQ. cbn [app].
  apply find_first. intros row Hr. apply in_concat in Hr. destruct Hr as (ls & Hl & Hr). apply in_map_iff in Hl.
  destruct Hl as (x & <- & Hx). apply (HA x); auto. eapply Permutation_in; [exact HP2|]. apply in_or_app. now left.
Qed.

Section Read.
  Context {N : Num}.
  Variable parse_f64 : text -> option F.
  Variable utf8 : text -> bool.
  Let number (w : text) (x : F) : Prop := parse_f64 w = Some x.

  Lemma read_file_lines rows lines file : Forall2 line_text rows lines -> file_text lines file ->
    Forall (fun l => utf8 l = true) lines -> read_lines utf8 file = rows.
  Proof.
    intros H1 H2 H3. unfold read_lines. rewrite (lines_file lines file H2).
    - revert H3. clear H2. induction H1 as [|row l rows lines HL _ IH]; intro H3; [reflexivity|].
      inversion H3 as [|? ? HU H4]; subst. cbn [filter]. rewrite HU. cbn [map]. now rewrite (words_line _ _ HL), IH.
    - clear H2 H3. induction H1; constructor; auto. eapply line_chars; eauto.
  Qed.

  Lemma parse_numbers ws xs : Forall2 number ws xs -> mapm (fun v => expect (parse_f64 v)) ws = Ok xs.
  Proof. intro H. apply mapm_spec. eapply Forall2_impl; [|exact H]. intros w x E. unfold number in E. now rewrite E. Qed.

  Variable i : @instance N.
  Notation dim := (length (in_nodes i)).

  Lemma coords_read rows l2 : Forall2 (coord_row number) (in_nodes i) rows ->
    mapm (parse_coord parse_f64) (firstn dim (rows ++ l2)) = Ok (map fst (in_nodes i)).
  Proof.
    intro H. rewrite (@Forall2_length _ _ _ _ _ H), firstn_app, Nat.sub_diag, firstn_all, firstn_O, app_nil_r.
    apply mapm_spec. induction H as [|n row ns rows HR _ IH]; cbn [map]; constructor; auto.
    destruct HR as (id & x & y & more & -> & HX & HY). unfold parse_coord, parse_number. cbn [geti nth_error rbind].
    unfold number in HX, HY. rewrite HX. cbn [expect rbind]. rewrite HY. cbn [expect rbind]. destruct n as [[a b] c]. reflexivity.
  Qed.
  Lemma demands_read rows l2 : Forall2 (demand_row number) (in_nodes i) rows ->
    mapm (fun line => parse_number parse_f64 line 1) (firstn dim (rows ++ l2)) = Ok (map snd (in_nodes i)).
  Proof.
    intro H. rewrite (@Forall2_length _ _ _ _ _ H), firstn_app, Nat.sub_diag, firstn_all, firstn_O, app_nil_r.
    apply mapm_spec. induction H as [|n row ns rows HR _ IH]; cbn [map]; constructor; auto.
    destruct HR as (id & d & more & -> & HD). unfold parse_number. cbn [geti nth_error rbind].
    unfold number in HD. now rewrite HD.
  Qed.
  Lemma nodes_read : create_nodes (map fst (in_nodes i)) (map snd (in_nodes i)) =
    map (fun n => mkNode (fst n) (snd n)) (in_nodes i).
  Proof. unfold create_nodes. induction (in_nodes i) as [|n ns IH]; cbn; [reflexivity|]. now rewrite IH. Qed.

  Lemma avoids_section key k m rows : k <> key -> In key (keys i) -> Forall (plain i) rows -> avoids key (Section_ k m rows).
  Proof.
    intros H HK HP row [<-|Hr] (more & E); [injection E as E _; contradiction|].
    rewrite Forall_forall in HP. specialize (HP row Hr). subst row. cbn in HP. contradiction.
  Qed.
  Lemma avoids_other key line : In key (keys i) -> plain i line -> avoids key (Other line).
  Proof. intros HK HP row [<-|[]] (more & E). subst line. cbn in HP. contradiction. Qed.

  Lemma parse_ok file : instance_file number i file -> Forall (fun l => utf8 l = true) (lines_of file) -> 0 < dim ->
    parse parse_f64 utf8 file = Ok (mkParsed (map (fun n => mkNode (fst n) (snd n)) (in_nodes i)) (in_cap i) (in_weights i)).
  Proof.
    intros (parts & lines & (d & cp & type & m1 & m2 & m3 & m4 & m5 & coords & demands & more & others & HP & HD & HB & HC & HN & PN & HM & PM & HW & HO) & HL & HF) HU H0.
    assert (EL : lines_of file = lines).
    { apply (lines_file lines file HF). clear -HL. induction HL; constructor; auto. eapply line_chars; eauto. }
    rewrite EL in HU. unfold parse. rewrite (read_file_lines _ _ _ HL HF HU).
    set (ls := concat (map part_lines parts)).
    set (P1 := Header (txt "DIMENSION") d m1) in *. set (P2 := Header (txt "CAPACITY") cp m2) in *.
    set (P3 := Header (txt "EDGE_WEIGHT_TYPE") type m3) in *. set (P4 := Section_ (txt "NODE_COORD_SECTION") m4 coords) in *.
    set (P5 := Section_ (txt "DEMAND_SECTION") m5 demands) in *.
    assert (AO : forall key x, In key (keys i) -> In x others -> avoids key x).
    { intros key x HK HX. rewrite Forall_forall in HO. destruct (HO x HX) as (line & -> & HP2). now apply avoids_other. }
    assert (A1 : forall key, key <> txt "DIMENSION" -> avoids key P1) by (intros; apply avoids_header; congruence).
    assert (A2 : forall key, key <> txt "CAPACITY" -> avoids key P2) by (intros; apply avoids_header; congruence).
    assert (A3 : forall key, key <> txt "EDGE_WEIGHT_TYPE" -> avoids key P3) by (intros; apply avoids_header; congruence).
    assert (A4 : forall key, In key (keys i) -> key <> txt "NODE_COORD_SECTION" -> avoids key P4) by (intros; apply avoids_section; auto; congruence).
    assert (A5 : forall key, In key (keys i) -> key <> txt "DEMAND_SECTION" -> avoids key P5) by (intros; apply avoids_section; auto; congruence).
    assert (AM : forall key x, In key (header_keys ++ section_keys) -> In x more -> avoids key x).
    { intros key x HK HX. assert (HK2 : In key (keys i)) by (unfold keys; rewrite app_assoc; apply in_or_app; now left).
      unfold weight_parts in HW. destruct (in_weights i) as [ws|].
      - destruct HW as (_ & n1 & n2 & rows & -> & HR & _). destruct HX as [<-|[<-|[]]].
        + apply avoids_header. intros <-. cbn in HK. intuition discriminate.
        + apply avoids_section; auto. intros <-. cbn in HK. intuition discriminate.
      - destruct HW as [_ ->]. destruct HX. }
    assert (K : forall key, In key (header_keys ++ section_keys) -> In key (keys i)).
    { intros key HK. unfold keys. rewrite app_assoc. apply in_or_app. now left. }
    assert (F1 : exists l2, find_key (txt "DIMENSION") ls = Ok (txt "DIMENSION" :: d :: m1, [] ++ l2)).
    { eapply (find_part _ P1) with (pre := []); [exact HP|reflexivity|]. intros x HX. apply in_app_or in HX.
      destruct HX as [[]|HX]. cbn [app In] in HX. rewrite in_app_iff in HX.
      destruct HX as [<-|[<-|[<-|[<-|[HX|HX]]]]]; [apply A2|apply A3|apply A4|apply A5|apply AM|apply AO]; auto; try discriminate; try apply K; cbn; tauto. }
    assert (F2 : exists l2, find_key (txt "CAPACITY") ls = Ok (txt "CAPACITY" :: cp :: m2, [] ++ l2)).
    { eapply (find_part _ P2) with (pre := [P1]); [exact HP|reflexivity|]. intros x HX. cbn [app In] in HX. rewrite in_app_iff in HX.
      destruct HX as [<-|[<-|[<-|[<-|[HX|HX]]]]]; [apply A1|apply A3|apply A4|apply A5|apply AM|apply AO]; auto; try discriminate; try apply K; cbn; tauto. }
    assert (F3 : exists l2, find_key (txt "EDGE_WEIGHT_TYPE") ls = Ok (txt "EDGE_WEIGHT_TYPE" :: type :: m3, [] ++ l2)).
    { eapply (find_part _ P3) with (pre := [P1; P2]); [exact HP|reflexivity|]. intros x HX. cbn [app In] in HX. rewrite in_app_iff in HX.
      destruct HX as [<-|[<-|[<-|[<-|[HX|HX]]]]]; [apply A1|apply A2|apply A4|apply A5|apply AM|apply AO]; auto; try discriminate; try apply K; cbn; tauto. }
    assert (F4 : exists l2, find_key (txt "NODE_COORD_SECTION") ls = Ok (txt "NODE_COORD_SECTION" :: m4, coords ++ l2)).
    { eapply (find_part _ P4) with (pre := [P1; P2; P3]); [exact HP|reflexivity|]. intros x HX. cbn [app In] in HX. rewrite in_app_iff in HX.
      destruct HX as [<-|[<-|[<-|[<-|[HX|HX]]]]]; [apply A1|apply A2|apply A3|apply A5|apply AM|apply AO]; auto; try discriminate; try apply K; cbn; tauto. }
    assert (F5 : exists l2, find_key (txt "DEMAND_SECTION") ls = Ok (txt "DEMAND_SECTION" :: m5, demands ++ l2)).
    { eapply (find_part _ P5) with (pre := [P1; P2; P3; P4]); [exact HP|reflexivity|]. intros x HX. cbn [app In] in HX. rewrite in_app_iff in HX.
      destruct HX as [<-|[<-|[<-|[<-|[HX|HX]]]]]; [apply A1|apply A2|apply A3|apply A4|apply AM|apply AO]; auto; try discriminate; try apply K; cbn; tauto. }
    destruct F1 as (r1 & F1). destruct F2 as (r2 & F2). destruct F3 as (r3 & F3). destruct F4 as (r4 & F4). destruct F5 as (r5 & F5).
    unfold parse_dimension, key_value. rewrite F1. cbn [rbind geti nth_error]. rewrite (parse_decimal _ _ HD HB). cbn [expect rbind].
    rewrite Nat2N.id.
    unfold parse_capacity, key_value. rewrite F2. cbn [rbind geti nth_error]. unfold number in HC. rewrite HC. cbn [expect rbind].
    unfold parse_coords. rewrite F4. cbn [rbind]. rewrite coords_read by auto. cbn [rbind].
    unfold parse_demands. rewrite F5. cbn [rbind]. rewrite demands_read by auto. cbn [rbind].
    unfold parse_edge_weight_type, key_value. rewrite F3. cbn [rbind geti nth_error].
    unfold weight_parts in HW. destruct (in_weights i) as [ws|] eqn:EW.
    - destruct HW as (-> & n1 & n2 & rows & -> & HR & HLR & H2).
      change (text_eqb (txt "EXPLICIT") (txt "EUC_2D")) with false. change (text_eqb (txt "EXPLICIT") (txt "EXPLICIT")) with true.
      cbn [rbind].
      assert (KE : In (txt "EDGE_WEIGHT_FORMAT") (keys i) /\ In (txt "EDGE_WEIGHT_SECTION") (keys i)).
      { unfold keys. rewrite EW. cbn. tauto. }
      destruct KE as [KE1 KE2].
      set (Q1 := Header (txt "EDGE_WEIGHT_FORMAT") (txt "LOWER_ROW") n1) in *. set (Q2 := Section_ (txt "EDGE_WEIGHT_SECTION") n2 rows) in *.
      assert (F6 : exists l2, find_key (txt "EDGE_WEIGHT_FORMAT") ls = Ok (txt "EDGE_WEIGHT_FORMAT" :: txt "LOWER_ROW" :: n1, [] ++ l2)).
      { eapply (find_part _ Q1) with (pre := [P1; P2; P3; P4; P5]); [exact HP|reflexivity|]. intros x HX. cbn [app In] in HX.
        destruct HX as [<-|[<-|[<-|[<-|[<-|[<-|HX]]]]]]; [apply A1|apply A2|apply A3|apply A4|apply A5|apply avoids_section|apply AO]; auto; discriminate. }
      assert (F7 : exists l2, find_key (txt "EDGE_WEIGHT_SECTION") ls = Ok (txt "EDGE_WEIGHT_SECTION" :: n2, rows ++ l2)).
      { eapply (find_part _ Q2) with (pre := [P1; P2; P3; P4; P5; Q1]); [exact HP|reflexivity|]. intros x HX. cbn [app In] in HX.
        destruct HX as [<-|[<-|[<-|[<-|[<-|[<-|HX]]]]]]; [apply A1|apply A2|apply A3|apply A4|apply A5|apply avoids_header|apply AO]; auto; discriminate. }
      destruct F6 as (r6 & F6). destruct F7 as (r7 & F7).
      unfold parse_edge_weight_format, key_value. rewrite F6. cbn [rbind geti nth_error]. rewrite text_eqb_refl. cbn [rbind].
      unfold parse_lower_row_matrix. rewrite F7. cbn [rbind]. destruct (Nat.eqb_spec dim 0) as [E0|_]; [lia|].
      rewrite <- HLR, firstn_app, Nat.sub_diag, firstn_all, firstn_O, app_nil_r.
      assert (EM : mapm (mapm (fun v => expect (parse_f64 v))) rows = Ok ws).
      { apply mapm_spec. eapply Forall2_impl; [|exact H2]. intros. now apply parse_numbers. }
      rewrite EM. cbn [rbind]. now rewrite nodes_read.
    - destruct HW as [-> ->]. rewrite text_eqb_refl. cbn [rbind]. now rewrite nodes_read.
  Qed.
End Read.
