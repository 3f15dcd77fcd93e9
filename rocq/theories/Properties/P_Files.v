(** C43: instance files are read back as written.  C44: the printed solution. *)
From Coq Require Import Ascii String List Arith NArith ZArith QArith Qround Bool Lia Lqa Permutation.
From Verif.Model Require Import Num Prelude Evaluate Individual Matrix Text Parser World Display.
From Verif.Spec Require Import Solution Output Instance.
From Verif.Proofs Require Import Lists QNum MatrixFacts TextFacts OutputFacts ParserFacts.
From Verif.Properties Require Import P_Matrix.
Import ListNotations.
Open Scope nat_scope.

(** ** C43 *)

(** Any arithmetic and any reader of numbers: a file with the parts of an instance in any order
    and any layout, between any other lines, is read as that instance. *)
Theorem C43_read_back (N : Num) (parse_f64 : text -> option F) (utf8 : text -> bool) (i : instance) (file : text) :
  instance_file (fun w x => parse_f64 w = Some x) i file -> 0 < length (in_nodes i) ->
  (forall l, In l (lines_of file) -> utf8 l = true) ->
  parse parse_f64 utf8 file = Ok (mkParsed (map (fun n => mkNode (fst n) (snd n)) (in_nodes i)) (in_cap i) (in_weights i)).
Proof. intros H H0 HU. apply parse_ok; auto. now apply Forall_forall. Qed.
Print Assumptions C43_read_back.

(** A file without one of the required parts is rejected, whatever else it contains; so is a file
    with an unknown type of distances, and one that announces a matrix but lacks it. *)
Theorem C43_missing_rejected (N : Num) (parse_f64 : text -> option F) (utf8 : text -> bool)
    (rows : list (list text)) (lines : list text) (file : text) (key : text) :
  Forall2 line_text rows lines -> file_text lines file -> (forall l, In l lines -> utf8 l = true) ->
  (forall row more, In row rows -> row <> key :: more) ->
  In key (header_keys ++ section_keys) \/
    (In key explicit_keys /\ forall row, In row rows -> forall more, row <> [txt "EDGE_WEIGHT_TYPE"; txt "EUC_2D"] ++ more) ->
  exists e, parse parse_f64 utf8 file = Err e.
Proof.
  intros HL HF HU HN HK. unfold parse. rewrite (read_file_lines utf8 rows lines file HL HF) by now apply Forall_forall.
  assert (FN : find_key key rows = Err EPanic).
  { apply find_none. intros row Hr (more & ->). now apply (HN (key :: more) more Hr). }
  unfold parse_dimension, parse_capacity, parse_coords, parse_demands, parse_edge_weight_type, parse_edge_weight_format, parse_lower_row_matrix, key_value.
  destruct (find_key (txt "DIMENSION") rows) as [[? ?]|] eqn:E1; cbn [rbind]; eauto. destruct (geti _ 1); cbn [rbind]; eauto.
  destruct (expect _) as [dim|]; cbn [rbind]; eauto.
  destruct (find_key (txt "CAPACITY") rows) as [[? ?]|] eqn:E2; cbn [rbind]; eauto. destruct (geti _ 1); cbn [rbind]; eauto.
  destruct (expect _) as [cap|]; cbn [rbind]; eauto.
  destruct (find_key (txt "NODE_COORD_SECTION") rows) as [[? ?]|] eqn:E3; cbn [rbind]; eauto. destruct (mapm _ _) as [cs|]; cbn [rbind]; eauto.
  destruct (find_key (txt "DEMAND_SECTION") rows) as [[? ?]|] eqn:E4; cbn [rbind]; eauto. destruct (mapm _ _) as [ds|]; cbn [rbind]; eauto.
  destruct (find_key (txt "EDGE_WEIGHT_TYPE") rows) as [[row rest]|] eqn:E5; cbn [rbind]; eauto.
  assert (HR : In row rows /\ exists more, row = txt "EDGE_WEIGHT_TYPE" :: more).
  { clear -E5. induction rows as [|r rows IH]; cbn [find_key] in E5; [discriminate|]. destruct r as [|w r].
    - destruct (IH E5) as [A B]. split; [now right|exact B].
    - destruct (text_eqb w (txt "EDGE_WEIGHT_TYPE")) eqn:E.
      + apply text_eqb_spec in E. injection E5 as <- <-. subst w. split; [now left|eauto].
      + destruct (IH E5) as [A B]. split; [now right|exact B]. }
  destruct HR as [HR (more & ->)]. destruct more as [|v more]; cbn [geti nth_error rbind]; eauto.
  destruct (text_eqb v (txt "EUC_2D")) eqn:EE.
  - apply text_eqb_spec in EE. subst v. exfalso. destruct HK as [HK|[_ HK]]; [|exact (HK _ HR more eq_refl)].
    unfold header_keys, section_keys in HK. cbn [app In] in HK. destruct HK as [<-|[<-|[<-|[<-|[<-|[]]]]]]; first [congruence|exact (HN _ (txt "EUC_2D" :: more) HR eq_refl)].
  - destruct (text_eqb v (txt "EXPLICIT")); cbn [rbind]; eauto.
    destruct (find_key (txt "EDGE_WEIGHT_FORMAT") rows) as [[? ?]|] eqn:E6; cbn [rbind]; eauto. destruct (geti _ 1); cbn [rbind]; eauto.
    destruct (text_eqb _ (txt "LOWER_ROW")); cbn [rbind]; eauto.
    destruct (find_key (txt "EDGE_WEIGHT_SECTION") rows) as [[? ?]|] eqn:E7; cbn [rbind]; eauto.
    exfalso. unfold header_keys, section_keys, explicit_keys in HK. cbn [app In] in HK. destruct HK as [HK|[HK _]]; [destruct HK as [<-|[<-|[<-|[<-|[<-|[]]]]]]|destruct HK as [<-|[<-|[]]]];
      first [congruence|exact (HN _ (v :: more) HR eq_refl)].
Qed.
Print Assumptions C43_missing_rejected.

(** From the file to the distances the solver uses: those of the matrix, or the Euclidean ones of
    the positions, rounded if so configured. *)
Theorem C43_distances (N : Num) (parse_f64 : text -> option F) (utf8 : text -> bool) (sqrt_ round_ : F -> F)
    (i : instance) (file : text) (pre rounded : bool) (weights : list (list F)) :
  instance_file (fun w x => parse_f64 w = Some x) i file -> 0 < length (in_nodes i) ->
  (forall l, In l (lines_of file) -> utf8 l = true) ->
  in_weights i = Some weights -> (forall k, k < length weights -> length (nth k weights []) = k + 1) ->
  exists pa d, parse parse_f64 utf8 file = Ok pa /\
    dm_build sqrt_ round_ (map n_coord (pa_nodes pa)) pre rounded (pa_matrix pa) = Ok d /\
    (forall a b row x, nth_error weights a = Some row -> nth_error row b = Some x ->
       let y := if rounded then round_ x else x in
       dm_get sqrt_ round_ d (a + 1) b = Ok y /\ dm_get sqrt_ round_ d b (a + 1) = Ok y).
Proof.
  intros H H0 HU HW HR. rewrite (C43_read_back N parse_f64 utf8 i file H H0 HU). eexists. 
  assert (HLW : length weights + 1 = length (in_nodes i)).
  { destruct H as (parts & lines & (d & cp & type & m1 & m2 & m3 & m4 & m5 & coords & demands & more & others & HD) & _).
    destruct HD as (_ & _ & _ & _ & _ & _ & _ & _ & HD & _). unfold weight_parts in HD. rewrite HW in HD.
    destruct HD as (_ & n1 & n2 & rows & _ & _ & HL & H2). rewrite <- (@Forall2_length _ _ _ _ _ H2). lia. }
  destruct (C35_lower_row_read_back N sqrt_ round_ (map n_coord (map (fun n => mkNode (fst n) (snd n)) (in_nodes i))) pre rounded weights)
    as (dm & E & G & _); auto.
  { rewrite !map_length. exact HLW. }
  exists dm. split; [reflexivity|]. cbn [pa_nodes pa_matrix]. rewrite HW. split; [exact E|]. intros a b row x HA HB. exact (G a row b x HA HB).
Qed.
Print Assumptions C43_distances.

(** *** A file: mixed separators and line ends, parts out of order, comments, lines to ignore *)
Definition read_int (w : text) : option (@F NumQ) :=
  match w with [] => None | _ => option_map (fun n => inject_Z (Z.of_N n)) (digits_value w 0) end.
Definition any_text (_ : text) : bool := true.
Definition ex_lines : list text :=
  [txt "NAME : small"; txt "DEMAND_SECTION"; txt "1 0"; txt "2   4 "; txt " 3 5"; txt "";
   TAB :: txt "CAPACITY : " ++ [TAB] ++ txt "9"; txt "EDGE_WEIGHT_TYPE: EXPLICIT"; txt "EDGE_WEIGHT_FORMAT: LOWER_ROW ";
   txt "EDGE_WEIGHT_SECTION"; txt "10"; txt "7 12"; txt "DIMENSION:3";
   txt "NODE_COORD_SECTION"; txt "1 5 5"; txt "2 5 15"; txt "3 1 2"; txt "DEPOT_SECTION"; txt " 1"; txt "EOF"].
Fixpoint join (flip : bool) (ls : list text) : text :=
  match ls with
  | [] => []
  | [l] => l
  | l :: ls => l ++ (if flip then [LF] else [CR; LF]) ++ join (negb flip) ls
  end.
Definition ex_file : text := join true ex_lines.
Open Scope Q_scope.
Definition ex_instance : @instance NumQ :=
  @mkInstance NumQ 9 [(5, 5, 0); (5, 15, 4); (1, 2, 5)] (Some [[10]; [7; 12]]).
Close Scope Q_scope.

(** the layout relation is decided by computing: separators and words in turn *)
Fixpoint lay (ws : list text) (l : text) : bool :=
  match ws with
  | [] => forallb is_separator l
  | w :: ws =>
      (fix skip (l : text) : bool :=
         match l with
         | [] => false
         | c :: r =>
             if is_separator c then skip r
             else (negb (length w =? 0) && text_eqb (firstn (length w) l) w
                   && forallb (fun c => negb (is_separator c) && negb (Ascii.eqb c LF) && negb (Ascii.eqb c CR)) w
                   && match skipn (length w) l with [] => true | c :: _ => is_separator c end
                   && lay ws (skipn (length w) l))%bool
         end) l
  end.
Fact lay_sound ws : forall l, lay ws l = true -> line_text ws l.
Proof.
  induction ws as [|w ws IH]; intros l.
  - cbn. intro H. apply lt_end. rewrite forallb_forall in H. apply Forall_forall. intros c Hc. now apply is_separator_spec, H.
  - cbn [lay].
    assert (G : forall s l, Forall separator s ->
      (fix skip (l : text) : bool :=
         match l with
         | [] => false
         | c :: r =>
             if is_separator c then skip r
             else (negb (length w =? 0) && text_eqb (firstn (length w) l) w
                   && forallb (fun c => negb (is_separator c) && negb (Ascii.eqb c LF) && negb (Ascii.eqb c CR)) w
                   && match skipn (length w) l with [] => true | c :: _ => is_separator c end
                   && lay ws (skipn (length w) l))%bool
         end) l = true -> line_text (w :: ws) (s ++ l)).
    { intros s l0. revert s. induction l0 as [|c r IHr]; intros s HS H; [discriminate|].
      destruct (is_separator c) eqn:EC.
      - change (c :: r) with ([c] ++ r). rewrite app_assoc. apply IHr; auto. apply Forall_app. split; auto.
        constructor; [now apply is_separator_spec|constructor].
      - rewrite !andb_true_iff in H. destruct H as ((((H1 & H2) & H3) & H4) & H5).
        apply text_eqb_spec in H2. rewrite <- (firstn_skipn (length w) (c :: r)), H2. apply lt_word; auto.
        + split. { intros ->. discriminate H1. }
          rewrite forallb_forall in H3. apply Forall_forall. intros x Hx. specialize (H3 x Hx).
          rewrite !andb_true_iff, !negb_true_iff in H3. destruct H3 as ((A1 & A2) & A3). split; [|split].
          * intro Hs. apply is_separator_spec in Hs. congruence.
          * now apply Ascii.eqb_neq.
          * now apply Ascii.eqb_neq.
        + destruct (skipn (length w) (c :: r)) as [|c2 r2]; [now left|right]. exists c2, r2. split; auto. now apply is_separator_spec. }
    intro H. exact (G [] l ltac:(constructor) H).
Qed.
Fact join_text ls : forall flip, last ls (txt "x") <> [] -> file_text ls (join flip ls).
Proof.
  induction ls as [|l ls IH]; intros flip H; [constructor|]. destruct ls as [|l2 ls].
  - cbn in *. now apply ft_last.
  - change (join flip (l :: l2 :: ls)) with (l ++ (if flip then [LF] else [CR; LF]) ++ join (negb flip) (l2 :: ls)).
    apply ft_line; [destruct flip; auto|]. apply IH. exact H.
Qed.

Definition ex_parts : list part :=
  [Other [txt "NAME"; txt "small"];
   Section_ (txt "DEMAND_SECTION") [] [[txt "1"; txt "0"]; [txt "2"; txt "4"]; [txt "3"; txt "5"]]; Other [];
   Header (txt "CAPACITY") (txt "9") []; Header (txt "EDGE_WEIGHT_TYPE") (txt "EXPLICIT") [];
   Header (txt "EDGE_WEIGHT_FORMAT") (txt "LOWER_ROW") [];
   Section_ (txt "EDGE_WEIGHT_SECTION") [] [[txt "10"]; [txt "7"; txt "12"]];
   Header (txt "DIMENSION") (txt "3") [];
   Section_ (txt "NODE_COORD_SECTION") [] [[txt "1"; txt "5"; txt "5"]; [txt "2"; txt "5"; txt "15"]; [txt "3"; txt "1"; txt "2"]];
   Other [txt "DEPOT_SECTION"]; Other [txt "1"]; Other [txt "EOF"]].

Fact ex_file_ok : instance_file (fun w x => read_int w = Some x) ex_instance ex_file.
Proof.
  exists ex_parts, ex_lines. split; [|split].
  - exists (txt "3"), (txt "9"), (txt "EXPLICIT"), [], [], [], [], [].
    exists [[txt "1"; txt "5"; txt "5"]; [txt "2"; txt "5"; txt "15"]; [txt "3"; txt "1"; txt "2"]],
      [[txt "1"; txt "0"]; [txt "2"; txt "4"]; [txt "3"; txt "5"]].
    exists [Header (txt "EDGE_WEIGHT_FORMAT") (txt "LOWER_ROW") []; Section_ (txt "EDGE_WEIGHT_SECTION") [] [[txt "10"]; [txt "7"; txt "12"]]].
    exists [Other [txt "NAME"; txt "small"]; Other []; Other [txt "DEPOT_SECTION"]; Other [txt "1"]; Other [txt "EOF"]].
    split; [|split; [|split; [reflexivity|split; [reflexivity|]]]].
    + unfold ex_parts. apply NoDup_Permutation.
      * repeat constructor; cbn; intuition discriminate.
      * repeat constructor; cbn; intuition discriminate.
      * intro x. cbn [app In]. tauto.
    + apply (dec_digit 3). split; [lia|reflexivity].
    + assert (PL : forall rows, forallb (fun r => match r with [] => true | w :: _ => negb (existsb (text_eqb w) (keys ex_instance)) end) rows = true ->
        Forall (plain ex_instance) rows).
      { intros rows H. rewrite forallb_forall in H. apply Forall_forall. intros r Hr. specialize (H r Hr). unfold plain. destruct r as [|w r]; auto.
        intro I. apply negb_true_iff in H. assert (X : existsb (text_eqb w) (keys ex_instance) = true).
        { apply existsb_exists. exists w. split; auto. apply text_eqb_refl. } congruence. }
      split; [|split; [|split; [|split; [|split]]]].
      * repeat constructor; eexists _, _, _, _; repeat split; reflexivity.
      * apply PL. reflexivity.
      * repeat constructor; eexists _, _, _; repeat split; reflexivity.
      * apply PL. reflexivity.
      * cbn [weight_parts ex_instance in_weights]. split; [reflexivity|]. exists [], [], [[txt "10"]; [txt "7"; txt "12"]].
        split; [reflexivity|]. split; [apply PL; reflexivity|]. split; [reflexivity|]. repeat constructor.
      * apply Forall_forall. intros x Hx.
        assert (exists line, x = Other line) as (line & ->) by (cbn in Hx; intuition subst; eauto).
        exists line. split; auto. revert Hx. cbn. intuition (try discriminate);
          match goal with H : Other _ = Other _ |- _ => injection H as <- end; cbn; intuition discriminate.
  - change (concat (map part_lines ex_parts)) with (map words ex_lines).
    assert (F : forall ls, (forall l, In l ls -> line_text (words l) l) -> Forall2 line_text (map words ls) ls).
    { induction ls as [|l ls IH]; intro H; cbn [map]; constructor; [apply H; now left|apply IH; intros; apply H; now right]. }
    apply F. intros l Hl.
    assert (X : forallb (fun l => lay (words l) l) ex_lines = true) by (vm_compute; reflexivity).
    rewrite forallb_forall in X. apply lay_sound. now apply X.
  - apply join_text. discriminate.
Qed.
Definition parse_view (r : res (@parsed NumQ)) :=
  match r with
  | Ok pa => Some (map (fun n => (n_coord n, n_demand n)) (pa_nodes pa), pa_cap pa, pa_matrix pa)
  | Err _ => None
  end.
Example ex_file_read : parse_view (@parse NumQ read_int any_text ex_file) =
  Some (in_nodes ex_instance, in_cap ex_instance, in_weights ex_instance).
Proof. vm_compute. reflexivity. Qed.
(** without its first or its last section line it is rejected *)
Example ex_file_missing : parse_view (@parse NumQ read_int any_text (join true (tl (tl ex_lines)))) = None.
Proof. vm_compute. reflexivity. Qed.

(** Beyond C43: a section that ends too early is not noticed at the end of the file.  The file
    announces four nodes and has positions and demands of three. *)
Example C43_incomplete_section_refuted :
  parse_view (@parse NumQ read_int any_text (join true
    [txt "DIMENSION : 4"; txt "CAPACITY : 9"; txt "EDGE_WEIGHT_TYPE : EUC_2D"; txt "NODE_COORD_SECTION"; txt "1 5 5"; txt "2 5 15";
     txt "3 1 2"; txt "4 8 8"; txt "DEMAND_SECTION"; txt "1 0"; txt "2 4"; txt "3 5"])) =
  Some ([(5, 5, 0); (5, 15, 4); (1, 2, 5)], 9, None)%Q.
Proof. vm_compute. reflexivity. Qed.
(** The numbers of the nodes are ignored: demands listed in another order go to other nodes. *)
Example C43_node_numbers_refuted :
  parse_view (@parse NumQ read_int any_text (join true
    [txt "DIMENSION : 3"; txt "CAPACITY : 9"; txt "EDGE_WEIGHT_TYPE : EUC_2D"; txt "NODE_COORD_SECTION"; txt "1 5 5"; txt "2 5 15";
     txt "3 1 2"; txt "DEMAND_SECTION"; txt "1 0"; txt "3 5"; txt "2 4"])) =
  Some ([(5, 5, 0); (5, 15, 5); (1, 2, 4)], 9, None)%Q.
Proof. vm_compute. reflexivity. Qed.
(** A matrix whose rows are broken differently over lines (as in several published instances) is
    read as other rows: here the rows 10 and 7 12 stand on one line. *)
Example C43_wrapped_matrix_refuted :
  parse_view (@parse NumQ read_int any_text (join true
    [txt "DIMENSION : 3"; txt "CAPACITY : 9"; txt "EDGE_WEIGHT_TYPE : EXPLICIT"; txt "EDGE_WEIGHT_FORMAT : LOWER_ROW";
     txt "NODE_COORD_SECTION"; txt "1 5 5"; txt "2 5 15"; txt "3 1 2"; txt "DEMAND_SECTION"; txt "1 0"; txt "2 4"; txt "3 5";
     txt "EDGE_WEIGHT_SECTION"; txt "10 7 12"])) =
  Some ([(5, 5, 0); (5, 15, 4); (1, 2, 5)], 9, Some [[10; 7; 12]])%Q.
Proof. vm_compute. reflexivity. Qed.

(** ** C44 *)

(** Any arithmetic: the text printed for a recorded solution consists of the lines of its
    non-empty routes, in order and numbered from 1, and of the rounded cost. *)
Theorem C44_printed (N : Num) (routes : list (list nat)) (cost : F) :
  solution_text 1 (used_routes routes) (fround cost) (display routes (Some cost)).
Proof. unfold display. apply routes_printed. apply print_nat_spec. Qed.
Print Assumptions C44_printed.

(** Such a text can be read in only one way, so that two solutions with the same text have the
    same non-empty routes and the same rounded cost. *)
Theorem C44_unambiguous k routes cost text : solution_text k routes cost text ->
  forall k' routes' cost', solution_text k' routes' cost' text -> routes = routes' /\ cost = cost'.
Proof. intros H k' routes' cost' H'. exact (solution_unique _ _ _ _ H _ _ _ _ H' eq_refl). Qed.
Print Assumptions C44_unambiguous.

Theorem C44_determines (N : Num) (routes routes' : list (list nat)) (cost cost' : F) :
  display routes (Some cost) = display routes' (Some cost') ->
  used_routes routes = used_routes routes' /\ fround cost = fround cost'.
Proof.
  intro E. apply (C44_unambiguous 1 _ _ (display routes (Some cost)) (C44_printed N routes cost) 1).
  rewrite E. apply C44_printed.
Qed.
Print Assumptions C44_determines.

(** The file holds the text for the last recorded solution and a line end; it is empty if nothing
    was recorded. *)
Theorem C44_file (N : Num) (h : history) :
  (forall older e cost, h_entries h = older ++ [e] -> he_cost e = Some cost ->
     exists text, solution_file h = text ++ [LF] /\ solution_text 1 (used_routes (he_routes e)) (fround cost) text) /\
  (h_entries h = [] -> solution_file h = []).
Proof.
  unfold solution_file. split.
  - intros older e cost -> HC. rewrite rev_app_distr. cbn [rev app]. rewrite HC. eexists. split; [reflexivity|]. apply C44_printed.
  - intros ->. reflexivity.
Qed.
Print Assumptions C44_file.

(** In exact arithmetic the printed number is the nearest one to a cost that is not negative. *)
Theorem C44_rounded (cost : Q) : (0 <= cost)%Q ->
  (inject_Z (Z.of_nat (@fround NumQ cost)) - (1 # 2) <= cost < inject_Z (Z.of_nat (@fround NumQ cost)) + (1 # 2))%Q.
Proof.
  intro H. change (@fround NumQ cost) with (Z.to_nat (Qfloor (cost + (1 # 2)))).
  assert (HZ : (0 <= Qfloor (cost + (1 # 2)))%Z).
  { change 0%Z with (Qfloor 0). apply Qfloor_resp_le. lra. }
  rewrite Z2Nat.id by auto. pose proof (Qfloor_le (cost + (1 # 2))). pose proof (Qlt_floor (cost + (1 # 2))) as H2.
  rewrite inject_Z_plus in H2. change (inject_Z 1) with 1%Q in H2. split; lra.
Qed.
Print Assumptions C44_rounded.

Example display_example : string_of_list_ascii (@display NumQ [[1; 20]; []; [301]] (Some (1237 # 10)%Q)) =
"Route #1: 1 20
Route #2: 301
Cost 124"%string.
Proof. vm_compute. reflexivity. Qed.
