(** What an instance file is: layouts of texts, and the data they stand for. *)
From Coq Require Import Ascii String List Arith NArith Permutation.
From Verif.Model Require Import Num Text.
From Verif.Spec Require Import Output.
Import ListNotations.
Local Open Scope nat_scope.

(** ** Layout *)
Definition separator (c : ascii) : Prop := c = " "%char \/ c = TAB \/ c = ":"%char.
Definition word (w : text) : Prop := w <> [] /\ Forall (fun c => ~ separator c /\ c <> LF /\ c <> CR) w.

(** Words with separators before, between and after them; between two words there is at least one. *)
Inductive line_text : list text -> text -> Prop :=
| lt_end s : Forall separator s -> line_text [] s
| lt_word s w ws rest : Forall separator s -> word w ->
    (rest = [] \/ exists c r, separator c /\ rest = c :: r) -> line_text ws rest ->
    line_text (w :: ws) (s ++ w ++ rest).

(** Lines ended by LF or CR LF; the last one may have no end. *)
Inductive file_text : list text -> text -> Prop :=
| ft_empty : file_text [] []
| ft_last l : l <> [] -> file_text [l] l
| ft_line l eol ls rest : eol = [LF] \/ eol = [CR; LF] -> file_text ls rest ->
    file_text (l :: ls) (l ++ eol ++ rest).

(** ** Contents *)
Section Contents.
  Context {N : Num}.

  (** The data of an instance: capacity, position and demand of every node, and the rows below the
      diagonal of the distance matrix, if it is given. *)
  Record instance := mkInstance {
    in_cap : F;
    in_nodes : list (F * F * F);
    in_weights : option (list (list F))
  }.

  (** Which word stands for which number. *)
  Variable number : text -> F -> Prop.

  Inductive part :=
  | Header (key value : text) (more : list text)
  | Section_ (key : text) (more : list text) (rows : list (list text))
  | Other (line : list text).
  Definition part_lines (q : part) : list (list text) :=
    match q with
    | Header key value more => [key :: value :: more]
    | Section_ key more rows => (key :: more) :: rows
    | Other line => [line]
    end.

  Definition header_keys : list text := [txt "DIMENSION"; txt "CAPACITY"; txt "EDGE_WEIGHT_TYPE"].
  Definition section_keys : list text := [txt "NODE_COORD_SECTION"; txt "DEMAND_SECTION"].
  Definition explicit_keys : list text := [txt "EDGE_WEIGHT_FORMAT"; txt "EDGE_WEIGHT_SECTION"].
  Definition keys (i : instance) : list text :=
    header_keys ++ section_keys ++ match in_weights i with Some _ => explicit_keys | None => [] end.

  (** A line that does not start with a key word. *)
  Definition plain (i : instance) (line : list text) : Prop :=
    match line with [] => True | w :: _ => ~ In w (keys i) end.

  Definition coord_row (n : F * F * F) (row : list text) : Prop :=
    exists id x y more, row = id :: x :: y :: more /\ number x (fst (fst n)) /\ number y (snd (fst n)).
  Definition demand_row (n : F * F * F) (row : list text) : Prop :=
    exists id d more, row = id :: d :: more /\ number d (snd n).

  (** The two further parts of an instance with a distance matrix. *)
  Definition weight_parts (i : instance) (type : text) (parts : list part) : Prop :=
    match in_weights i with
    | None => type = txt "EUC_2D" /\ parts = []
    | Some weights => type = txt "EXPLICIT" /\
        exists m1 m2 rows,
          parts = [Header (txt "EDGE_WEIGHT_FORMAT") (txt "LOWER_ROW") m1; Section_ (txt "EDGE_WEIGHT_SECTION") m2 rows] /\
          Forall (plain i) rows /\ length rows = length (in_nodes i) - 1 /\
          Forall2 (Forall2 number) rows weights
    end.

  (** The parts in any order, together with any other lines. *)
  Definition describes (i : instance) (parts : list part) : Prop :=
    exists dim cap type m1 m2 m3 m4 m5 coords demands more others,
      Permutation parts
        ([Header (txt "DIMENSION") dim m1; Header (txt "CAPACITY") cap m2; Header (txt "EDGE_WEIGHT_TYPE") type m3;
          Section_ (txt "NODE_COORD_SECTION") m4 coords; Section_ (txt "DEMAND_SECTION") m5 demands] ++ more ++ others) /\
      decimal (length (in_nodes i)) dim /\ (N.of_nat (length (in_nodes i)) < 2 ^ 64)%N /\
      number cap (in_cap i) /\
      Forall2 coord_row (in_nodes i) coords /\ Forall (plain i) coords /\
      Forall2 demand_row (in_nodes i) demands /\ Forall (plain i) demands /\
      weight_parts i type more /\
      Forall (fun q => exists line, q = Other line /\ plain i line) others.

  (** A file for an instance. *)
  Definition instance_file (i : instance) (file : text) : Prop :=
    exists parts lines, describes i parts /\
      Forall2 line_text (concat (map part_lines parts)) lines /\ file_text lines file.
End Contents.
