(** Reading an instance file.  Models src/utils/parser.rs and src/models/problem.rs:9-38.

    Left out: that the file exists and can be read (parser.rs:57-62 and 89-90). *)
From Coq Require Import Ascii String List Arith NArith Bool.
From Verif.Model Require Import Num Prelude Evaluate Matrix Text.
Import ListNotations.
Open Scope res_scope.

Section Parser.
  Context {N : Num}.

  (** parser.rs:43-46 with problem.rs:10-45; the node id, [i + 1], is not used by the solver and left
      out (Matrix.v) *)
  Record parsed := mkParsed { pa_nodes : list node; pa_cap : F; pa_matrix : option (list (list F)) }.

  (** str::parse::<f64>; [None] is an error *)
  Variable parse_f64 : text -> option F.
  (** Lines that are not valid UTF-8 are left out (parser.rs:91) *)
  Variable utf8 : text -> bool.

  (** parser.rs:88-106 *)
  Definition is_separator (c : ascii) : bool :=
    Ascii.eqb c " "%char || Ascii.eqb c TAB || Ascii.eqb c ":"%char.
  Definition words (line : text) : list text :=
    filter (fun w => match w with [] => false | _ => true end) (split_by is_separator line).
  Definition read_lines (file : text) : list (list text) := map words (filter utf8 (lines_of file)).

  (** [expect] *)
  Definition expect {A} (o : option A) : res A := match o with Some a => Ok a | None => Err EPanic end.

  (** The first line that starts with a key word, with the lines after it: the loops of
      parser.rs:108-115, 117-124, 126-138, 140-152, 154-169, 171-183, 185-201 *)
  Fixpoint find_key (key : text) (lines : list (list text)) : res (list text * list (list text)) :=
    match lines with
    | [] => Err EPanic
    | line :: rest =>
        match line with
        | w :: _ => if text_eqb w key then Ok (line, rest) else find_key key rest
        | [] => find_key key rest
        end
    end.
  (** [line[1]] of that line *)
  Definition key_value (key : string) (lines : list (list text)) : res text :=
    '(line, _) <- find_key (txt key) lines ;;
    geti line 1.

  (** parser.rs:108-115.  usize has 64 bits. *)
  Definition parse_dimension (lines : list (list text)) : res nat :=
    v <- key_value "DIMENSION" lines ;;
    n <- expect (parse_u64 v) ;;
    Ok (N.to_nat n).
  (** parser.rs:117-124 *)
  Definition parse_capacity (lines : list (list text)) : res F :=
    v <- key_value "CAPACITY" lines ;;
    expect (parse_f64 v).

  (** parser.rs:11-26 and 126-138: [true] is EXPLICIT *)
  Definition parse_edge_weight_type (lines : list (list text)) : res bool :=
    v <- key_value "EDGE_WEIGHT_TYPE" lines ;;
    if text_eqb v (txt "EUC_2D") then Ok false
    else if text_eqb v (txt "EXPLICIT") then Ok true
    else Err EPanic.
  (** parser.rs:28-41 and 140-152 *)
  Definition parse_edge_weight_format (lines : list (list text)) : res unit :=
    v <- key_value "EDGE_WEIGHT_FORMAT" lines ;;
    if text_eqb v (txt "LOWER_ROW") then Ok tt else Err EPanic.

  (** parser.rs:154-169 *)
  Definition parse_number (line : list text) (k : nat) : res F :=
    v <- geti line k ;;
    expect (parse_f64 v).
  Definition parse_coord (line : list text) : res coord :=
    lng <- parse_number line 1 ;;
    lat <- parse_number line 2 ;;
    Ok (lng, lat).
  Definition parse_coords (lines : list (list text)) (number : nat) : res (list coord) :=
    '(_, rest) <- find_key (txt "NODE_COORD_SECTION") lines ;;
    mapm parse_coord (firstn number rest).
  (** parser.rs:171-183 *)
  Definition parse_demands (lines : list (list text)) (number : nat) : res (list F) :=
    '(_, rest) <- find_key (txt "DEMAND_SECTION") lines ;;
    mapm (fun line => parse_number line 1) (firstn number rest).
  (** parser.rs:185-201.  [number - 1] for dimension 0 stops a debug build; a release build takes
      all lines, but stops later, since there is no depot (matrix.rs:444). *)
  Definition parse_lower_row_matrix (lines : list (list text)) (number : nat) : res (list (list F)) :=
    '(_, rest) <- find_key (txt "EDGE_WEIGHT_SECTION") lines ;;
    if number =? 0 then Err EPanic
    else mapm (mapm (fun v => expect (parse_f64 v))) (firstn (number - 1) rest).

  (** parser.rs:203-214 *)
  Definition create_nodes (coords : list coord) (demands : list F) : list node :=
    map (fun cd => mkNode (fst cd) (snd cd)) (combine coords demands).

  (** parser.rs:56-86 *)
  Definition parse (file : text) : res parsed :=
    let lines := read_lines file in
    dimension <- parse_dimension lines ;;
    capacity <- parse_capacity lines ;;
    coords <- parse_coords lines dimension ;;
    demands <- parse_demands lines dimension ;;
    explicit <- parse_edge_weight_type lines ;;
    if explicit : bool then
      _ <- parse_edge_weight_format lines ;;
      m <- parse_lower_row_matrix lines dimension ;;
      Ok (mkParsed (create_nodes coords demands) capacity (Some m))
    else Ok (mkParsed (create_nodes coords demands) capacity None).
End Parser.
