(** Matrices.  Models src/models/matrix.rs, src/models/problem.rs:73-81 and the construction of
    the problem data used by the other files. *)
From Coq Require Import List Arith NArith ZArith Bool.
From Verif.Model Require Import Num Prelude Evaluate.
Import ListNotations.
Open Scope res_scope.

(** ** Matrix<T> (matrix.rs:14-128)

    The allocation is a list of [rows * cols] cells.  The Rust accessors compute
    [row * cols + col] and do not check it; an access outside the allocation is [Err EUB].
    Size arithmetic does not overflow usize. *)
Record matrix (A : Type) := mkMatrix { m_rows : nat; m_cols : nat; m_data : list A }.
Arguments mkMatrix {A} _ _ _.
Arguments m_rows {A} _.
Arguments m_cols {A} _.
Arguments m_data {A} _.

Section MatrixOps.
  Context {A : Type}.

  (** matrix.rs:25-35; [z] is the value of zeroed memory.  (A matrix without cells asks the
      allocator for zero bytes, which Rust leaves undefined; that is not modelled.) *)
  Definition m_new (z : A) (rows cols : nat) : matrix A := mkMatrix rows cols (repeat z (rows * cols)).

  (** matrix.rs:47-50 *)
  Definition m_get (m : matrix A) (row col : nat) : res A :=
    match nth_error (m_data m) (row * m_cols m + col) with
    | Some a => Ok a
    | None => Err EUB
    end.

  (** matrix.rs:52-64 *)
  Definition m_set (m : matrix A) (row col : nat) (value : A) : res (matrix A) :=
    let i := row * m_cols m + col in
    if i <? length (m_data m) then Ok (mkMatrix (m_rows m) (m_cols m) (upd (m_data m) i value))
    else Err EUB.

  (** matrix.rs:66-81 *)
  Definition m_slice (m : matrix A) (row col number : nat) : res (list A) :=
    let i := row * m_cols m + col in
    if i + number <=? length (m_data m) then Ok (firstn number (skipn i (m_data m)))
    else Err EUB.

  (** Writing a slice of the same length back (the effect of shuffling [slice_mut] in place). *)
  Definition m_write (m : matrix A) (row col : nat) (l : list A) : res (matrix A) :=
    let i := row * m_cols m + col in
    if i + length l <=? length (m_data m) then
      Ok (mkMatrix (m_rows m) (m_cols m)
            (firstn i (m_data m) ++ l ++ skipn (i + length l) (m_data m)))
    else Err EUB.
End MatrixOps.

Section Matrix.
  Context {N : Num}.

  (** f64::sqrt and f64::round *)
  Variable sqrt_ : F -> F.
  Variable round_ : F -> F.

  Definition coord := (F * F)%type. (* (lng, lat) *)

  (** matrix.rs:149-151 *)
  Definition euclidian (c1 c2 : coord) : F :=
    let dx := fst c2 -: fst c1 in
    let dy := snd c2 -: snd c1 in
    sqrt_ (dx *: dx +: dy *: dy).

  (** matrix.rs:270-276 *)
  Record dmatrix := mkDM {
    dm_loc : list coord;
    dm_store : matrix F;
    dm_pre : bool;
    dm_rounded : bool;
    dm_max : option F
  }.

  Definition maybe_round (rounded : bool) (d : F) : F := if rounded then round_ d else d.

  (** matrix.rs:206-215, 237-246 *)
  Definition update_max (m : option F) (d : F) : option F :=
    match m with
    | Some x => if approx_gt d x then Some d else Some x
    | None => Some d
    end.

  (** Both cells of a symmetric pair and the maximum *)
  Definition set_pair (s : matrix F * option F) (i j : nat) (d : F) : res (matrix F * option F) :=
    let '(m, mx) := s in
    m <- m_set m i j d ;;
    m <- m_set m j i d ;;
    Ok (m, update_max mx d).

  (** matrix.rs:198-217: the rows of LOWER_ROW input *)
  Definition build_input_row (rounded : bool) (s : matrix F * option F) (ir : nat * list F) :
      res (matrix F * option F) :=
    let '(i, row) := ir in
    foldm (fun s (jd : nat * F) => set_pair s (i + 1) (fst jd) (maybe_round rounded (snd jd)))
          (combine (seq 0 (length row)) row) s.

  Definition build_input (rounded : bool) (n : nat) (input : list (list F)) :
      res (matrix F * option F) :=
    foldm (build_input_row rounded) (combine (seq 0 (length input)) input) (m_new f0 n n, None).

  (** matrix.rs:222-250: all pairs i < j *)
  Definition build_pre_row (rounded : bool) (loc : list coord) (s : matrix F * option F) (i : nat) :
      res (matrix F * option F) :=
    foldm (fun s j =>
             ci <- geti loc i ;;
             cj <- geti loc j ;;
             set_pair s i j (maybe_round rounded (euclidian ci cj)))
          (seq (i + 1) (length loc - (i + 1))) s.

  Definition build_pre (rounded : bool) (loc : list coord) : res (matrix F * option F) :=
    foldm (build_pre_row rounded loc) (seq 0 (length loc)) (m_new f0 (length loc) (length loc), None).

  (** matrix.rs:193-262 *)
  Definition dm_build (loc : list coord) (precompute rounded : bool) (input : option (list (list F))) :
      res dmatrix :=
    match input with
    | Some input =>
        '(m, mx) <- build_input rounded (length loc) input ;;
        Ok (mkDM loc m true rounded mx)
    | None =>
        if precompute then
          '(m, mx) <- build_pre rounded loc ;;
          Ok (mkDM loc m true rounded mx)
        else Ok (mkDM loc (m_new f0 0 0) false rounded None)
    end.

  (** matrix.rs:305-317 *)
  Definition dm_get (d : dmatrix) (row col : nat) : res F :=
    if dm_pre d then m_get (dm_store d) row col
    else
      cr <- geti (dm_loc d) row ;;
      cc <- geti (dm_loc d) col ;;
      Ok (maybe_round (dm_rounded d) (euclidian cr cc)).

  (** matrix.rs:347-349 *)
  Definition dm_size (d : dmatrix) : nat := length (dm_loc d).

  (** matrix.rs:331-342: the lazy loop, state (row, column) *)
  Fixpoint lazy_vec (d : dmatrix) (number row col : nat) : res (list F) :=
    match number with
    | O => Ok []
    | S number =>
        v <- dm_get d row col ;;
        rest <- (if col <? dm_size d - 1 then lazy_vec d number row (col + 1)
                 else lazy_vec d number (row + 1) 0) ;;
        Ok (v :: rest)
    end.

  (** matrix.rs:319-345 *)
  Definition dm_get_vec (d : dmatrix) (row col number : nat) : res (list F) :=
    if dm_pre d then m_slice (dm_store d) row col number else lazy_vec d number row col.

  (** matrix.rs:94-103: [max_by(partial_cmp).unwrap()], the last of the greatest elements;
      panics on an empty matrix and when two elements cannot be compared *)
  Definition get_max (l : list F) : res F :=
    match l with
    | [] => Err EPanic
    | a :: t =>
        foldm (fun best b => if fisnan best || fisnan b then Err EPanic
                             else Ok (if b <:? best then best else b)) t a
    end.

  (** matrix.rs:361-366 *)
  Definition mapping_row (d : dmatrix) (mapping : list nat) (m : matrix F) (i : nat) : res (matrix F) :=
    foldm (fun m j =>
             mi <- geti mapping i ;;
             mj <- geti mapping j ;;
             v <- dm_get d mi mj ;;
             m_set m i j v)
          (seq 0 (length mapping)) m.

  (** matrix.rs:355-379 *)
  Definition dm_from_mapping (d : dmatrix) (mapping : list nat) : res dmatrix :=
    loc <- mapm (geti (dm_loc d)) mapping ;;
    let size := length mapping in
    m <- foldm (mapping_row d mapping) (seq 0 size) (m_new f0 size size) ;;
    mx <- (if dm_pre d then x <- get_max (m_data m) ;; Ok (Some x) else Ok None) ;;
    Ok (mkDM loc m true (dm_rounded d) mx).

  (** ** CorrelationMatrix (matrix.rs:382-430) *)

  (** [lazysort::sorted_by] on the pairs (index, distance): a library sort, parameter here;
      theorems assume that it returns a sorted permutation. *)
  Variable lsort : list (nat * F) -> list (nat * F).

  (** matrix.rs:382 *)
  Definition correlation_limit : nat := 200.

  (** matrix.rs:385-388 *)
  Record cmatrix := mkCM { cm_store : matrix nat; cm_width : nat }.

  (** matrix.rs:396-407: one row.  [partial_cmp().unwrap()] panics on NaN. *)
  Definition correlation_row (d : dmatrix) (size width : nat) (m : matrix nat) (i : nat) :
      res (matrix nat) :=
    row <- dm_get_vec d i 0 size ;;
    let cand := filter (fun jd => (0 <? fst jd) && negb (fst jd =? i))
                       (combine (seq 0 (length row)) row) in
    if (2 <=? length cand) && existsb (fun jd => fisnan (snd jd)) cand then Err EPanic
    else
      let best := map fst (firstn width (lsort cand)) in
      foldm (fun m (nj : nat * nat) => m_set m i (fst nj) (snd nj))
            (combine (seq 0 (length best)) best) m.

  (** matrix.rs:391-413; [size - 2] underflows for fewer than two nodes *)
  Definition correlation_new (d : dmatrix) : res cmatrix :=
    let size := dm_size d in
    if size <? 2 then Err EPanic
    else
      let width := Nat.min correlation_limit (size - 2) in
      m <- foldm (correlation_row d size width) (seq 0 size) (m_new 0 size width) ;;
      Ok (mkCM m width).

  (** matrix.rs:415-429 *)
  Definition cm_get (c : cmatrix) (index : nat) : res (list nat) :=
    m_slice (cm_store c) index 0 (cm_width c).
  Definition cm_top_slice (c : cmatrix) (index number : nat) : res (list nat) :=
    m_slice (cm_store c) index 0 number.

  (** ** MatrixProvider (matrix.rs:432-471) and Problem *)

  (** problem.rs:9-14, the node id is not used by the solver *)
  Record node := mkNode { n_coord : coord; n_demand : F }.

  (** matrix.rs:439-461 *)
  Definition provider_new (nodes : list node) (limit : nat) (rounded : bool)
      (input : option (list (list F))) : res (dmatrix * cmatrix) :=
    if length nodes =? 0 then Err EPanic else
    d <- dm_build (map n_coord nodes) (length nodes - 1 <? limit) rounded input ;;
    c <- correlation_new d ;;
    Ok (d, c).

  (** matrix.rs:463-470 *)
  Definition provider_from_mapping (d : dmatrix) (mapping : list nat) : res (dmatrix * cmatrix) :=
    d' <- dm_from_mapping d mapping ;;
    c <- correlation_new d' ;;
    Ok (d', c).

  (** problem.rs:73-81 *)
  Definition nodes_from_mapping (nodes : list node) (mapping : list nat) : res (list node) :=
    mapm (geti nodes) mapping.
End Matrix.
