(** Texts: the parts of the standard library that the parser and the printer of the program use.
    A text is a list of bytes.  All bytes the program looks for are ASCII, and no byte of a
    multi-byte UTF-8 character is ASCII, so that splitting bytes and splitting characters agree. *)
From Coq Require Import Ascii String List Arith NArith Bool.
Import ListNotations.
Open Scope nat_scope.

Definition text := list ascii.
Definition txt (s : string) : text := list_ascii_of_string s.
Definition LF : ascii := "010"%char.
Definition CR : ascii := "013"%char.
Definition TAB : ascii := "009"%char.

Fixpoint text_eqb (a b : text) : bool :=
  match a, b with
  | [], [] => true
  | x :: a, y :: b => Ascii.eqb x y && text_eqb a b
  | _, _ => false
  end.

(** str::split with a set of characters: the (possibly empty) parts between the separators *)
Fixpoint split_by (sep : ascii -> bool) (s : text) : list text :=
  match s with
  | [] => [[]]
  | c :: s =>
      if sep c then [] :: split_by sep s
      else match split_by sep s with
           | w :: ws => (c :: w) :: ws
           | [] => [[c]]
           end
  end.

(** BufRead::lines: a line ends with LF, and a CR before it is dropped as well; what follows the
    last LF is a line if it is not empty, and is taken as it is *)
Definition strip_cr (l : text) : text :=
  match rev l with
  | c :: r => if Ascii.eqb c CR then rev r else l
  | [] => l
  end.
Fixpoint end_lines (parts : list text) : list text :=
  match parts with
  | [] => []
  | [last] => match last with [] => [] | _ => [last] end
  | l :: parts => strip_cr l :: end_lines parts
  end.
Definition lines_of (s : text) : list text := end_lines (split_by (fun c => Ascii.eqb c LF) s).

(** u64::from_str: an optional plus, then at least one digit; the value has to fit *)
Definition digit_of (c : ascii) : option N :=
  let n := N_of_ascii c in
  if (48 <=? n)%N && (n <=? 57)%N then Some (n - 48)%N else None.
Fixpoint digits_value (s : text) (acc : N) : option N :=
  match s with
  | [] => Some acc
  | c :: s => match digit_of c with
              | Some d => digits_value s (10 * acc + d)%N
              | None => None
              end
  end.
Definition u64_max : N := (2 ^ 64 - 1)%N.
Definition parse_u64 (s : text) : option N :=
  let s := match s with c :: r => if Ascii.eqb c "+"%char then r else s | [] => s end in
  match s with
  | [] => None
  | _ => match digits_value s 0 with
         | Some n => if (n <=? u64_max)%N then Some n else None
         | None => None
         end
  end.

(** Display for unsigned numbers; [k] bounds the number of digits *)
Definition digit_char (d : N) : ascii := ascii_of_N (48 + d).
Fixpoint print_digits (k : nat) (n : N) (acc : text) : text :=
  match k with
  | O => acc
  | S k =>
      let acc := digit_char (n mod 10) :: acc in
      if (n / 10 =? 0)%N then acc else print_digits k (n / 10) acc
  end.
Definition print_nat (n : nat) : text := print_digits (n + 1) (N.of_nat n) [].
