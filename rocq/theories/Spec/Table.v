(** What a text laid out in columns looks like.  This file models no C++ code. *)
From Coq Require Import List Arith Bool NArith Ascii String.
From Verif.Base Require Import Text.
Import ListNotations.
Local Notation length := List.length.

Definition nul : ascii := ascii_of_N 0.
(** No line ends inside [l]. *)
Definition plain (l : text) : Prop := ~ In newline l /\ ~ In nul l.

(** The lines of the text of a column, each with the character that fills it up.  A line ends at a newline, at a null character, which is
    followed by the character to fill up with, or at the end of the text. *)
Inductive column_lines : text -> list (text * ascii) -> Prop :=
| cl_none : column_lines [] []
| cl_last l : plain l -> l <> [] -> column_lines l [(l, space)]
| cl_newline l t ls : plain l -> column_lines t ls -> column_lines (l ++ newline :: t) ((l, space) :: ls)
| cl_fill l c t ls : plain l -> column_lines t ls -> column_lines (l ++ nul :: c :: t) ((l, c) :: ls)
| cl_fill_end l : plain l -> column_lines (l ++ [nul]) [(l, space)].

(** A column: what is printed before and after each of its cells, whether the cells are filled up on the right, and its lines. *)
Record column := mk_column { before : text; after : text; fill_right : bool; lines : list (text * ascii) }.

Definition width (c : column) : nat := list_max (map (fun l => length (fst l)) (lines c)).
Definition fill (right : bool) (w : nat) (l : text * ascii) : text :=
  let padding := repeat (snd l) (w - length (fst l)) in
  if right then fst l ++ padding else padding ++ fst l.
(** The cell in row number [r]; columns with few lines end in empty ones. *)
Definition cell (r : nat) (c : column) : text := fill (fill_right c) (width c) (nth r (lines c) ([], space)).
Definition row (prefix : text) (cs : list column) (r : nat) : text :=
  prefix ++ List.concat (map (fun c => before c ++ cell r c ++ after c) cs) ++ [newline].
Definition row_count (cs : list column) : nat := list_max (map (fun c => length (lines c)) cs).
Definition table (prefix : text) (cs : list column) : text := List.concat (map (row prefix cs) (seq 0 (row_count cs))).

(** Where things are. *)
Definition row_length (prefix : text) (cs : list column) : nat :=
  length prefix + list_sum (map (fun c => length (before c) + width c + length (after c)) cs) + 1.
(** The cells of column number [k] begin after this many characters of a row. *)
Definition column_start (prefix : text) (cs : list column) (k : nat) : nat :=
  length prefix + list_sum (map (fun c => length (before c) + width c + length (after c)) (firstn k cs)) +
  match nth_error cs k with Some c => length (before c) | None => 0 end.

(** [t] is [digits] in groups of three from the right with a comma between every two groups. *)
Inductive grouped : text -> text -> Prop :=
| gr_first g : 1 <= length g <= 3 -> grouped g g
| gr_more digits t g : grouped digits t -> length g = 3 -> grouped (digits ++ g) (t ++ ","%char :: g).
