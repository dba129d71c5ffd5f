(** Model of src/mathic/ColumnPrinter.cpp, the layout part.

    A position in a text is modelled by the part of the text from there on.  A violated MATHIC_ASSERT is UB, and so is a difference of
    sizes that wraps around, because the code would print that many characters.  Memory use is not modelled. *)
From Coq Require Import List Arith Bool NArith Ascii String.
From Verif.Base Require Import Res Text.
Import ListNotations.
Local Notation length := List.length.
Local Notation "x ?= y" := (Ascii.eqb x y) (at level 70).

(** ColumnPrinter.cpp:7, 90, 139: the character '\0' *)
Definition null_char : ascii := ascii_of_N 0.

(** ColumnPrinter.h:73-79; the vector repeatToEndOfLine is never used *)
Record col := mk_col { c_prefix : text; c_text : text; c_suffix : text; c_flushLeft : bool }.
(** ColumnPrinter.h:80-81 *)
Record printer := mk_printer { cols : list col; prefix : text }.

(** ColumnPrinter.h:18-20 and ColumnPrinter.cpp:32-43 *)
Definition add_column (p : printer) (flushLeft : bool) (pre suf : text) : printer :=
  mk_printer (cols p ++ [mk_col pre [] suf flushLeft]) (prefix p).
(** ColumnPrinter.h:19 *)
Definition default_prefix : text := txt "  ".
(** ColumnPrinter.cpp:20-26 *)
Fixpoint new_printer (columnCount : nat) : printer :=
  match columnCount with
  | O => mk_printer [] []
  | S n => add_column (new_printer n) true default_prefix []
  end.
(** ColumnPrinter.cpp:28-30 *)
Definition set_prefix (p : printer) (t : text) : printer := mk_printer (cols p) t.
(** ColumnPrinter.cpp:45-47 *)
Definition column_count (p : printer) : nat := length (cols p).
(** ColumnPrinter.cpp:49-52 followed by operator<< of the stream *)
Definition write_col (c : col) (t : text) : col := mk_col (c_prefix c) (c_text c ++ t) (c_suffix c) (c_flushLeft c).
(** ColumnPrinter.cpp:49-52 writing to operator[] *)
Fixpoint write_at (cs : list col) (i : nat) (t : text) : res (list col) :=
  match cs, i with
  | [], _ => UB
  | c :: cs', O => Ok (write_col c t :: cs')
  | c :: cs', S j => let* r := write_at cs' j t in Ok (c :: r)
  end.
(** ColumnPrinter.cpp:49-52 writing to operator[] *)
Definition write (p : printer) (i : nat) (t : text) : res printer :=
  let* cs := write_at (cols p) i t in Ok (mk_printer cs (prefix p)).
(** ColumnPrinter.cpp:54-57 *)
Definition repeat_col (p : printer) (repeatThis : ascii) (i : nat) : res printer := write p i [null_char; repeatThis].
(** ColumnPrinter.cpp:59-63 *)
Fixpoint repeat_from (n i : nat) (repeatThis : ascii) (p : printer) : res printer :=
  match n with
  | O => Ok p
  | S m => let* p' := repeat_col p repeatThis i in repeat_from m (S i) repeatThis p'
  end.
(** ColumnPrinter.cpp:59-63 repeatToEndOfLine of all columns *)
Definition repeat_all (p : printer) (repeatThis : ascii) : res printer :=
  if repeatThis ?= newline then UB else repeat_from (column_count p) 0 repeatThis p.

(** ColumnPrinter.cpp:5-10 *)
Fixpoint line_width (t : text) : nat :=
  match t with
  | [] => 0
  | c :: t' => if (c ?= newline) || (c ?= null_char) then 0 else S (line_width t')
  end.

(** ColumnPrinter.cpp:77-98, the loop from 80 to 97 with [maxWidth] *)
Fixpoint max_width (fuel : nat) (t : text) (maxWidth : nat) : res nat :=
  match t with
  | [] => Ok maxWidth
  | _ :: _ =>
      match fuel with
      | O => NoFuel
      | S f =>
          let w := line_width t in
          let maxWidth' := if maxWidth <? w then w else maxWidth in
          match skipn w t with
          | [] => Ok maxWidth'
          | c :: rest =>
              if c ?= null_char then
                match rest with
                | [] => Ok maxWidth'
                | _ :: rest' => max_width f rest' maxWidth'
                end
              else if c ?= newline then max_width f rest maxWidth'
              else max_width f (c :: rest) maxWidth'
          end
      end
  end.

(** ColumnPrinter.cpp:122-129 *)
Definition pad_char (t : text) : ascii :=
  match skipn (line_width t) t with
  | c :: d :: _ => if c ?= null_char then d else space
  | _ => space
  end.
(** ColumnPrinter.cpp:134-149: the characters printed and what is left *)
Fixpoint print_line (padChar : ascii) (t : text) : res (text * text) :=
  match t with
  | [] => Ok ([], [])
  | c :: t' =>
      if c ?= newline then Ok ([], t')
      else if c ?= null_char then
        match t' with
        | [] => Ok ([], [])
        | d :: t'' => if d ?= padChar then Ok ([], t'') else UB
        end
      else let* (shown, rest) := print_line padChar t' in Ok (c :: shown, rest)
  end.
(** ColumnPrinter.cpp:12-17 *)
Definition print_chars (howMany : nat) (c : ascii) : text := repeat c howMany.
(** ColumnPrinter.cpp:132, 152: widths[col] - width on size_t; a negative difference would wrap around, which [UB] stands for here *)
Definition size_minus (a b : nat) : res nat := if b <=? a then Ok (a - b) else UB.
(** ColumnPrinter.cpp:116-154 *)
Definition print_cell (c : col) (columnWidth : nat) (t : text) : res (text * text) :=
  let w := line_width t in
  let padChar := pad_char t in
  let* missing := size_minus columnWidth w in
  let* (shown, rest) := print_line padChar t in
  let padding := print_chars missing padChar in
  Ok (c_prefix c ++ (if c_flushLeft c then [] else padding) ++ shown ++ (if c_flushLeft c then padding else []) ++ c_suffix c, rest).
(** ColumnPrinter.cpp:115-155 *)
Fixpoint print_cells (cs : list (col * nat)) (ts : list text) : res (text * list text) :=
  match cs, ts with
  | (c, w) :: cs', t :: ts' =>
      let* (shown, rest) := print_cell c w t in
      let* (shown', rests) := print_cells cs' ts' in
      Ok (shown ++ shown', rest :: rests)
  | _, _ => Ok ([], [])
  end.
(** ColumnPrinter.cpp:104-110 *)
Definition all_done (ts : list text) : bool := forallb (fun t => match t with [] => true | _ => false end) ts.
(** ColumnPrinter.cpp:103-157 *)
Fixpoint print_rows (fuel : nat) (pre : text) (cs : list (col * nat)) (ts : list text) : res text :=
  if all_done ts then Ok []
  else
    match fuel with
    | O => NoFuel
    | S f =>
        let* (shown, rests) := print_cells cs ts in
        let* more := print_rows f pre cs rests in
        Ok (pre ++ shown ++ [newline] ++ more)
    end.
(** ColumnPrinter.cpp:74-99 *)
Fixpoint widths (cs : list col) : res (list (col * nat)) :=
  match cs with
  | [] => Ok []
  | c :: cs' =>
      let* w := max_width (length (c_text c)) (c_text c) 0 in
      let* ws := widths cs' in
      Ok ((c, w) :: ws)
  end.
(** ColumnPrinter.cpp:65-158 *)
Definition print (p : printer) : res text :=
  let ts := map c_text (cols p) in
  let* cs := widths (cols p) in
  print_rows (list_max (map (@List.length ascii) ts)) (prefix p) cs ts.

(** What fputs writes for the string c_str() returns: it stops at the first null character (ColumnPrinter.cpp:282) *)
Fixpoint c_str (t : text) : text :=
  match t with
  | [] => []
  | c :: t' => if c ?= null_char then [] else c :: c_str t'
  end.
(** ColumnPrinter.cpp:279-283 *)
Definition print_file (p : printer) : res text := let* t := print p in Ok (c_str t).

(** ColumnPrinter.cpp:160-171; [size] is uncomma.size() *)
Fixpoint commafy_loop (size i : nat) (uncomma : text) : text :=
  match uncomma with
  | [] => []
  | c :: rest => c :: (if negb (i =? size - 1) && ((size - i) mod 3 =? 1) then [","%char] else []) ++ commafy_loop size (S i) rest
  end.
(** ColumnPrinter.cpp:160-171 commafy *)
Definition commafy (l : N) : text := let uncomma := decimal l in commafy_loop (length uncomma) 0 uncomma.
