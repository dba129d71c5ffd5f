(** Reading a text line by line; the specification of what print functions show.  This file models no C++ code. *)
From Coq Require Import List Bool Ascii String.
From Verif.Base Require Import Text.
Import ListNotations.

(** The complete lines of a text, and what follows the last of them *)
Fixpoint lines_from (l : text) (t : text) : list text :=
  match t with
  | [] => []
  | c :: t' => if Ascii.eqb c newline then rev l :: lines_from [] t' else lines_from (c :: l) t'
  end.
Definition lines (t : text) : list text := lines_from [] t.
(** What follows [p] in a text that begins with [p] *)
Fixpoint after (p t : text) : option text :=
  match p, t with
  | [], _ => Some t
  | c :: p', d :: t' => if Ascii.eqb c d then after p' t' else None
  | _, [] => None
  end.
(** What follows the first [c] *)
Fixpoint from (c : ascii) (t : text) : text := match t with [] => [] | d :: t' => if Ascii.eqb d c then t' else from c t' end.
(** A line "Entry n: x" shows x. *)
Definition entry_of (line : text) : option text :=
  match after (txt "Entry ") line with
  | Some t => after (txt " ") (from ":"%char t)
  | None => None
  end.
Definition somes {A : Type} (l : list (option A)) : list A := flat_map (fun o => match o with Some a => [a] | None => [] end) l.
(** All entries that a text shows, in the order of its lines *)
Definition entries_shown (t : text) : list text := somes (map entry_of (lines t)).
(** The number of characters [c] *)
Definition occurrences (c : ascii) (t : text) : nat := count_occ ascii_dec t c.
