(** What wrapping the lines of a text means.  This file models no C++ code. *)
From Coq Require Import List Arith Bool NArith Ascii String.
From Verif.Base Require Import Text.
Import ListNotations.
Local Notation length := List.length.
Local Open Scope N_scope.

(** White space: the bytes 9 (tab) to 13 and 32 (space). *)
Definition white (c : ascii) : bool := let n := N_of_ascii c in (n =? 32) || ((9 <=? n) && (n <=? 13)).
Definition blank (t : text) : Prop := Forall (fun c => white c = true /\ c <> newline) t.
Definition word (t : text) : Prop := t <> [] /\ Forall (fun c => white c = false) t.

(** The words of a text. *)
Fixpoint words_from (current : text) (t : text) : list text :=
  let flush := match current with [] => [] | _ => [current] end in
  match t with
  | [] => flush
  | c :: t' => if white c then flush ++ words_from [] t' else words_from (current ++ [c]) t'
  end.
Definition words (t : text) : list text := words_from [] t.

(** A line of a message: white space, words with the white space before each of them, white space. *)
Record line := mk_line { indent : text; content : list (text * text); tail : text }.
Definition joined (l : list (text * text)) : text := List.concat (map (fun gw => fst gw ++ snd gw) l).
Definition line_text (l : line) : text := indent l ++ joined (content l) ++ tail l.
Definition gaps_ok (l : list (text * text)) : Prop := Forall (fun gw => blank (fst gw) /\ fst gw <> []) l.
Definition line_ok (l : line) : Prop :=
  blank (indent l) /\ blank (tail l) /\ Forall (fun gw => word (snd gw)) (content l) /\
  match content l with
  | [] => tail l = []
  | (g, _) :: rest => g = [] /\ gaps_ok rest
  end.

(** What is printed in one line: the gap before its first word is left out. *)
Definition printed (prefix ind : text) (g : list (text * text)) : text :=
  prefix ++ ind ++ match g with [] => [] | (_, w) :: rest => w ++ joined rest end.

(** [gs] says which words are printed in which line when the words [ws] are wrapped at [limit]: all of them in order, a line ends only
    where the next word would not fit, and only a line with at most one word is too long. *)
Record wrapped (limit : nat) (prefix ind : text) (ws : list (text * text)) (gs : list (list (text * text))) : Prop := {
  wr_words : List.concat gs = ws;
  wr_some : gs <> [];
  wr_nonempty : forall g, In g (List.tl gs) -> g <> [];
  wr_fits : forall g, In g gs -> (length (printed prefix ind g) <= limit)%nat \/ (length g <= 1)%nat;
  wr_needed : forall before g gap w rest after, gs = before ++ g :: ((gap, w) :: rest) :: after ->
    (limit < length (printed prefix ind g) + length gap + length w)%nat /\ printed prefix ind g <> []
}.
