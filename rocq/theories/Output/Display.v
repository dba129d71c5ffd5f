(** Model of src/mathic/display.cpp.

    The result is what is written to stderr.  A position in the message is modelled by the part of the message from there on.  The C++
    standard requires that the argument of isspace is representable as unsigned char or EOF.  Where char is signed, as on most machines, a
    byte above 127 is not; this is UB in the model.  displayException, which passes the text of an exception on to display, has a handler for
    exceptions thrown by display; it is not modelled. *)
From Coq Require Import List Arith Bool NArith Ascii String.
From Verif.Base Require Import Res Text.
From Verif.Output Require Import Columns.
Import ListNotations.
Local Notation length := List.length.

(** display.cpp:9 *)
Definition ConsoleWidth : nat := 79.

(** isspace in the "C" locale (display.cpp:40, 52, 74) *)
Definition isspace (c : ascii) : res bool :=
  let n := N_of_ascii c in
  if (127 <? n)%N then UB else Ok (((n =? 32) || ((9 <=? n) && (n <=? 13)))%N).

(** display.cpp:97-100: what is printed and the size of the line afterwards *)
Definition print_raw (word : text) (lineSize : nat) : text * nat := (c_str word, lineSize + length word).
(** display.cpp:66-69 *)
Definition new_line : text * nat := ([newline], 0).

(** display.cpp:71-78: the indentation and the rest of the message *)
Fixpoint read_indentation (msg : text) : res (text * text) :=
  match msg with
  | [] => Ok ([], [])
  | c :: rest =>
      if Ascii.eqb c newline then Ok ([], msg)
      else
        let* s := isspace c in
        if s then let* (i, r) := read_indentation rest in Ok (c :: i, r) else Ok ([], msg)
  end.
(** display.cpp:49-55 *)
Fixpoint read_word (msg : text) : res (text * text) :=
  match msg with
  | [] => Ok ([], [])
  | c :: rest =>
      if Ascii.eqb c newline then Ok ([], msg)
      else
        let* s := isspace c in
        if s then Ok ([], msg) else let* (w, r) := read_word rest in Ok (c :: w, r)
  end.

Section Printer.
  Variable prefix : text.

  (** display.cpp:80-95 *)
  Definition print_word (indentation wordSpacePrefix word : text) (lineSize : nat) : text * nat :=
    let wordAndPrefixSize := length word + length wordSpacePrefix in
    let '(out1, size1) :=
      if negb (lineSize =? 0) && (ConsoleWidth <? lineSize + wordAndPrefixSize) then
        let '(o1, s1) := new_line in
        let '(o2, s2) := print_raw prefix s1 in
        let '(o3, s3) := print_raw indentation s2 in
        (o1 ++ o2 ++ o3, s3)
      else print_raw wordSpacePrefix lineSize in
    let '(out2, size2) := print_raw word size1 in
    (out1 ++ out2, size2).

  (** display.cpp:35-59: what is printed and the rest of the message *)
  Fixpoint print_words (fuel : nat) (indentation wordSpacePrefix msg : text) (lineSize : nat) : res (text * text) :=
    match msg with
    | [] => Ok ([], [])
    | c :: rest =>
        match fuel with
        | O => NoFuel
        | S f =>
            if Ascii.eqb c newline then Ok ([], rest)
            else
              let* s := isspace c in
              if s then print_words f indentation (wordSpacePrefix ++ [c]) rest lineSize
              else
                let* (word, rest') := read_word msg in
                let '(out, size) := print_word indentation wordSpacePrefix word lineSize in
                let* (out', rest'') := print_words f indentation [] rest' size in
                Ok (out ++ out', rest'')
        end
    end.

  (** display.cpp:19-62 *)
  Fixpoint print_lines (fuel : nat) (msg : text) : res text :=
    match msg with
    | [] => Ok []
    | _ :: _ =>
        match fuel with
        | O => NoFuel
        | S f =>
            let* (indentation, rest) := read_indentation msg in
            let '(out1, size1) := print_raw prefix 0 in
            let '(out2, size2) := print_raw indentation size1 in
            match rest with
            | [] => Ok (out1 ++ out2)
            | c :: rest' =>
                if Ascii.eqb c newline then
                  let* more := print_lines f rest' in
                  Ok (out1 ++ out2 ++ fst new_line ++ more)
                else
                  let* (out3, rest'') := print_words (length rest) indentation [] rest size2 in
                  let* more := print_lines f rest'' in
                  Ok (out1 ++ out2 ++ out3 ++ fst new_line ++ more)
            end
        end
    end.
End Printer.

(** display.cpp:115-117; display.h gives prepend the default value "" *)
Definition display (msg prepend : text) : res text := print_lines prepend (length msg) msg.
(** display.cpp:119-129 *)
Definition displayNote (msg : text) : res text := display (txt "NOTE: " ++ msg ++ [newline]) [].
(** display.cpp:123-125 displayError *)
Definition displayError (msg : text) : res text := display (txt "ERROR: " ++ msg ++ [newline]) [].
(** display.cpp:127-129 displayInternalError *)
Definition displayInternalError (msg : text) : res text := display (txt "INTERNAL ERROR: " ++ msg ++ [newline]) [].
