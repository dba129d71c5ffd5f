(** Model of the functions of src/mathic/ColumnPrinter.cpp that print numbers (commafy is in Columns.v).

    Unsigned long long has 64 bits.  double is IEEE 754 binary64 and expressions are evaluated in that precision.  Streams print in the
    "C" locale. *)
From Coq Require Import List Arith Bool ZArith NArith Ascii String.
From Verif.Base Require Import Res Text Double.
Import ListNotations.
Local Notation length := List.length.

(** Conversion of an unsigned long long: ColumnPrinter.cpp:210, 241, 259 *)
Definition of_N (n : N) : double := of_Z (Z.of_N n).

(** ColumnPrinter.cpp:227-232 *)
Definition oneDecimal (d : double) : res text :=
  let* l := to_unsigned 64 (dadd (dmul d (of_Z 10)) (literal 1 2)) in
  Ok (decimal (l / 10) ++ ["."%char] ++ decimal (l mod 10)).

(** ColumnPrinter.cpp:204-211 *)
Definition ratioInteger (numerator denominator : N) : res text :=
  if (denominator =? 0)%N then Ok (if (numerator =? 0)%N then txt "0/0" else txt "?/0")
  else oneDecimal (ddiv (of_N numerator) (of_N denominator)).
(** ColumnPrinter.cpp:173-178 *)
Definition percentInteger (numerator denominator : N) : res text :=
  let* s := ratioInteger ((numerator * 100) mod 2 ^ 64) denominator in Ok (s ++ ["%"%char]).
(** ColumnPrinter.cpp:187-198 *)
Definition percentIntegerFixed (numerator denominator : N) : res text :=
  let* str := percentInteger numerator denominator in
  let maxSize := 6%nat in
  if maxSize <? length str then Ok str else Ok (repeat space (maxSize - length str) ++ str).

(** ColumnPrinter.cpp:213-225 *)
Definition epsilon : double := literal 1 1000000000.
(** ColumnPrinter.cpp:217-219: between -epsilon and epsilon *)
Definition tiny (d : double) : bool := dltb (dopp epsilon) d && dltb d epsilon.
(** ColumnPrinter.cpp:213-225 ratioDouble *)
Definition ratioDouble (numerator denominator : double) : res text :=
  if tiny denominator then Ok (if tiny numerator then txt "0/0" else txt "?/0")
  else oneDecimal (ddiv numerator denominator).
(** ColumnPrinter.cpp:180-185 *)
Definition percentDouble2 (numerator denominator : double) : res text :=
  let* s := ratioDouble (dmul numerator (of_Z 100)) denominator in Ok (s ++ ["%"%char]).
(** ColumnPrinter.cpp:200-202 *)
Definition percentDouble (ratio : double) : res text :=
  let* s := oneDecimal (dmul ratio (of_Z 100)) in Ok (s ++ ["%"%char]).

(** ColumnPrinter.cpp:245-246 and 263-264: the loop; [left] is unitCount - i *)
Fixpoint choose_unit (base limit : double) (left i : nat) (amount : double) : nat * double :=
  match left with
  | O => (i, amount)
  | S n => if dleb limit amount then choose_unit base limit n (S i) (ddiv amount base) else (i, amount)
  end.
(** ColumnPrinter.cpp:239-247 and 257-265; reading past the end of [units] is UB *)
Definition with_unit (base limit : double) (units : list text) (l : N) : res text :=
  let '(i, amount) := choose_unit base limit (length units) 0 (ddiv (of_N l) base) in
  let* s := oneDecimal amount in
  let* u := of_option (nth_error units i) in
  Ok (s ++ u).
(** ColumnPrinter.cpp:234-250 *)
Definition withSIPrefix (l : N) : res text :=
  if (l <? 1000)%N then Ok (decimal l)
  else with_unit (of_Z 1000) (literal 99995 100) [txt "k"; txt "M"; txt "G"; txt "T"] l.
(** ColumnPrinter.cpp:252-268 *)
Definition bytesInUnit (bytes : N) : res text :=
  if (bytes <? 1024)%N then Ok (decimal bytes ++ txt "B")
  else with_unit (of_Z 1024) (literal 102395 100) [txt "kB"; txt "MB"; txt "GB"; txt "TB"] bytes.
