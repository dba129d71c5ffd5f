(** Model of src/mathic/Timer.cpp.

    clock() is not modelled; the functions take the difference of the clock values.  CLOCKS_PER_SEC is 1000000, as POSIX requires, and
    unsigned long has 64 bits. *)
From Coq Require Import List Arith Bool ZArith NArith Ascii String.
From Verif.Base Require Import Res Text Double.
Import ListNotations.
Local Open Scope N_scope.

(** Timer.cpp:6; POSIX requires this value *)
Definition CLOCKS_PER_SEC : Z := 1000000.

(** Timer.cpp:4-11 *)
Definition getMilliseconds (clocks : Z) : res N :=
  let floatSpan := of_Z clocks in
  let floatMilliseconds := dmul (of_Z 1000) (ddiv floatSpan (of_Z CLOCKS_PER_SEC)) in
  let* milliseconds := to_unsigned 64 floatMilliseconds in
  if dleb (literal 1 2) (dsub floatMilliseconds (of_Z (Z.of_N milliseconds))) then Ok ((milliseconds + 1) mod 2 ^ 64) else Ok milliseconds.

(** "%03lu" *)
Definition three_digits (n : N) : text := repeat (digit 0) (3 - List.length (decimal n)) ++ decimal n.

(** Timer.cpp:13-29 *)
Definition print_file (clocks : Z) : res text :=
  let* milliseconds := getMilliseconds clocks in
  let seconds := milliseconds / 1000 in
  let minutes := seconds / 60 in
  let hours := minutes / 60 in
  let milliseconds := milliseconds mod 1000 in
  let seconds := seconds mod 60 in
  let minutes := minutes mod 60 in
  Ok (txt "(" ++
      (if negb (hours =? 0) then decimal hours ++ txt "h" else []) ++
      (if negb (minutes =? 0) || negb (hours =? 0) then decimal minutes ++ txt "m" else []) ++
      decimal seconds ++ txt "." ++ three_digits milliseconds ++ txt "s)").

(** Timer.cpp:31-50 *)
Definition print_stream (clocks : Z) : res text :=
  let* milliseconds := getMilliseconds clocks in
  let seconds := milliseconds / 1000 in
  let minutes := seconds / 60 in
  let hours := minutes / 60 in
  let milliseconds := milliseconds mod 1000 in
  let seconds := seconds mod 60 in
  let minutes := minutes mod 60 in
  Ok ((if negb (hours =? 0) then decimal hours ++ txt "h" else []) ++
      (if negb (minutes =? 0) || negb (hours =? 0) then decimal minutes ++ txt "m" else []) ++
      decimal seconds ++ txt "." ++ decimal (milliseconds / 100) ++ decimal ((milliseconds / 10) mod 10) ++ decimal (milliseconds mod 10) ++ txt "s").
