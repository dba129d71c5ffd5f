(** How an elapsed time is written: the vocabulary of C47. *)
From Coq Require Import List NArith Bool Ascii String.
From Verif.Base Require Import Text.
Import ListNotations.
Local Open Scope N_scope.

(** [s] shows [ms] milliseconds as hours, minutes, seconds and three digits of milliseconds.  Hours are left out if there are none, and
    minutes if there are neither hours nor minutes. *)
Definition shows_time (ms : N) (s : text) : Prop :=
  exists h m sec f, ms = ((h * 60 + m) * 60 + sec) * 1000 + f /\ m < 60 /\ sec < 60 /\ f < 1000 /\
    s = (if h =? 0 then [] else decimal h ++ ["h"%char]) ++
        (if (h =? 0) && (m =? 0) then [] else decimal m ++ ["m"%char]) ++
        decimal sec ++ ["."%char; digit (f / 100); digit (f / 10 mod 10); digit (f mod 10); "s"%char].
