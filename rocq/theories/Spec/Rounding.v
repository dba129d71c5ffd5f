(** Rounded numbers and how they are written: the vocabulary of C44, C45 and C47. *)
From Coq Require Import List NArith ZArith Ascii String.
From Verif.Base Require Import Text.
Import ListNotations.
Local Open Scope N_scope.

(** [t] is the integer nearest to n/d; of two nearest ones it is the larger. *)
Definition half_up (n d t : N) : Prop := 2 * t * d <= 2 * n + d < 2 * (t + 1) * d.
(** The number t/10 with one digit after the point. *)
Definition in_tenths (t : N) : text := decimal (t / 10) ++ ["."%char] ++ [digit (t mod 10)].
