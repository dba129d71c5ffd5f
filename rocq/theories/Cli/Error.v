(** Model of src/mathic/error.h and error.cpp: the exceptions of mathic, with their classes and messages. *)
From Coq Require Import List NArith Ascii String.
From Verif.Base Require Import Text.
Import ListNotations.

(** error.h:10-19, 45-53 the exceptions of mathic *)
Inductive exn :=
| MathicError (msg : text)      (* MathicException itself, by reportError *)
| UnknownName (msg : text)      (* 62-64 *)
| AmbiguousName (msg : text)
| InternalError (msg : text).   (* 19, by reportInternalError *)

(** What a call can do: return, throw, or have undefined behaviour.  No C++ counterpart; error.h:33-42 are the functions that throw. *)
Inductive out (A : Type) := Ret (a : A) | Raise (e : exn) | Undef.
Arguments Ret {A} a. Arguments Raise {A} e. Arguments Undef {A}.
(** Sequencing of calls; no C++ counterpart (an exception of error.h:33-42 passes through the caller) *)
Definition obind {A B : Type} (m : out A) (f : A -> out B) : out B :=
  match m with Ret a => f a | Raise e => Raise e | Undef => Undef end.
Notation "'do*' x ':=' m 'in' k" := (obind m (fun x => k)) (at level 200, x pattern, m at level 100, k at level 200, right associativity).

(** error.cpp:5-7 *)
Definition reportError {A} (msg : text) : out A := Raise (MathicError (txt "ERROR: " ++ msg)).
(** error.cpp:9-11 *)
Definition reportInternalError {A} (msg : text) : out A := Raise (InternalError (txt "INTERNAL ERROR: " ++ msg)).
(** error.h:47-50 throwError, for the class [c] *)
Definition throwError {A} (c : text -> exn) (msg : text) : out A := Raise (c (txt "ERROR: " ++ msg ++ [newline])).
