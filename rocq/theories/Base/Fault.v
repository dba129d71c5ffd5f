(** Client functions that throw.  This file models no particular C++ code.

    A call of a container may call functions of the client, and any of those calls may throw.  A function with a budget [b] is what
    happens when the first [b] calls of client functions return and the next one throws.  The results are those of [res] with one more case:
    [Fine b' a] is a normal return after which [b'] more client calls would have returned, [Left s] is the exception, with [s] the state that it
    leaves behind. *)
From Verif.Base Require Import Res.

Inductive fout (S A : Type) : Type :=
| Fine (b : nat) (a : A)
| Left (s : S).
Arguments Fine {S A} b a.
Arguments Left {S A} s.

(** Goes on after a normal return *)
Definition fbind {S A B : Type} (m : res (fout S A)) (f : nat -> A -> res (fout S B)) : res (fout S B) :=
  let* o := m in match o with Fine b a => f b a | Left s => Ok (Left s) end.

(** A call of a client function: it returns and the rest goes on with [k], or it throws and leaves [s] behind. *)
Definition client {S A : Type} (b : nat) (s : S) (k : nat -> res (fout S A)) : res (fout S A) :=
  match b with 0 => Ok (Left s) | Datatypes.S b' => k b' end.

(** What an exception leaves behind as seen by the caller, who has changed other members of the object before the call. *)
Definition fleft {S S' A : Type} (g : S -> S') (m : res (fout S A)) : res (fout S' A) :=
  let* o := m in match o with Fine b a => Ok (Fine b a) | Left s => Ok (Left (g s)) end.

(** [n] calls of client functions one after the other, while the object is in state [s] *)
Definition clients {S A : Type} (n b : nat) (s : S) (k : nat -> res (fout S A)) : res (fout S A) :=
  if Nat.leb n b then k (Nat.sub b n) else Ok (Left s).
