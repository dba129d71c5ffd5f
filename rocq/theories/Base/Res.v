(** Outcomes of a modelled C++ computation.  This file models no particular C++ code. *)
From Coq Require Import List String.
Import ListNotations.

(** [Ok a]: the call returned normally with [a].
    [UB]: the call has undefined behaviour (out-of-bounds access, division by zero, a dereferenced end iterator, a violated
    documented precondition that the code does not check in release builds).
    [Throw e]: a C++ exception with message [e] left the call.
    [NoFuel]: a loop of the model ran out of the fuel it was given.  This outcome has no counterpart in C++; theorems exclude it. *)
Inductive res (A : Type) : Type :=
| Ok (a : A)
| UB
| Throw (e : string)
| NoFuel.
Arguments Ok {A} a.
Arguments UB {A}.
Arguments Throw {A} e.
Arguments NoFuel {A}.

Definition bind {A B : Type} (m : res A) (f : A -> res B) : res B :=
  match m with
  | Ok a => f a
  | UB => UB
  | Throw e => Throw e
  | NoFuel => NoFuel
  end.

Notation "'let*' x ':=' m 'in' k" := (bind m (fun x => k))
  (at level 200, x pattern, m at level 100, k at level 200, right associativity).

Definition of_option {A : Type} (o : option A) : res A :=
  match o with Some a => Ok a | None => UB end.

(** Runs a list of operations through a transition function, collecting the outputs. *)
Fixpoint run {St Op Out : Type} (step : St -> Op -> res (St * Out)) (s : St) (ops : list Op)
  : res (St * list Out) :=
  match ops with
  | [] => Ok (s, [])
  | o :: ops' =>
      let* (s1, r) := step s o in
      let* (s2, rs) := run step s1 ops' in
      Ok (s2, r :: rs)
  end.
