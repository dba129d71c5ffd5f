(** What a user of a divisor finder sees who inserts either every monomial or only those that keep the set minimal, and asks for
    divisors in between; independent of any implementation. *)
From Coq Require Import List Bool.
From Verif.Spec Require Import DivFinder.
Import ListNotations.

Section Client.
  Context {M : Type}.
  Variable divides : M -> M -> bool.
  Variable minimize : bool.

  Inductive request := Put (m : M) | Seek (m : M).
  Definition subject_of (q : request) : M := match q with Put m | Seek m => m end.

  (** Insertion into [l]: all that is held afterwards, and what is thrown out. *)
  Definition put (l : list M) (m : M) : list M :=
    if minimize then (if existsb (fun d => divides d m) l then l else m :: non_multiples divides m l) else m :: l.
  Definition thrown (l : list M) (m : M) : list M :=
    if minimize then (if existsb (fun d => divides d m) l then [] else multiples divides m l) else [].

  Definition held_after (l : list M) (q : request) : list M := match q with Put m => put l m | Seek _ => l end.
  Definition held (qs : list request) : list M := fold_left held_after qs [].
  Definition put_in (qs : list request) : list M := flat_map (fun q => match q with Put m => [m] | Seek _ => [] end) qs.
End Client.
Arguments request M : clear implicits.
