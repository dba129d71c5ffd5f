(** Specification of searches that may miss something: what they return or report is right, and they need not report all of it. *)
From Coq Require Import List Arith Bool Permutation.
From Verif.Base Require Import Res.
From Verif.Spec Require Import DivFinder.
Import ListNotations.

Section DivHonest.
  Context {M : Type}.
  Variable divides : M -> M -> bool.

  (** Some of [all] is handed to the callback, each at most as often as it is there, until the callback says stop. *)
  Definition some_reported (cb : callback M) (all xs : list M) : Prop :=
    exists rest, Permutation (xs ++ rest) all /\ forall p q, xs = p ++ q -> p <> [] -> q <> [] -> cb p = true.

  (** What a call on a finder that holds [l] may answer. *)
  Inductive honest (l : list M) : dop M -> dout M -> Prop :=
  (** A divisor that is found is one. *)
  | o_find m r : match r with Some e => In e l /\ divides e m = true | None => True end -> honest l (DFindDivisor m) (DOFound r)
  | o_divisors m cb xs : some_reported cb (divisors divides m l) xs -> honest l (DAllDivisors m cb) (DOList xs)
  | o_multiples m cb xs : some_reported cb (multiples divides m l) xs -> honest l (DAllMultiples m cb) (DOList xs)
  (** forAll and size are right. *)
  | o_for_all cb xs : reported cb l xs -> honest l (DForAll cb) (DOList xs)
  | o_size : honest l DSize (DOSize (length l)).
End DivHonest.
