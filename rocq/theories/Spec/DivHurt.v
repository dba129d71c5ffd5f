(** Specification of a divisor finder whose client's functions may throw, with all calls and the weakest guarantees: see DivStale.v and DivCaught.v. *)
From Coq Require Import List Arith Bool Permutation.
From Verif.Base Require Import Res.
From Verif.Spec Require Import DivFinder DivCaught DivStale.
Import ListNotations.

Section DivHurt.
  Context {M : Type}.
  Variable divides : M -> M -> bool.
  Variable same : M -> M -> bool.
  (** Whether the entries that removeMultiples has reported are gone when it throws. *)
  Variable strict : bool.

  (** [hstep l d o r l' d']: a finder that holds [l], and in which searches may go over entries twice if [d], is called. *)
  Inductive hstep (l : list M) (d : bool) : dop M -> outcome M -> list M -> bool -> Prop :=
  | h_search o r d' : o <> DSize -> sstep divides l d o r d' -> hstep l d o r l d'
  (** size() may be too great. *)
  | h_size n : length l <= n -> hstep l d DSize (Answered (DOSize n)) l d
  (** A removal that returns is right. *)
  | h_removed m r l' : dstep divides same l (DRemoveMultiples m) r l' -> hstep l d (DRemoveMultiples m) (Answered r) l' false
  (** One that throws keeps all entries that it has not reported; of those that it has reported, some may be there unless [strict]. *)
  | h_remove_threw m xs l' d' : dcaught divides strict l (DRemoveMultiples m) xs l' -> hstep l d (DRemoveMultiples m) (Threw xs) l' d'
  | h_change o r l' : is_search o = false -> d = false -> cstep divides same true l o r l' -> hstep l d o r l' false.
  Inductive htrace : list M -> bool -> list (dop M) -> list (outcome M) -> list M -> bool -> Prop :=
  | ht_nil l d : htrace l d [] [] l d
  | ht_cons l d o r l1 d1 ops rs l2 d2 : hstep l d o r l1 d1 -> htrace l1 d1 ops rs l2 d2 -> htrace l d (o :: ops) (r :: rs) l2 d2.
End DivHurt.
