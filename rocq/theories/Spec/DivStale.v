(** Specification of the searches of a divisor finder that may go over some entries twice after an exception. *)
From Coq Require Import List Permutation Arith Bool.
From Verif.Base Require Import Res.
From Verif.Spec Require Import DivFinder DivCaught.
Import ListNotations.

(** The calls that only look at the entries. *)
Definition is_search {M : Type} (o : dop M) : bool :=
  match o with DFindDivisor _ | DAllDivisors _ _ | DAllMultiples _ _ | DForAll _ | DSize => true | _ => false end.

Section DivStale.
  Context {M : Type}.
  Variable divides : M -> M -> bool.

  (** The entries that a search should report, of a finder holding [l] *)
  Definition wanted (o : dop M) (l : list M) : option (callback M * list M) :=
    match o with
    | DAllDivisors m cb => Some (cb, divisors divides m l)
    | DAllMultiples m cb => Some (cb, multiples divides m l)
    | DForAll cb => Some (cb, l)
    | _ => None
    end.

  (** [sstep l d o r d']: a finder that holds [l] before and after is searched.  If [d] is false then the outcome is as it should be.
      Otherwise there may be entries [again] that are gone over twice by a search that reports entries.  A search that reports entries and
      returns makes [d] false; an exception may make it true. *)
  Inductive sstep (l : list M) (d : bool) : dop M -> outcome M -> bool -> Prop :=
  | s_find m r d' : is_divisor divides m l r -> (d = false -> d' = false) -> sstep l d (DFindDivisor m) (Answered (DOFound r)) d'
  | s_report o cb all again xs : incl again l -> (d = false -> again = []) -> wanted o (l ++ again) = Some (cb, all) -> reported cb all xs ->
      sstep l d o (Answered (DOList xs)) false
  | s_size : sstep l d DSize (Answered (DOSize (length l))) d
  | s_find_threw m d' : sstep l d (DFindDivisor m) (Threw []) d'
  | s_report_threw o cb all again xs d' : incl again l -> (d = false -> again = []) -> wanted o (l ++ again) = Some (cb, all) -> agreed cb all xs ->
      sstep l d o (Threw xs) d'.
  Inductive strace (l : list M) : bool -> list (dop M) -> list (outcome M) -> bool -> Prop :=
  | st_nil d : strace l d [] [] d
  | st_cons d o r d1 ops rs d2 : sstep l d o r d1 -> strace l d1 ops rs d2 -> strace l d (o :: ops) (r :: rs) d2.
End DivStale.

(** The calls that returned. *)
Fixpoint returned {M : Type} (ops : list (dop M)) (rs : list (outcome M)) : list (dop M) :=
  match ops, rs with
  | o :: ops', Answered _ :: rs' => o :: returned ops' rs'
  | _ :: ops', Threw _ :: rs' => returned ops' rs'
  | _, _ => []
  end.
