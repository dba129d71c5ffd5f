(** Specification of a divisor finder whose client's functions may throw, where the client catches the exceptions and goes on. *)
From Coq Require Import List Permutation Arith Bool.
From Verif.Base Require Import Res.
From Verif.Spec Require Import DivFinder.
Import ListNotations.

(** A call answers, or throws after the entries [xs] were handed to the output. *)
Inductive outcome (M : Type) : Type :=
| Answered (r : dout M)
| Threw (xs : list M).
Arguments Answered {M} r. Arguments Threw {M} xs.

Section DivCaught.
  Context {M : Type}.
  Variable divides : M -> M -> bool.
  Variable same : M -> M -> bool.
  (** Whether the entries that removeMultiples has reported are gone when it throws. *)
  Variable strict : bool.

  (** Out of the multiset [all], the list [xs] was reported to [cb], which agreed to proceed every time. *)
  Definition agreed (cb : callback M) (all xs : list M) : Prop :=
    exists rest, Permutation (xs ++ rest) all /\ forall p q, xs = p ++ q -> p <> [] -> cb p = true.

  (** [dcaught l o xs l']: the call [o] on a finder holding [l] may throw after handing out [xs] and leave [l']. *)
  Inductive dcaught (l : list M) : dop M -> list M -> list M -> Prop :=
  (** The insertion has not happened yet, or it has. *)
  | c_insert e l' : Permutation l' l \/ Permutation l' (e :: l) -> dcaught l (DInsert e) [] l'
  (** The first entries of the range have been inserted. *)
  | c_range es es1 es2 l' : es = es1 ++ es2 -> Permutation l' (es1 ++ l) -> dcaught l (DInsertRange es) [] l'
  (** [rest] are the multiples not reported yet.  They are all there, as are the entries to be kept; of [extra] it is only known that they
      were there before and are not more than those reported. *)
  | c_multiples m xs rest extra l' : Permutation (xs ++ rest) (multiples divides m l) ->
      Permutation l' (non_multiples divides m l ++ rest ++ extra) -> incl extra l -> length extra <= length xs -> (strict = true -> extra = []) ->
      dcaught l (DRemoveMultiples m) xs l'
  | c_element m l' : Permutation l' l -> dcaught l (DRemoveElement m) [] l'
  | c_find m l' : Permutation l' l -> dcaught l (DFindDivisor m) [] l'
  | c_all_divisors m cb xs l' : agreed cb (divisors divides m l) xs -> Permutation l' l -> dcaught l (DAllDivisors m cb) xs l'
  | c_all_multiples m cb xs l' : agreed cb (multiples divides m l) xs -> Permutation l' l -> dcaught l (DAllMultiples m cb) xs l'
  | c_for_all cb xs l' : agreed cb l xs -> Permutation l' l -> dcaught l (DForAll cb) xs l'
  | c_to_front m l' : Permutation l' l -> dcaught l (DToFront m) [] l'
  | c_rebuild l' : Permutation l' l -> dcaught l DRebuild [] l'.

  (** One call of a client that catches exceptions. *)
  Definition cstep (l : list M) (o : dop M) (r : outcome M) (l' : list M) : Prop :=
    match r with
    | Answered r => dstep divides same l o r l'
    | Threw xs => dcaught l o xs l'
    end.
  Inductive ctrace : list M -> list (dop M) -> list (outcome M) -> list M -> Prop :=
  | ct_nil l : ctrace l [] [] l
  | ct_cons l o r l1 ops rs l2 : cstep l o r l1 -> ctrace l1 ops rs l2 -> ctrace l (o :: ops) (r :: rs) l2.

  (** The implementation [step], of calls with a number of client calls that return before one throws, started in [s0], goes on
      answering correctly whatever throws: every history runs to its end as allowed above, unless it makes a call that breaks the
      precondition [pre], or a call that is not [safe] throws.  What the latter leaves is known unless the call is [wild]. *)
  Definition goes_on {St : Type} (step : St -> dop M * nat -> res (St * outcome M)) (s0 : St) (abs : St -> list M)
    (pre : list M -> dop M -> bool) (safe wild : dop M -> bool) : Prop :=
    forall h,
      (exists s rs, run step s0 h = Ok (s, rs) /\ ctrace (abs s0) (map fst h) rs (abs s)) \/
      (exists h1 o b h2 s rs, h = h1 ++ (o, b) :: h2 /\ run step s0 h1 = Ok (s, rs) /\ ctrace (abs s0) (map fst h1) rs (abs s) /\
        (pre (abs s) o = false \/ safe o = false /\ exists s' xs, step s (o, b) = Ok (s', Threw xs) /\ (wild o = false -> dcaught (abs s) o xs (abs s')))).
End DivCaught.
