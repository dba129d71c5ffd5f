(** Specification of mathic's divisor finders (DivFinder.h), independent of any implementation.

    A finder holds a finite multiset of entries, written as a list up to permutation.  Entries and monomials are values of one type
    [M]; a configuration in which they differ is the case of a disjoint union of which only one half is ever inserted. *)
From Coq Require Import List Permutation Arith Bool ZArith.
From Verif.Base Require Import Res.
From Verif.Spec Require Import Reach.
Import ListNotations.

(** A callback object is asked after each entry reported to it whether to proceed; its answer may depend on all that was reported. *)
Definition callback (M : Type) : Type := list M -> bool.

Inductive dop (M : Type) : Type :=
| DInsert (e : M)                         (* insert(e) *)
| DInsertRange (es : list M)              (* insert(begin, end) *)
| DRemoveMultiples (m : M)                (* removeMultiples(m, out) *)
| DRemoveElement (m : M)                  (* removeElement(m) *)
| DFindDivisor (m : M)                    (* findDivisor(m) *)
| DAllDivisors (m : M) (cb : callback M)  (* findAllDivisors(m, out) *)
| DAllMultiples (m : M) (cb : callback M) (* findAllMultiples(m, out) *)
| DForAll (cb : callback M)               (* forAll(out) *)
| DToFront (m : M)                        (* DivList only: moveToFront(findDivisorIterator(m)) if there is a divisor *)
| DRebuild                                (* rebuild() *)
| DSize.                                  (* size() *)
Arguments DInsert {M} e. Arguments DInsertRange {M} es. Arguments DRemoveMultiples {M} m. Arguments DRemoveElement {M} m.
Arguments DFindDivisor {M} m. Arguments DAllDivisors {M} m cb. Arguments DAllMultiples {M} m cb. Arguments DForAll {M} cb.
Arguments DToFront {M} m. Arguments DRebuild {M}. Arguments DSize {M}.

Inductive dout (M : Type) : Type :=
| DONone                             (* returns void *)
| DOBool (b : bool)
| DORemoved (b : bool) (xs : list M) (* the value returned and the entries handed to the output, in order *)
| DOFound (r : option M)             (* pointer to an entry, or null *)
| DOList (xs : list M)               (* the entries handed to the callback, in order *)
| DOSize (n : nat).
Arguments DONone {M}. Arguments DOBool {M} b. Arguments DORemoved {M} b xs. Arguments DOFound {M} r. Arguments DOList {M} xs.
Arguments DOSize {M} n.

Section Spec.
  Context {M : Type}.
  Variable divides : M -> M -> bool.
  Variable same : M -> M -> bool.   (* equal exponents *)

  (** Out of the multiset [all], the list [xs] was reported to the callback [cb]: different members of [all], the callback agreed to
      proceed after each but the last, and if anything of [all] is missing then the callback declined after the last one. *)
  Definition reported (cb : callback M) (all xs : list M) : Prop :=
    exists rest, Permutation (xs ++ rest) all /\
      (forall p q, xs = p ++ q -> p <> [] -> q <> [] -> cb p = true) /\
      (rest <> [] -> xs <> [] /\ cb xs = false).

  Definition multiples (m : M) (l : list M) : list M := filter (fun e => divides m e) l.
  Definition non_multiples (m : M) (l : list M) : list M := filter (fun e => negb (divides m e)) l.
  Definition divisors (m : M) (l : list M) : list M := filter (fun e => divides e m) l.

  (** [r] is one of the held divisors of [m], or nothing if there is none. *)
  Definition is_divisor (m : M) (l : list M) (r : option M) : Prop :=
    match r with
    | Some e => In e l /\ divides e m = true
    | None => forall e, In e l -> divides e m = false
    end.

  (** [dstep l o r l']: on a finder holding [l] the call [o] may answer [r] and leave [l']. *)
  Inductive dstep (l : list M) : dop M -> dout M -> list M -> Prop :=
  | d_insert e l' : Permutation l' (e :: l) -> dstep l (DInsert e) DONone l'
  | d_range es l' : Permutation l' (es ++ l) -> dstep l (DInsertRange es) DONone l'
  | d_multiples m xs l' : Permutation xs (multiples m l) -> Permutation l' (non_multiples m l) ->
      dstep l (DRemoveMultiples m) (DORemoved (match xs with [] => false | _ => true end) xs) l'
  | d_element m e l' : Permutation l (e :: l') -> same m e = true -> dstep l (DRemoveElement m) (DOBool true) l'
  | d_no_element m l' : Permutation l' l -> (forall e, In e l -> same m e = false) -> dstep l (DRemoveElement m) (DOBool false) l'
  | d_find m r l' : is_divisor m l r -> Permutation l' l -> dstep l (DFindDivisor m) (DOFound r) l'
  | d_all_divisors m cb xs l' : reported cb (divisors m l) xs -> Permutation l' l -> dstep l (DAllDivisors m cb) (DOList xs) l'
  | d_all_multiples m cb xs l' : reported cb (multiples m l) xs -> Permutation l' l -> dstep l (DAllMultiples m cb) (DOList xs) l'
  | d_for_all cb xs l' : reported cb l xs -> Permutation l' l -> dstep l (DForAll cb) (DOList xs) l'
  | d_to_front m r l' : is_divisor m l r -> Permutation l' l -> dstep l (DToFront m) (DOFound r) l'
  | d_rebuild l' : Permutation l' l -> dstep l DRebuild DONone l'
  | d_size l' : Permutation l' l -> dstep l DSize (DOSize (length l)) l'.

  Inductive dtrace : list M -> list (dop M) -> list (dout M) -> list M -> Prop :=
  | dt_nil l : dtrace l [] [] l
  | dt_cons l o r l1 ops rs l2 : dstep l o r l1 -> dtrace l1 ops rs l2 -> dtrace l (o :: ops) (r :: rs) l2.

  (** The implementation [step], constructed by [init], is a correct divisor finder for callers that respect the precondition
      [pre]: every history runs to its end with answers the specification allows, ending in a state whose contents [abs] the
      specification allows, unless, after answers the specification allows, it makes a call that breaks [pre].  No undefined behaviour,
      exception or endless loop is possible before. *)
  Definition df_correct {St : Type} (step : St -> dop M -> res (St * dout M)) (init : res St) (abs : St -> list M)
    (pre : list M -> dop M -> bool) : Prop :=
    exists s0, init = Ok s0 /\ forall ops,
      (exists s rs, run step s0 ops = Ok (s, rs) /\ dtrace [] ops rs (abs s)) \/
      (exists ops1 o ops2 s rs, ops = ops1 ++ o :: ops2 /\ run step s0 ops1 = Ok (s, rs) /\ dtrace [] ops1 rs (abs s) /\ pre (abs s) o = false).

  (** The same call by call: in every state that calls respecting [pre] can reach, every further call that respects [pre] is answered
      as the specification allows, relative to the contents of that very state. *)
  Definition df_steps {St : Type} (step : St -> dop M -> res (St * dout M)) (init : res St) (abs : St -> list M)
    (pre : list M -> dop M -> bool) : Prop :=
    exists s0, init = Ok s0 /\ abs s0 = [] /\
    forall ops s rs, reached step (fun s o => pre (abs s) o = true) s0 ops s rs ->
    forall o, pre (abs s) o = true -> exists s' r, step s o = Ok (s', r) /\ dstep (abs s) o r (abs s').

  (** How often the exponents of [e] occur in [l]. *)
  Definition copies (e : M) (l : list M) : nat := length (filter (fun x => same e x) l).
End Spec.

(** Equal exponents. *)
Definition same_exps {M : Type} (ex : M -> nat -> Z) (nvars : nat) (a b : M) : bool :=
  forallb (fun var => Z.eqb (ex a var) (ex b var)) (seq 0 nvars).
