(** Property theorems about comparisons, key equalities and hashes that obey no law (C73).

    The other theorems assume that the client's comparison is a strict weak order, that equal keys have equal hashes, and so on.  Here the client's
    functions are any functions at all.  The answers may then come in any order, but the containers still end every call, touch no memory they
    do not own, and neither lose nor invent an entry. *)
From Coq Require Import List Arith Bool NArith Permutation.
From Verif.Base Require Import Res.
From Verif.Spec Require Import PQ PQFacts HMap HLoose.
From Verif.Heap Require Import Model AnyOrderProofs.
From Verif.TourTree Require Import Model AnyOrderProofs.
From Verif.Geobucket Require Import Model AnyOrderProofs.
From Verif.HashTable Require Import Model AnyEqualProofs.
From Verif.Queues Require Import AnyOrderProofs.
Import ListNotations.

(** [pq_correct (fun _ _ => false)] is the specification of a queue in which any entry counts as a largest one; undefined behaviour is
    only allowed when top(), pop() or decreaseTop() is called on an empty queue. *)
Theorem C73_heap_any_comparison : forall (E : Type) (lt eqv : E -> E -> bool) (on : bool) (dedup : E -> E -> E),
  pq_correct (fun _ _ => false) (dedup_dd on eqv dedup) (heap_step E lt eqv on dedup) [] (fun t => t) (fun _ => true).
Proof. exact @heap_any. Qed.
Print Assumptions C73_heap_any_comparison.

Theorem C73_tourtree_any_comparison : forall (E : Type) (lt : E -> E -> bool),
  pq_correct (fun _ _ => false) no_dd (tt_step E lt) (tt_new E) (tt_forAll E) (tt_api E).
Proof. exact @tt_any. Qed.
Print Assumptions C73_tourtree_any_comparison.

(** The calls of Geobucket that are defined: every range is non-empty, and clear() is not called when the front is tracked (C24). *)
Definition gb_calls {E : Type} (C : config) (o : op E) : bool :=
  match o with PushRange [] => false | Clear => negb (trackFront C) | _ => true end.
Lemma gb_calls_ok {E : Type} (C : config) (o : op E) : gb_calls C o = true -> o <> PushRange [] /\ (o = Clear -> trackFront C = false).
Proof. destruct o as [|[|x xs]| | | | | | |]; intros H; split; try discriminate. intros _. now apply negb_true_iff. Qed.

(** In particular a range that is pushed need not be sorted. *)
Theorem C73_geobucket_any_comparison : forall (E : Type) (lt eqv : E -> E -> bool) (dedup : E -> E -> E) (C : config),
  2 <= geoBase C -> 1 <= minBucketSize C -> 1 <= insertFactor C ->
  pq_correct (fun _ _ => false) (dedup_dd (supportDeduplication C) (fun a b => eqv a b || eqv b a) dedup)
    (gb_step E lt eqv dedup C) (gb_new E C) (gb_forAll E) (gb_calls C).
Proof. exact (fun E lt eqv dedup C H1 H2 H3 => gb_any lt eqv dedup C (gb_calls C) H1 H2 H3 (gb_calls_ok C)). Qed.
Print Assumptions C73_geobucket_any_comparison.

(** Spelt out for queues without de-duplication: what was pushed is what was popped and what is held. *)
Theorem C73_nothing_lost : forall (E : Type) (lt eqv : E -> E -> bool) (dedup : E -> E -> E) ops, forallb keeps ops = true ->
  (forall s rs, run (heap_step E lt eqv false dedup) [] ops = Ok (s, rs) -> Permutation (pushed ops) (popped ops rs ++ s)) /\
  (forall s rs, forallb (tt_api E) ops = true -> run (tt_step E lt) (tt_new E) ops = Ok (s, rs) ->
    Permutation (pushed ops) (popped ops rs ++ tt_forAll E s)) /\
  (forall C s rs, 2 <= geoBase C -> 1 <= minBucketSize C -> 1 <= insertFactor C -> supportDeduplication C = false ->
    forallb (gb_calls C) ops = true -> run (gb_step E lt eqv dedup C) (gb_new E C) ops = Ok (s, rs) ->
    Permutation (pushed ops) (popped ops rs ++ gb_forAll E s)).
Proof.
  exact (fun E lt eqv dedup ops Hk => conj (fun s rs => heap_keeps lt eqv dedup ops s rs Hk) (conj (fun s rs => tt_keeps lt ops s rs Hk)
    (fun C s rs H1 H2 H3 Hs => gb_keeps lt eqv dedup C (gb_calls C) ops s rs H1 H2 H3 Hs (gb_calls_ok C) Hk))).
Qed.
Print Assumptions C73_nothing_lost.

(** HashTable: an insert either adds its entry or names one whose key keysEqual accepted, a lookup names such an entry or finds nothing, the
    handles given out before stay good, and the count is the number of entries.  [hash] and [keq] are any functions. *)
Theorem C73_hashtable_any_equality : forall (K V : Type) (keq : K -> K -> bool) (hash : K -> N) (nbits : nat) (ops : list (hop K V)),
  match run (ht_step K V keq hash) (ht_new K V nbits) ops with
  | Ok (t, rs) => exists l, hloose_trace keq [] ops rs l /\ t_count t = length l /\ ht_computeNodeCount K V t = Ok (length l)
  | UB => exists pre o post rs l, ops = pre ++ o :: post /\ hloose_trace keq [] pre rs l /\ bad_handle (length l) o
  | Throw _ => False
  | NoFuel => False
  end.
Proof. exact @ht_any. Qed.
Print Assumptions C73_hashtable_any_equality.

(** Stone, paper, scissors: a comparison that goes round in a circle, and one that is always true. *)
Definition rps (a b : nat) : bool := Nat.eqb b ((a + 1) mod 3).
Definition ex_gb : config := mk_config 2 1 1 false false true false false Plain.
Definition ex_ops : list (op nat) := [Push 0; Push 1; Push 2; PushRange [1; 0; 2; 2]; Pop; Push 1; DecreaseTop 0; Pop; Size; Pop].
Definition answers {St} (step : St -> op nat -> res (St * out nat)) (init : St) (held : St -> list nat) (ops : list (op nat)) : res (list (out nat) * list nat) :=
  let* (s, rs) := run step init ops in Ok (rs, held s).
Example C73_nonvacuous :
  rps 0 1 = true /\ rps 1 2 = true /\ rps 2 0 = true /\
  answers (heap_step _ rps Nat.eqb false (fun a _ => a)) [] (fun t => t) ex_ops =
    Ok ([ONone; ONone; ONone; ONone; OEntry 2; ONone; ONone; OEntry 2; OSize 6; OEntry 1], [1; 0; 1; 0; 0]) /\
  answers (heap_step _ (fun _ _ => true) Nat.eqb true (fun a _ => a)) [] (fun t => t) ex_ops =
    Ok ([ONone; ONone; ONone; ONone; OEntry 2; ONone; ONone; OEntry 0; OSize 6; OEntry 2], [1; 1; 0; 0; 2]) /\
  answers (tt_step _ rps) (tt_new _) (tt_forAll _) (filter (tt_api _) ex_ops) =
    Ok ([ONone; ONone; ONone; ONone; OEntry 2; ONone; ONone; OEntry 1; OEntry 1], [0; 0; 2; 2; 0]) /\
  forallb (gb_calls ex_gb) ex_ops = true /\
  answers (gb_step _ rps Nat.eqb (fun a _ => a) ex_gb) (gb_new _ ex_gb) (gb_forAll _) ex_ops =
    Ok ([ONone; ONone; ONone; ONone; OEntry 2; ONone; ONone; OEntry 1; OSize 6; OEntry 1], [2; 2; 0; 0; 0]).
Proof. vm_compute. auto 10. Qed.

(** A key equality that is not even reflexive: the second insert of 5 makes a second entry, and 7 is taken for 5. *)
Example C73_hashtable_nonvacuous :
  (let* (_, rs) := run (ht_step nat nat Nat.ltb (fun k => N.of_nat (k mod 2))) (ht_new _ _ 2)
     [HInsert 5 50; HInsert 5 51; HInsert 7 70; HInsert 3 30; HLookup 5; HLookup 6; HLookup 9; HKey 1; HSetValue 2 9; HValue 2] in Ok rs) =
  Ok [HOInserted true 0; HOInserted true 1; HOInserted false 0; HOInserted true 2; HOFound (Some 2); HOFound None; HOFound (Some 0);
      HOKey 5; HONone; HOValue 9].
Proof. vm_compute. reflexivity. Qed.
