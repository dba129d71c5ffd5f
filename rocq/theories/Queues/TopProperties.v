(** Property theorems about top() and the call after it (C57). *)
From Coq Require Import List Arith Bool Permutation Lia.
From Verif.Base Require Import Res Order.
From Verif.Spec Require Import PQ TopAgree.
From Verif.Heap Require Import Model Properties.
From Verif.TourTree Require Import Model.
From Verif.StlSet Require Import Model.
From Verif.Geobucket Require Import Model Properties.
From Verif.Queues Require Import TopProofs.
Import ListNotations.

(** C57.  See [top_agrees] in Spec/TopAgree.v for the meaning. *)
Theorem C57_heap_top_agrees : forall (E : Type) (lt eqv : E -> E -> bool) (on : bool) (dedup : E -> E -> E), strict_weak lt ->
  (on = true -> forall a b, lt a b = false -> eqv a b = true -> equivalent lt (dedup a b) a) ->
  top_agrees (dedup_dd on eqv dedup) (heap_step E lt eqv on dedup) [] (fun t => t) (fun _ => true).
Proof. exact @heap_top_agrees. Qed.
Print Assumptions C57_heap_top_agrees.

Theorem C57_tourtree_top_agrees : forall (E : Type) (lt : E -> E -> bool), strict_weak lt ->
  top_agrees no_dd (tt_step E lt) (tt_new E) (tt_forAll E) (tt_api E).
Proof. exact @tt_top_agrees. Qed.
Print Assumptions C57_tourtree_top_agrees.

Theorem C57_stlset_top_agrees : forall (E : Type) (lt : E -> E -> bool), top_agrees no_dd (stl_step E lt) [] (fun m => m) (stl_api E).
Proof. exact @stl_top_agrees. Qed.
Print Assumptions C57_stlset_top_agrees.

Theorem C57_geobucket_top_agrees : forall (E : Type) (lt eqv : E -> E -> bool) (dedup : E -> E -> E) (C : config),
  good_config lt eqv dedup C ->
  top_agrees (dedup_dd (supportDeduplication C) (fun a b => eqv a b || eqv b a) dedup)
    (gb_step E lt eqv dedup C) (gb_new E C) (gb_forAll E) (range_calls lt (negb (trackFront C))).
Proof.
  exact (fun E lt eqv dedup C '(conj H1 (conj H2 (conj H3 (conj H4 (conj H5 H6))))) =>
    gb_top_agrees lt eqv dedup C H1 H5 H6 H2 H3 H4).
Qed.
Print Assumptions C57_geobucket_top_agrees.

(** Three entries compare equal; top() and pop() still name the same one of them, and decreaseTop() replaces it. *)
Definition ex_equal : list (op (nat * nat)) := [Push (5, 1); Push (5, 2); Push (5, 3); Push (1, 4); Pop].
Definition ex_after {St} (step : St -> op (nat * nat) -> res (St * out (nat * nat))) (init : St) : res (list (out (nat * nat))) :=
  let* (s, _) := run step init ex_equal in
  let* (_, rs) := run step s [Top; Pop] in
  let* (_, rs') := run step s [Top; DecreaseTop (0, 9); Pop; Pop; Pop] in
  Ok (rs ++ rs').
Example C57_nonvacuous :
  strict_weak Heap.Properties.ex_lt /\
  ex_after (heap_step _ Heap.Properties.ex_lt ex_eqv false ex_dedup) [] =
    Ok [OEntry (5, 2); OEntry (5, 2); OEntry (5, 2); ONone; OEntry (5, 3); OEntry (1, 4); OEntry (0, 9)] /\
  ex_after (tt_step _ Heap.Properties.ex_lt) (tt_new _) =
    Ok [OEntry (5, 3); OEntry (5, 3); OEntry (5, 3); ONone; OEntry (5, 2); OEntry (1, 4); OEntry (0, 9)] /\
  ex_after (gb_step _ Geobucket.Properties.ex_lt Geobucket.Properties.ex_eqv Geobucket.Properties.ex_dedup
              (mk_config 2 1 1 false false true false false Plain)) (gb_new _ (mk_config 2 1 1 false false true false false Plain)) =
    Ok [OEntry (5, 2); OEntry (5, 2); OEntry (5, 2); ONone; OEntry (5, 1); OEntry (1, 4); OEntry (0, 9)].
Proof. split; [exact Heap.Properties.ex_lt_strict_weak|]. split; [vm_compute; reflexivity|]. split; vm_compute; reflexivity. Qed.
