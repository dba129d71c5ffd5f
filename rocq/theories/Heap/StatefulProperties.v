(** Property theorems about a Heap whose configuration has a state (C56). *)
From Coq Require Import List Arith Bool Permutation.
From Verif.Base Require Import Res Order.
From Verif.Spec Require Import PQ PQState PQStateFacts.
From Verif.Heap Require Import Model Stateful StatefulProofs Properties.
Import ListNotations.

(** C56.  deduplicate() may read and change the state [P] of the configuration, as the one of the pq simulation does (pqsim/Model.h:192-199,
    which queues up the rest of the second item).  Whatever it does to that state, and whatever its result depends on, the heap is a
    priority queue that may at any time replace two held entries that the client calls equal by what deduplicate() returns; and the state
    is the one that results from exactly these calls, in this order.  See [spq_correct] in Spec/PQState.v. *)
Theorem C56_heap_with_stateful_deduplicate : forall (E P : Type) (lt eqv : E -> E -> bool) (on : bool) (dedup : P -> E -> E -> E * P),
  strict_weak lt ->
  (on = true -> forall p a b, lt a b = false -> eqv a b = true -> equivalent lt (fst (dedup p a b)) a) ->
  spq_correct lt (state_dd on eqv dedup) (heap_step_s E P lt eqv on dedup) [] (fun t => t) (fun _ => true).
Proof. exact @heap_spq_correct. Qed.
Print Assumptions C56_heap_with_stateful_deduplicate.

(** The configuration keeps what it threw away. *)
Definition ex_keep (p : list (nat * nat)) (a b : nat * nat) : (nat * nat) * list (nat * nat) := (a, p ++ [b]).
Example C56_nonvacuous :
  strict_weak ex_lt /\
  (forall p a b, equivalent ex_lt (fst (ex_keep p a b)) a) /\
  run (heap_step_s _ _ ex_lt ex_eqv true ex_keep) ([], [])
    [Push (3, 0); PushRange [(5, 1); (3, 2); (8, 3); (5, 4); (3, 6)]; Top; Pop; DecreaseTop (1, 5); Pop; Size] =
  Ok (([(3, 2); (1, 5)], [(5, 4); (3, 6)]),
      [ONone; ONone; OEntry (8, 3); OEntry (8, 3); ONone; OEntry (3, 0); OSize 2]).
Proof.
  split; [exact ex_lt_strict_weak|]. split; [intros p a b; split; apply Nat.ltb_irrefl|]. vm_compute. reflexivity.
Qed.
