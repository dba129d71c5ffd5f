(** Property theorems about StlSet (C09). *)
From Coq Require Import List Arith Bool Permutation.
From Verif.Base Require Import Res Order.
From Verif.Spec Require Import PQ PQFacts Fifo.
From Verif.Heap Require Import Properties.
From Verif.StlSet Require Import Model Proofs.
Import ListNotations.

(** C09.  See [pq_correct] in Spec/PQ.v for the meaning. *)
Theorem C09_stlset_is_priority_queue : forall (E : Type) (lt : E -> E -> bool), strict_weak lt ->
  pq_correct lt no_dd (stl_step E lt) [] (fun m => m) (stl_api E).
Proof. exact @stl_pq_correct. Qed.
Print Assumptions C09_stlset_is_priority_queue.

(** C09.  Every completed history is one of the first come first served queue of Spec/Fifo.v. *)
Theorem C09_stlset_first_come_first_served : forall (E : Type) (lt : E -> E -> bool), strict_weak lt ->
  forall ops m rs, run (stl_step E lt) [] ops = Ok (m, rs) ->
  exists l, fifo_trace lt [] ops rs l /\ Permutation m l.
Proof. exact @stl_fifo. Qed.
Print Assumptions C09_stlset_first_come_first_served.

Theorem C09_stlset_sorts : forall (E : Type) (lt : E -> E -> bool), strict_weak lt ->
  forall xs, exists s ys,
    run (stl_step E lt) [] (map Push xs ++ repeat Pop (length xs))
      = Ok (s, repeat ONone (length xs) ++ map OEntry ys) /\
    Permutation ys xs /\ descending lt ys.
Proof. exact (fun E lt H => pq_correct_sorts lt _ _ _ _ (stl_pq_correct lt H) (fun _ => eq_refl) eq_refl). Qed.
Print Assumptions C09_stlset_sorts.

Example C09_nonvacuous :
  exists s rs, run (stl_step _ ex_lt) [] [PushRange [(3, 0); (5, 1); (3, 2); (5, 3)]; Pop; Push (5, 4); ForAll; Pop; Top] = Ok (s, rs) /\
    rs = [ONone; OEntry (5, 1); ONone; OList [(5, 3); (5, 4); (3, 0); (3, 2)]; OEntry (5, 3); OEntry (5, 4)].
Proof. eexists; eexists; split; [vm_compute; reflexivity|reflexivity]. Qed.
