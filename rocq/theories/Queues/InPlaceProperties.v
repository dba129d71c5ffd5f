(** Property theorems about changing the top entry in place (C70). *)
From Coq Require Import List Arith Bool Permutation.
From Verif.Base Require Import Res Order.
From Verif.Spec Require Import PQ PQFacts.
From Verif.Heap Require Import Model.
From Verif.TourTree Require Import Model.
From Verif.Geobucket Require Import Model Properties.
From Verif.Queues Require Import InPlace InPlaceProofs.
Import ListNotations.

(** C70.  In every history of calls, let the user call top and then overwrite the top entry, with any value at all, before each pop and each
    decreaseTop, as PairQueue does.  The queue still answers as the priority queue that never saw the overwriting: what it removes is
    the entry that top returned, and no comparison with the new value leaves a trace. *)
Theorem C70_heap_top_may_change :
  forall (E : Type) (lt eqv : E -> E -> bool) (supportDedup : bool) (dedup : E -> E -> E),
  strict_weak lt ->
  (supportDedup = true -> forall a b, lt a b = false -> eqv a b = true -> equivalent lt (dedup a b) a) ->
  forall changes : nat -> E,
  pq_correct lt (dedup_dd supportDedup eqv dedup) (in_place (heap_step E lt eqv supportDedup dedup) heap_change changes) ([], 0) fst
    (fun _ => true).
Proof. exact @heap_in_place. Qed.
Print Assumptions C70_heap_top_may_change.

Theorem C70_tourtree_top_may_change : forall (E : Type) (lt : E -> E -> bool), strict_weak lt ->
  forall changes : nat -> E,
  pq_correct lt no_dd (in_place (tt_step E lt) tt_change changes) (tt_new E, 0) (fun sn => tt_forAll E (fst sn)) (tt_api E).
Proof. exact @tt_in_place. Qed.
Print Assumptions C70_tourtree_top_may_change.

Theorem C70_geobucket_top_may_change :
  forall (E : Type) (lt eqv : E -> E -> bool) (dedup : E -> E -> E) (C : config),
  good_config lt eqv dedup C ->
  forall changes : nat -> E,
  pq_correct lt (dedup_dd (supportDeduplication C) (fun a b => eqv a b || eqv b a) dedup)
    (in_place (gb_step E lt eqv dedup C) (gb_change C) changes) (gb_new E C, 0) (fun sn => gb_forAll E (fst sn))
    (range_calls lt (negb (trackFront C))).
Proof.
  exact (fun E lt eqv dedup C '(conj H1 (conj H2 (conj H3 (conj H4 (conj H5 H6))))) changes =>
    gb_in_place lt eqv dedup C H1 H5 H6 H2 H3 H4 changes).
Qed.
Print Assumptions C70_geobucket_top_may_change.

(** A history in which the top entry becomes the least of all, or one above all, before each removal.  The answers are those of the
    unchanged entries. *)
Definition c70_changes (n : nat) : nat * nat := if Nat.even n then (0, n) else (100, n).
Definition c70_ops : list (op (nat * nat)) :=
  [PushRange [(9, 1); (7, 2); (7, 3); (4, 4); (2, 5)]; Push (8, 6); Pop; DecreaseTop (1, 7); Pop; Pop; DecreaseTop (3, 8); Pop; Pop; Pop; Empty].
Definition c70_pops (r : list (out (nat * nat))) : list nat :=
  flat_map (fun o => match o with OEntry x => [fst x] | _ => [] end) r.
Example C70_nonvacuous :
  strict_weak ex_lt /\
  (exists s rs, run (in_place (heap_step _ ex_lt ex_eqv false ex_dedup) heap_change c70_changes) ([], 0) c70_ops = Ok (s, rs) /\
     c70_pops rs = [9; 7; 7; 3; 2; 1]) /\
  (exists s rs, run (in_place (tt_step _ ex_lt) tt_change c70_changes) (tt_new _, 0) c70_ops = Ok (s, rs) /\ c70_pops rs = [9; 7; 7; 3; 2; 1]) /\
  (forall track coll, exists s rs, run (in_place (gb_step _ ex_lt ex_eqv ex_dedup (mk_config 2 1 1 false false track false coll Plain))
       (gb_change (mk_config 2 1 1 false false track false coll Plain)) c70_changes) 
     (gb_new _ (mk_config 2 1 1 false false track false coll Plain), 0) c70_ops = Ok (s, rs) /\ c70_pops rs = [9; 7; 7; 3; 2; 1]).
Proof.
  split; [exact ex_lt_strict_weak|]. split; [eexists; eexists; split; [vm_compute; reflexivity|reflexivity]|].
  split; [eexists; eexists; split; [vm_compute; reflexivity|reflexivity]|].
  intros [] []; eexists; eexists; split; vm_compute; reflexivity.
Qed.

(** The change must be followed by pop or decreaseTop.  A push in between compares with the new value, and top no longer returns the maximum,
    here 8, of any of the three. *)
Definition c70_late {St} (step : St -> op (nat * nat) -> res (St * out (nat * nat))) (change : St -> nat * nat -> res St) (init : St) : res (list nat) :=
  let* (s, _) := run step init [Push (9, 1); Push (8, 2); Top] in
  let* s := change s (0, 3) in
  let* (_, rs) := run step s [Push (7, 4); Top] in Ok (c70_pops rs).
Example C70_push_after_change :
  c70_late (heap_step _ ex_lt ex_eqv false ex_dedup) heap_change [] = Ok [7] /\
  c70_late (tt_step _ ex_lt) tt_change (tt_new _) = Ok [7] /\
  c70_late (gb_step _ ex_lt ex_eqv ex_dedup (mk_config 2 4 1 false false true false false Plain))
    (gb_change (mk_config 2 4 1 false false true false false Plain)) (gb_new _ (mk_config 2 4 1 false false true false false Plain)) = Ok [0].
Proof. vm_compute. auto. Qed.
