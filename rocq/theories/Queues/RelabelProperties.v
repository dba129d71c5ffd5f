(** Property theorems: priority queues look at entries only through the functions of the configuration (C110). *)
From Coq Require Import List Arith Bool Lia.
From Verif.Base Require Import Res Arr.
From Verif.Spec Require Import PQ.
From Verif.Heap Require Import Model.
From Verif.TourTree Require Import Model.
From Verif.StlSet Require Import Model.
From Verif.Geobucket Require Import Model.
From Verif.Queues Require Import RelabelProofs RelabelGeoProofs.
Import ListNotations.

(** C110.  If [f] preserves the comparison and, where used, deduplication, then a queue of the entries [f x] does in every history what the queue of the entries [x] does: it
    holds, answers and enumerates the images, and is undefined if and only if the other is. *)
Theorem C110_heap :
  forall (E F : Type) (f : E -> F) (lt : E -> E -> bool) (lt' : F -> F -> bool) eqv eqv' supportDedup dedup dedup',
  (forall a b, lt' (f a) (f b) = lt a b) ->
  (supportDedup = true -> forall a b, eqv' (f a) (f b) = eqv a b) -> (supportDedup = true -> forall a b, dedup' (f a) (f b) = f (dedup a b)) ->
  forall ops t, run (heap_step F lt' eqv' supportDedup dedup') (map f t) (map (op_map f) ops) =
    rmap (fun p => (map f (fst p), map (out_map f) (snd p))) (run (heap_step E lt eqv supportDedup dedup) t ops).
Proof. intros * Hl He Hd. apply (run_map f (map f)). intros. now apply heap_step_map. Qed.
Print Assumptions C110_heap.

Theorem C110_tourtree :
  forall (E F : Type) (f : E -> F) (lt : E -> E -> bool) (lt' : F -> F -> bool), (forall a b, lt' (f a) (f b) = lt a b) ->
  forall ops, rmap snd (run (tt_step F lt') (tt_new F) (map (op_map f) ops)) = rmap (map (out_map f)) (rmap snd (run (tt_step E lt) (tt_new E) ops)).
Proof.
  intros * Hl ops. change (tt_new F) with (tmap f (tt_new E)). rewrite (run_map f (tmap f) (tt_step E lt)) by (intros; now apply tt_step_map). now destruct (run (tt_step E lt) (tt_new E) ops).
Qed.
Print Assumptions C110_tourtree.

Theorem C110_stlset :
  forall (E F : Type) (f : E -> F) (lt : E -> E -> bool) (lt' : F -> F -> bool), (forall a b, lt' (f a) (f b) = lt a b) ->
  forall ops m, run (stl_step F lt') (map f m) (map (op_map f) ops) = rmap (fun p => (map f (fst p), map (out_map f) (snd p))) (run (stl_step E lt) m ops).
Proof. intros * Hl. apply (run_map f (map f)). intros. now apply stl_step_map. Qed.
Print Assumptions C110_stlset.

Theorem C110_geobucket :
  forall (E F : Type) (f : E -> F) (C : config) (lt : E -> E -> bool) (lt' : F -> F -> bool) eqv eqv' dedup dedup',
  (forall a b, lt' (f a) (f b) = lt a b) ->
  (supportDeduplication C = true -> forall a b, eqv' (f a) (f b) = eqv a b) -> (supportDeduplication C = true -> forall a b, dedup' (f a) (f b) = f (dedup a b)) ->
  forall ops, rmap snd (run (gb_step F lt' eqv' dedup' C) (gb_new F C) (map (op_map f) ops)) = rmap (map (out_map f)) (rmap snd (run (gb_step E lt eqv dedup C) (gb_new E C) ops)).
Proof.
  intros * Hl He Hd ops. rewrite (gb_new_map f), (run_map f (gmap f) (gb_step E lt eqv dedup C)) by (intros; now apply gb_step_map). now destruct (run (gb_step E lt eqv dedup C) (gb_new E C) ops).
Qed.
Print Assumptions C110_geobucket.

(** The keys in the answers of a history *)
Definition answer_keys {St E K} (key : E -> K) (m : res (St * list (out E))) : res (list (out K)) := rmap (fun p => map (out_map key) (snd p)) m.

(** C110.  What an entry carries besides its key has no influence: two histories that push the same keys give answers with the same keys, and one is defined if the other is. *)
Theorem C110_only_keys_matter :
  forall (E K : Type) (key : E -> K) (klt : K -> K -> bool) ops1 ops2, map (op_map key) ops1 = map (op_map key) ops2 ->
  let lt a b := klt (key a) (key b) in 
  (forall dedup eqv, answer_keys key (run (heap_step E lt eqv false dedup) [] ops1) = answer_keys key (run (heap_step E lt eqv false dedup) [] ops2)) /\
  answer_keys key (run (tt_step E lt) (tt_new E) ops1) = answer_keys key (run (tt_step E lt) (tt_new E) ops2) /\
  answer_keys key (run (stl_step E lt) [] ops1) = answer_keys key (run (stl_step E lt) [] ops2) /\
  (forall C dedup eqv, supportDeduplication C = false ->
   answer_keys key (run (gb_step E lt eqv dedup C) (gb_new E C) ops1) = answer_keys key (run (gb_step E lt eqv dedup C) (gb_new E C) ops2)).
Proof.
  intros E K key klt ops1 ops2 He lt.
  assert (G : forall St St' (m : res (St * list (out E))) (g : St -> St'), answer_keys key m = rmap snd (rmap (fun p => (g (fst p), map (out_map key) (snd p))) m)) by (intros; now destruct m).
  assert (Hl : forall a b, klt (key a) (key b) = lt a b) by reflexivity. repeat split.
  - intros dedup eqv. assert (H : forall ops, answer_keys key (run (heap_step E lt eqv false dedup) [] ops) = rmap snd (run (heap_step K klt (fun _ _ => true) false (fun a _ => a)) [] (map (op_map key) ops))).
    { intros ops. rewrite (G _ _ _ (map key)), <- (C110_heap E K key lt klt eqv (fun _ _ => true) false dedup (fun a _ => a)); [reflexivity|exact Hl|discriminate|discriminate]. }
    now rewrite !H, He.
  - assert (H : forall ops, answer_keys key (run (tt_step E lt) (tt_new E) ops) = rmap snd (run (tt_step K klt) (tt_new K) (map (op_map key) ops))).
    { intros ops. rewrite (C110_tourtree E K key lt klt Hl). unfold answer_keys. now destruct (run (tt_step E lt) (tt_new E) ops). }
    now rewrite !H, He.
  - assert (H : forall ops, answer_keys key (run (stl_step E lt) [] ops) = rmap snd (run (stl_step K klt) [] (map (op_map key) ops))).
    { intros ops. now rewrite (G _ _ _ (map key)), <- (C110_stlset E K key lt klt Hl). }
    now rewrite !H, He.
  - intros C dedup eqv Sd.
    assert (H : forall ops, answer_keys key (run (gb_step E lt eqv dedup C) (gb_new E C) ops) =
      rmap snd (run (gb_step K klt (fun _ _ => true) (fun a _ => a) C) (gb_new K C) (map (op_map key) ops))).
    { intros ops. rewrite (C110_geobucket E K key C lt klt eqv (fun _ _ => true) dedup (fun a _ => a)); [|exact Hl|congruence|congruence].
      unfold answer_keys. now destruct (run (gb_step E lt eqv dedup C) (gb_new E C) ops). }
    now rewrite !H, He.
Qed.
Print Assumptions C110_only_keys_matter.

(** C110 on an example: entries are pairs of a key and a name.  Other names give other answers with the same keys; and deduplication that adds multiplicities commutes with doubling
    the keys. *)
Definition by_key (a b : nat * nat) : bool := fst a <? fst b.
Definition named (k : nat) : list (op (nat * nat)) := [PushRange [(3, k); (5, k + 1); (3, k + 2)]; Push (5, k + 3); Top; Pop; DecreaseTop (1, k + 4); ForAll; Pop; Pop].
Definition add_up (a b : nat * nat) : nat * nat := (fst a, snd a + snd b).
Definition twice (a : nat * nat) : nat * nat := (2 * fst a, snd a).
Example C110_nonvacuous :
  map (op_map fst) (named 0) = map (op_map fst) (named 10) /\
  rmap snd (run (tt_step _ by_key) (tt_new _) (named 0)) <> rmap snd (run (tt_step _ by_key) (tt_new _) (named 10)) /\
  rmap (fun p => map (out_map fst) (snd p)) (run (tt_step _ by_key) (tt_new _) (named 10)) =
    Ok [ONone; ONone; OEntry 5; OEntry 5; ONone; OList [3; 1; 3]; OEntry 3; OEntry 3] /\
  (forall a b, by_key (twice a) (twice b) = by_key a b) /\ (forall a b, add_up (twice a) (twice b) = twice (add_up a b)) /\
  rmap snd (run (heap_step _ by_key (fun a b => fst a =? fst b) true add_up) [] (map (op_map twice) [PushRange [(5, 1); (3, 1); (5, 1)]; Pop])) = Ok [ONone; OEntry (10, 2)] /\
  rmap snd (run (gb_step _ by_key (fun a b => fst a =? fst b) add_up (mk_config 2 2 1 true true false true true Plain)) (gb_new _ (mk_config 2 2 1 true true false true true Plain))
    (map (op_map twice) [PushRange [(5, 1); (3, 1)]; Push (5, 1); Pop; Pop])) = Ok [ONone; ONone; OEntry (10, 2); OEntry (6, 1)].
Proof.
  repeat split; try (vm_compute; reflexivity); try (vm_compute; discriminate). intros a b. unfold by_key, twice. cbn [fst]. destruct (Nat.ltb_spec (fst a) (fst b)); [apply Nat.ltb_lt|apply Nat.ltb_ge]; lia.
Qed.
