(** Property theorems: the hash table looks at keys and values only through the functions of the configuration (C111). *)
From Coq Require Import List Arith Bool NArith.
From Verif.Base Require Import Res Arr.
From Verif.Spec Require Import HMap.
From Verif.HashTable Require Import Model RelabelProofs.
From Verif.Queues Require Import RelabelProofs.
Import ListNotations.

(** C111.  If [f] preserves hash values and the equality of keys, and [g] is any function on values, then the table of the images does in every history what the
    table itself does: it returns the same handles, the images of the keys and values, and is undefined if and only if the other is. *)
Theorem C111_hashtable :
  forall (K L V W : Type) (f : K -> L) (g : V -> W) keq keq' hash hash', (forall a b, keq' (f a) (f b) = keq a b) -> (forall a, hash' (f a) = hash a) ->
  forall nbits ops, rmap snd (run (ht_step L W keq' hash') (ht_new L W nbits) (map (hop_map f g) ops)) =
    rmap (map (hout_map f g)) (rmap snd (run (ht_step K V keq hash) (ht_new K V nbits) ops)).
Proof.
  intros * Hk Hh nbits ops. change (ht_new L W nbits) with (tbmap f g (ht_new K V nbits)). rewrite (ht_run_map f g keq keq' hash hash' Hk Hh). now destruct (run (ht_step K V keq hash) (ht_new K V nbits) ops).
Qed.
Print Assumptions C111_hashtable.

(** A call and its answer without the value *)
Definition no_value {K V} : hop K V -> hop K unit := hop_map (fun k => k) (fun _ => tt).
Definition answer_no_value {K V} : hout K V -> hout K unit := hout_map (fun k => k) (fun _ => tt).

(** C111.  The values have no influence on which handles insertions and searches return, nor on which calls are defined. *)
Theorem C111_values_do_not_matter :
  forall (K V : Type) keq hash nbits (ops1 ops2 : list (hop K V)), map no_value ops1 = map no_value ops2 ->
  rmap (map answer_no_value) (rmap snd (run (ht_step K V keq hash) (ht_new K V nbits) ops1)) =
  rmap (map answer_no_value) (rmap snd (run (ht_step K V keq hash) (ht_new K V nbits) ops2)).
Proof.
  intros K V keq hash nbits ops1 ops2 H. unfold answer_no_value. rewrite <- !(C111_hashtable K K V unit (fun k => k) (fun _ => tt) keq keq hash hash (fun _ _ => eq_refl) (fun _ => eq_refl)).
  fold (@no_value K V). now rewrite H.
Qed.
Print Assumptions C111_values_do_not_matter.

(** C111 on an example: keys with a comment that neither hash nor keysEqual looks at, in a table that has to grow *)
Definition ex_hops (c v : nat) : list (hop (nat * nat) nat) :=
  [HInsert (4, c) v; HInsert (12, c + 1) v; HInsert (4, c + 2) (v + 1); HInsert (5, c) v; HLookup (12, 99); HKey 0; HSetValue 1 (v + 7); HValue 1; HLookup (7, c)].
Definition ex_run (c v : nat) := rmap snd (run (ht_step _ _ (fun a b => fst a =? fst b) (fun a => N.of_nat (fst a))) (ht_new (nat * nat) nat 3) (ex_hops c v)).
Example C111_nonvacuous :
  map (hop_map fst (fun _ => tt)) (ex_hops 1 2) = map (hop_map fst (fun _ => tt)) (ex_hops 3 4) /\ ex_run 1 2 <> ex_run 3 4 /\
  ex_run 3 4 = Ok [HOInserted true 0; HOInserted true 1; HOInserted false 0; HOInserted true 2; HOFound (Some 1); HOKey (4, 3); HONone; HOValue 11; HOFound None].
Proof. repeat split; vm_compute; try reflexivity. discriminate. Qed.
