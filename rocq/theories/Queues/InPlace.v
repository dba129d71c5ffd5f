(** Changing the top entry in place.

    PairQueue.h:590-591 says that all mathic queues allow the sequence of actions: top(), change the top entry in-place, then decreaseTop or
    pop.  Entries of PairQueue's tournament are pointers (PairQueue.h:355); changing what the top one points to changes the value of this
    entry while the queue is not told.  In these models an entry is the value, so the change replaces the stored top entry. *)
From Coq Require Import List Arith Bool.
From Verif.Base Require Import Res Arr.
From Verif.Spec Require Import PQ.
From Verif.Heap Require Import Model.
From Verif.TourTree Require Import Model.
From Verif.Geobucket Require Import Model.
Import ListNotations.

(** Heap.h:60: top() is the entry of the root *)
Definition heap_change {E : Type} (t : list E) (x : E) : res (list E) := tset t 1 x.

(** TourTree.h:211-214: top() is the entry of the player at the root *)
Definition tt_change {E : Type} (s : tourtree E) (x : E) : res (tourtree E) :=
  let* root := tget (tt_tree s) 1 in
  let* ps := set_entry E (tt_players s) root x in
  Ok (mk_tt (tt_tree s) (tt_cap s) ps (tt_pcap s)).

(** Geobucket.h:458-461: top() is the last entry of the bucket that getMax finds, GeoFront.h:86-93 (the cached bucket) and 343-346.  The
    copy _back (Geobucket.h:183-186, 198-201) of a pointer points to the same value.  Without trackFront there is no top entry
    before top() has been called. *)
Definition gb_change {E : Type} (C : config) (g : geobucket E) (x : E) : res (geobucket E) :=
  let* m := (match g_front g with
             | FCache (Some m) => Ok m
             | FCache None => UB
             | FOrder _ slots n _ => if n =? 0 then UB else slot slots 0
             end) in
  let* b := vget (g_bs g) m in
  let* b' := bk_setEntry E C b (b_size E b - 1) x in
  let* bs := vset (g_bs g) m b' in
  Ok (mk_gb bs (g_count g) (g_front g)).

Section InPlace.
  Context {E St : Type}.
  Variable step : St -> op E -> res (St * out E).
  Variable change : St -> E -> res St.
  (** The values that the top entry is changed to, one after the other *)
  Variable changes : nat -> E.

  (** One call, where each pop and each decreaseTop follows a call of top and a change in place, as in PairQueue.h:582-601.  The number
      counts the changes.  The answer to pop is the one that top gave, before the change. *)
  Definition in_place (sn : St * nat) (o : op E) : res (St * nat * out E) :=
    let (s, n) := sn in
    match o with
    | Pop | DecreaseTop _ =>
        let* (s1, t) := step s Top in
        let* s2 := change s1 (changes n) in
        let* (s3, r) := step s2 o in
        Ok (s3, S n, match o with Pop => t | _ => r end)
    | _ => let* (s', r) := step s o in Ok (s', n, r)
    end.
End InPlace.
