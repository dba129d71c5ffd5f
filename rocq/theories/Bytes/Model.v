(** Model of the calls that report how much memory a structure takes: Geobucket, GeoFront, StlSet and BitTriangle.  Those of Heap, ComTree and
    TourTree are in HeapMem/Model.v.  Sizes are unbounded numbers of bytes.  How many elements a std::vector has room for after growing by
    one element at a time is up to the library: [room n] after the [n]th, and [bits n] for a vector<bool> that was resized from no elements
    to [n]. *)
From Coq Require Import List Arith Bool.
From Verif.Base Require Import Res.
From Verif.Geobucket Require Import Model.
From Verif.GeoMem Require Import Model.
From Verif.BitTriangle Require Import Model.
Import ListNotations.

(** What libstdc++ does when a vector is full: it doubles it, starting from one element (Geobucket.h:548, BitTriangle.h:35) *)
Fixpoint doubling (n : nat) : nat :=
  match n with
  | 0 => 0
  | S n' => let d := doubling n' in if d <? n then Nat.max 1 (2 * d) else d
  end.
(** What libstdc++ takes for [n] bits: words of 64 bits (BitTriangle.h:36) *)
Definition words (n : nat) : nat := 64 * ((n + 63) / 64).

Section Bytes.
  Variable room : nat -> nat.
  Variable bits : nat -> nat.

  (** GeoFront.h:80-83, 190-193 getMemoryUse; [pointer] is sizeof(Bucket* ), and capacity() at 175 is the length of the array of slots *)
  Definition f_getMemoryUse (pointer : nat) (f : front) : nat :=
    match f with FCache _ => 0 | FOrder _ slots _ _ => length slots * pointer end.
  (** Geobucket.h:785-790 getMemoryUse; [entry] is sizeof(Entry) and [bucket] is sizeof(Bucket).  The vector _mem was made with as many
      elements as it has (525, 562), and _buckets got its elements by push_back (548). *)
  Definition mg_getMemoryUse {E : Type} (entry bucket pointer : nat) (g : mgb E) : nat :=
    length (m_cells E (mg_mem E g)) * entry + room (length (mg_bs E g)) * bucket + f_getMemoryUse pointer (mg_front E g).

  (** StlSet.h:46-53 getMemoryUse; [pointer], [int] and [entry] are sizeof(void* ), sizeof(int) and sizeof(Entry) *)
  Definition stl_getMemoryUse {E : Type} (pointer int entry : nat) (m : list E) : nat :=
    let bytesPerItemEstimate := 2 * pointer + pointer + int + entry in
    length m * bytesPerItemEstimate.

  (** BitTriangle.cpp:8-12 the loop over the columns *)
  Fixpoint columns_loop (cs : list (list bool)) (sum : nat) : nat :=
    match cs with
    | [] => sum
    | c :: cs' => let capacity := bits (length c) in columns_loop cs' (sum + (capacity + 7) / 8)
    end.
  (** BitTriangle.cpp:5-14 getMemoryUse; [vector] is sizeof(std::vector<bool>).  Columns get their elements by the resize of BitTriangle.h:36 and
      keep their length. *)
  Definition bt_getMemoryUse (vector : nat) (t : triangle) : nat := columns_loop t (room (length t) * vector).
End Bytes.
