(** Model of the memory of src/mathic/PairQueue.h, as getMemoryUse reports it.

    A column and its array of row indexes lie in mArena from when the column is added until the queue is destroyed: only the guard of
    addColumnDescending (559) gives memory back, if adding the column throws.  Not modelled: how much more than it was asked for the arena
    reserves, and what the debug build allocates for a moment (398-399). *)
From Coq Require Import List Arith NArith Bool String.
From Verif.Base Require Import Res Arr.
From Verif.TourTree Require Import Model.
From Verif.HeapMem Require Import Model.
From Verif.PairQueue Require Import Model.
Import ListNotations.
Local Notation length := List.length.

(** sizeof(Column), sizeof(Index), sizeof(SmallIndex) (PairQueue.h:275, 58, 271) and those of Player* and Player (TourTree.h:63-69) *)
Record psizes := mk_psizes { z_column : nat; z_index : nat; z_small : nat; z_node : nat; z_player : nat }.

Section Bytes.
  Variable P : Type.
  Variable pdata : N -> N -> P.
  Variable lt : N * N * P -> N * N * P -> bool.
  Variable supportRetirement : bool.
  Variable z : psizes.

  (** PairQueue.h:388, 423-425, 437-439: what Column::create asks the arena for *)
  Definition c_bytes (col : N) (entryCount : nat) : nat := z_column z + entryCount * (if c_big col then z_index z else z_small z).
  (** The queue and what its arena was asked for (PairQueue.h:373-376) *)
  Definition pq_mem : Type := pairqueue P * nat.
  (** PairQueue.h:203-268 one call; 557-563: a column without rows is not created *)
  Definition pm_step (m : pq_mem) (o : pq_op) : res (pq_mem * pq_out P) :=
    let (s, arena) := m in
    let* (s', r) := pq_step P pdata lt supportRetirement s o in
    let arena' :=
      match o with
      | PAdd rows => match rows with [] => arena | _ => arena + c_bytes (to_index (pq_count s)) (length rows) end
      | _ => arena
      end in
    Ok ((s', arena'), r).
  (** PairQueue.h:612-615 getMemoryUse *)
  Definition pm_getMemoryUse (m : pq_mem) : nat := snd m + tt_getMemoryUse (z_node z) (z_player z) (pq_queue (fst m)).
End Bytes.
