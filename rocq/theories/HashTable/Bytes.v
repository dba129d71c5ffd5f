(** Model of HashTable::memoryUse of src/mathic/HashTable.h.  Not modelled: how much more than for the nodes in use the pool reserves. *)
From Coq Require Import List Arith NArith Bool.
From Verif.Base Require Import Res Arr.
From Verif.HashTable Require Import Model.
Import ListNotations.

(** HashTable.h:307-313 memoryUse.  [pointer] and [handle] are sizeof(Handle* ) and sizeof(Handle); the vector of bins is constructed or, when it is empty,
    resized to its size (HashTable.h:157, 271), so that its capacity is its size. *)
Definition ht_memoryUse {K V : Type} (pointer handle : nat) (t : table K V) : nat :=
  length (t_bins t) * pointer + length (filter (fun o => match o with Some _ => true | None => false end) (t_nodes t)) * handle.
