(** Model of the memory that the nodes of the KD trees take.

    A node lies in the arena from when it is made until the arena is emptied (BinaryKDTree.h:575, PackedKDTree.h:535), and its entries lie in
    it (KDEntryArray.h:120).  getMemoryUse (BinaryKDTree.h:580-584, PackedKDTree.h:540-545) adds what the arena reports and the capacity of
    _tmp.  Not modelled: how much more than it was asked for the arena reserves, and the capacity of _tmp. *)
From Coq Require Import List Arith Bool ZArith NArith String.
From Verif.Base Require Import Res Arr.
From Verif.Spec Require Import DivFinder.
From Verif.KD Require Import EntryArray Tree Model.
From Verif.KDMem Require Import Arena Binary Packed Model.
Import ListNotations.
Local Notation length := List.length.

(** sizeof(KDTreeLeaf) and sizeof(KDTreeInterior) (BinaryKDTree.h:84, 152), sizeof(Node) and sizeof(Child) (PackedKDTree.h:35, 62) *)
Record sizes := mk_sizes { z_leaf : nat; z_interior : nat; z_node : nat; z_child : nat }.

Section Bytes.
  Context {M : Type}.
  Variable z : sizes.
  (** What one node was allocated with: BinaryKDTree.h:305, 347, 750 and 356, 756 *)
  Definition b_size (n : bnode M) : nat := match n with BLeaf _ => z_leaf z | BInterior _ _ _ _ _ => z_interior z end.
  (** What the arena has been asked for since it was emptied (BinaryKDTree.h:241, 581) *)
  Definition b_bytes (T : btree M) : nat := list_sum (map b_size (ar_cells (b_arena T))).
  (** PackedKDTree.h:56-60 sizeOf; a Node contains the memory of one child *)
  Definition sizeOf (childCount : nat) : nat := let childCount := if 0 <? childCount then childCount - 1 else childCount in z_node z + childCount * z_child z.
  (** What the arena has been asked for since it was emptied (PackedKDTree.h:37-54, 166, 542).  Memory for one child is as good as none. *)
  Definition p_bytes (T : ptree M) : nat := list_sum (map (fun n => sizeOf (length (p_slots n))) (ar_cells (p_arena T))).
  (** KDTree.h:36-47, 304 either of them *)
  Definition i_bytes (C : kconf M) (packed : bool) : i_state (kd_impl C packed) -> nat :=
    if packed as b return i_state (kd_impl C b) -> nat then p_bytes else b_bytes.
End Bytes.
