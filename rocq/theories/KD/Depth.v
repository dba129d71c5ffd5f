(** How deep the trees of BinaryKDTree.h and PackedKDTree.h are.  Nothing here has a C++ counterpart. *)
From Coq Require Import List Arith ZArith.
From Verif.KD Require Import EntryArray Tree Model.
Import ListNotations.

(** The greatest number of splits on a way from the root (of BinaryKDTree.h:84-187 or PackedKDTree.h:35-114) to a leaf *)
Fixpoint depth {M} (t : tree M) : nat :=
  match t with Leaf _ => 0 | Split _ _ _ le gt => S (Nat.max (depth le) (depth gt)) end.
(** The greatest number of splits by the exponents of the variable [w] on such a way (BinaryKDTree.h:84-187, PackedKDTree.h:35-114) *)
Fixpoint depth_in {M} (w : nat) (t : tree M) : nat :=
  match t with Leaf _ => 0 | Split v _ _ le gt => (if v =? w then 1 else 0) + Nat.max (depth_in w le) (depth_in w gt) end.
(** The same for KDTree.h:300-307; an empty tree may have no node at all *)
Definition kdepth {M} (s : kd M) : nat := match k_tree s with None => 0 | Some t => depth t end.
(** As [kdepth], for one variable (KDTree.h:300-307) *)
Definition kdepth_in {M} (w : nat) (s : kd M) : nat := match k_tree s with None => 0 | Some t => depth_in w t end.

(** The tree without its entries and masks (BinaryKDTree.h:84-187, PackedKDTree.h:35-114) *)
Fixpoint skeleton {M} (t : tree M) : tree M :=
  match t with Leaf _ => Leaf arr_empty | Split v x _ le gt => Split v x 0%N (skeleton le) (skeleton gt) end.
(** The same for a tree that may have no node (KDTree.h:300-307) *)
Definition root_skeleton {M} (root : option (tree M)) : tree M := match root with None => Leaf arr_empty | Some t => skeleton t end.
